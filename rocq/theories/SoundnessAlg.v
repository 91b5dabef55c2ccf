(** Algebra for the binding of commitments to cells, over any field. *)

From mathcomp Require Import ssreflect ssrfun ssrbool eqtype ssrnat seq fintype bigop.
From mathcomp Require Import ssralg poly polydiv.
From Verif Require Import SpecKZG SpecDAS LincombProofs VerifierSoundness.

Set Implicit Arguments.
Unset Strict Implicit.
Unset Printing Implicit Defensive.

Import GRing.Theory.
Local Open Scope ring_scope.

Section Alg.
Variable F : fieldType.

(** Division by X - z *)
Lemma split_at (R : {poly F}) z : exists q : {poly F}, R = q * ('X - z%:P) + R.[z]%:P /\ (size q <= size R)%N.
Proof.
exists (R %/ ('X - z%:P)); split; last exact: leq_divp.
by rewrite [LHS](divp_eq R ('X - z%:P)) modp_XsubC.
Qed.
Lemma split_root (Z : {poly F}) z n : root Z z -> size Z = n.+1 ->
  exists2 Q : {poly F}, Z = Q * ('X - z%:P) & (size Q <= n)%N.
Proof.
move=> /factor_theorem[Q E] S; exists Q => //.
have nz : Q != 0 by apply/eqP => E0; rewrite E E0 mul0r size_poly0 in S.
by move: S; rewrite E size_mul ?polyXsubC_eq0 // size_XsubC addn2 /= => -[->].
Qed.

Lemma eval_zero (f I p Z : {poly F}) x : f - I - p * Z = 0 -> Z.[x] = 0 -> I.[x] = f.[x].
Proof.
move=> E HZ; have := congr1 (horner^~ x) E; rewrite !hornerE HZ mulr0 subr0 => /eqP.
by rewrite subr_eq0 => /eqP ->.
Qed.
Lemma vanish_eval n (c x : F) : ('X^n - c%:P).[x] = x ^+ n - c.
Proof. by rewrite hornerD hornerN hornerXn hornerC. Qed.
Lemma alg_root (V : lmodType F) (f I p Z : {poly F}) x (e : V) : e <> 0 ->
  Z.[x] *: (p.[x] *: e) = f.[x] *: e - I.[x] *: e -> root (f - I - p * Z) x.
Proof.
move=> nz; rewrite scalerA -scalerBl => /eqP; rewrite -subr_eq0 -scalerBl scaler_eq0 => /orP[|/eqP //] /eqP E.
by rewrite rootE !hornerE -oppr_eq0 opprB mulrC E.
Qed.

Variables (G1 G2 GT : lmodType F) (pair : G1 -> G2 -> GT).
Hypothesis bil : bilinear pair.

Lemma pair_0l H : pair 0 H = 0.
Proof. by have := pairZl bil 0 0 H; rewrite !scale0r. Qed.
Lemma pair_Bl P Q H : pair (P - Q) H = pair P H - pair Q H.
Proof. by rewrite (pairDl bil) -scaleN1r (pairZl bil) scaleN1r. Qed.

Lemma opened_alg (tau : F) (G : G1) (H : G2) (C P : G1) (f I q Z : {poly F}) :
  (forall X, pair X H = 0 -> X = 0) -> f - I = q * Z ->
  Z.[tau] *: pair P H = pair (C - I.[tau] *: G) H ->
  Z.[tau] *: (P - q.[tau] *: G) = C - f.[tau] *: G.
Proof.
move=> nd Ef E; have /eqP : (f - I).[tau] = (q * Z).[tau] by rewrite Ef.
rewrite hornerD hornerN hornerM subr_eq => /eqP ->.
apply/eqP; rewrite -subr_eq0; apply/eqP; apply: nd.
rewrite pair_Bl !(pairZl bil) !pair_Bl scalerBr E !(pairZl bil) pair_Bl !(pairZl bil) scalerDl scalerA.
apply/eqP; rewrite subr_eq0 -addrA -opprD [q.[tau] * _]mulrC; apply/eqP.
by congr (_ - _); rewrite addrC.
Qed.

Lemma bsdh (tau z : F) (G : G1) (H : G2) (R q Q Z : {poly F}) (P : G1) :
  R = q * ('X - z%:P) + R.[z]%:P -> Z = Q * ('X - z%:P) -> R.[z] != 0 ->
  Z.[tau] *: pair P H = R.[tau] *: pair G H ->
  (tau - z) *: ((R.[z])^-1 *: (Q.[tau] *: pair P H - q.[tau] *: pair G H)) = pair G H.
Proof.
move=> ER EZ nz E.
have {E} E : (Q.[tau] * (tau - z)) *: pair P H = (q.[tau] * (tau - z) + R.[z]) *: pair G H.
  have := E; rewrite EZ {1}ER !hornerE => <- //.
rewrite scalerA mulrC -scalerA scalerBr !scalerA ![(tau - z) * _]mulrC E scalerDl addrAC subrr add0r.
by rewrite scalerA mulVf // scale1r.
Qed.

(** Lagrange interpolation of the constant 1 *)
Lemma partition (cs : seq F) : uniq cs -> (0 < size cs)%N ->
  exists a : seq F, size a = size cs /\ forall y, \sum_(t < size cs) a`_t * \prod_(s < size cs | s != t) (y - cs`_s) = 1.
Proof.
move=> U Sp; pose n := size cs; pose w (t : 'I_n) := \prod_(s < n | s != t) (cs`_t - cs`_s).
have wnz t : w t != 0.
  apply/prodf_neq0 => s ne; rewrite subr_eq0 nth_uniq // eq_sym; exact: ne.
exists (mkseq (fun t => if insub t is Some t then (w t)^-1 else 0) n); split; first by rewrite size_mkseq.
have aE (t : 'I_n) : (mkseq (fun t => if insub t is Some t then (w t)^-1 else 0) n)`_t = (w t)^-1.
  by rewrite nth_mkseq // valK.
pose L : {poly F} := \sum_(t < n) (w t)^-1 *: \prod_(s < n | s != t) ('X - (cs`_s)%:P).
have SL : (size L <= n)%N.
  apply: (leq_trans (size_sum _ _ _)); apply/bigmax_leqP => t _.
  apply: (leq_trans (size_scale_leq _ _)).
  rewrite -big_filter size_prod_XsubC; set r := [seq _ <- _ | _].
  have -> : size r = n.-1.
    have := cardC1 t; rewrite card_ord => <-; rewrite cardE /r /enum_mem -enumT; congr size.
    by rewrite enumT /index_enum unlock; apply: eq_filter => s; rewrite !inE.
  by rewrite prednK.
have LE t : (t < n)%N -> L.[cs`_t] = 1.
  move=> Ht; rewrite /L horner_sum (bigD1 (Ordinal Ht)) //= hornerZ horner_prod.
  rewrite (eq_bigr (fun s : 'I_n => cs`_t - cs`_s)); last by move=> s _; rewrite !hornerE.
  rewrite -/(w (Ordinal Ht)) mulVf // big1 ?addr0 // => s ne.
  by rewrite hornerZ horner_prod (bigD1 (Ordinal Ht)) 1?eq_sym //= hornerXsubC subrr mul0r mulr0.
have L1 : L = 1.
  apply/eqP; rewrite -subr_eq0; apply/eqP; apply: (@roots_geq_poly_eq0 _ _ cs) => //.
    apply/allP => x /(nthP 0)[t Ht <-]; rewrite rootE hornerD hornerN hornerC LE ?subrr //.
  apply: (leq_trans (size_add _ _)); rewrite geq_max SL size_opp size_poly1; exact: Sp.
move=> y; have := congr1 (horner^~ y) L1; rewrite hornerC /L horner_sum => E; rewrite -[RHS]E.
apply: eq_bigr => t _; rewrite hornerZ horner_prod aE; congr (_ * _).
by apply: eq_bigr => s _; rewrite !hornerE.
Qed.

(** Many accepted openings of one commitment *)
Lemma opened_many (y : F) (cs a : seq F) (D : G1) (W : nat -> G1) :
  (forall y, \sum_(t < size cs) a`_t * \prod_(s < size cs | s != t) (y - cs`_s) = 1) ->
  (forall t, (t < size cs)%N -> (y - cs`_t) *: W t = D) ->
  (\prod_(t < size cs) (y - cs`_t)) *: (\sum_(t < size cs) a`_t *: W t) = D.
Proof.
move=> Ha HW; rewrite scaler_sumr.
rewrite (eq_bigr (fun t : 'I_(size cs) => (a`_t * \prod_(s < size cs | s != t) (y - cs`_s)) *: D)).
  by rewrite -scaler_suml Ha scale1r.
move=> t _; rewrite (bigD1 t) //= scalerA -(HW t) // scalerA; congr (_ *: _).
by rewrite [RHS]mulrC [RHS]mulrA mulrAC.
Qed.
End Alg.
