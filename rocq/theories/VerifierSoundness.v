(** Facts about openings, independent of the code: honest openings have no defect, a proof is
    determined by the rest, and a random linear combination hides a defect for few challenges. *)

From Coq Require Import NArith Init.Byte Strings.Byte.
From mathcomp Require Import ssreflect ssrfun ssrbool eqtype ssrnat seq div prime fintype bigop.
From mathcomp Require Import ssralg poly polydiv zify_ssreflect.
From Verif Require Import Base Bytes Spec SpecKZG SpecDAS BitRev BitRevProofs.
From Verif Require Import Domain DomainProofs LincombProofs FK20Verifier FK20VerifierProofs.

Set Implicit Arguments.
Unset Strict Implicit.
Unset Printing Implicit Defensive.

Import GRing.Theory.
Local Open Scope ring_scope.

(** ** Few bad challenges *)
Section Vandermonde.
Variables (F : fieldType) (V : lmodType F).

Definition lbasis (rs : seq F) (i : nat) : {poly F} :=
  \prod_(j < size rs | val j != i) ((rs`_i - rs`_j)^-1 *: ('X - (rs`_j)%:P)).

Lemma lbasis_size rs i : (i < size rs)%N -> (size (lbasis rs i) <= size rs)%N.
Proof.
move=> Hi; apply: leq_trans (size_prod_leq _ _) _ => /=.
have E : #|[pred j : 'I_(size rs) | val j != i]| = (size rs).-1.
  rewrite (eq_card (B := predC1 (Ordinal Hi))); last by [].
  by rewrite cardC1 card_ord.
rewrite (@leq_trans ((\sum_(j < size rs | val j != i) 2).+1 - (size rs).-1)) //.
  rewrite -[(size rs).-1]E; apply: leq_sub2r; rewrite ltnS; apply: leq_sum => j _.
  by rewrite (leq_trans (size_scale_leq _ _)) // size_XsubC.
by rewrite sum_nat_const E; lia.
Qed.

Lemma lbasis_eval rs i j : uniq rs -> (i < size rs)%N -> (j < size rs)%N ->
  (lbasis rs i).[rs`_j] = (j == i)%:R.
Proof.
move=> U Hi Hj; rewrite /lbasis horner_prod; case: eqP => [->|/eqP ne].
  rewrite big1 // => k ki; rewrite hornerZ hornerXsubC mulVf // subr_eq0.
  by apply: contra ki => /eqP/eqP; rewrite nth_uniq // eq_sym.
by rewrite (bigD1 (Ordinal Hj)) //= hornerZ hornerXsubC subrr mulr0 mul0r.
Qed.

Lemma lbasis_expand rs s : uniq rs -> (s < size rs)%N ->
  \sum_(i < size rs) rs`_i ^+ s *: lbasis rs i = 'X^s.
Proof.
move=> U Hs; apply/eqP; rewrite -subr_eq0; apply/eqP; apply: (@roots_geq_poly_eq0 _ _ rs) => //.
  apply/allP => x /(nthP 0)[j Hj <-].
  rewrite rootE hornerD hornerN hornerXn horner_sum (bigD1 (Ordinal Hj)) //= big1.
    by rewrite hornerZ lbasis_eval // eqxx mulr1 addr0 subrr.
  by move=> k ki; rewrite hornerZ lbasis_eval //= eq_sym -[_ == j]/(k == Ordinal Hj) (negbTE ki) mulr0.
rewrite (leq_trans (size_add _ _)) // size_opp geq_max size_polyXn Hs andbT.
apply: leq_trans (size_sum _ _ _) _; apply/bigmax_leqP => i _.
by rewrite (leq_trans (size_scale_leq _ _)) // lbasis_size.
Qed.

(** A combination with coefficients r^t that vanishes for as many values of r as it has terms
    has only zero terms. *)
Lemma vandermonde (D : nat -> V) n (rs : seq F) : uniq rs -> size rs = n ->
  (forall r, r \in rs -> \sum_(t < n) r ^+ t *: D t = 0) ->
  forall t, (t < n)%N -> D t = 0.
Proof.
move=> U Sr H t Ht.
have : \sum_(i < n) (lbasis rs i)`_t *: (\sum_(s < n) rs`_i ^+ s *: D s) = 0.
  by rewrite big1 // => i _; rewrite H ?scaler0 // mem_nth // Sr.
rewrite (eq_bigr (fun i : 'I_n => \sum_(s < n) ((lbasis rs i)`_t * rs`_i ^+ s) *: D s)); last first.
  by move=> i _; rewrite scaler_sumr; apply: eq_bigr => s _; rewrite scalerA.
rewrite exchange_big (bigD1 (Ordinal Ht)) //= -scaler_suml.
have E s : (s < n)%N -> \sum_(i < n) (lbasis rs i)`_t * rs`_i ^+ s = (t == s)%:R.
  move=> Hs; have := congr1 (fun p : {poly F} => p`_t) (lbasis_expand U (_ : (s < size rs)%N)).
  rewrite Sr => /(_ Hs); rewrite coefXn coef_sum => <-.
  by apply: eq_bigr => i _; rewrite coefZ mulrC.
rewrite E // eqxx scale1r big1 ?addr0 // => s st.
by rewrite -scaler_suml E // -[t == s]/(Ordinal Ht == s) eq_sym (negbTE st) scale0r.
Qed.

Corollary few_bad_challenges (D : nat -> V) n (rs : seq F) : uniq rs ->
  (forall r, r \in rs -> \sum_(t < n) r ^+ t *: D t = 0) ->
  (exists2 t, (t < n)%N & D t != 0) -> (size rs < n)%N.
Proof.
move=> U H [t Ht /eqP Dt]; rewrite ltnNge; apply/negP => Hn; apply: Dt.
apply: (@vandermonde D n (take n rs) (take_uniq _ U)) => //; first by rewrite size_takel.
by move=> r /mem_take; exact: H.
Qed.
End Vandermonde.

(** ** Honest and unique openings *)
Section Openings.
Variables (F : fieldType) (G1 G2 GT : lmodType F) (pair : G1 -> G2 -> GT).
Hypothesis bil : bilinear pair.
Variables (tau : F) (G : G1) (N : nat) (H : G2) (L : nat).

Local Notation srs := (srs_of tau G N).
Local Notation defect a := (opening_defect pair H (tau ^+ L *: H) a).

Lemma opening_defect_srs (a : F) (C E P : G1) :
  defect a C E P = pair ((tau ^+ L - a) *: P - (C - E)) H.
Proof. by rewrite /opening_defect -scalerBl (pairZr bil) [RHS](pairBl bil) (pairZl bil). Qed.

Lemma honest_defect (f q I : {poly F}) (a : F) :
  (size f <= N)%N -> (size q <= N)%N -> (size I <= N)%N ->
  f - I = q * ('X^L - a%:P) -> defect a (commit srs f) (commit srs I) (commit srs q) = 0.
Proof.
move=> Sf Sq SI E; rewrite opening_defect_srs !commit_srs // scalerA -scalerBl -scalerBl.
have -> : (tau ^+ L - a) * q.[tau] - (f.[tau] - I.[tau]) = 0.
  rewrite -[in X in _ - X]hornerN -hornerD E hornerM !(hornerE, hornerXn).
  by rewrite mulrC subrr.
by rewrite scale0r (pair0l bil).
Qed.

Hypothesis nondeg : forall P, pair P H = 0 -> P = 0.

Lemma defect_eq0 (a : F) (C E P : G1) :
  defect a C E P = 0 <-> (tau ^+ L - a) *: P = C - E.
Proof.
rewrite opening_defect_srs; split; first by move/nondeg/eqP; rewrite subr_eq0 => /eqP.
by move=> ->; rewrite subrr (pair0l bil).
Qed.

Lemma defect_unique (a : F) (C E : G1) : tau ^+ L != a ->
  exists! P, defect a C E P = 0.
Proof.
rewrite -subr_eq0 => ne; exists ((tau ^+ L - a)^-1 *: (C - E)); split.
  by apply/defect_eq0; rewrite scalerA mulfV // scale1r.
by move=> P /defect_eq0 <-; rewrite scalerA mulVf // scale1r.
Qed.
End Openings.

(** ** Division by the vanishing polynomial of a coset *)
Section Coset.
Variables (F : fieldType) (fp : fparams F) (ok : fp_ok fp) (n l m : nat).
Hypothesis Hn : n = (l + m)%N.
Hypothesis Had : (n <= fp_adicity fp)%N.
Local Notation L := (2 ^ l)%N.
Local Notation w := (omega fp n).

Lemma cell_point_pow k j : (j < L)%N -> cell_point w n l k j ^+ L = coset_rep w m k ^+ L.
Proof.
move=> Hj; rewrite (cell_point_coset Hn Had) // exprMn_comm; last exact: mulrC.
rewrite -exprM mulnC exprM (prim_expr_order (omega_primitive ok _)) ?expr1n ?mulr1 //.
by rewrite (leq_trans _ Had) // Hn leq_addr.
Qed.

Lemma size_XnsubC (a : F) d : (0 < d)%N -> size ('X^d - a%:P) = d.+1.
Proof.
move=> Hd; rewrite size_addl ?size_polyXn // size_opp.
by rewrite (leq_ltn_trans (size_polyC_leq1 a)).
Qed.

(** f vanishes on the coset. *)
Lemma vanishing_dvdp k (f : {poly F}) :
  (forall j, (j < L)%N -> f.[cell_point w n l k j] = 0) ->
  f = (f %/ ('X^L - (coset_rep w m k ^+ L)%:P)) * ('X^L - (coset_rep w m k ^+ L)%:P).
Proof.
move=> Hf; set Z := 'X^L - _; rewrite [LHS](divp_eq f Z).
suff -> : f %% Z = 0 by rewrite addr0.
have SZ : size Z = L.+1 by rewrite size_XnsubC // expn_gt0.
apply: (@roots_geq_poly_eq0 _ _ (mkseq (cell_point w n l k) L)).
- apply/allP => x /mapP[j]; rewrite mem_iota => /andP[_ Hj] ->.
  have HZ : Z.[cell_point w n l k j] = 0.
    by rewrite !(hornerE, hornerXn) cell_point_pow // subrr.
  have := Hf j Hj; rewrite {1}(divp_eq f Z) hornerD hornerM HZ mulr0 add0r => E.
  by rewrite rootE E.
- exact: (cell_points_uniq ok Hn Had k).
rewrite size_mkseq -ltnS -SZ ltn_modp; by rewrite -size_poly_gt0 SZ.
Qed.

Lemma quotient_minus_interpolant k (f I : {poly F}) : (size I <= L)%N ->
  (f - I) %/ ('X^L - (coset_rep w m k ^+ L)%:P) = f %/ ('X^L - (coset_rep w m k ^+ L)%:P).
Proof.
move=> SI; rewrite divpD (divp_small (p := - I)) ?addr0 // size_opp.
by rewrite size_XnsubC ?expn_gt0.
Qed.
End Coset.
