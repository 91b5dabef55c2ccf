(** Property C44, the part about arbitrary sets of points: the naive multi-opening scheme. *)

From Coq Require Import ZArith.
From mathcomp Require Import ssreflect ssrfun ssrbool eqtype ssrnat seq div prime.
From mathcomp Require Import fintype bigop ssralg poly polydiv zify_ssreflect.
From Verif Require Import Base Spec SpecKZG SpecDAS BitRev BitRevProofs Domain DomainProofs ZField Fr.
From Verif Require Import Lincomb LincombProofs FixedBaseMSM FK20Prover FK20ProverProofs.
From Verif Require Import FK20Verifier FK20VerifierProofs VerifierSoundness Naive NaiveProofs PropFK20.

Set Implicit Arguments.
Unset Strict Implicit.
Unset Printing Implicit Defensive.

Import GRing.Theory.
Local Open Scope ring_scope.

Section C44.
Variables (G1 G2 GT : lmodType Fr) (pair : G1 -> G2 -> GT).

(** The polynomial that vanishes on the points. *)
Let Z (pts : seq Fr) : {poly Fr} := \prod_(z <- pts) ('X - z%:P).

(** The proof commits to the quotient q of f - I by Z, where I is the polynomial through the
    evaluations. *)
Theorem C44_open (srs : seq G1) (poly pts : seq Fr) :
  (2 <= size pts)%N -> uniq pts -> (size poly <= size srs + size pts)%N ->
  exists q I : {poly Fr},
    [/\ naive_compute srs poly pts = Ret (commit srs q, [seq (Poly poly).[z] | z <- pts]),
        (size I <= size pts)%N, (forall z, z \in pts -> I.[z] = (Poly poly).[z]) &
        Poly poly - I = q * Z pts].
Proof.
move=> Hn U Hs; exists (Poly poly %/ Z pts), (Poly poly %% Z pts).
have E := divp_eq (Poly poly) (Z pts).
split.
- by rewrite naive_computeE // leq_subLR addnC Hs.
- by rewrite -ltnS -size_Z ltn_modp Z_neq0.
- move=> z Hz; have R : root (Z pts) z by rewrite root_prod_XsubC.
  by rewrite [in RHS]E hornerD hornerM (rootP R) mulr0 add0r.
- by rewrite {1}E addrK.
Qed.

Theorem C44_open_panics (srs : seq G1) (poly pts : seq Fr) :
  naive_compute srs poly pts = Panic <->
  (size pts < 2)%N \/ ~~ uniq pts \/ (size srs + size pts < size poly)%N.
Proof.
case: (leqP 2 (size pts)) => Hn; last first.
  by split=> _; [left | rewrite naive_compute_panic //; left].
case: (boolP (uniq pts)) => U; last first.
  by split=> _; [right; left | rewrite naive_compute_panic //; right].
rewrite naive_computeE // leq_subLR addnC; case: leqP => H; split=> //; first by case=> [//|[//|]].
by right; right.
Qed.

Hypothesis bil : bilinear pair.
Variable vk : verification_key G1 G2.

(** The verifier's answer for claimed values ys: I is the polynomial through them. *)
Theorem C44_verify (C P : G1) (pts ys : seq Fr) (I : {poly Fr}) :
  (2 <= size pts)%N -> uniq pts -> size ys = size pts ->
  (size pts < size (vk_g2s vk))%N -> (size pts <= size (vk_g1s vk))%N ->
  (size I <= size pts)%N -> [seq I.[z] | z <- pts] = ys ->
  naive_verify pair vk C P pts ys =
  Ret (pair P (commit (vk_g2s vk) (Z pts)) == pair (C - commit (vk_g1s vk) I) (vk_g2_gen vk)).
Proof. exact: naive_verifyE. Qed.

Theorem C44_verify_panics (C P : G1) (pts ys : seq Fr) : size ys = size pts ->
  (naive_verify pair vk C P pts ys = Panic <->
   [\/ (size pts < 2)%N, ~~ uniq pts, (size (vk_g2s vk) <= size pts)%N |
       (size (vk_g1s vk) < size pts)%N]).
Proof.
move=> Sy; split; last first.
  by case=> H; apply: naive_verify_panic => //; [left | right; left | do 2 right; left | do 3 right].
case: (leqP 2 (size pts)) => Hn; last by constructor 1.
case: (boolP (uniq pts)) => U; last by constructor 2.
case: (ltnP (size pts) (size (vk_g2s vk))) => H2; last by constructor 3.
case: (leqP (size pts) (size (vk_g1s vk))) => H1; last by constructor 4.
have [||c _ [Sc Hc]] := @PolyCoeffProofs.lagrange_interpolate_spec Fr (zip pts ys).
- by rewrite size_zip Sy minnn.
- by rewrite -/(unzip1 _) unzip1_zip ?Sy.
rewrite (naive_verifyE bil _ _ (I := Poly c)) //.
  by rewrite (leq_trans (size_Poly _)) // Sc size_zip Sy minnn.
apply: (@eq_from_nth _ 0); rewrite size_map ?Sy // => i Hi; rewrite (nth_map 0) //.
have Hp : (pts`_i, ys`_i) \in zip pts ys.
  by apply/(nthP (0, 0)); exists i; rewrite ?size_zip ?Sy ?minnn // nth_zip ?Sy.
by rewrite (Hc _ Hp).
Qed.

(** With a setup of secret tau. *)
Variables (tau : Fr) (G : G1) (H : G2) (n1 n2 N : nat).
Hypothesis E1 : vk_g1s vk = srs_of tau G n1.
Hypothesis E2 : vk_g2s vk = srs_of tau H n2.
Hypothesis EH : vk_g2_gen vk = H.

(** What the prover returns is accepted for the commitment to the polynomial. *)
Theorem C44_accepted (poly pts : seq Fr) :
  (2 <= size pts)%N -> uniq pts -> (size pts < n2)%N -> (size pts <= n1)%N -> (size poly <= N)%N ->
  (olet out := naive_compute (srs_of tau G N) poly pts in
   olet C := commit_g1 (srs_of tau G N) poly in
   naive_verify pair vk C out.1 pts out.2) = Ret true.
Proof.
move=> Hn U H2 H1 HN.
have S0 n : size (srs_of tau G n) = n by rewrite size_mkseq.
rewrite naive_computeE // S0 leq_subLR (leq_trans HN (leq_addl _ _)) PolyCoeffProofs.obind_Ret.
rewrite commit_g1E S0 HN PolyCoeffProofs.obind_Ret /=.
set f := Poly poly; have Sf : (size f <= N)%N by rewrite (leq_trans (size_Poly _)).
have E := divp_eq f (Z pts); have SZ := size_Z pts; rewrite -/(Z pts) in SZ *.
have SI : (size (f %% Z pts)%R <= size pts)%N by rewrite -ltnS -SZ ltn_modp Z_neq0.
rewrite (naive_verifyE bil _ _ (I := f %% Z pts)) ?E1 ?E2 ?S0 ?size_mkseq ?size_map //; last first.
  apply/eq_in_map => z Hz; have R : root (Z pts) z by rewrite root_prod_XsubC.
  by rewrite [in RHS]E hornerD hornerM (rootP R) mulr0 add0r.
rewrite EH !commit_srs ?SZ //; first last.
- by rewrite (leq_trans (leq_divp _ _) Sf).
- by rewrite (leq_trans SI H1).
rewrite -scalerBl !(pairZl bil) (pairZr bil) scalerA; congr Ret; apply/eqP; congr (_ *: _).
by have := congr1 (fun g : {poly Fr} => g.[tau]) E; rewrite hornerD hornerM => ->; rewrite addrK.
Qed.

(** With a pairing that is injective in the first argument, the verifier accepts a proof exactly
    when Z(tau) P = C - I(tau) G. *)
Theorem C44_sound (C P : G1) (pts ys : seq Fr) (I : {poly Fr}) :
  (forall Q, pair Q H = 0 -> Q = 0) ->
  (2 <= size pts)%N -> uniq pts -> size ys = size pts -> (size pts < n2)%N -> (size pts <= n1)%N ->
  (size I <= size pts)%N -> [seq I.[z] | z <- pts] = ys ->
  naive_verify pair vk C P pts ys = Ret true <-> (Z pts).[tau] *: P = C - I.[tau] *: G.
Proof.
move=> nd Hn U Sy H2 H1 SI EI.
rewrite (naive_verifyE bil _ _ (I := I)) ?E1 ?E2 ?EH ?size_mkseq //.
rewrite !commit_srs ?size_Z //; last exact: leq_trans SI H1.
rewrite (pairZr bil) -(pairZl bil) -/(Z pts) -subr_eq0 -(pairBl bil).
set Q := _ - _; split.
  by case=> /eqP /nd /eqP; rewrite subr_eq0 => /eqP.
by rewrite /Q => ->; rewrite subrr (pair0l bil) eqxx.
Qed.

(** So the claimed values determine the accepted proof, unless tau is one of the points. *)
Theorem C44_unique (C P P' : G1) (pts ys : seq Fr) :
  (forall Q, pair Q H = 0 -> Q = 0) ->
  (2 <= size pts)%N -> uniq pts -> size ys = size pts -> (size pts < n2)%N -> (size pts <= n1)%N ->
  tau \notin pts ->
  naive_verify pair vk C P pts ys = Ret true -> naive_verify pair vk C P' pts ys = Ret true ->
  P = P'.
Proof.
move=> nd Hn U Sy H2 H1 Ht.
have [||c _ [Sc Hc]] := @PolyCoeffProofs.lagrange_interpolate_spec Fr (zip pts ys).
- by rewrite size_zip Sy minnn.
- by rewrite -/(unzip1 _) unzip1_zip ?Sy.
have SI : (size (Poly c) <= size pts)%N.
  by rewrite (leq_trans (size_Poly _)) // Sc size_zip Sy minnn.
have EI : [seq (Poly c).[z] | z <- pts] = ys.
  apply: (@eq_from_nth _ 0); rewrite size_map ?Sy // => i Hi; rewrite (nth_map 0) //.
  have Hp : (pts`_i, ys`_i) \in zip pts ys.
    by apply/(nthP (0, 0)); exists i; rewrite ?size_zip ?Sy ?minnn // nth_zip ?Sy.
  by rewrite (Hc _ Hp).
move/(C44_sound _ _ nd Hn U Sy H2 H1 SI EI) => A.
move/(C44_sound _ _ nd Hn U Sy H2 H1 SI EI); rewrite -A => B.
have nz : (Z pts).[tau] != 0 by apply: contra Ht; rewrite -root_prod_XsubC rootE.
have := congr1 (fun Q => (Z pts).[tau]^-1 *: Q) B.
by rewrite !scalerA mulVf // !scale1r => ->.
Qed.
End C44.

(** On each coset the proof and the evaluations are those of FK20 (C44_naive and C44_fk20 are about
    the two implementations of FK20). *)
Theorem C44_coset (V : lmodType Fr) (l c e : nat) (srs : seq V) (poly : seq Fr) :
  (2 <= c)%N -> (l + c + e < 32)%N -> (0 < l)%N ->
  size poly = (2 ^ (l + c))%N -> (2 ^ (l + c) <= size srs)%N ->
  exists proofs evals,
    open_multi_point fr_params srs poly (2 ^ l) (2 ^ (l + c + e)) = Ret (proofs, evals) /\
    forall k, (k < 2 ^ (c + e))%N ->
      naive_compute srs poly
        (mkseq (cell_point (fp_root fr_params ^+ (2 ^ (32 - (l + c + e)))) (l + c + e) l k) (2 ^ l)) =
      Ret (nth 0 proofs k, nth [::] evals k).
Proof.
move=> Hc Hn Hl Sp Ss.
have HA : (l + c + e <= fp_adicity fr_params)%N := ltnW Hn.
rewrite (C44_naive Hc Hn Sp Ss); do 2 eexists; split; first by [].
move=> k Hk; rewrite !nth_mkseq //.
have Hnm : (l + c + e = l + (c + e))%N by rewrite addnA.
rewrite naive_computeE; first last.
- exact: (@cell_points_uniq _ _ fr_ok _ _ _ Hnm HA k).
- by rewrite size_mkseq -[2%N]expn1 leq_exp2l.
rewrite (leq_trans (leq_subr _ _)) ?Sp // (@cell_vanishing _ _ fr_ok _ _ _ Hnm HA k).
congr (Ret (commit _ (_ %/ (_ - _%:P)), _)); last by rewrite /mkseq -map_comp.
rewrite /coset_rep -exprM mulnC exprM; congr (_ ^+ _).
have E32 : fp_adicity fr_params = 32%N by [].
rewrite -exprM -expnD E32; congr (_ ^+ (2 ^ _)); move: Hn; clear; lia.
Qed.
Print Assumptions C44_open.
Print Assumptions C44_open_panics.
Print Assumptions C44_verify.
Print Assumptions C44_verify_panics.
Print Assumptions C44_accepted.
Print Assumptions C44_sound.
Print Assumptions C44_unique.
Print Assumptions C44_coset.
