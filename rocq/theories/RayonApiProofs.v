(** The relations of RayonApi.v describe exactly the sequential results. *)

From Coq Require Import NArith Init.Byte.
From mathcomp Require Import ssreflect ssrfun ssrbool eqtype ssrnat seq div ssralg.
From Verif Require Import Base Bytes BitRev FFT Domain ReedSolomon Lincomb FixedBaseMSM Toeplitz.
From Verif Require Import FK20Prover FK20Verifier Eip7594 Rayon RayonProofs RayonApi.

Set Implicit Arguments.
Unset Strict Implicit.
Unset Printing Implicit Defensive.

Lemma rel_bindP (A B : Type) (rel : outcome A -> Prop) (x : outcome A) (k : A -> outcome B -> Prop)
  (m : A -> outcome B) r :
  (forall r, rel r <-> r = x) -> (forall y r, k y r <-> r = m y) ->
  rel_bind rel k r <-> r = (olet y := x in m y).
Proof.
move=> Hx Hk; rewrite /rel_bind; split.
  case=> [[/Hx <- ->]|[y /Hx <- /Hk ->]] //.
case: x Hx => [y|] Hx /= ->; first by right; exists y; rewrite ?Hx ?Hk.
by left; rewrite Hx.
Qed.

Lemma seq_tryP (A B E : Type) (x : outcome (result A E)) (k : A -> outcome (result B E) -> Prop)
  (m : A -> outcome (result B E)) r :
  (forall y r, k y r <-> r = m y) -> seq_try x k r <-> r = (rlet y := x in m y).
Proof. by move=> Hk; case: x => [[y|e]|] //=. Qed.

Lemma eq_iff (A : Type) (x y : A) : x = y <-> y = x.
Proof. by split=> ->. Qed.

Section ParApiProofs.
Variables (F : fieldType) (G1 G2 GT : lmodType F) (fp : fparams F) (env : das_env G1 G2 GT).
Variables (K : consts) (n : nat).
Hypothesis Hn : 0 < n.

Lemma par_compute_h_poly_commitmentsP bt polynomial coset_size r :
  par_compute_h_poly_commitments env n bt polynomial coset_size r <->
  r = compute_h_poly_commitments (de_me env) bt polynomial coset_size.
Proof.
apply: seq_assertP => {}r; apply: seq_assertP => {}r; apply: seq_bindP => ms {}r.
exact: par_sum_matrix_vector_mulP.
Qed.

Lemma par_compute_multi_opening_proofsP pr input r :
  par_compute_multi_opening_proofs env n pr input r <->
  r = compute_multi_opening_proofs (de_me env) pr input.
Proof.
apply: seq_bindP => p {}r; apply: rel_bindP => [r'|h {}r].
  exact: par_compute_h_poly_commitmentsP.
apply: seq_bindP => p1 {}r; apply: seq_bindP => p2 {}r; apply: seq_bindP => p3 {}r.
exact: eq_iff.
Qed.

Lemma par_fk20_prover_newP (commit_key : seq G1) b p o up r :
  par_fk20_prover_new fp n commit_key b p o up r <-> r = fk20_prover_new fp commit_key b p o up.
Proof.
do 6!(apply: seq_assertP => {}r); apply: rel_bindP => [r'|bt {}r].
  exact: par_batch_toeplitz_newP.
do 3!(apply: seq_bindP => ? {}r); exact: eq_iff.
Qed.

Lemma par_das_context_newP (g1s : seq G1) (g2s : seq G2) up r :
  par_das_context_new fp K n g1s g2s up r <-> r = das_context_new fp K g1s g2s up.
Proof.
rewrite /das_context_new /prover_context_new /par_das_context_new.
rewrite seq_bindP; last first.
  move=> ck {}r; apply: rel_bindP => [r'|pr {}r]; first exact: par_fk20_prover_newP.
  do 2!(apply: seq_bindP => ? {}r); exact: eq_iff.
case: (commit_key_new g1s) => [ck|] //=; case: (fk20_prover_new _ _ _ _ _ _) => [pr|] //=.
by case: (rs_new _ _ _ _).
Qed.

Lemma par_compute_cells_and_kzg_proofsP ctx blob r :
  par_compute_cells_and_kzg_proofs env K n ctx blob r <->
  r = compute_cells_and_kzg_proofs env K ctx blob.
Proof.
apply: seq_tryP => s {}r; apply: rel_bindP => [r'|[p c] {}r].
  exact: par_compute_multi_opening_proofsP.
apply: seq_bindP => ? {}r; exact: eq_iff.
Qed.

Lemma par_recover_cells_and_kzg_proofsP ctx ids cells r :
  par_recover_cells_and_kzg_proofs env K n ctx ids cells r <->
  r = recover_cells_and_kzg_proofs env K ctx ids cells.
Proof.
apply: seq_tryP => s {}r; apply: rel_bindP => [r'|[p c] {}r].
  exact: par_compute_multi_opening_proofsP.
apply: seq_bindP => ? {}r; exact: eq_iff.
Qed.

End ParApiProofs.
