(** Model of /repo/cryptography/kzg_multi_open/src/fk20/prover.rs and naive.rs. *)

From mathcomp Require Import ssreflect ssrfun ssrbool eqtype ssrnat seq div ssralg.
From Verif Require Import Base BitRev Domain Lincomb FixedBaseMSM Toeplitz.

Set Implicit Arguments.
Unset Strict Implicit.
Unset Printing Implicit Defensive.

Import GRing.Theory.
Local Open Scope ring_scope.

(** prover.rs lines 13-20 [Input]. *)
Inductive fk20_input (F : Type) := InputPolyCoeff (coeffs : seq F) | InputData (data : seq F).
Arguments InputPolyCoeff {F}.
Arguments InputData {F}.

Section Prover.
Variables (F : fieldType) (V : lmodType F) (fp : fparams F) (me : msm_env V).

(** prover.rs lines 29-54: the struct. *)
Record fk20_prover := MkFK20Prover {
  pr_batch_toeplitz : batch_toeplitz V;
  pr_coset_size : nat;
  pr_number_of_points_to_open : nat;
  pr_proof_domain : domain F;
  pr_evaluation_domain : domain F;
  pr_poly_domain : domain F;
  pr_commit_key : seq V
}.

(** prover.rs lines 63-123 [FK20Prover::new]. *)
Definition fk20_prover_new (commit_key : seq V)
  (polynomial_bound points_per_proof number_of_points_to_open : nat) (up : use_precomp)
  : outcome fk20_prover :=
  oassert (is_power_of_two points_per_proof) (
  oassert (is_power_of_two number_of_points_to_open) (
  oassert (points_per_proof < number_of_points_to_open)%N (
  oassert (is_power_of_two polynomial_bound) (
  oassert (polynomial_bound <= size commit_key)%N (
  oassert (points_per_proof < size commit_key)%N (
  let srs_truncated := drop points_per_proof (rev commit_key) in
  let srs_vectors := take_every_nth srs_truncated points_per_proof in
  let srs_vectors := [seq resize (next_power_of_two (size v)) 0 v | v <- srs_vectors] in
  olet batch_toeplitz := batch_toeplitz_new fp srs_vectors up in
  let num_proofs := (number_of_points_to_open %/ points_per_proof)%N in
  olet proof_domain := domain_new fp num_proofs in
  olet evaluation_domain := domain_new fp number_of_points_to_open in
  olet poly_domain := domain_new fp polynomial_bound in
  Ret (MkFK20Prover batch_toeplitz points_per_proof number_of_points_to_open
         proof_domain evaluation_domain poly_domain commit_key))))))).

(** prover.rs lines 127-139 and 172-178: the coefficients that correspond to an input. *)
Definition input_coeffs (pr : fk20_prover) (input : fk20_input F) : outcome (seq F) :=
  match input with
  | InputPolyCoeff poly_coeff => Ret poly_coeff
  | InputData data =>
      olet data := reverse_bit_order data in
      ifft_scalars (pr_poly_domain pr) data
  end.

(** prover.rs lines 126-143 [commit]. *)
Definition fk20_commit (pr : fk20_prover) (input : fk20_input F) : outcome V :=
  olet poly_coeff := input_coeffs pr input in
  commit_g1 (pr_commit_key pr) poly_coeff.

(** prover.rs lines 146-148 [num_proofs]. *)
Definition fk20_num_proofs (pr : fk20_prover) : nat :=
  (pr_number_of_points_to_open pr %/ pr_coset_size pr)%N.

(** prover.rs lines 155-162 [compute_coset_evaluations]; [chunks_exact(0)] panics. *)
Definition coset_evaluations (evaluation_domain : domain F) (coset_size : nat) (polynomial : seq F)
  : outcome (seq (seq F)) :=
  olet evaluations := fft_scalars evaluation_domain polynomial in
  olet evaluations := reverse_bit_order evaluations in
  oassert (0 < coset_size)%N (Ret (chunks_exact coset_size evaluations)).

(** prover.rs lines 189-207 [compute_multi_opening_proofs_poly_coeff]. *)
Definition compute_multi_opening_proofs_poly_coeff (pr : fk20_prover) (polynomial : seq F)
  : outcome (seq V * seq (seq F)) :=
  olet h_poly_commitments :=
    compute_h_poly_commitments me (pr_batch_toeplitz pr) polynomial (pr_coset_size pr) in
  olet proofs := fft_g1 (pr_proof_domain pr) h_poly_commitments in
  olet proofs := reverse_bit_order proofs in
  olet evals := coset_evaluations (pr_evaluation_domain pr) (pr_coset_size pr) polynomial in
  Ret (proofs, evals).

(** prover.rs lines 170-181 [compute_multi_opening_proofs]. *)
Definition compute_multi_opening_proofs (pr : fk20_prover) (input : fk20_input F)
  : outcome (seq V * seq (seq F)) :=
  olet poly_coeff := input_coeffs pr input in
  compute_multi_opening_proofs_poly_coeff pr poly_coeff.

(** naive.rs lines 13-25 [shift_polynomial]. *)
Definition shift_polynomial (poly : seq F) (degree : nat) : seq F :=
  if (size poly <= degree)%N then [::] else drop degree poly.

(** naive.rs lines 32-61 [compute_h_poly]. *)
Definition compute_h_poly (polynomial : seq F) (coset_size : nat) : outcome (seq (seq F)) :=
  oassert (is_power_of_two coset_size) (
  oassert (is_power_of_two (size polynomial)) (
  let num_proofs := (size polynomial %/ coset_size)%N in
  oassert (is_power_of_two num_proofs) (
  Ret [seq shift_polynomial polynomial (index * coset_size) | index <- iota 1 num_proofs]))).

(** naive.rs lines 65-95 [open_multi_point]. *)
Definition open_multi_point (commit_key : seq V) (polynomial : seq F)
  (coset_size number_of_points_to_open : nat) : outcome (seq V * seq (seq F)) :=
  oassert (is_power_of_two coset_size) (
  oassert (is_power_of_two number_of_points_to_open) (
  oassert (is_power_of_two (size polynomial)) (
  oassert (coset_size < number_of_points_to_open)%N (
  oassert (size polynomial <= size commit_key)%N (
  olet h_polys := compute_h_poly polynomial coset_size in
  olet commitment_h_polys := omapM (commit_g1 commit_key) h_polys in
  olet proof_domain := domain_new fp (number_of_points_to_open %/ coset_size) in
  olet proofs := fft_g1 proof_domain commitment_h_polys in
  olet proofs_affine := reverse_bit_order proofs in
  olet evaluation_domain := domain_new fp number_of_points_to_open in
  olet evals := coset_evaluations evaluation_domain coset_size polynomial in
  Ret (proofs_affine, evals)))))).

End Prover.
