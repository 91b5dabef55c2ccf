(** The calls that contain parallel sections, as relations between the arguments and a possible
    result: FK20 proofs, construction of the context, computing and recovering cells.

    The context is built in rayon's global pool (/repo/eip7594/src/lib.rs lines 127-146 call
    [ProverContext::new] outside of [install]); the calls run in the pool of the context
    (/repo/eip7594/src/macros.rs lines 1-13). *)

From Coq Require Import NArith Init.Byte.
From mathcomp Require Import ssreflect ssrfun ssrbool eqtype ssrnat seq div ssralg.
From Verif Require Import Base Bytes BitRev FFT Domain ReedSolomon Lincomb FixedBaseMSM Toeplitz.
From Verif Require Import FK20Prover FK20Verifier Eip7594 Rayon.

Set Implicit Arguments.
Unset Strict Implicit.
Unset Printing Implicit Defensive.

Import GRing.Theory.
Local Open Scope ring_scope.

(** A call whose result depends on the schedule. *)
Definition rel_bind (A B : Type) (m : outcome A -> Prop) (k : A -> outcome B -> Prop)
  (r : outcome B) : Prop :=
  (m Panic /\ r = Panic) \/ (exists2 y, m (Ret y) & k y r).
(** [x?] *)
Definition seq_try (A B E : Type) (m : outcome (result A E)) (k : A -> outcome (result B E) -> Prop)
  (r : outcome (result B E)) : Prop :=
  match m with
  | Ret (Ok y) => k y r
  | Ret (Err e) => r = Ret (Err e)
  | Panic => r = Panic
  end.

Section ParApi.
Variables (F : fieldType) (G1 G2 GT : lmodType F) (fp : fparams F) (env : das_env G1 G2 GT).
Variables (K : consts) (workers : nat).

Local Notation te := (de_te env).
Local Notation me := (de_me env).

(** h_poly.rs lines 17-58 [compute_h_poly_commitments]. *)
Definition par_compute_h_poly_commitments (bt : batch_toeplitz G1) (polynomial : seq F)
  (coset_size : nat) : outcome (seq G1) -> Prop :=
  seq_assert (is_power_of_two coset_size) (
  seq_assert (is_power_of_two (size polynomial)) (
  let polynomial := rev polynomial in
  let toeplitz_rows := take_every_nth polynomial coset_size in
  seq_bind (omapM (fun row =>
    olet row0 := aget row 0 in
    olet toeplitz_column := aset (nseq (size row) (0 : F)) 0 row0 in
    toeplitz_new row toeplitz_column) toeplitz_rows) (fun matrices =>
  par_sum_matrix_vector_mul me workers bt matrices))).

(** fk20/prover.rs lines 189-207 and 170-181 [compute_multi_opening_proofs]. *)
Definition par_compute_multi_opening_proofs (pr : fk20_prover G1) (input : fk20_input F)
  : outcome (seq G1 * seq (seq F)) -> Prop :=
  seq_bind (input_coeffs pr input) (fun polynomial =>
  rel_bind (par_compute_h_poly_commitments (pr_batch_toeplitz pr) polynomial (pr_coset_size pr))
    (fun h_poly_commitments =>
  seq_bind (fft_g1 (pr_proof_domain pr) h_poly_commitments) (fun proofs =>
  seq_bind (reverse_bit_order proofs) (fun proofs =>
  seq_bind (coset_evaluations (pr_evaluation_domain pr) (pr_coset_size pr) polynomial) (fun evals =>
  eq (Ret (proofs, evals))))))).

(** fk20/prover.rs lines 63-123 [FK20Prover::new]. *)
Definition par_fk20_prover_new (commit_key : seq G1)
  (polynomial_bound points_per_proof number_of_points_to_open : nat) (up : use_precomp)
  : outcome (fk20_prover G1) -> Prop :=
  seq_assert (is_power_of_two points_per_proof) (
  seq_assert (is_power_of_two number_of_points_to_open) (
  seq_assert (points_per_proof < number_of_points_to_open)%N (
  seq_assert (is_power_of_two polynomial_bound) (
  seq_assert (polynomial_bound <= size commit_key)%N (
  seq_assert (points_per_proof < size commit_key)%N (
  let srs_truncated := drop points_per_proof (rev commit_key) in
  let srs_vectors := take_every_nth srs_truncated points_per_proof in
  let srs_vectors := [seq resize (next_power_of_two (size v)) 0 v | v <- srs_vectors] in
  rel_bind (par_batch_toeplitz_new fp workers srs_vectors up) (fun batch_toeplitz =>
  let num_proofs := (number_of_points_to_open %/ points_per_proof)%N in
  seq_bind (domain_new fp num_proofs) (fun proof_domain =>
  seq_bind (domain_new fp number_of_points_to_open) (fun evaluation_domain =>
  seq_bind (domain_new fp polynomial_bound) (fun poly_domain =>
  eq (Ret (MkFK20Prover batch_toeplitz points_per_proof number_of_points_to_open
             proof_domain evaluation_domain poly_domain commit_key)))))))))))).

(** eip7594/src/prover.rs lines 39-70 [ProverContext::new] and lib.rs lines 127-146
    [DASContext::with_threads]. *)
Definition par_das_context_new (g1_monomial : seq G1) (g2_monomial : seq G2) (up : use_precomp)
  : outcome (das_context G1 G2) -> Prop :=
  seq_bind (commit_key_new g1_monomial) (fun commit_key =>
  rel_bind (par_fk20_prover_new commit_key (FIELD_ELEMENTS_PER_BLOB K)
    (FIELD_ELEMENTS_PER_CELL K) (FIELD_ELEMENTS_PER_EXT_BLOB K) up) (fun prover =>
  seq_bind (rs_new fp (FIELD_ELEMENTS_PER_BLOB K) (EXPANSION_FACTOR K) (CELLS_PER_EXT_BLOB K)) (fun rs =>
  seq_bind (verifier_context_new fp K g1_monomial g2_monomial) (fun verifier_ctx =>
  eq (Ret (MkDASContext (MkProverContext prover rs) verifier_ctx)))))).

(** eip7594/src/prover.rs lines 96-114 [compute_cells_and_kzg_proofs]. *)
Definition par_compute_cells_and_kzg_proofs (ctx : das_context G1 G2) (blob : seq byte)
  : outcome (result (seq (seq byte) * seq (seq byte)) error) -> Prop :=
  seq_try (rlift ESerialization (deserialize_blob_to_scalars env K blob)) (fun scalars =>
  rel_bind (par_compute_multi_opening_proofs (pc_prover (dc_prover_ctx ctx)) (InputData scalars))
    (fun pc =>
  seq_bind (serialize_cells_and_proofs env K pc.2 pc.1) (fun out => eq (Ret (Ok out))))).

(** eip7594/src/prover.rs lines 122-141 [recover_cells_and_kzg_proofs]. *)
Definition par_recover_cells_and_kzg_proofs (ctx : das_context G1 G2) (cell_indices : seq N)
  (cells : seq (seq byte)) : outcome (result (seq (seq byte) * seq (seq byte)) error) -> Prop :=
  seq_try (recover_polynomial_coeff env K (pc_rs (dc_prover_ctx ctx)) cell_indices cells)
    (fun poly_coeff =>
  rel_bind (par_compute_multi_opening_proofs (pc_prover (dc_prover_ctx ctx)) (InputPolyCoeff poly_coeff))
    (fun pc =>
  seq_bind (serialize_cells_and_proofs env K pc.2 pc.1) (fun out => eq (Ret (Ok out))))).

End ParApi.
