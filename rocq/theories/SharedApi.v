(** The four calls of the API as the bodies that run in the pool of the context: what Eip7594.v has as one function
    is cut at the parallel sections of batch_toeplitz.rs lines 82-116. *)

From Coq Require Import NArith Init.Byte.
From mathcomp Require Import ssreflect ssrfun ssrbool eqtype ssrnat seq div ssralg.
From Verif Require Import Base Bytes BitRev FFT Domain ReedSolomon Lincomb FixedBaseMSM Toeplitz.
From Verif Require Import FK20Prover FK20Verifier Eip7594 Rayon Shared.

Set Implicit Arguments.
Unset Strict Implicit.
Unset Printing Implicit Defensive.

Import GRing.Theory.
Local Open Scope ring_scope.

(** One body after the other; a panic ends both. *)
Fixpoint call_bind (A B : Type) (c : call A) (k : A -> call B) : call B :=
  match c with
  | Return (Ret x) => k x
  | Return Panic => Return Panic
  | Par X Y f xs k' => Par f xs (fun ys => call_bind (k' ys) k)
  end.
(** Code without parallel sections *)
Definition straight (A B : Type) (m : outcome A) (k : A -> call B) : call B := call_bind (Return m) k.
(** [x?] *)
Definition call_try (A B E : Type) (m : outcome (result A E)) (k : A -> call (result B E)) : call (result B E) :=
  straight m (fun x => match x with Ok y => k y | Err e => Return (Ret (Err e)) end).

Section SharedApi.
Variables (F : fieldType) (G1 G2 GT : lmodType F) (env : das_env G1 G2 GT) (K : consts).

Local Notation me := (de_me env).

(** batch_toeplitz.rs lines 82-116 [sum_matrix_vector_mul], sections at lines 90-102 and 105-109 *)
Definition call_sum_matrix_vector_mul (bt : batch_toeplitz G1) (matrices : seq (toeplitz_matrix F)) : call (seq G1) :=
  if size matrices == bt_batch_size bt then
    Par (fun m => olet c := circulant_from_toeplitz m in fft_scalars (bt_circulant_domain bt) c) matrices (fun col_ffts =>
    straight (transpose col_ffts) (fun msm_scalars =>
    Par (fun ps => fixed_base_msm_run me ps.1 ps.2) (zip (bt_precomputed_fft_vectors bt) msm_scalars) (fun result =>
    Return (ifft_g1_take_n (bt_circulant_domain bt) result (Some (bt_size_of_vector bt))))))
  else Return Panic.

(** h_poly.rs lines 17-58 [compute_h_poly_commitments] *)
Definition call_compute_h_poly_commitments (bt : batch_toeplitz G1) (polynomial : seq F) (coset_size : nat)
  : call (seq G1) :=
  if is_power_of_two coset_size && is_power_of_two (size polynomial) then
    let polynomial := rev polynomial in
    let toeplitz_rows := take_every_nth polynomial coset_size in
    straight (omapM (fun row =>
      olet row0 := aget row 0 in
      olet toeplitz_column := aset (nseq (size row) (0 : F)) 0 row0 in
      toeplitz_new row toeplitz_column) toeplitz_rows) (fun matrices =>
    call_sum_matrix_vector_mul bt matrices)
  else Return Panic.

(** fk20/prover.rs lines 170-181 and 189-207 [compute_multi_opening_proofs] *)
Definition call_compute_multi_opening_proofs (pr : fk20_prover G1) (input : fk20_input F)
  : call (seq G1 * seq (seq F)) :=
  straight (input_coeffs pr input) (fun polynomial =>
  call_bind (call_compute_h_poly_commitments (pr_batch_toeplitz pr) polynomial (pr_coset_size pr))
    (fun h_poly_commitments =>
  straight (fft_g1 (pr_proof_domain pr) h_poly_commitments) (fun proofs =>
  straight (reverse_bit_order proofs) (fun proofs =>
  straight (coset_evaluations (pr_evaluation_domain pr) (pr_coset_size pr) polynomial) (fun evals =>
  Return (Ret (proofs, evals))))))).

(** eip7594/src/prover.rs lines 96-114 and 122-141 *)
Definition call_compute_cells_and_kzg_proofs (ctx : das_context G1 G2) (blob : seq byte)
  : call (result (seq (seq byte) * seq (seq byte)) error) :=
  call_try (rlift ESerialization (deserialize_blob_to_scalars env K blob)) (fun scalars =>
  call_bind (call_compute_multi_opening_proofs (pc_prover (dc_prover_ctx ctx)) (InputData scalars)) (fun pc =>
  straight (serialize_cells_and_proofs env K pc.2 pc.1) (fun out => Return (Ret (Ok out))))).
Definition call_recover_cells_and_kzg_proofs (ctx : das_context G1 G2) (cell_indices : seq N) (cells : seq (seq byte))
  : call (result (seq (seq byte) * seq (seq byte)) error) :=
  call_try (recover_polynomial_coeff env K (pc_rs (dc_prover_ctx ctx)) cell_indices cells) (fun poly_coeff =>
  call_bind (call_compute_multi_opening_proofs (pc_prover (dc_prover_ctx ctx)) (InputPolyCoeff poly_coeff)) (fun pc =>
  straight (serialize_cells_and_proofs env K pc.2 pc.1) (fun out => Return (Ret (Ok out))))).

(** The calls a thread can make, and their answers *)
Inductive request :=
| ReqCommit (blob : seq byte)
| ReqCompute (blob : seq byte)
| ReqRecover (cell_indices : seq N) (cells : seq (seq byte))
| ReqVerify (commitments : seq (seq byte)) (cell_indices : seq N) (cells proofs : seq (seq byte)).
Inductive answer :=
| AnsCommit (r : result (seq byte) error)
| AnsCells (r : result (seq (seq byte) * seq (seq byte)) error)
| AnsVerify (r : result unit error).

(** The body of a call: eip7594/src/prover.rs lines 77-91, 96-114, 122-141, verifier.rs lines 75-130; the first and
    the last have no parallel sections *)
Definition body (ctx : das_context G1 G2) (q : request) : call answer :=
  match q with
  | ReqCommit blob => straight (blob_to_kzg_commitment env K ctx blob) (fun r => Return (Ret (AnsCommit r)))
  | ReqCompute blob => call_bind (call_compute_cells_and_kzg_proofs ctx blob) (fun r => Return (Ret (AnsCells r)))
  | ReqRecover cell_indices cells =>
      call_bind (call_recover_cells_and_kzg_proofs ctx cell_indices cells) (fun r => Return (Ret (AnsCells r)))
  | ReqVerify commitments cell_indices cells proofs =>
      straight (verify_cell_kzg_proof_batch env K ctx commitments cell_indices cells proofs)
        (fun r => Return (Ret (AnsVerify r)))
  end.
End SharedApi.
