(** Model of /repo/bindings/c/src: lib.rs and the four calls. *)

From Coq Require Import NArith Init.Byte.
From mathcomp Require Import ssreflect ssrfun ssrbool eqtype ssrnat seq ssralg.
From Verif Require Import Base Bytes CMem Eip7594.

Set Implicit Arguments.
Unset Strict Implicit.
Unset Printing Implicit Defensive.

Import GRing.Theory.

(** The Rust library as the bindings see it. *)
Record rust_api (ctx err : Type) := MkRustApi {
  (** [DASContext::with_threads(&TrustedSetup::default(), ThreadCount::Multi(n), use_precomp)] *)
  ra_new : bool -> N -> outcome ctx;
  ra_blob_to_kzg_commitment : ctx -> seq byte -> outcome (result (seq byte) err);
  ra_compute : ctx -> seq byte -> outcome (result (seq (seq byte) * seq (seq byte)) err);
  ra_recover : ctx -> seq N -> seq (seq byte) -> outcome (result (seq (seq byte) * seq (seq byte)) err);
  ra_verify : ctx -> seq (seq byte) -> seq N -> seq (seq byte) -> seq (seq byte) -> outcome (result unit err);
  (** [Error::invalid_proof] *)
  ra_invalid_proof : err -> bool;
  (** [format!("{:?}", err)] *)
  ra_debug : err -> seq byte
}.

(** lib.rs lines 109-112 and 118-121. *)
Inductive c_status := StOk | StErr.
Record c_result := MkCResult { cr_status : c_status; cr_error_msg : ptr }.

Section Api.
Variables (ctx err : Type) (api : rust_api ctx err).
Local Notation K := eip7594_consts.
Local Notation cM := (cM ctx).
Definition BYTES_PER_COMMITMENT : nat := 48.

(** lib.rs lines 64-81 [eth_kzg_das_context_new] *)
Definition eth_kzg_das_context_new (use_precomp : bool) (num_threads : N) : cM ptr :=
  clet c := crust (ra_new api use_precomp num_threads) in
  alloc (BCtx c).

(** lib.rs lines 98-105 [eth_kzg_das_context_free] *)
Definition eth_kzg_das_context_free (p : ptr) : cM unit :=
  if is_null p then cret tt else cwrite (release_ctx p).

(** lib.rs lines 135-141 [with_error]; [CString::new] refuses a zero byte *)
Definition with_error (error_msg : seq byte) : cM c_result :=
  clet _ := cassert ("000"%byte \notin error_msg) in
  clet p := alloc (BMsg _ error_msg) in
  cret (MkCResult StErr p).

(** lib.rs lines 144-149 [with_ok] *)
Definition with_ok : c_result := MkCResult StOk Null.

(** lib.rs lines 159-168 [eth_kzg_free_error_message] *)
Definition eth_kzg_free_error_message (p : ptr) : cM unit :=
  if is_null p then cret tt else cwrite (release_msg p).

(** [x.map_err(|err| CResult::with_error(&format!("{:?}", err)))?], then the rest *)
Definition ctry (A : Type) (x : outcome (result A err)) (k : A -> cM c_result) : cM c_result :=
  clet r := crust x in
  match r with
  | Ok a => k a
  | Err e => with_error (ra_debug api e)
  end.

(** blob_to_kzg_commitment.rs lines 6-36 and lib.rs lines 184-195 *)
Definition eth_kzg_blob_to_kzg_commitment (p blob out : ptr) : cM c_result :=
  clet _ := cassert (~~ is_null p) in
  clet c := deref_ctx p in
  clet blob := create_array_ref (BYTES_PER_BLOB K) blob in
  ctry (ra_blob_to_kzg_commitment api c blob) (fun commitment =>
  clet _ := cassert (size commitment == BYTES_PER_COMMITMENT) in
  clet _ := write_to_slice out commitment in
  cret with_ok).

(** compute_cells_and_kzg_proofs.rs lines 5-30 and lib.rs lines 214-226 *)
Definition eth_kzg_compute_cells_and_kzg_proofs (p blob out_cells out_proofs : ptr) : cM c_result :=
  clet _ := cassert (~~ is_null p) in
  clet c := deref_ctx p in
  clet blob := create_array_ref (BYTES_PER_BLOB K) blob in
  ctry (ra_compute api c blob) (fun cells_proofs =>
  clet _ := write_to_2d_slice (CELLS_PER_EXT_BLOB K) out_cells cells_proofs.1 in
  clet _ := write_to_2d_slice (CELLS_PER_EXT_BLOB K) out_proofs cells_proofs.2 in
  cret with_ok).

(** recover_cells_and_kzg_proofs.rs lines 7-36 and lib.rs lines 327-351; lengths are u64 *)
Definition eth_kzg_recover_cells_and_proofs (p : ptr) (cells_length : nat) (cells : ptr)
  (cell_indices_length : nat) (cell_indices : ptr) (out_cells out_proofs : ptr) : cM c_result :=
  clet _ := cassert (~~ is_null p) in
  clet c := deref_ctx p in
  clet cells := ptr_ptr_to_vec_slice_const (BYTES_PER_CELL K) cells cells_length in
  clet cell_indices := create_slice_view_u64 cell_indices cell_indices_length in
  ctry (ra_recover api c cell_indices cells) (fun cells_proofs =>
  clet _ := write_to_2d_slice (CELLS_PER_EXT_BLOB K) out_cells cells_proofs.1 in
  clet _ := write_to_2d_slice (CELLS_PER_EXT_BLOB K) out_proofs cells_proofs.2 in
  cret with_ok).

(** lib.rs lines 232-240 [verification_result_to_bool_cresult] *)
Definition verification_result_to_bool (r : result unit err) : result bool err :=
  match r with
  | Ok _ => Ok true
  | Err e => if ra_invalid_proof api e then Ok false else Err e
  end.

(** verify_cells_and_kzg_proofs_batch.rs lines 6-46 and lib.rs lines 269-301 *)
Definition eth_kzg_verify_cell_kzg_proof_batch (p : ptr) (commitments_length : nat) (commitments : ptr)
  (cell_indices_length : nat) (cell_indices : ptr) (cells_length : nat) (cells : ptr)
  (proofs_length : nat) (proofs : ptr) (verified : ptr) : cM c_result :=
  clet _ := cassert (~~ is_null p) in
  clet c := deref_ctx p in
  clet commitments := ptr_ptr_to_vec_slice_const BYTES_PER_COMMITMENT commitments commitments_length in
  clet cell_indices := create_slice_view_u64 cell_indices cell_indices_length in
  clet cells := ptr_ptr_to_vec_slice_const (BYTES_PER_CELL K) cells cells_length in
  clet proofs := ptr_ptr_to_vec_slice_const BYTES_PER_COMMITMENT proofs proofs_length in
  clet _ := deref_mut_bool verified in
  ctry (omap verification_result_to_bool (ra_verify api c commitments cell_indices cells proofs))
    (fun proof_is_valid =>
  clet _ := cwrite (store_bool verified proof_is_valid) in
  cret with_ok).

(** ** Calls as data, for histories *)
Inductive c_call :=
| New (use_precomp : bool) (num_threads : N)
| FreeCtx (p : ptr)
| FreeMsg (p : ptr)
| Commit (p blob out : ptr)
| Compute (p blob out_cells out_proofs : ptr)
| Recover (p : ptr) (cells_length : nat) (cells : ptr) (cell_indices_length : nat)
    (cell_indices out_cells out_proofs : ptr)
| Verify (p : ptr) (commitments_length : nat) (commitments : ptr) (cell_indices_length : nat)
    (cell_indices : ptr) (cells_length : nat) (cells : ptr) (proofs_length : nat) (proofs verified : ptr).

Inductive c_value := VPtr (p : ptr) | VUnit | VResult (r : c_result).

Definition cmap (A B : Type) (f : A -> B) (e : cM A) : cM B := clet a := e in cret (f a).

Definition c_exec (c : c_call) : cM c_value :=
  match c with
  | New u n => cmap VPtr (eth_kzg_das_context_new u n)
  | FreeCtx p => cmap (fun _ => VUnit) (eth_kzg_das_context_free p)
  | FreeMsg p => cmap (fun _ => VUnit) (eth_kzg_free_error_message p)
  | Commit p blob out => cmap VResult (eth_kzg_blob_to_kzg_commitment p blob out)
  | Compute p blob oc op => cmap VResult (eth_kzg_compute_cells_and_kzg_proofs p blob oc op)
  | Recover p n cells k ids oc op => cmap VResult (eth_kzg_recover_cells_and_proofs p n cells k ids oc op)
  | Verify p a coms b ids c cells d proofs v =>
      cmap VResult (eth_kzg_verify_cell_kzg_proof_batch p a coms b ids c cells d proofs v)
  end.

End Api.

(** The library of Eip7594.v behind the interface. *)
Definition eip7594_api (F : fieldType) (G1 G2 GT : lmodType F) (env : das_env G1 G2 GT)
  (new : bool -> N -> outcome (das_context G1 G2)) (debug : error -> seq byte)
  : rust_api (das_context G1 G2) error :=
  MkRustApi new
    (blob_to_kzg_commitment env eip7594_consts)
    (compute_cells_and_kzg_proofs env eip7594_consts)
    (recover_cells_and_kzg_proofs env eip7594_consts)
    (verify_cell_kzg_proof_batch env eip7594_consts)
    invalid_proof debug.
