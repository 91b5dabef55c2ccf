(** Model of the conversions in /repo/bindings/java/rust_code/src/lib.rs and
    /repo/bindings/node/src/lib.rs.

    Arrays of the managed language are lists; errors of the JNI itself (a null array, out of
    memory) are not modelled. A Java long is an integer between -2^63 and 2^63 - 1; a Java byte is
    taken as the byte with the same bits. *)

From Coq Require Import ZArith NArith Init.Byte.
From mathcomp Require Import ssreflect ssrfun ssrbool eqtype ssrnat seq.
From Verif Require Import Base Bytes Eip7594 CApi.

Set Implicit Arguments.
Unset Strict Implicit.
Unset Printing Implicit Defensive.

(** The names given to the arguments in messages. *)
Inductive arg_name := NmBlob | NmCell | NmCommitment | NmProof.

(** java/rust_code/src/errors.rs lines 3-12, and the two reasons in node/src/lib.rs
    ([Error::from_reason]) *)
Inductive managed_error (err : Type) :=
| IncorrectSize (expected got : nat) (name : arg_name)
| Cryptography (e : err).
Arguments IncorrectSize {err}.
Arguments Cryptography {err}.

(** [x as u64] and [x as u32] *)
Definition as_u64 (z : Z) : N := Z.to_N (z mod 2 ^ 64).
Definition as_u32 (z : Z) : N := Z.to_N (z mod 2 ^ 32).

Section Managed.
Variables (ctx err : Type) (api : rust_api ctx err).
Local Notation K := eip7594_consts.
Local Notation merror := (managed_error err).

(** java lines 291-300 and node lines 266-277 [slice_to_array_ref] *)
Definition slice_to_array_ref (n : nat) (name : arg_name) (slice : seq byte) : result (seq byte) merror :=
  if size slice == n then Ok slice else Err (IncorrectSize n (size slice) name).

(** [.iter().map(..).collect::<Result<_, _>>()] *)
Definition arrays (n : nat) (name : arg_name) (l : seq (seq byte)) : outcome (result (seq (seq byte)) merror) :=
  Ret (rmapM (slice_to_array_ref n name) l).

(** [?] with the conversion of errors of the library *)
Definition crypto (A : Type) (x : outcome (result A err)) : outcome (result A merror) :=
  omap (rmap_err Cryptography) x.

(** java lines 131-135, node lines 232-240: the verdict *)
Definition verdict (r : result unit err) : result bool merror :=
  match r with
  | Ok _ => Ok true
  | Err e => if ra_invalid_proof api e then Ok false else Err (Cryptography e)
  end.

(** ** Java *)

(** lines 177-189 *)
Definition jlongarray_to_vec_u64 (l : seq Z) : seq N := map as_u64 l.

(** lines 10-19 [DASContextNew] *)
Definition java_context_new (use_precomp : bool) (num_threads : Z) : outcome ctx :=
  ra_new api use_precomp (as_u32 (Z.of_N (as_u64 num_threads))).

(** lines 75-85 *)
Definition java_blob_to_kzg_commitment (c : ctx) (blob : seq byte) : outcome (result (seq byte) merror) :=
  rlet blob := Ret (slice_to_array_ref (BYTES_PER_BLOB K) NmBlob blob) in
  crypto (ra_blob_to_kzg_commitment api c blob).

(** lines 46-57 *)
Definition java_compute_cells_and_kzg_proofs (c : ctx) (blob : seq byte)
  : outcome (result (seq (seq byte) * seq (seq byte)) merror) :=
  rlet blob := Ret (slice_to_array_ref (BYTES_PER_BLOB K) NmBlob blob) in
  crypto (ra_compute api c blob).

(** lines 107-138; the conversions of lines 115-118 cannot fail here *)
Definition java_verify_cell_kzg_proof_batch (c : ctx) (commitment : seq (seq byte)) (cell_indices : seq Z)
  (cells proofs : seq (seq byte)) : outcome (result bool merror) :=
  let cell_indices := jlongarray_to_vec_u64 cell_indices in
  rlet cells := arrays (BYTES_PER_CELL K) NmCell cells in
  rlet commitments := arrays BYTES_PER_COMMITMENT NmCommitment commitment in
  rlet proofs := arrays BYTES_PER_COMMITMENT NmProof proofs in
  omap verdict (ra_verify api c commitments cell_indices cells proofs).

(** lines 158-174 *)
Definition java_recover_cells_and_kzg_proofs (c : ctx) (cell_ids : seq Z) (cells : seq (seq byte))
  : outcome (result (seq (seq byte) * seq (seq byte)) merror) :=
  let cell_ids := jlongarray_to_vec_u64 cell_ids in
  rlet cells := arrays (BYTES_PER_CELL K) NmCell cells in
  crypto (ra_recover api c cell_ids cells).

(** ** Node *)

(** lines 256-260; [get_u128] gives the sign and the low 128 bits of the absolute value *)
Definition bigint_to_u64 (value : Z) : outcome N :=
  let signed := (value <? 0)%Z in
  let value_u128 := (Z.abs value mod 2 ^ 128)%Z in
  oassert (~~ signed) (Ret (as_u64 value_u128)).

(** lines 89-101 *)
Definition node_blob_to_kzg_commitment (c : ctx) (blob : seq byte) : outcome (result (seq byte) merror) :=
  rlet blob := Ret (slice_to_array_ref (BYTES_PER_BLOB K) NmBlob blob) in
  crypto (ra_blob_to_kzg_commitment api c blob).

(** lines 109-135 *)
Definition node_compute_cells_and_kzg_proofs (c : ctx) (blob : seq byte)
  : outcome (result (seq (seq byte) * seq (seq byte)) merror) :=
  rlet blob := Ret (slice_to_array_ref (BYTES_PER_BLOB K) NmBlob blob) in
  crypto (ra_compute api c blob).

(** lines 146-150 *)
Definition node_compute_cells (c : ctx) (blob : seq byte) : outcome (result (seq (seq byte)) merror) :=
  omap (fun r => match r with Ok cp => Ok cp.1 | Err e => Err e end)
    (node_compute_cells_and_kzg_proofs c blob).

(** lines 159-196 *)
Definition node_recover_cells_and_kzg_proofs (c : ctx) (cell_indices : seq Z) (cells : seq (seq byte))
  : outcome (result (seq (seq byte) * seq (seq byte)) merror) :=
  olet cell_indices := omapM bigint_to_u64 cell_indices in
  rlet cells := arrays (BYTES_PER_CELL K) NmCell cells in
  crypto (ra_recover api c cell_indices cells).

(** lines 208-241 *)
Definition node_verify_cell_kzg_proof_batch (c : ctx) (commitments : seq (seq byte)) (cell_indices : seq Z)
  (cells proofs : seq (seq byte)) : outcome (result bool merror) :=
  olet cell_indices := omapM bigint_to_u64 cell_indices in
  rlet commitments := arrays BYTES_PER_COMMITMENT NmCommitment commitments in
  rlet cells := arrays (BYTES_PER_CELL K) NmCell cells in
  rlet proofs := arrays BYTES_PER_COMMITMENT NmProof proofs in
  omap verdict (ra_verify api c commitments cell_indices cells proofs).

End Managed.
