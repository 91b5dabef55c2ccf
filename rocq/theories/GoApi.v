(** Model of /repo/bindings/golang/prover.go over the memory of CMem.v. *)

From Coq Require Import NArith Init.Byte.
From mathcomp Require Import ssreflect ssrfun ssrbool eqtype ssrnat seq.
From Verif Require Import Base Bytes CMem CApi.

Set Implicit Arguments.
Unset Strict Implicit.
Unset Printing Implicit Defensive.

(** lines 35 and 60: the only error *)
Inductive go_error := InvalidBlobSize.

Section Go.
Variables (ctx err : Type) (api : rust_api ctx err).
Local Notation cM := (cM ctx).

(** lines 48-56 [NewProverContext]: the field [_inner] *)
Definition new_prover_context : cM ptr := eth_kzg_das_context_new api true 1.

(** lines 51-53, the finalizer *)
Definition finalizer (inner : ptr) : cM unit := eth_kzg_das_context_free inner.

(** lines 58-65 [BlobToKZGCommitment]. After [prover.inner()] the method does not use the Go object:
    with [collected] the object is not reachable from elsewhere and the runtime runs its finalizer
    before the C function uses the context. The slices stay reachable: their addresses are arguments
    of the call. The [CResult] is not looked at. The results are the slice and the error. *)
Definition go_blob_to_kzg_commitment (collected : bool) (inner : ptr) (blob : seq byte)
  : cM (option (seq byte) * option go_error) :=
  if size blob != 2 ^ 17 then cret (None, Some InvalidBlobSize) else
  clet blob_array := alloc (BBytes _ blob) in
  clet out := alloc (BBytes _ (nseq 48 "000"%byte)) in
  clet _ := if collected then finalizer inner else cret tt in
  clet _ := eth_kzg_blob_to_kzg_commitment api inner blob_array out in
  clet out := cread (fun m => load_bytes m out 48) in
  cret (Some out, None).

(** When the finalizer of the object runs: in the last call, after it, or not at all. *)
Inductive go_collection := InLastCall | AfterLastCall | Never.
Definition in_call (when : go_collection) (blobs : seq (seq byte)) : bool :=
  if when is InLastCall then size blobs == 1 else false.

(** A program: make an object and commit to some blobs one after the other. *)
Fixpoint go_commits (when : go_collection) (inner : ptr) (blobs : seq (seq byte))
  : cM (seq (option (seq byte) * option go_error)) :=
  match blobs with
  | [::] => clet _ := (if when is AfterLastCall then finalizer inner else cret tt) in cret [::]
  | blob :: rest =>
    clet r := go_blob_to_kzg_commitment (in_call when blobs) inner blob in
    clet rs := go_commits when inner rest in
    cret (r :: rs)
  end.
Definition go_program (when : go_collection) (blobs : seq (seq byte))
  : cM (seq (option (seq byte) * option go_error)) :=
  clet inner := new_prover_context in go_commits when inner blobs.

End Go.
