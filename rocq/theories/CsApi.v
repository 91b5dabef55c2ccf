(** Model of /repo/bindings/csharp/csharp_code/EthKZG.bindings/ethkzg.cs over the memory of CMem.v.

    A managed array is a block; [fixed] gives its address, or null when it has no elements. The
    arrays that a caller passes are put into memory at the start of the method. A collector may run
    just before the native call: [gc pinned m] is the memory afterwards; it does not touch the
    arrays that are pinned at that point (those of the [fixed] statements around the call).
    References to arrays are not null. *)

From Coq Require Import NArith Init.Byte.
From mathcomp Require Import ssreflect ssrfun ssrbool eqtype ssrnat seq.
From Verif Require Import Base Bytes CMem CApi.

Set Implicit Arguments.
Unset Strict Implicit.
Unset Printing Implicit Defensive.

(** lines 12-25 *)
Definition BytesPerCommitment : nat := 48.
Definition BytesPerProof : nat := 48.
Definition BytesPerBlob : nat := 2 ^ 17.
Definition CellsPerExtBlob : nat := 128.
Definition BytesPerCell : nat := 2048.

Inductive cs_array := ArBlob | ArCell | ArProof | ArCommitment.

(** The exceptions are all of class ArgumentException. *)
Inductive cs_exn :=
| InvalidLength (what : cs_array) (i : nat)
| FromBindings (msg : seq byte)
| UnknownError.

Inductive cs_out (A : Type) := CsReturn (a : A) | CsThrow (e : cs_exn).
Arguments CsThrow {A}.

Section Cs.
Variables (ctx err : Type) (api : rust_api ctx err).
Variable gc : seq ptr -> mem ctx -> mem ctx.
Local Notation cM := (cM ctx).

Definition collect (pinned : seq ptr) : cM unit := fun m => CRet (tt, gc pinned m).

(** [new byte[n]] and an array with given contents *)
Definition new_array (s : seq byte) : cM ptr := alloc (BBytes _ s).
(** [fixed (T* p = array)] for an array of n elements *)
Definition fixed_ptr (n : nat) (p : ptr) : ptr := if n == 0 then Null else p.

(** lines 318-327 [InitializeJaggedArray] *)
Definition initialize_jagged_array (outer_len inner_len : nat) : cM (seq ptr) :=
  cmapM (fun _ => new_array (nseq inner_len "000"%byte)) (iota 0 outer_len).
(** The arrays of the caller. *)
Definition jagged_array (l : seq (seq byte)) : cM (seq ptr) := cmapM new_array l.

(** lines 88-95 and the like: an array with the address of each array *)
Definition pointer_array (ps : seq ptr) : cM ptr :=
  clet p := alloc (BPtrs _ ps) in cret (fixed_ptr (size ps) p).

(** [Marshal.PtrToStringAnsi]: null for null *)
Definition load_msg (m : mem ctx) (p : ptr) : option (seq byte) :=
  match p with
  | Addr b 0 => match live_block m b with Some (BMsg s) => Some s | _ => None end
  | _ => None
  end.

(** lines 252-276 [ThrowOnError] *)
Definition throw_on_error (r : c_result) : cM (option cs_exn) :=
  match cr_status r with
  | StErr =>
    if is_null (cr_error_msg r) then cret (Some UnknownError) else
    clet msg := cread (fun m => load_msg m (cr_error_msg r)) in
    clet _ := eth_kzg_free_error_message (cr_error_msg r) in
    cret (Some (FromBindings msg))
  | StOk => cret None
  end.

(** The call of [ThrowOnError] and the rest of the method. *)
Definition checked (A : Type) (r : c_result) (k : cM A) : cM (cs_out A) :=
  clet e := throw_on_error r in
  match e with
  | Some e => cret (CsThrow e)
  | None => clet a := k in cret (CsReturn a)
  end.

(** for (int i ..) if (arrays[i].Length != n) throw .. *)
Fixpoint first_bad_length (n : nat) (i : nat) (l : seq (seq byte)) : option nat :=
  match l with
  | [::] => None
  | x :: l => if size x != n then Some i else first_bad_length n i.+1 l
  end.
Definition check_lengths (A : Type) (what : cs_array) (n : nat) (l : seq (seq byte)) (k : cM (cs_out A))
  : cM (cs_out A) :=
  match first_bad_length n 0 l with
  | Some i => cret (CsThrow (InvalidLength what i))
  | None => k
  end.

Definition read_array (n : nat) (p : ptr) : cM (seq byte) := cread (fun m => load_bytes m p n).

(** lines 43-63 [BlobToKzgCommitment] *)
Definition cs_blob_to_kzg_commitment (context : ptr) (blob : seq byte) : cM (cs_out (seq byte)) :=
  if size blob != BytesPerBlob then cret (CsThrow (InvalidLength ArBlob 0)) else
  clet blob_array := new_array blob in
  clet commitment := new_array (nseq BytesPerCommitment "000"%byte) in
  let blob_ptr := fixed_ptr (size blob) blob_array in
  let commitment_ptr := fixed_ptr BytesPerCommitment commitment in
  clet _ := collect [:: blob_ptr; commitment_ptr] in
  clet result := eth_kzg_blob_to_kzg_commitment api context blob_ptr commitment_ptr in
  checked result (read_array BytesPerCommitment commitment).

(** lines 65-110 [ComputeCellsAndKZGProofs] *)
Definition cs_compute_cells_and_kzg_proofs (context : ptr) (blob : seq byte)
  : cM (cs_out (seq (seq byte) * seq (seq byte))) :=
  if size blob != BytesPerBlob then cret (CsThrow (InvalidLength ArBlob 0)) else
  clet blob_array := new_array blob in
  clet out_cells := initialize_jagged_array CellsPerExtBlob BytesPerCell in
  clet out_proofs := initialize_jagged_array CellsPerExtBlob BytesPerProof in
  let blob_ptr := fixed_ptr (size blob) blob_array in
  clet out_cells_ptr := pointer_array [seq fixed_ptr BytesPerCell p | p <- out_cells] in
  clet out_proofs_ptr := pointer_array [seq fixed_ptr BytesPerProof p | p <- out_proofs] in
  clet _ := collect [:: blob_ptr; out_cells_ptr; out_proofs_ptr] in
  clet result := eth_kzg_compute_cells_and_kzg_proofs api context blob_ptr out_cells_ptr out_proofs_ptr in
  checked result (
    clet cells := cmapM (read_array BytesPerCell) out_cells in
    clet proofs := cmapM (read_array BytesPerProof) out_proofs in
    cret (cells, proofs)).

(** lines 112-187 [VerifyCellKZGProofBatch]; [verified] is on the stack *)
Definition cs_verify_cell_kzg_proof_batch (context : ptr) (commitments : seq (seq byte))
  (cell_indices : seq N) (cells proofs : seq (seq byte)) : cM (cs_out bool) :=
  check_lengths ArCell BytesPerCell cells (
  check_lengths ArProof BytesPerCommitment proofs (
  check_lengths ArCommitment BytesPerCommitment commitments (
  clet comm_arrays := jagged_array commitments in
  clet index_array := alloc (BU64s _ cell_indices) in
  clet cell_arrays := jagged_array cells in
  clet proof_arrays := jagged_array proofs in
  clet verified_ptr := alloc (BBool _ false) in
  clet cells_ptr := pointer_array [seq fixed_ptr BytesPerCell p | p <- cell_arrays] in
  clet comm_ptr := pointer_array [seq fixed_ptr BytesPerCommitment p | p <- comm_arrays] in
  clet proofs_ptr := pointer_array [seq fixed_ptr BytesPerCommitment p | p <- proof_arrays] in
  let indices_ptr := fixed_ptr (size cell_indices) index_array in
  clet _ := collect [:: comm_ptr; cells_ptr; proofs_ptr; indices_ptr; verified_ptr] in
  clet result := eth_kzg_verify_cell_kzg_proof_batch api context (size commitments) comm_ptr
    (size cell_indices) indices_ptr (size cells) cells_ptr (size proofs) proofs_ptr verified_ptr in
  checked result (cread (fun m => load_bool m verified_ptr))))).

(** lines 189-250 [RecoverCellsAndKZGProofs] *)
Definition cs_recover_cells_and_kzg_proofs (context : ptr) (cell_ids : seq N) (cells : seq (seq byte))
  : cM (cs_out (seq (seq byte) * seq (seq byte))) :=
  check_lengths ArCell BytesPerCell cells (
  clet id_array := alloc (BU64s _ cell_ids) in
  clet cell_arrays := jagged_array cells in
  clet out_cells := initialize_jagged_array CellsPerExtBlob BytesPerCell in
  clet out_proofs := initialize_jagged_array CellsPerExtBlob BytesPerProof in
  clet input_cells_ptr := pointer_array [seq fixed_ptr BytesPerCell p | p <- cell_arrays] in
  clet out_cells_ptr := pointer_array [seq fixed_ptr BytesPerCell p | p <- out_cells] in
  clet out_proofs_ptr := pointer_array [seq fixed_ptr BytesPerProof p | p <- out_proofs] in
  let ids_ptr := fixed_ptr (size cell_ids) id_array in
  clet _ := collect [:: ids_ptr; input_cells_ptr; out_cells_ptr; out_proofs_ptr] in
  clet result := eth_kzg_recover_cells_and_proofs api context (size cells) input_cells_ptr
    (size cell_ids) ids_ptr out_cells_ptr out_proofs_ptr in
  checked result (
    clet cells := cmapM (read_array BytesPerCell) out_cells in
    clet proofs := cmapM (read_array BytesPerProof) out_proofs in
    cret (cells, proofs))).

(** ** The object: its field [_context] *)

(** lines 29-32, the constructor *)
Definition cs_new (use_precomp : bool) (num_threads : N) : cM ptr :=
  eth_kzg_das_context_new api use_precomp num_threads.

(** lines 34-41 [Dispose]; the result is the new value of the field *)
Definition cs_dispose (context : ptr) : cM ptr :=
  if ~~ is_null context then
    clet _ := eth_kzg_das_context_free context in cret Null
  else cret context.

Inductive cs_method :=
| Dispose
| BlobToKzgCommitment (blob : seq byte)
| ComputeCellsAndKZGProofs (blob : seq byte)
| VerifyCellKZGProofBatch (commitments : seq (seq byte)) (cell_indices : seq N) (cells proofs : seq (seq byte))
| RecoverCellsAndKZGProofs (cell_ids : seq N) (cells : seq (seq byte)).

Inductive cs_value :=
| CsVoid | CsBytes (b : seq byte) | CsArrays (cells proofs : seq (seq byte)) | CsBool (b : bool).

Definition cs_map (A : Type) (context : ptr) (f : A -> cs_value) (x : cM (cs_out A)) : cM (ptr * cs_out cs_value) :=
  clet r := x in
  cret (context, match r with CsReturn a => CsReturn (f a) | CsThrow e => CsThrow e end).

Definition cs_exec (context : ptr) (method : cs_method) : cM (ptr * cs_out cs_value) :=
  match method with
  | Dispose => clet context := cs_dispose context in cret (context, CsReturn CsVoid)
  | BlobToKzgCommitment blob => cs_map context CsBytes (cs_blob_to_kzg_commitment context blob)
  | ComputeCellsAndKZGProofs blob =>
      cs_map context (fun cp => CsArrays cp.1 cp.2) (cs_compute_cells_and_kzg_proofs context blob)
  | VerifyCellKZGProofBatch commitments cell_indices cells proofs =>
      cs_map context CsBool (cs_verify_cell_kzg_proof_batch context commitments cell_indices cells proofs)
  | RecoverCellsAndKZGProofs cell_ids cells =>
      cs_map context (fun cp => CsArrays cp.1 cp.2) (cs_recover_cells_and_kzg_proofs context cell_ids cells)
  end.

(** A program: methods called one after the other on one object. *)
Fixpoint cs_run (context : ptr) (methods : seq cs_method) : cM (ptr * seq (cs_out cs_value)) :=
  match methods with
  | [::] => cret (context, [::])
  | x :: methods =>
    clet cr := cs_exec context x in
    clet crs := cs_run cr.1 methods in
    cret (crs.1, cr.2 :: crs.2)
  end.

End Cs.

(** No collection during the methods. *)
Definition no_gc (ctx : Type) : seq ptr -> mem ctx -> mem ctx := fun _ m => m.
