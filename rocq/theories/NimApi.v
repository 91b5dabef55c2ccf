(** Model of /repo/bindings/nim/nim_code/nim_eth_kzg/nim_eth_kzg.nim over the memory of CMem.v.

    A value of type Blob, Cell, Bytes48 or CellsAndProofs is bytes in a row, and so is an openArray of
    them; the arguments of a caller are put into memory at the start of a procedure. A statement list
    expression opens no scope in Nim, so the sequence that the template [toPtrPtr] declares lives until
    the procedure returns. What is local to a procedure stays in memory here when it returns. *)

From Coq Require Import NArith Init.Byte.
From mathcomp Require Import ssreflect ssrfun ssrbool eqtype ssrnat seq.
From Verif Require Import Base Bytes CMem CApi.

Set Implicit Arguments.
Unset Strict Implicit.
Unset Printing Implicit Defensive.

(** lines 10-15 *)
Definition NIM_CELLS_PER_EXT_BLOB : nat := 128.
Definition NIM_BYTES_PER_CELL : nat := 2048.
(** line 19 *)
Definition NIM_BYTES48 : nat := 48.

Inductive nim_result (A : Type) := NimOk (a : A) | NimErr (msg : seq byte).
Arguments NimErr {A}.

Section Nim.
Variables (ctx err : Type) (api : rust_api ctx err).
(** [$] on a value of type CResult (header.nim lines 15-17). The field [xerror_msg] is of type
    [pointer]: what it points to is not part of the text. *)
Variable dollar : c_result -> seq byte.
Local Notation cM := (cM ctx).

(** lines 45-50 [safeGetPtr] *)
Definition safe_get_ptr (len : nat) (first : ptr) : ptr := if 0 < len then first else Null.

(** The addresses of n values of w bytes each, from p. *)
Definition item_ptrs (w n : nat) (p : ptr) : seq ptr :=
  match p with
  | Null => nseq n Null
  | Addr b off => [seq Addr b (off + i * w) | i <- iota 0 n]
  end.

(** lines 54-64 [toPtrPtr] *)
Definition to_ptr_ptr (w n : nat) (p : ptr) : cM ptr :=
  clet ptr_seq := alloc (BPtrs _ (item_ptrs w n p)) in
  cret (safe_get_ptr n ptr_seq).

(** lines 66-71 [verify_result] *)
Definition verify_result (A : Type) (res : c_result) (ret : cM A) : cM (nim_result A) :=
  match cr_status res with
  | StErr =>
    let error_msg := dollar res in
    clet _ := eth_kzg_free_error_message (cr_error_msg res) in
    cret (NimErr error_msg)
  | StOk => clet a := ret in cret (NimOk a)
  end.

(** Reading variables. *)
Definition get_bytes (n : nat) (p : ptr) : cM (seq byte) := cread (fun m => load_bytes m p n).
Definition get_items (w n : nat) (p : ptr) : cM (seq (seq byte)) := cmapM (get_bytes w) (item_ptrs w n p).

(** A parameter of type openArray, and its address *)
Definition open_array (items : seq (seq byte)) : cM ptr := alloc (BBytes _ (flatten items)).

(** lines 34-36, a variable of type CellsAndProofs: the addresses of its two fields *)
Definition cells_and_proofs_var : cM (ptr * ptr) :=
  let cells_size := NIM_CELLS_PER_EXT_BLOB * NIM_BYTES_PER_CELL in
  let proofs_size := NIM_CELLS_PER_EXT_BLOB * NIM_BYTES48 in
  clet p := alloc (BBytes _ (nseq (cells_size + proofs_size) "000"%byte)) in
  cret (p, if p is Addr b off then Addr b (off + cells_size) else Null).

(** lines 93-103 [blobToKZGCommitment] *)
Definition nim_blob_to_kzg_commitment (ctx_ptr : ptr) (blob : seq byte) : cM (nim_result (seq byte)) :=
  clet blob := alloc (BBytes _ blob) in
  clet ret := alloc (BBytes _ (nseq NIM_BYTES48 "000"%byte)) in
  clet res := eth_kzg_blob_to_kzg_commitment api ctx_ptr blob ret in
  verify_result res (get_bytes NIM_BYTES48 ret).

(** lines 105-119 [computeCellsAndProofs] *)
Definition nim_compute_cells_and_proofs (ctx_ptr : ptr) (blob : seq byte)
  : cM (nim_result (seq (seq byte) * seq (seq byte))) :=
  clet blob := alloc (BBytes _ blob) in
  clet ret := cells_and_proofs_var in
  clet out_cells_ptr := to_ptr_ptr NIM_BYTES_PER_CELL NIM_CELLS_PER_EXT_BLOB ret.1 in
  clet out_proofs_ptr := to_ptr_ptr NIM_BYTES48 NIM_CELLS_PER_EXT_BLOB ret.2 in
  clet res := eth_kzg_compute_cells_and_kzg_proofs api ctx_ptr blob out_cells_ptr out_proofs_ptr in
  verify_result res (
    clet cells := get_items NIM_BYTES_PER_CELL NIM_CELLS_PER_EXT_BLOB ret.1 in
    clet proofs := get_items NIM_BYTES48 NIM_CELLS_PER_EXT_BLOB ret.2 in
    cret (cells, proofs)).

(** lines 121-148 [verifyCellKZGProofBatch] *)
Definition nim_verify_cell_kzg_proof_batch (ctx_ptr : ptr) (commitments : seq (seq byte))
  (cell_indices : seq N) (cells proofs : seq (seq byte)) : cM (nim_result bool) :=
  clet commitments_var := open_array commitments in
  clet indices_var := alloc (BU64s _ cell_indices) in
  clet cells_var := open_array cells in
  clet proofs_var := open_array proofs in
  clet valid := alloc (BBool _ false) in
  clet cells_ptr := to_ptr_ptr NIM_BYTES_PER_CELL (size cells) cells_var in
  clet proofs_ptr := to_ptr_ptr NIM_BYTES48 (size proofs) proofs_var in
  clet commitments_ptr := to_ptr_ptr NIM_BYTES48 (size commitments) commitments_var in
  clet res := eth_kzg_verify_cell_kzg_proof_batch api ctx_ptr (size commitments) commitments_ptr
    (size cell_indices) (safe_get_ptr (size cell_indices) indices_var)
    (size cells) cells_ptr (size proofs) proofs_ptr valid in
  verify_result res (cread (fun m => load_bool m valid)).

(** lines 150-173 [recoverCellsAndProofs] *)
Definition nim_recover_cells_and_proofs (ctx_ptr : ptr) (cell_ids : seq N) (cells : seq (seq byte))
  : cM (nim_result (seq (seq byte) * seq (seq byte))) :=
  clet ids_var := alloc (BU64s _ cell_ids) in
  clet cells_var := open_array cells in
  clet ret := cells_and_proofs_var in
  clet out_cells_ptr := to_ptr_ptr NIM_BYTES_PER_CELL NIM_CELLS_PER_EXT_BLOB ret.1 in
  clet out_proofs_ptr := to_ptr_ptr NIM_BYTES48 NIM_CELLS_PER_EXT_BLOB ret.2 in
  clet input_cells_ptr := to_ptr_ptr NIM_BYTES_PER_CELL (size cells) cells_var in
  clet res := eth_kzg_recover_cells_and_proofs api ctx_ptr (size cells) input_cells_ptr
    (size cell_ids) (safe_get_ptr (size cell_ids) ids_var) out_cells_ptr out_proofs_ptr in
  verify_result res (
    clet cells := get_items NIM_BYTES_PER_CELL NIM_CELLS_PER_EXT_BLOB ret.1 in
    clet proofs := get_items NIM_BYTES48 NIM_CELLS_PER_EXT_BLOB ret.2 in
    cret (cells, proofs)).

(** lines 83-85, the destructor of the object behind the reference; Nim runs it once, when the last
    reference goes *)
Definition nim_destroy (ctx_ptr : ptr) : cM unit :=
  if ~~ is_null ctx_ptr then eth_kzg_das_context_free ctx_ptr else cret tt.

(** lines 87-90 [newKZGCtx] *)
Definition new_kzg_ctx (use_precomp : bool) (num_threads : N) : cM ptr :=
  eth_kzg_das_context_new api use_precomp num_threads.

Inductive nim_call :=
| NimCommit (blob : seq byte)
| NimCompute (blob : seq byte)
| NimVerify (commitments : seq (seq byte)) (cell_indices : seq N) (cells proofs : seq (seq byte))
| NimRecover (cell_ids : seq N) (cells : seq (seq byte)).

Inductive nim_value :=
| NimBytes (b : seq byte) | NimArrays (cells proofs : seq (seq byte)) | NimBool (b : bool).

Definition nim_map (A : Type) (f : A -> nim_value) (x : cM (nim_result A)) : cM (nim_result nim_value) :=
  clet r := x in
  cret (match r with NimOk a => NimOk (f a) | NimErr e => NimErr e end).

Definition nim_exec (ctx_ptr : ptr) (call : nim_call) : cM (nim_result nim_value) :=
  match call with
  | NimCommit blob => nim_map NimBytes (nim_blob_to_kzg_commitment ctx_ptr blob)
  | NimCompute blob => nim_map (fun cp => NimArrays cp.1 cp.2) (nim_compute_cells_and_proofs ctx_ptr blob)
  | NimVerify commitments cell_indices cells proofs =>
      nim_map NimBool (nim_verify_cell_kzg_proof_batch ctx_ptr commitments cell_indices cells proofs)
  | NimRecover cell_ids cells =>
      nim_map (fun cp => NimArrays cp.1 cp.2) (nim_recover_cells_and_proofs ctx_ptr cell_ids cells)
  end.

(** A program: a context is made, calls are made, and the reference goes. *)
Definition nim_program (use_precomp : bool) (num_threads : N) (calls : seq nim_call)
  : cM (seq (nim_result nim_value)) :=
  clet ctx_ptr := new_kzg_ctx use_precomp num_threads in
  clet results := cmapM (nim_exec ctx_ptr) calls in
  clet _ := nim_destroy ctx_ptr in
  cret results.
End Nim.
