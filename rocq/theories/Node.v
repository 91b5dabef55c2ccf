(** Model of the methods of DASContextJs with the arrays of JavaScript, synchronous and asynchronous:
    /repo/bindings/node/src/lib.rs lines 88-277. The conversions are those of Managed.v.

    The memory is a list of ArrayBuffers. A Uint8Array is a part of one of them, so that arrays may
    overlap. Buffers are neither resized nor detached, and nothing is collected. napi gives Rust the
    memory of the array itself, not a copy, both to the synchronous methods and to the asynchronous
    ones; an asynchronous method runs on a worker thread while JavaScript goes on, and the conversion
    of its result to new arrays happens on the thread of JavaScript. One read of an array by the
    worker is one step. The number of worker threads is not limited. What becomes of the promise of
    a worker that panics is not modelled: its task stays where it is. *)

From Coq Require Import ZArith NArith Init.Byte Strings.Byte Strings.String DecimalString.
From mathcomp Require Import ssreflect ssrfun ssrbool eqtype ssrnat seq.
From Verif Require Import Base Bytes Eip7594 CApi Managed Jni.

Set Implicit Arguments.
Unset Strict Implicit.
Unset Printing Implicit Defensive.

(** ** JavaScript memory *)
Definition jsmem := seq (seq byte).
Record view := MkView { v_buffer : nat; v_offset : nat; v_length : nat }.

Definition vread (m : jsmem) (v : view) : option (seq byte) :=
  if oget m (v_buffer v) is Some b then
    if v_offset v + v_length v <= size b then Some (take (v_length v) (drop (v_offset v) b)) else None
  else None.
(** [new Uint8Array(buffer, offset).set(b)] *)
Definition vwrite (m : jsmem) (buffer offset : nat) (b : seq byte) : option jsmem :=
  if oget m buffer is Some old then
    if offset + size b <= size old then
      Some (replace_at m buffer (take offset old ++ b ++ drop (offset + size b) old))
    else None
  else None.

(** ** Calls: the arguments of the five methods, with arrays given by [A] *)
Inductive request (A : Type) :=
| Commit (blob : A)
| Compute (blob : A)
| ComputeCells (blob : A)
| Recover (cell_indices : seq Z) (cells : seq A)
| Verify (commitments : seq A) (cell_indices : seq Z) (cells proofs : seq A).
Arguments Commit {A}.
Arguments Compute {A}.
Arguments ComputeCells {A}.
Arguments Recover {A}.
Arguments Verify {A}.

Definition arrays_of (A : Type) (r : request A) : seq A :=
  match r with
  | Commit b | Compute b | ComputeCells b => [:: b]
  | Recover _ cells => cells
  | Verify coms _ cells proofs => coms ++ cells ++ proofs
  end.

(** What a method gives, before it becomes JavaScript: a value, or the message of an error *)
Inductive reply :=
| RBytes (b : seq byte)
| RCellsAndProofs (cells proofs : seq (seq byte))
| RCells (cells : seq (seq byte))
| RBool (b : bool)
| RError (msg : seq byte).

Section Node.
Variables (ctx err : Type) (api : rust_api ctx err) (c : ctx).
Local Notation str := list_byte_of_string.

(** lines 266-277 [slice_to_array_ref], and the messages of lines 95-98, 117-120, 177-181 and 236-239;
    the text of TryFromSliceError *)
Definition node_reason (func : string) (e : managed_error err) : seq byte :=
  match e with
  | IncorrectSize n got name =>
      str (name_text name) ++ str " must have size " ++ decimal n ++ str ", found size " ++ decimal got ++
      newline ++ str " err:could not convert slice to array"
  | Cryptography e => str ("failed to compute " ++ func ++ ": ") ++ ra_debug api e
  end.

Definition answered (A : Type) (func : string) (f : A -> reply) (r : outcome (result A (managed_error err)))
  : outcome reply :=
  omap (fun r => match r with Ok a => f a | Err e => RError (node_reason func e) end) r.

(** lines 88-241: the methods as functions of the bytes that they read *)
Definition respond (r : request (seq byte)) : outcome reply :=
  match r with
  | Commit blob => answered "blob_to_kzg_commitment" RBytes (node_blob_to_kzg_commitment api c blob)
  | Compute blob =>
      answered "compute_cells_and_kzg_proofs" (fun cp => RCellsAndProofs cp.1 cp.2)
        (node_compute_cells_and_kzg_proofs api c blob)
  | ComputeCells blob => answered "compute_cells_and_kzg_proofs" RCells (node_compute_cells api c blob)
  | Recover ids cells =>
      answered "recover_cells_and_kzg_proofs" (fun cp => RCellsAndProofs cp.1 cp.2)
        (node_recover_cells_and_kzg_proofs api c ids cells)
  | Verify coms ids cells proofs =>
      answered "verify_cell_kzg_proof_batch" RBool
        (node_verify_cell_kzg_proof_batch api c coms ids cells proofs)
  end.

(** ** A method as a program that reads arrays *)
Inductive reader :=
| Answer (o : outcome reply)
| Read (v : view) (k : seq byte -> reader).

(** The program run while nothing else happens; [None] if it reads outside a buffer *)
Fixpoint run_reader (m : jsmem) (r : reader) : option (outcome reply) :=
  match r with
  | Answer o => Some o
  | Read v k => if vread m v is Some b then run_reader m (k b) else None
  end.

(** Each array is read once, in the order of the code. *)
Fixpoint read_list (vs : seq view) (k : seq (seq byte) -> reader) : reader :=
  match vs with
  | [::] => k [::]
  | v :: vs => Read v (fun b => read_list vs (fun l => k (b :: l)))
  end.
Definition read_once (r : request view) : reader :=
  match r with
  | Commit v => Read v (fun b => Answer (respond (Commit b)))
  | Compute v => Read v (fun b => Answer (respond (Compute b)))
  | ComputeCells v => Read v (fun b => Answer (respond (ComputeCells b)))
  | Recover ids cells => read_list cells (fun cells => Answer (respond (Recover ids cells)))
  | Verify coms ids cells proofs =>
      read_list coms (fun coms => read_list cells (fun cells => read_list proofs (fun proofs =>
        Answer (respond (Verify coms ids cells proofs)))))
  end.
End Node.

(** ** JavaScript values of results: [Uint8Array::from] makes a new buffer for each array. *)
Inductive answer :=
| AArray (v : view)
| ACellsAndProofs (cells proofs : seq view)
| ACells (cells : seq view)
| ABool (b : bool)
| AThrow (msg : seq byte).     (* an Error is thrown, or the promise is rejected with it *)

Definition new_array (m : jsmem) (b : seq byte) : view * jsmem := (MkView (size m) 0 (size b), rcons m b).
Fixpoint new_arrays (m : jsmem) (l : seq (seq byte)) : seq view * jsmem :=
  match l with
  | [::] => ([::], m)
  | b :: l => let: (v, m) := new_array m b in let: (vs, m) := new_arrays m l in (v :: vs, m)
  end.
Definition deliver (m : jsmem) (r : reply) : answer * jsmem :=
  match r with
  | RBytes b => let: (v, m) := new_array m b in (AArray v, m)
  | RCellsAndProofs cells proofs =>
      let: (vc, m) := new_arrays m cells in
      let: (vp, m) := new_arrays m proofs in
      (ACellsAndProofs vc vp, m)
  | RCells cells => let: (vc, m) := new_arrays m cells in (ACells vc, m)
  | RBool b => (ABool b, m)
  | RError msg => (AThrow msg, m)
  end.

(** A synchronous call; a panic ends the process *)
Definition node_sync (prog : request view -> reader) (m : jsmem) (r : request view)
  : option (outcome (answer * jsmem)) :=
  ssrfun.Option.map (omap (deliver m)) (run_reader m (prog r)).

(** ** Asynchronous calls, lines 103-106, 137-143, 152-155, 198-205 and 243-252. A promise is named by
    its number. *)
Inductive promise :=
| Running (r : reader)
| Finished (r : reply)
| Settled (a : answer).

Record jsst := MkJs { js_mem : jsmem; js_promises : seq promise }.

Inductive event :=
| JAlloc (b : seq byte)                       (* a new ArrayBuffer *)
| JWrite (buffer offset : nat) (b : seq byte) (* JavaScript changes a buffer *)
| JCall (r : request view)                    (* an asynchronous method is called *)
| WRead (p : nat)                             (* the worker of promise [p] reads an array *)
| WFinish (p : nat)                           (* ... has its result *)
| JSettle (p : nat).                          (* the promise is settled *)

Definition exec (prog : request view -> reader) (s : jsst) (e : event) : option jsst :=
  let: MkJs m ps := s in
  match e with
  | JAlloc b => Some (MkJs (rcons m b) ps)
  | JWrite buffer offset b => ssrfun.Option.map (MkJs^~ ps) (vwrite m buffer offset b)
  | JCall r =>
    if all (fun v => vread m v != None) (arrays_of r) then Some (MkJs m (rcons ps (Running (prog r)))) else None
  | WRead p =>
    if oget ps p is Some (Running (Read v k)) then
      if vread m v is Some b then Some (MkJs m (replace_at ps p (Running (k b)))) else None
    else None
  | WFinish p =>
    if oget ps p is Some (Running (Answer (Ret r))) then Some (MkJs m (replace_at ps p (Finished r))) else None
  | JSettle p =>
    if oget ps p is Some (Finished r) then
      let: (a, m) := deliver m r in Some (MkJs m (replace_at ps p (Settled a)))
    else None
  end.

Fixpoint run (prog : request view -> reader) (s : jsst) (es : seq event) : option jsst :=
  match es with
  | [::] => Some s
  | e :: es => if exec prog s e is Some s then run prog s es else None
  end.
