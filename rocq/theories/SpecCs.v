(** Specification of the C# object: what each method does, in terms of the Rust library. *)

From Coq Require Import NArith Init.Byte.
From mathcomp Require Import ssreflect ssrfun ssrbool eqtype ssrnat seq.
From Verif Require Import Base Bytes CMem CApi SpecC CsApi.

Set Implicit Arguments.
Unset Strict Implicit.
Unset Printing Implicit Defensive.

(** Index i is the first whose array does not have n bytes. *)
Definition first_wrong (n : nat) (l : seq (seq byte)) (i : nat) : Prop :=
  i < size l /\ size (nth [::] l i) <> n /\ forall j, j < i -> size (nth [::] l j) = n.
Definition all_right (n : nat) (l : seq (seq byte)) : Prop :=
  forall i, i < size l -> size (nth [::] l i) = n.

(** What a method does on an object whose context is live. *)
Inductive cs_effect := EReturn (v : cs_value) | EThrow (e : cs_exn) | EAbort.

Section Spec.
Variables (ctx err : Type) (api : rust_api ctx err).

(** A result of the library: a value, an ArgumentException with the message, or, if it panics, the
    end of the process. *)
Definition from_native (A : Type) (f : A -> cs_value) (r : outcome (result A err)) : cs_effect :=
  match r with
  | Ret (Ok a) => EReturn (f a)
  | Ret (Err e) => EThrow (FromBindings (ra_debug api e))
  | Panic => EAbort
  end.
Definition from_verdict (r : outcome (result unit err)) : cs_effect :=
  match r with
  | Ret (Ok _) => EReturn (CsBool true)
  | Ret (Err e) => if ra_invalid_proof api e then EReturn (CsBool false)
                   else EThrow (FromBindings (ra_debug api e))
  | Panic => EAbort
  end.

(** The methods: [state] is the context, or None once disposed. *)
Inductive cs_behaves (state : option ctx) : cs_method -> cs_effect -> Prop :=
| BDispose : cs_behaves state Dispose (EReturn CsVoid)
| BBlobLength blob : size blob <> 2 ^ 17 ->
    cs_behaves state (BlobToKzgCommitment blob) (EThrow (InvalidLength ArBlob 0))
| BComputeLength blob : size blob <> 2 ^ 17 ->
    cs_behaves state (ComputeCellsAndKZGProofs blob) (EThrow (InvalidLength ArBlob 0))
| BVerifyCell coms ids cells proofs i : first_wrong 2048 cells i ->
    cs_behaves state (VerifyCellKZGProofBatch coms ids cells proofs) (EThrow (InvalidLength ArCell i))
| BVerifyProof coms ids cells proofs i : all_right 2048 cells -> first_wrong 48 proofs i ->
    cs_behaves state (VerifyCellKZGProofBatch coms ids cells proofs) (EThrow (InvalidLength ArProof i))
| BVerifyCommitment coms ids cells proofs i : all_right 2048 cells -> all_right 48 proofs ->
    first_wrong 48 coms i ->
    cs_behaves state (VerifyCellKZGProofBatch coms ids cells proofs) (EThrow (InvalidLength ArCommitment i))
| BRecoverCell ids cells i : first_wrong 2048 cells i ->
    cs_behaves state (RecoverCellsAndKZGProofs ids cells) (EThrow (InvalidLength ArCell i))
| BBlob blob : size blob = 2 ^ 17 ->
    cs_behaves state (BlobToKzgCommitment blob)
      (if state is Some c then from_native CsBytes (ra_blob_to_kzg_commitment api c blob) else EAbort)
| BCompute blob : size blob = 2 ^ 17 ->
    cs_behaves state (ComputeCellsAndKZGProofs blob)
      (if state is Some c then from_native (fun cp => CsArrays cp.1 cp.2) (ra_compute api c blob) else EAbort)
| BVerify coms ids cells proofs : all_right 2048 cells -> all_right 48 proofs -> all_right 48 coms ->
    cs_behaves state (VerifyCellKZGProofBatch coms ids cells proofs)
      (if state is Some c then from_verdict (ra_verify api c coms ids cells proofs) else EAbort)
| BRecover ids cells : all_right 2048 cells ->
    cs_behaves state (RecoverCellsAndKZGProofs ids cells)
      (if state is Some c then from_native (fun cp => CsArrays cp.1 cp.2) (ra_recover api c ids cells) else EAbort).

Definition after (state : option ctx) (x : cs_method) : option ctx := if x is Dispose then None else state.

(** A program: the results in order; it ends early when the process aborts. *)
Inductive cs_program : option ctx -> seq cs_method -> seq (cs_out cs_value) -> bool -> Prop :=
| PEnd state : cs_program state [::] [::] false
| PReturn state x xs v rs aborted : cs_behaves state x (EReturn v) ->
    cs_program (after state x) xs rs aborted -> cs_program state (x :: xs) (CsReturn v :: rs) aborted
| PThrow state x xs e rs aborted : cs_behaves state x (EThrow e) ->
    cs_program (after state x) xs rs aborted -> cs_program state (x :: xs) (CsThrow e :: rs) aborted
| PAbort state x xs : cs_behaves state x EAbort -> cs_program state (x :: xs) [::] true.

(** The contexts and messages in memory are the same. *)
Definition same_native (m m' : mem ctx) : Prop :=
  forall b blk, ~~ caller_block blk -> is_block m' b blk <-> is_block m b blk.

(** A collector: contexts, messages and pinned arrays stay where they are, and no context or message
    appears. Anything else may move, which leaves nothing at the old address. *)
Definition collector (gc : seq ptr -> mem ctx -> mem ctx) : Prop :=
  forall pinned m,
    (forall b blk, is_block m b blk -> ~~ caller_block blk \/ Addr b 0 \in pinned ->
       is_block (gc pinned m) b blk) /\
    (forall b blk, is_block (gc pinned m) b blk -> ~~ caller_block blk -> is_block m b blk).
End Spec.
