(** Small specification for the Java object. *)

From Coq Require Import NArith.
From mathcomp Require Import ssreflect ssrfun ssrbool eqtype ssrnat seq.
From Verif Require Import Base JavaLife.

Set Implicit Arguments.
Unset Strict Implicit.
Unset Printing Implicit Defensive.

Section Spec.
Variables (A R : Type) (native : A -> R).

Definition is_close (op : java_op A) : bool := if op is OpClose then true else false.

(** One thread: calls work until the first close; afterwards they throw; closing always returns. *)
Fixpoint expected (closed : bool) (ops : seq (java_op A)) : seq (java_result R) :=
  match ops with
  | [::] => [::]
  | OpClose :: ops => RClosed R :: expected true ops
  | OpCall a :: ops => (if closed then RIllegalState R else RValue (native a)) :: expected closed ops
  end.

(** The object holds a context that is allocated, once. *)
Definition fresh_object (o : object) : Prop :=
  [/\ (context_ptr o <> 0)%num, context_ptr o \in live o & uniq (live o)].

Definition idle (t : thread A R) : bool := if pc t is Idle then true else false.

(** Operations exclude each other: a thread takes a step only when no other thread is inside an
    operation, as if each method took the lock of the object. *)
Fixpoint exclusive (sched : seq nat) (o : object) (ts : seq (thread A R)) : Prop :=
  match sched with
  | [::] => True
  | i :: sched =>
    (forall j, j <> i -> idle (nth (idle_thread A R) ts j)) /\
    match tstep native o (nth (idle_thread A R) ts i) with
    | TNext o t => exclusive sched o (set_nth (idle_thread A R) ts i t)
    | TFinished => exclusive sched o ts
    | TFault _ => True
    end
  end.

(** Calls may overlap, but a close starts only when no other thread is inside an operation, and no operation starts
    while another thread is in a close: as with a lock for readers and writers. *)
Definition in_close (t : thread A R) : bool :=
  match pc t with DLoad | DFree _ | DStore => true | _ => false end.
Definition may_step (ts : seq (thread A R)) (i : nat) : Prop :=
  let t := nth (idle_thread A R) ts i in
  idle t ->
  match todo t with
  | [::] => True
  | OpClose :: _ => forall j, j <> i -> idle (nth (idle_thread A R) ts j)
  | OpCall _ :: _ => forall j, j <> i -> ~~ in_close (nth (idle_thread A R) ts j)
  end.
Fixpoint readers_writer (sched : seq nat) (o : object) (ts : seq (thread A R)) : Prop :=
  match sched with
  | [::] => True
  | i :: sched =>
    may_step ts i /\
    match tstep native o (nth (idle_thread A R) ts i) with
    | TNext o t => readers_writer sched o (set_nth (idle_thread A R) ts i t)
    | TFinished => readers_writer sched o ts
    | TFault _ => True
    end
  end.

Definition safe (r : run_result A R) : Prop := if r is RunOk _ _ then True else False.
(** Inside the native function *)
Definition in_native_call (t : thread A R) : bool := if pc t is CLeave _ _ then true else false.

(** A result that the operation may have; a thread that was given [ops] has results of the operations that it has
    finished, in order, is in the next one or outside, and has the others to do. *)
Definition answers (op : java_op A) (r : java_result R) : Prop :=
  match op, r with
  | OpClose, RClosed => True
  | OpCall a, RValue v => v = native a
  | OpCall _, RIllegalState => True
  | _, _ => False
  end.
Definition now (t : thread A R) : seq (java_op A) :=
  match pc t with
  | Idle => [::]
  | DLoad | DFree _ | DStore => [:: OpClose A]
  | CLoad a | CEnter _ a | CLeave _ a => [:: OpCall a]
  end.
Definition answered (ok : java_op A -> java_result R -> Prop) (ops : seq (java_op A)) (t : thread A R) : Prop :=
  exists before, ops = before ++ now t ++ todo t /\ List.Forall2 ok before (done t).
(** The result of a call on an open object *)
Definition is_value (op : java_op A) (r : java_result R) : Prop :=
  exists a, op = OpCall a /\ r = RValue (native a).
End Spec.
