(** Small specification for the C# object. *)

From Coq Require Import NArith.
From mathcomp Require Import ssreflect ssrfun ssrbool eqtype ssrnat seq.
From Verif Require Import Base CsLife.

Set Implicit Arguments.
Unset Strict Implicit.
Unset Printing Implicit Defensive.

Section Spec.
Variables (A R : Type) (early : A -> option R) (native : A -> R).
Local Notation none := (cs_none A R).

Definition is_dispose (op : cs_op A) : bool := if op is CsDispose then true else false.
(** The object holds a context that is allocated, once. *)
Definition cs_fresh (o : cs_object) : Prop :=
  [/\ (cs_context o <> 0)%num, cs_context o \in cs_live o & uniq (cs_live o)].

Definition outside (t : cs_thread A R) : bool := if cs_at t is Outside then true else false.
Definition in_native (t : cs_thread A R) : bool := if cs_at t is InCall _ _ then true else false.
Definition in_dispose (t : cs_thread A R) : bool :=
  match cs_at t with AtFree | InFree _ | AtStore => true | _ => false end.

(** Calls may overlap, but Dispose starts only when no other thread is inside a method, and no method starts while
    another thread is in Dispose. *)
Definition cs_may_step (ts : seq (cs_thread A R)) (i : nat) : Prop :=
  outside (nth none ts i) ->
  match cs_todo (nth none ts i) with
  | [::] => True
  | CsDispose :: _ => forall j, j <> i -> outside (nth none ts j)
  | CsCall _ :: _ => forall j, j <> i -> ~~ in_dispose (nth none ts j)
  end.
Fixpoint dispose_excludes (sched : seq nat) (o : cs_object) (ts : seq (cs_thread A R)) : Prop :=
  match sched with
  | [::] => True
  | i :: sched =>
    cs_may_step ts i /\
    match cs_step early native o (nth none ts i) with
    | CsNext o t => dispose_excludes sched o (set_nth none ts i t)
    | CsFinished => dispose_excludes sched o ts
    | CsFault _ => True
    end
  end.

(** No call that passes the checks starts after a Dispose has returned. *)
Definition has_disposed (t : cs_thread A R) : bool := has (fun r => if r is CsDisposed then true else false) (cs_results t).
Definition cs_in_time (ts : seq (cs_thread A R)) (i : nat) : Prop :=
  match cs_at (nth none ts i), cs_todo (nth none ts i) with
  | Outside, CsCall a :: _ => early a = None -> forall j, ~~ has_disposed (nth none ts j)
  | _, _ => True
  end.
Fixpoint calls_in_time (sched : seq nat) (o : cs_object) (ts : seq (cs_thread A R)) : Prop :=
  match sched with
  | [::] => True
  | i :: sched =>
    cs_in_time ts i /\
    match cs_step early native o (nth none ts i) with
    | CsNext o t => calls_in_time sched o (set_nth none ts i t)
    | CsFinished => calls_in_time sched o ts
    | CsFault _ => True
    end
  end.

(** What each operation returns; a thread that was given [ops] has the results of those it has finished, in order, is in
    the next one or outside, and has the others to do. *)
Definition result_of (op : cs_op A) : cs_done R :=
  match op with CsDispose => CsDisposed R | CsCall a => CsValue (if early a is Some r then r else native a) end.
Definition current (t : cs_thread A R) : seq (cs_op A) :=
  match cs_at t with
  | Outside => [::]
  | AtFree | InFree _ | AtStore => [:: CsDispose A]
  | AtCall _ a | InCall _ a => [:: CsCall a]
  end.
Definition in_order (ops : seq (cs_op A)) (t : cs_thread A R) : Prop :=
  exists before, ops = before ++ current t ++ cs_todo t /\ cs_results t = map result_of before.

(** No call that passes the checks comes after a Dispose. *)
Fixpoint none_after_dispose (disposed : bool) (ops : seq (cs_op A)) : bool :=
  match ops with
  | [::] => true
  | CsDispose :: ops => none_after_dispose true ops
  | CsCall a :: ops => (~~ disposed || early a) && none_after_dispose disposed ops
  end.
End Spec.
