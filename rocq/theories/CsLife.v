(** Model of the life cycle of an EthKZG object (/repo/bindings/csharp/csharp_code/EthKZG.bindings/ethkzg.cs) used by
    any number of threads.

    The unit of interleaving is one read or write of the field [_context], or the start or the end of a native call.
    Reads and writes are sequentially consistent: the field is neither volatile nor guarded, so C# allows more
    behaviours than these. The methods check the lengths of their arguments before they read the field: [early a] is
    what a method throws that refuses [a] there. A native call uses the context from its start to its end; its result,
    with the conversions of the method, is [native a] for the arguments [a] (see CsApi.v for both). The garbage
    collector has no part: the class has no finalizer. *)

From Coq Require Import NArith.
From mathcomp Require Import ssreflect ssrfun ssrbool eqtype ssrnat seq.
From Verif Require Import Base.

Set Implicit Arguments.
Unset Strict Implicit.
Unset Printing Implicit Defensive.

Section CsLife.
Variables (A R : Type) (early : A -> option R) (native : A -> R).

(** ethkzg.cs lines 34-41 [Dispose]; the four methods of lines 43-250 only differ in the native function. *)
Inductive cs_op := CsDispose | CsCall (a : A).
Inductive cs_done := CsDisposed | CsValue (r : R).

(** Where a thread is:
    [AtFree], [InFree p], [AtStore]: in [Dispose], after the test of line 36, about to read the argument of line 38, to
    enter eth_kzg_das_context_free, and to write null;
    [AtCall p a], [InCall p a]: in a method, about to enter the native function with the pointer it has read, and in it.
    No method tests the pointer. *)
Inductive cs_pc :=
| Outside
| AtFree | InFree (p : N) | AtStore
| AtCall (p : N) (a : A) | InCall (p : N) (a : A).

Record cs_thread := MkCsThread { cs_todo : seq cs_op; cs_at : cs_pc; cs_results : seq cs_done }.
(** The field, and the addresses of the contexts that are allocated *)
Record cs_object := MkCsObject { cs_context : N; cs_live : seq N }.

(** A panic in the library aborts the process; the others are undefined behaviour. *)
Inductive cs_fault := AbortNull | UseAfterFree | FreedTwice.
Inductive cs_next := CsNext (o : cs_object) (t : cs_thread) | CsFault (f : cs_fault) | CsFinished.

(** bindings/c/src/blob_to_kzg_commitment.rs line 11 and the like: assert that the pointer is not null *)
Definition cs_deref (o : cs_object) (p : N) (k : cs_next) : cs_next :=
  if (p =? 0)%num then CsFault AbortNull else if p \in cs_live o then k else CsFault UseAfterFree.
(** bindings/c/src/lib.rs [eth_kzg_das_context_free] lines 98-105: nothing for null *)
Definition cs_free (o : cs_object) (p : N) (k : cs_object -> cs_next) : cs_next :=
  if (p =? 0)%num then k o
  else if p \in cs_live o then k (MkCsObject (cs_context o) (rem p (cs_live o))) else CsFault FreedTwice.

Definition cs_step (o : cs_object) (t : cs_thread) : cs_next :=
  let goto pc := MkCsThread (cs_todo t) pc (cs_results t) in
  let return_ ops r := MkCsThread ops Outside (rcons (cs_results t) r) in
  match cs_at t with
  | Outside =>
    match cs_todo t with
    | [::] => CsFinished
    | CsDispose :: ops =>                                  (* line 36 *)
      CsNext o (if (cs_context o =? 0)%num then return_ ops CsDisposed else MkCsThread ops AtFree (cs_results t))
    | CsCall a :: ops =>
      if early a is Some r then CsNext o (return_ ops (CsValue r))
      else CsNext o (MkCsThread ops (AtCall (cs_context o) a) (cs_results t))   (* lines 57, 106, 183, 245 read *)
    end
  | AtFree => CsNext o (goto (InFree (cs_context o)))      (* line 38 *)
  | InFree p => cs_free o p (fun o => CsNext o (goto AtStore))
  | AtStore => CsNext (MkCsObject 0 (cs_live o)) (return_ (cs_todo t) CsDisposed)    (* line 39 *)
  | AtCall p a => cs_deref o p (CsNext o (goto (InCall p a)))
  | InCall p a => cs_deref o p (CsNext o (return_ (cs_todo t) (CsValue (native a))))
  end.

Inductive cs_run_result := CsRunOk (o : cs_object) (ts : seq cs_thread) | CsRunFault (f : cs_fault).
Definition cs_none : cs_thread := MkCsThread [::] Outside [::].

(** The scheduler picks a thread; a finished one stays as it is. *)
Fixpoint cs_run (sched : seq nat) (o : cs_object) (ts : seq cs_thread) : cs_run_result :=
  match sched with
  | [::] => CsRunOk o ts
  | i :: sched =>
    match cs_step o (nth cs_none ts i) with
    | CsNext o t => cs_run sched o (set_nth cs_none ts i t)
    | CsFinished => cs_run sched o ts
    | CsFault f => CsRunFault f
    end
  end.

Definition cs_start (ops : seq cs_op) : cs_thread := MkCsThread ops Outside [::].
End CsLife.
