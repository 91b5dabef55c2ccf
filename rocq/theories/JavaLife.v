(** Model of the life cycle of a LibEthKZG object
    (/repo/bindings/java/java_code/src/main/java/ethereum/cryptography/LibEthKZG.java) used by any
    number of threads.

    The unit of interleaving is one read or write of the field [contextPtr], or the start or the end
    of a native call. Reads and writes are sequentially consistent: the field is neither volatile nor
    guarded, so Java allows more behaviours than these.

    A native call other than [DASContextDestroy] uses the context from its start to its end; its
    result is [native a] for the arguments [a] (see Managed.v). *)

From Coq Require Import NArith.
From mathcomp Require Import ssreflect ssrfun ssrbool eqtype ssrnat seq.
From Verif Require Import Base.

Set Implicit Arguments.
Unset Strict Implicit.
Unset Printing Implicit Defensive.

Section Java.
Variables (A R : Type) (native : A -> R).

(** What a thread does with the object: lines 66-79 [close] and [destroy] are the same, the four
    methods of lines 93-135 only differ in the native function. *)
Inductive java_op := OpClose | OpCall (a : A).

Inductive java_result := RClosed | RValue (r : R) | RIllegalState.

(** Where a thread is:
    [DLoad], [DFree], [DStore]: in [destroy], lines 75-77, about to read the argument, to enter
    DASContextDestroy and to write zero;
    [CLoad], [CEnter], [CLeave]: in a method, after the check, about to read the argument, to enter
    the native function, and in the native function. *)
Inductive java_pc :=
| Idle
| DLoad | DFree (p : N) | DStore
| CLoad (a : A) | CEnter (p : N) (a : A) | CLeave (p : N) (a : A).

Record thread := MkThread { todo : seq java_op; pc : java_pc; done : seq java_result }.

(** The field of the object, and the addresses of the contexts that are allocated. *)
Record object := MkObject { context_ptr : N; live : seq N }.

Inductive fault := NullContext | FreedContext | DoubleFree.

Inductive tstep_result := TNext (o : object) (t : thread) | TFault (f : fault) | TFinished.

(** A native function dereferences the address it is given, rust_code/src/lib.rs lines 37, 66, 97, 147. *)
Definition deref (o : object) (p : N) (k : tstep_result) : tstep_result :=
  if (p =? 0)%num then TFault NullContext else if p \in live o then k else TFault FreedContext.

(** rust_code/src/lib.rs lines 22-28, c/src/lib.rs [eth_kzg_das_context_free]: nothing for null *)
Definition native_destroy (o : object) (p : N) (k : object -> tstep_result) : tstep_result :=
  if (p =? 0)%num then k o
  else if p \in live o then k (MkObject (context_ptr o) (rem p (live o))) else TFault DoubleFree.

Definition tstep (o : object) (t : thread) : tstep_result :=
  let goto pc := MkThread (todo t) pc (done t) in
  let return_ ops r := MkThread ops Idle (rcons (done t) r) in
  match pc t with
  | Idle =>
    match todo t with
    | [::] => TFinished
    | OpClose :: ops =>                                  (* line 75 *)
      TNext o (if (context_ptr o =? 0)%num then return_ ops RClosed else MkThread ops DLoad (done t))
    | OpCall a :: ops =>                                 (* lines 81-85 *)
      TNext o (if (context_ptr o =? 0)%num then return_ ops RIllegalState else MkThread ops (CLoad a) (done t))
    end
  | DLoad => TNext o (goto (DFree (context_ptr o)))      (* line 76 *)
  | DFree p => native_destroy o p (fun o => TNext o (goto DStore))
  | DStore => TNext (MkObject 0 (live o)) (return_ (todo t) RClosed)    (* line 77 *)
  | CLoad a => TNext o (goto (CEnter (context_ptr o) a)) (* line 95 and the like *)
  | CEnter p a => deref o p (TNext o (goto (CLeave p a)))
  | CLeave p a => deref o p (TNext o (return_ (todo t) (RValue (native a))))
  end.

Inductive run_result := RunOk (o : object) (ts : seq thread) | RunFault (f : fault).

Definition idle_thread : thread := MkThread [::] Idle [::].

(** The scheduler picks a thread; a finished one stays as it is. *)
Fixpoint run (sched : seq nat) (o : object) (ts : seq thread) : run_result :=
  match sched with
  | [::] => RunOk o ts
  | i :: sched =>
    match tstep o (nth idle_thread ts i) with
    | TNext o t => run sched o (set_nth idle_thread ts i t)
    | TFinished => run sched o ts
    | TFault f => RunFault f
    end
  end.

Definition start (ops : seq java_op) : thread := MkThread ops Idle [::].

End Java.
