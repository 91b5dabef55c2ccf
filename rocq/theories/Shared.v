(** Model of calls by several threads that share one context and so one thread pool:
    /repo/eip7594/src/lib.rs lines 100-106 (the pool is in the context, behind an Arc) and
    /repo/eip7594/src/macros.rs lines 1-13 (the body of a call runs inside [install]).

    [install] queues the body of the call and blocks the calling thread until a worker has run it. Inside, a
    parallel section is a range of indices as in Rayon.v. A worker that waits for a section may run other jobs in
    the meantime, also the bodies of other calls; these are on its stack above the waiting one, which cannot go on
    before they are done. Each step of any worker is one step; steps are interleaved in any order.

    Simplified: queues are global and any job in them can be taken; after a split the worker does not wait for the
    second part but is free when it has done its own; what a body does between its sections is one step. *)

From mathcomp Require Import ssreflect ssrfun ssrbool eqtype ssrnat seq.
From Verif Require Import Base Rayon.

Set Implicit Arguments.
Unset Strict Implicit.
Unset Printing Implicit Defensive.

Section Shared.
(** What calls return *)
Variable R : Type.

(** The body of a call: it returns or panics, or maps f over xs in parallel and goes on with the results. *)
Inductive call :=
| Return (r : outcome R)
| Par (A B : Type) (f : A -> outcome B) (xs : seq A) (k : seq B -> call).

(** The body as in /repo/maybe_rayon/src/single_threaded.rs, where parallel iterators are the usual ones. *)
Fixpoint eval (c : call) : outcome R :=
  match c with
  | Return r => r
  | Par A B f xs k => olet ys := omapM f xs in eval (k ys)
  end.

(** Where a call is: before its next action, or waiting for the results of a section, of which those in out are
    there and b tells whether one panicked *)
Inductive place :=
| Runs (c : call)
| Waits (A B : Type) (f : A -> outcome B) (xs : seq A) (k : seq B -> call) (out : seq (option B)) (b : bool).
(** A thread that uses the context: it is in no call, or in the call c. *)
Inductive thread := Idle | Busy (c : call) (p : place).

(** Jobs: the body of the call of thread t; a part of the section that thread t waits for *)
Inductive work := Body (t : nat) | Range (t : nat) (j : job).

(** The threads, the queued jobs, the stack of each worker *)
Record state := MkState { st_threads : seq thread; st_queue : seq work; st_workers : seq (seq work) }.

Definition waits (th : thread) : bool := if th is Busy _ (Waits _ _ _ _ _ _ _) then true else false.
(** A worker may take a job if it has none or if its job waits. *)
Definition free (ths : seq thread) (w : seq work) : bool :=
  match w with [::] => true | Body t :: _ => waits (nth Idle ths t) | Range _ _ :: _ => false end.
Definition is_range (t : nat) (w : work) : bool := if w is Range t' _ then t' == t else false.

Inductive event := Started (t : nat) (c : call) | Ended (t : nat) (c : call) (r : outcome R).

Local Notation set ths t x := (set_nth Idle ths t x).
Local Notation pool_out out b := (pool_result (MkPool out [::] [::] b)).

Inductive step : state -> option event -> state -> Prop :=
(** a thread calls: [install] queues the body *)
| StepStart ths q ws t c : t < size ths -> nth Idle ths t = Idle ->
    step (MkState ths q ws) (Some (Started t c)) (MkState (set ths t (Busy c (Runs c))) (rcons q (Body t)) ws)
(** a worker takes any queued job *)
| StepTake ths q1 j q2 w1 w w2 : free ths w ->
    step (MkState ths (q1 ++ j :: q2) (w1 ++ w :: w2)) None (MkState ths (q1 ++ q2) (w1 ++ (j :: w) :: w2))
(** a body comes to a section *)
| StepPar ths q w1 t w w2 c A B (f : A -> outcome B) xs k : nth Idle ths t = Busy c (Runs (Par f xs k)) ->
    step (MkState ths q (w1 ++ (Body t :: w) :: w2)) None
      (MkState (set ths t (Busy c (Waits f xs k (nseq (size xs) None) false))) (Range t (0, size xs) :: q)
         (w1 ++ (Body t :: w) :: w2))
(** as in Rayon.v: a worker splits its part, runs an element, ends *)
| StepSplit ths q w1 t lo mid hi w w2 : lo < mid < hi ->
    step (MkState ths q (w1 ++ (Range t (lo, hi) :: w) :: w2)) None
      (MkState ths (Range t (mid, hi) :: q) (w1 ++ (Range t (lo, mid) :: w) :: w2))
| StepRun ths q w1 t lo hi w w2 c A B (f : A -> outcome B) xs k out b x y :
    nth Idle ths t = Busy c (Waits f xs k out b) -> lo < hi -> aget xs lo = Ret x -> f x = Ret y ->
    step (MkState ths q (w1 ++ (Range t (lo, hi) :: w) :: w2)) None
      (MkState (set ths t (Busy c (Waits f xs k (set_nth None out lo (Some y)) b))) q
         (w1 ++ (Range t (lo.+1, hi) :: w) :: w2))
| StepPanic ths q w1 t lo hi w w2 c A B (f : A -> outcome B) xs k out b x :
    nth Idle ths t = Busy c (Waits f xs k out b) -> lo < hi -> aget xs lo = Ret x -> f x = Panic ->
    step (MkState ths q (w1 ++ (Range t (lo, hi) :: w) :: w2)) None
      (MkState (set ths t (Busy c (Waits f xs k out true))) q (w1 ++ w :: w2))
| StepIdle ths q w1 t lo w w2 :
    step (MkState ths q (w1 ++ (Range t (lo, lo) :: w) :: w2)) None (MkState ths q (w1 ++ w :: w2))
(** after a panic queued parts of the same section may be dropped *)
| StepDrop ths q1 t j q2 ws c A B (f : A -> outcome B) xs k out :
    nth Idle ths t = Busy c (Waits f xs k out true) ->
    step (MkState ths (q1 ++ Range t j :: q2) ws) None (MkState ths (q1 ++ q2) ws)
(** all parts of a section are done: the body goes on, or panics with it *)
| StepJoin ths q w1 t w w2 c A B (f : A -> outcome B) xs k out b :
    nth Idle ths t = Busy c (Waits f xs k out b) ->
    ~~ has (is_range t) (q ++ flatten (w1 ++ (Body t :: w) :: w2)) ->
    step (MkState ths q (w1 ++ (Body t :: w) :: w2)) None
      (MkState (set ths t (Busy c (Runs (if pool_out out b is Ret ys then k ys else Return Panic)))) q
         (w1 ++ (Body t :: w) :: w2))
(** the body is done: the thread gets its result *)
| StepEnd ths q w1 t w w2 c r : nth Idle ths t = Busy c (Runs (Return r)) ->
    step (MkState ths q (w1 ++ (Body t :: w) :: w2)) (Some (Ended t c r)) (MkState (set ths t Idle) q (w1 ++ w :: w2)).

(** n threads and m workers, all without work; the latest event is first *)
Definition init (n m : nat) : state := MkState (nseq n Idle) [::] (nseq m [::]).
Definition log (e : option event) (tr : seq event) : seq event := if e is Some e then e :: tr else tr.
Inductive run (n m : nat) : seq event -> state -> Prop :=
| RunInit : run n m [::] (init n m)
| RunStep tr s e s' : run n m tr s -> step s e s' -> run n m (log e tr) s'.

(** Steps without new calls, with their number and their events *)
Definition starts (e : option event) : bool := if e is Some (Started _ _) then true else false.
Inductive work_on : nat -> seq event -> state -> state -> Prop :=
| WorkRefl s : work_on 0 [::] s s
| WorkStep k tr s s' e s'' : work_on k tr s s' -> step s' e s'' -> ~~ starts e -> work_on k.+1 (log e tr) s s''.
End Shared.

Arguments Idle {R}.
