(** Model of the loading of the native library in Java,
    /repo/bindings/java/java_code/src/main/java/ethereum/cryptography/LibEthKZG.java lines 29-30 and
    36-63, for any number of threads that construct objects at the same time. The flag is volatile and
    the block is synchronized, so the steps of threads interleave (Java Language Specification 17.4).
    What loadNativeLibrary (lines 170-227) does is one step at which it starts and one at which it
    returns or throws; the call of the native method DASContextNew is one step. *)

From mathcomp Require Import ssreflect ssrfun ssrbool eqtype ssrnat seq.

Set Implicit Arguments.
Unset Strict Implicit.
Unset Printing Implicit Defensive.

(** Where a thread is *)
Inductive pc :=
| Idle            (* in no constructor *)
| First           (* before line 55 *)
| Wait            (* line 56: wants the monitor of libraryLock *)
| Second          (* before line 57, inside the monitor *)
| Before          (* before line 58 *)
| Loading         (* line 58: in loadNativeLibrary *)
| SetFlag         (* before line 59 *)
| Leave           (* at the end of the block, line 61 *)
| Raise           (* leaving the block with the exception of line 58 *)
| Return.         (* after line 63: before line 40 or 51 *)

(** libraryLoaded (line 29), the thread that is in the monitor of libraryLock (line 30), the threads *)
Record state := MkState { loaded : bool; owner : option nat; pcs : nat -> pc }.

(** The program starts with the flag of line 29. *)
Definition init : state := MkState false None (fun=> Idle).

Definition goto (s : state) (t : nat) (p : pc) : state :=
  MkState (loaded s) (owner s) (fun u => if u == t then p else pcs s u).

(** What can be observed of thread t *)
Inductive event :=
| LoadStart (t : nat)               (* loadNativeLibrary is called *)
| LoadEnd (t : nat) (ok : bool)     (* it returns or throws *)
| NativeNew (t : nat)               (* the native method DASContextNew is called *)
| Threw (t : nat).                  (* the constructor throws what loadNativeLibrary threw *)

(** One step of thread t; [o] is the event that it makes. *)
Inductive step (t : nat) : state -> option event -> state -> Prop :=
(* a constructor is called: lines 36-37, 49-50 *)
| StepCall s : pcs s t = Idle -> step t s None (goto s t First)
(* line 55 *)
| StepFirst s : pcs s t = First -> step t s None (goto s t (if ~~ loaded s then Wait else Return))
(* line 56 *)
| StepEnter s : pcs s t = Wait -> owner s = None ->
    step t s None (goto (MkState (loaded s) (Some t) (pcs s)) t Second)
(* line 57 *)
| StepSecond s : pcs s t = Second -> step t s None (goto s t (if ~~ loaded s then Before else Leave))
(* line 58 *)
| StepStart s : pcs s t = Before -> step t s (Some (LoadStart t)) (goto s t Loading)
| StepEnd s ok : pcs s t = Loading -> step t s (Some (LoadEnd t ok)) (goto s t (if ok then SetFlag else Raise))
(* line 59 *)
| StepFlag s : pcs s t = SetFlag -> step t s None (goto (MkState true (owner s) (pcs s)) t Leave)
(* line 61 *)
| StepLeave s : pcs s t = Leave -> step t s None (goto (MkState (loaded s) None (pcs s)) t Return)
| StepRaise s : pcs s t = Raise ->
    step t s (Some (Threw t)) (goto (MkState (loaded s) None (pcs s)) t Idle)
(* lines 40, 51 *)
| StepNew s : pcs s t = Return -> step t s (Some (NativeNew t)) (goto s t Idle).

(** An execution from [s], with its events in order and the threads that made steps *)
Inductive run : state -> seq event -> seq nat -> state -> Prop :=
| RunNil s : run s [::] [::] s
| RunStep s t o s' l ts s'' : step t s o s' -> run s' l ts s'' ->
    run s (if o is Some e then e :: l else l) (t :: ts) s''.
