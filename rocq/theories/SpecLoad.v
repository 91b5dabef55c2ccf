(** Specification of loading, as conditions on the order of events. *)

From mathcomp Require Import ssreflect ssrfun ssrbool eqtype ssrnat seq.
From Verif Require Import JavaLoad.

Set Implicit Arguments.
Unset Strict Implicit.
Unset Printing Implicit Defensive.

Definition is_success (e : event) : bool := if e is LoadEnd _ true then true else false.

(** At most one attempt to load at a time: who starts ends before anybody starts again. *)
Fixpoint one_at_a_time (busy : option nat) (l : seq event) : bool :=
  match l with
  | [::] => true
  | LoadStart t :: r => ~~ isSome busy && one_at_a_time (Some t) r
  | LoadEnd t _ :: r => (busy == Some t) && one_at_a_time None r
  | _ :: r => one_at_a_time busy r
  end.

(** No attempt after a success *)
Definition no_load_after_success (l : seq event) : Prop :=
  forall l1 e l2 t, l = l1 ++ e :: l2 -> is_success e -> ~ List.In (LoadStart t) l2.

(** A native method is called only after a success. *)
Definition native_after_success (l : seq event) : Prop :=
  forall l1 t l2, l = l1 ++ NativeNew t :: l2 -> has is_success l1.

(** A constructor throws only if its own attempt failed, and no other event of that thread is in
    between. *)
Definition of_thread (e : event) : nat :=
  match e with LoadStart t => t | LoadEnd t _ => t | NativeNew t => t | Threw t => t end.
Definition throws_own_failure (l : seq event) : Prop :=
  forall l1 t l2, l = l1 ++ Threw t :: l2 -> exists l3 l4,
    l1 = l3 ++ LoadEnd t false :: l4 /\ all (fun e => of_thread e != t) l4.
