(** An execution of two threads that construct an object at the same time: the first attempt to load
    fails, the second thread loads, and then the first thread tries again. *)

From mathcomp Require Import ssreflect ssrfun ssrbool eqtype ssrnat seq.
From Verif Require Import JavaLoad SpecLoad JavaLoadProofs PropLoad.

Set Implicit Arguments.
Unset Strict Implicit.
Unset Printing Implicit Defensive.

Ltac none t c := refine (@RunStep _ t None _ _ _ _ _ _); [refine (c _ _); exact: erefl|].
Ltac enter t := refine (@RunStep _ t None _ _ _ _ _ _); [refine (@StepEnter _ _ _ _); exact: erefl|].
Ltac some t c e := refine (@RunStep _ t (Some e) _ _ _ _ _ _); [refine (c _ _); exact: erefl|].

Definition ex_events : seq event :=
  [:: LoadStart 0; LoadEnd 0 false; Threw 0; LoadStart 1; LoadEnd 1 true; NativeNew 1; NativeNew 0].
Example ex_run : exists s, run init ex_events [:: 0; 1; 0; 1; 0; 0; 0; 0; 0; 1; 1; 1; 0; 1; 0; 1; 1; 1; 0; 0; 0; 0] s.
Proof.
eexists.
none 0 (@StepCall 0). none 1 (@StepCall 1).
none 0 (@StepFirst 0). none 1 (@StepFirst 1).
enter 0. none 0 (@StepSecond 0).
some 0 (@StepStart 0) (LoadStart 0). some 0 (fun s => @StepEnd 0 s false) (LoadEnd 0 false).
some 0 (@StepRaise 0) (Threw 0).
enter 1. none 1 (@StepSecond 1).
some 1 (@StepStart 1) (LoadStart 1).
none 0 (@StepCall 0).
some 1 (fun s => @StepEnd 1 s true) (LoadEnd 1 true).
none 0 (@StepFirst 0).
none 1 (@StepFlag 1). none 1 (@StepLeave 1).
some 1 (@StepNew 1) (NativeNew 1).
enter 0. none 0 (@StepSecond 0). none 0 (@StepLeave 0).
some 0 (@StepNew 0) (NativeNew 0).
exact: RunNil.
Qed.

(** The conditions are not void: they exclude these orders of events. *)
Example ex_two_at_a_time : ~~ one_at_a_time None [:: LoadStart 0; LoadStart 1]. Proof. by []. Qed.
Example ex_load_again : ~ no_load_after_success [:: LoadStart 0; LoadEnd 0 true; LoadStart 1].
Proof. by move/(_ [:: LoadStart 0] (LoadEnd 0 true) [:: LoadStart 1] 1 erefl isT); apply; left. Qed.
Example ex_too_early : ~ native_after_success [:: LoadStart 0; NativeNew 1].
Proof. by move/(_ [:: LoadStart 0] 1 [::] erefl). Qed.
Example ex_other_failure : ~ throws_own_failure [:: LoadStart 0; LoadEnd 0 false; Threw 1].
Proof.
by move/(_ [:: LoadStart 0; LoadEnd 0 false] 1 [::] erefl) => -[[|a [|b [|c l3]]] [l4 []]].
Qed.

(** A thread that waits while another one loads *)
Example C59_finishes_applies : exists l ts s, [/\ run init l ts s, owner s = Some 0 & pcs s 1 = Wait].
Proof.
exists [:: LoadStart 0], [:: 0; 0; 0; 0; 0; 1; 1]; eexists; split.
- none 0 (@StepCall 0). none 0 (@StepFirst 0). enter 0.
  none 0 (@StepSecond 0). some 0 (@StepStart 0) (LoadStart 0).
  none 1 (@StepCall 1). none 1 (@StepFirst 1). exact: RunNil.
- by [].
by [].
Qed.
