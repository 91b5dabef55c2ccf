(** Concrete instances of the hypotheses of PropShared.v. *)

From Coq Require Import NArith Init.Byte.
From mathcomp Require Import ssreflect ssrfun ssrbool eqtype ssrnat seq ssralg.
From Verif Require Import Base Bytes Eip7594 Rayon Shared SharedApi SpecShared SharedProofs PropShared.

Set Implicit Arguments.
Unset Strict Implicit.
Unset Printing Implicit Defensive.

(** Thread 0 squares two numbers in parallel and adds them; thread 1 maps a function that panics on 0. *)
Definition f0 (x : nat) : outcome nat := Ret (x * x).
Definition k0 (ys : seq nat) : call nat := Return (Ret (sumn ys)).
Definition c0 : call nat := Par f0 [:: 2; 3] k0.
Definition f1 (x : nat) : outcome nat := if x == 0 then Panic else Ret x.
Definition k1 (ys : seq nat) : call nat := Return (Ret (size ys)).
Definition c1 : call nat := Par f1 [:: 1; 0] k1.

Definition in0 (out : seq (option nat)) : thread nat := Busy c0 (Waits f0 [:: 2; 3] k0 out false).
Definition in1 (out : seq (option nat)) (b : bool) : thread nat := Busy c1 (Waits f1 [:: 1; 0] k1 out b).

(** Two threads, one worker. Thread 0 comes to its section; while it waits the worker runs the body of thread 1 and
    parts of both sections; thread 1 panics; thread 0 still gets 13. *)
Example shared_run :
  exists s, run 2 1 [:: Ended 0 c0 (Ret 13); Ended 1 c1 Panic; Started 1 c1; Started 0 c0] s /\ all_idle s.
Proof.
have R0 := RunInit nat 2 1.
have R1 := RunStep R0 (@StepStart _ [:: Idle; Idle] [::] [:: [::]] 0 c0 isT erefl).
have R2 := RunStep R1 (@StepTake _ [:: Busy c0 (Runs c0); Idle] [::] (Body 0) [::] [::] [::] [::] isT).
have R3 := RunStep R2 (@StepPar _ [:: Busy c0 (Runs c0); Idle] [::] [::] 0 [::] [::] c0 _ _ f0 [:: 2; 3] k0 erefl).
pose t3 := [:: in0 [:: None; None]; Idle].
have R4 := RunStep R3 (@StepStart _ t3 [:: Range 0 (0, 2)] [:: [:: Body 0]] 1 c1 isT erefl).
pose t4 := [:: in0 [:: None; None]; Busy c1 (Runs c1)].
have R5 := RunStep R4 (@StepTake _ t4 [:: Range 0 (0, 2)] (Body 1) [::] [::] [:: Body 0] [::] isT).
have R6 := RunStep R5 (@StepPar _ t4 [:: Range 0 (0, 2)] [::] 1 [:: Body 0] [::] c1 _ _ f1 [:: 1; 0] k1 erefl).
pose t6 := [:: in0 [:: None; None]; in1 [:: None; None] false].
pose bs := [:: Body 1; Body 0].
have R7 := RunStep R6 (@StepTake _ t6 [:: Range 1 (0, 2)] (Range 0 (0, 2)) [::] [::] bs [::] isT).
have R8 := RunStep R7 (@StepSplit _ t6 [:: Range 1 (0, 2)] [::] 0 0 1 2 bs [::] isT).
have R9 := RunStep R8 (@StepRun _ t6 [:: Range 0 (1, 2); Range 1 (0, 2)] [::] 0 0 1 bs [::] c0 _ _ f0 [:: 2; 3] k0
  [:: None; None] false 2 4 erefl isT erefl erefl).
pose t9 := [:: in0 [:: Some 4; None]; in1 [:: None; None] false].
have R10 := RunStep R9 (@StepIdle _ t9 [:: Range 0 (1, 2); Range 1 (0, 2)] [::] 0 1 bs [::]).
have R11 := RunStep R10 (@StepTake _ t9 [:: Range 0 (1, 2)] (Range 1 (0, 2)) [::] [::] bs [::] isT).
have R12 := RunStep R11 (@StepRun _ t9 [:: Range 0 (1, 2)] [::] 1 0 2 bs [::] c1 _ _ f1 [:: 1; 0] k1
  [:: None; None] false 1 1 erefl isT erefl erefl).
pose t12 := [:: in0 [:: Some 4; None]; in1 [:: Some 1; None] false].
have R13 := RunStep R12 (@StepPanic _ t12 [:: Range 0 (1, 2)] [::] 1 1 2 bs [::] c1 _ _ f1 [:: 1; 0] k1
  [:: Some 1; None] false 0 erefl isT erefl erefl).
pose t13 := [:: in0 [:: Some 4; None]; in1 [:: Some 1; None] true].
have R14 := RunStep R13 (@StepJoin _ t13 [:: Range 0 (1, 2)] [::] 1 [:: Body 0] [::] c1 _ _ f1 [:: 1; 0] k1
  [:: Some 1; None] true erefl isT).
pose t14 := [:: in0 [:: Some 4; None]; Busy c1 (Runs (Return Panic))].
have R15 := RunStep R14 (@StepEnd _ t14 [:: Range 0 (1, 2)] [::] 1 [:: Body 0] [::] c1 Panic erefl).
pose t15 := [:: in0 [:: Some 4; None]; Idle].
have R16 := RunStep R15 (@StepTake _ t15 [::] (Range 0 (1, 2)) [::] [::] [:: Body 0] [::] isT).
have R17 := RunStep R16 (@StepRun _ t15 [::] [::] 0 1 2 [:: Body 0] [::] c0 _ _ f0 [:: 2; 3] k0
  [:: Some 4; None] false 3 9 erefl isT erefl erefl).
pose t17 := [:: in0 [:: Some 4; Some 9]; Idle].
have R18 := RunStep R17 (@StepIdle _ t17 [::] [::] 0 2 [:: Body 0] [::]).
have R19 := RunStep R18 (@StepJoin _ t17 [::] [::] 0 [::] [::] c0 _ _ f0 [:: 2; 3] k0
  [:: Some 4; Some 9] false erefl isT).
have R20 := RunStep R19 (@StepEnd _ [:: Busy c0 (Runs (Return (Ret 13))); Idle] [::] [::] 0 [::] [::] c0 (Ret 13) erefl).
eexists; split; first exact: R20.
by case=> [|[|t]] //=; rewrite nth_nil.
Qed.

(** C65_any and C65_order on it *)
Example C65_any_applies : Ret 13 = eval c0 /\ Panic = eval c1.
Proof.
have [s [Hr _]] := shared_run; split.
  by apply: (C65_any (t := 0) Hr); left.
by apply: (C65_any (t := 1) Hr); right; left.
Qed.

(** A state in which thread 0 waits for its section and thread 1 is in no call: C65_progress, C65_bounded,
    C65_answered and C65_completes apply to it. *)
Example C65_progress_applies :
  exists tr s, run 2 1 tr s /\ ~ all_idle (s : state nat) /\ can_work s.
Proof.
have R1 := RunStep (RunInit nat 2 1) (@StepStart _ [:: Idle; Idle] [::] [:: [::]] 0 c0 isT erefl).
have R2 := RunStep R1 (@StepTake _ [:: Busy c0 (Runs c0); Idle] [::] (Body 0) [::] [::] [::] [::] isT).
have R3 := RunStep R2 (@StepPar _ [:: Busy c0 (Runs c0); Idle] [::] [::] 0 [::] [::] c0 _ _ f0 [:: 2; 3] k0 erefl).
eexists; eexists; split; first exact: R3.
have Hi : ~ all_idle (MkState [:: in0 [:: None; None]; Idle] [:: Range 0 (0, 2)] [:: [:: Body 0]]) by move=> /(_ 0).
by split; [exact: Hi|apply: (C65_progress _ R3)].
Qed.

(** Each request of the API can be made and ends: C65_result, C65_answered, C65_idle_answered. *)
Lemma ended_in (R : Type) t (c : call R) (tr : seq (event R)) l :
  ended_by t tr = c :: l -> exists r, List.In (Ended t c r) tr.
Proof.
elim: tr => [|[u d|u d r] tr IH] //=; first by move=> /IH [r H]; exists r; right.
case: eqP => [->|_] /=; first by case=> -> _; exists r; left.
by move=> /IH [r' H]; exists r'; right.
Qed.

Example C65_result_applies (F : fieldType) (G1 G2 GT : lmodType F) (env : das_env G1 G2 GT) K ctx q :
  exists tr s r, run 1 1 tr s /\ List.In (Ended 0 (body env K ctx q) r) tr.
Proof.
have R1 := RunStep (RunInit answer 1 1) (@StepStart _ [:: Idle] [::] [:: [::]] 0 (body env K ctx q) isT erefl).
have [k [tr' [s' [Hw Hi]]]] := @C65_completes _ 1 1 _ _ isT R1.
have Hr := work_run R1 Hw.
have := C65_idle_answered Hr (Hi 0); rewrite /started_by /ended_by !pmap_cat /= => E.
have [r Hin] : exists r, List.In (Ended 0 (body env K ctx q) r) tr'.
  apply: (@ended_in _ 0 _ tr' [::]); rewrite /ended_by.
  move: E; rewrite cats0 => <-.
  have : started_by 0 tr' = [::].
    elim: Hw => {R1 Hi Hr k tr' s'} //= k tr' s' s'' [e|] s3 _ IH Hs He //=.
    by case: e Hs He.
  by rewrite /started_by => ->.
exists (tr' ++ [:: Started 0 (body env K ctx q)]), s', r; split=> //.
by apply: List.in_or_app; left.
Qed.
