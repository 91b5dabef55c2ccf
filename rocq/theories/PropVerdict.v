(** The verdict of a verification appears at once (C62). *)

From Coq Require Import NArith Init.Byte List.
From mathcomp Require Import ssreflect ssrfun ssrbool eqtype ssrnat seq.
From Verif Require Import Base Bytes CMem CApi CThreads SpecThreads VerdictProofs PropThreads.

Set Implicit Arguments.
Unset Strict Implicit.
Unset Printing Implicit Defensive.

(** Whatever the other threads do and whenever calls are made: when a step of a verification changes memory, all that
    remains of the call is to return Ok. Before, memory holds nothing of it; no verdict is written and then corrected. *)
Theorem C62_verdict_last (ctx err : Type) (api : rust_api ctx err) may_start may_change m0 tr s t c m p p' m' :
  run (p_call api) may_start may_change m0 tr s -> st_threads s t = Running c m p -> is_verify c ->
  pstep p (st_mem s) = Next p' m' -> m' <> st_mem s ->
  forall m2, pstep p' m2 = Done (VResult with_ok) m2.
Proof.
by move=> R Ht Hv E ne m2; have [_ [/ne//|->]] := step_one (run_one R Ht Hv) E.
Qed.

(** A run in which the verification of a batch changes the verdict from false to true *)
Example C62_verdict_last_applies : exists tr s p p' m',
  [/\ run (p_call small_lib) (returns_alone small_lib) nobody_changes small_mem tr s,
      st_threads s 0 = Running good_batch small_mem p, pstep p (st_mem s) = Next p' m', m' <> st_mem s &
      forall m2, pstep p' m2 = Done (VResult with_ok) m2].
Proof.
have R1 := RunStart (t := 0) (c := good_batch) (RunInit (p_call small_lib) (returns_alone small_lib) nobody_changes small_mem) erefl
  (ex_intro _ _ (ex_intro _ _ erefl)).
have R2 := RunNext (t := 0) R1 erefl erefl.
have R3 := RunNext (t := 0) R2 erefl erefl.
do 5 eexists; have ne : [:: Some (BCtx tt); Some (BU64s unit [:: 0%num]); Some (BBool unit true)] <> small_mem by [].
by split; [exact: R3|reflexivity|reflexivity|exact: ne|exact: (C62_verdict_last (t := 0) R3 erefl isT erefl ne)].
Qed.
