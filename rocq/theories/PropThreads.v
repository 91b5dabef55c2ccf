(** Calls of the C interface by several threads at once, on shared memory (C62).

    Every thread makes one call after the other whenever it likes; the single reads and writes of calls
    that run at the same time are interleaved in any order. Reads and writes of one byte, pointer, number,
    verdict or context are one step each. *)

From Coq Require Import NArith Init.Byte List.
From mathcomp Require Import ssreflect ssrfun ssrbool eqtype ssrnat seq.
From Verif Require Import Base Bytes CMem CApi SpecC CThreads SpecThreads ThreadsProofs ThreadsRun ThreadsCanon.

Set Implicit Arguments.
Unset Strict Implicit.
Unset Printing Implicit Defensive.

Section Threads.
Variables (ctx err : Type) (api : rust_api ctx err).
Local Notation mem := (mem ctx).

(** The functions of lib.rs in single steps do what they do at once, and use no memory but what their
    documentation says. *)
Theorem C62_faithful : (forall c, api_typed api c) -> faithful api (p_call api).
Proof. exact: p_call_faithful. Qed.

(** ** Any code that is faithful *)
Variable impl : c_call -> prog ctx.
Hypothesis impl_faithful : faithful api impl.
(** Calls of which none writes what another uses, and callers that leave alone what a running call uses. *)
Local Notation run := (run impl (proper_start api) (@proper_change ctx)).

(** No call panics or accesses memory that it may not. *)
Theorem C62_never_broken m0 tr s t c : run m0 tr s -> ~ In (Broken t c) tr.
Proof.
elim=> {tr s} //= [tr s t' c' _ IH _ _|tr s t' c' m p v m' _ IH _ _|tr s t' c' m p Hr IH Ht Hb].
- by case.
- by case.
by have := step_memory (run_good impl_faithful Hr) Ht; case: Hb => ->.
Qed.

(** Every call that ended was made, and it answered as if it had been alone. *)
Theorem C62_as_alone m0 tr s t c m v m' : run m0 tr s -> In (Ended t c m v m') tr ->
  In (Started t c m) tr /\ as_alone api c m v m'.
Proof.
have R : forall tr s, run m0 tr s -> forall t c m p, st_threads s t = Running c m p -> In (Started t c m) tr.
  move=> {}tr {}s; elim=> {tr s} //=.
  - move=> tr s t' c' _ IH _ _ t1 c1 m1 p1; rewrite /set_thread; case: eqP => [->|_ H]; first by case=> -> -> _; left.
    by right; exact: IH H.
  - move=> tr s t' c' m2 p p' m3 _ IH Ht _ t1 c1 m1 p1; rewrite /set_thread; case: eqP => [->|_ H]; last exact: IH H.
    by case=> <- <- _; exact: IH Ht.
  - move=> tr s t' c' m2 p v2 m3 _ IH _ _ t1 c1 m1 p1; rewrite /set_thread; case: eqP => [//|_ H].
    by right; exact: IH H.
  move=> tr s t' c' m2 p _ IH _ _ t1 c1 m1 p1; rewrite /set_thread; case: eqP => [//|_ H].
  by right; exact: IH H.
elim=> {tr s} //= [tr s t' c' _ IH _ _|tr s t' c' m2 p v2 m3 Hr IH Ht Ep|tr s t' c' m2 p _ IH _ _].
- by case=> // /IH[H1 H2]; split=> //; right.
- case=> [[<- <- <- <- <-]|/IH[H1 H2]]; last by split=> //; right.
  split; first by right; exact: R Hr _ _ _ _ Ht.
  by have := step_memory (run_good impl_faithful Hr) Ht; rewrite Ep => -[].
by case=> // /IH[H1 H2]; split=> //; right.
Qed.

(** A step of a call changes nothing but what the call writes; its end changes nothing that there was. *)
Theorem C62_frame m0 tr s t c m p : run m0 tr s -> st_threads s t = Running c m p ->
  (forall p' m', pstep p (st_mem s) = Next p' m' -> size m' = size (st_mem s) /\
     forall b o, ~ writes c m b o -> cell_of m' b o = cell_of (st_mem s) b o) /\
  (forall v m', pstep p (st_mem s) = Done v m' -> size (st_mem s) <= size m' /\
     forall b o, b < size (st_mem s) -> cell_of m' b o = cell_of (st_mem s) b o).
Proof.
move=> Hr Ht; have := step_memory (run_good impl_faithful Hr) Ht.
by case: (pstep p (st_mem s)) => [p1 m1 [_ S C]|v1 m1 [_ S C]| |] //; split=> // ? ? [_ <-].
Qed.

(** No call waits for another: a call that is running can end by its own steps alone. *)
Theorem C62_progress m0 tr s t c m p : run m0 tr s -> st_threads s t = Running c m p ->
  exists s' v, run m0 (Ended t c m v (st_mem s') :: tr) s' /\
    forall t', t' <> t -> st_threads s' t' = st_threads s t'.
Proof. exact: finishes. Qed.
End Threads.

(** ** What the separation is for *)

(** Contexts are unit; a batch with an index is not valid. *)
Definition small_lib : rust_api unit unit :=
  MkRustApi (fun _ _ => Ret tt) (fun _ _ => Ret (Err tt)) (fun _ _ => Ret (Err tt)) (fun _ _ _ => Ret (Err tt))
    (fun _ _ ks _ _ => Ret (if ks is [::] then Ok tt else Err tt)) (fun _ => true) (fun _ => [::]).
Definition nobody_changes (s : state unit) (m' : mem unit) : Prop := False.
(** A context, an index, a verdict *)
Definition small_mem : mem unit := [:: Some (BCtx tt); Some (BU64s _ [:: 0%num]); Some (BBool _ false)].
Definition good_batch : c_call := Verify (Addr 0 0) 0 Null 0 Null 0 Null 0 Null (Addr 2 0).
Definition bad_batch : c_call := Verify (Addr 0 0) 0 Null 1 (Addr 1 0) 0 Null 0 Null (Addr 2 0).
Local Notation reckless := (run (p_call small_lib) (returns_alone small_lib) nobody_changes small_mem).

(** It is not enough that each call would return if it were alone: when a thread frees the context while
    another uses it, that one accesses freed memory. *)
Theorem C62_free_race_refuted : exists tr s, reckless tr s /\ In (Broken 0 good_batch) tr.
Proof.
have R1 := RunStart (t := 0) (c := good_batch) (RunInit (p_call small_lib) (returns_alone small_lib) nobody_changes small_mem) erefl
  (ex_intro _ _ (ex_intro _ _ erefl)).
have R2 := RunStart (t := 1) (c := FreeCtx (Addr 0 0)) R1 erefl (ex_intro _ _ (ex_intro _ _ erefl)).
have R3 := RunNext (t := 1) R2 erefl erefl.
have R4 := RunNext (t := 1) R3 erefl erefl.
have R5 := RunDone (t := 1) R4 erefl erefl.
have R6 := RunBroken (t := 0) R5 erefl (or_intror erefl).
by do 2 eexists; split; [exact: R6|left].
Qed.

(** When two threads let their verdicts be written to the same place, a batch that is not valid can be
    reported as valid: the call ends with Ok, and the verdict in memory is true, although alone it is
    false. *)
Theorem C62_same_output_refuted : exists tr s m m', reckless tr s /\
  In (Ended 0 bad_batch m (VResult with_ok) m') tr /\ is_block m' 2 (BBool _ true) /\
  exists m1, c_exec small_lib bad_batch m = CRet (VResult with_ok, m1) /\ is_block m1 2 (BBool _ false).
Proof.
have R1 := RunStart (t := 0) (c := bad_batch) (RunInit (p_call small_lib) (returns_alone small_lib) nobody_changes small_mem) erefl
  (ex_intro _ _ (ex_intro _ _ erefl)).
have R2 := RunStart (t := 1) (c := good_batch) R1 erefl (ex_intro _ _ (ex_intro _ _ erefl)).
have R3 := RunNext (t := 0) R2 erefl erefl.
have R4 := RunNext (t := 0) R3 erefl erefl.
have R5 := RunNext (t := 0) R4 erefl erefl.
have R6 := RunNext (t := 0) R5 erefl erefl.
have R7 := RunNext (t := 1) R6 erefl erefl.
have R8 := RunNext (t := 1) R7 erefl erefl.
have R9 := RunNext (t := 1) R8 erefl erefl.
have R10 := RunDone (t := 0) R9 erefl erefl.
do 4 eexists; split; first exact: R10.
split; first by left.
by split; [|eexists; split].
Qed.
