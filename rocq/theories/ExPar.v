(** Concrete schedules for PropPar.v. *)

From Coq Require Import NArith Init.Byte.
From mathcomp Require Import ssreflect ssrfun ssrbool eqtype ssrnat seq ssralg.
From Verif Require Import Base FixedBaseMSM FK20Prover FK20Verifier Eip7594 Rayon RayonProofs RayonApi.
From Verif Require Import Fr FrEnv SpecFr ApiEip PropPar ExApi.

Set Implicit Arguments.
Unset Strict Implicit.
Unset Printing Implicit Defensive.

(** 10 / x, with a panic for 0. *)
Definition ten_over (x : nat) : outcome nat := if x is 0 then Panic else Ret (10 - x).

Ltac run_step c := apply: (PoolTrans c) => /=.

(** Two workers on three elements: the first splits, the second takes the rest and finishes
    before the first has written anything. *)
Definition ex_end := MkPool [:: Some 9; Some 8; Some 7] [::] [:: None; None] false.
Example ex_schedule :
  pool_steps ten_over [:: 1; 2; 3] 8 (pool_init nat [:: 1; 2; 3] 2) ex_end /\ pool_final ex_end.
Proof.
split=> //.
run_step (@PoolTake _ _ ten_over [:: 1; 2; 3] (nseq 3 None) [::] (0, 3) [::] [::] [:: None] false).
run_step (@PoolSplit _ _ ten_over [:: 1; 2; 3] (nseq 3 None) [::] [::] 0 1 3 [:: None] false isT).
run_step (@PoolTake _ _ ten_over [:: 1; 2; 3] (nseq 3 None) [::] (1, 3) [::] [:: Some (0, 1)] [::] false).
run_step (@PoolRun _ _ ten_over [:: 1; 2; 3] [:: None; None; None] [::] [:: Some (0, 1)] 1 3 [::] false
            2 8 isT erefl erefl).
run_step (@PoolRun _ _ ten_over [:: 1; 2; 3] [:: None; Some 8; None] [::] [:: Some (0, 1)] 2 3 [::] false
            3 7 isT erefl erefl).
run_step (@PoolIdle _ _ ten_over [:: 1; 2; 3] [:: None; Some 8; Some 7] [::] [:: Some (0, 1)] 3 [::] false).
run_step (@PoolRun _ _ ten_over [:: 1; 2; 3] [:: None; Some 8; Some 7] [::] [::] 0 1 [:: None] false
            1 9 isT erefl erefl).
run_step (@PoolIdle _ _ ten_over [:: 1; 2; 3] [:: Some 9; Some 8; Some 7] [::] [::] 1 [:: None] false).
exact: PoolRefl.
Qed.
Example ex_schedule_result : pool_result ex_end = Ret [:: 9; 8; 7]. Proof. by []. Qed.

(** An element that panics: the second worker drops its job, the queued job is dropped. *)
Definition ex_blown := MkPool [:: None; Some 7] [::] [:: None] true.
Example ex_schedule_panic :
  exists k, pool_steps ten_over [:: 0; 3] k (pool_init nat [:: 0; 3] 1) ex_blown /\ pool_final ex_blown.
Proof.
exists 6; split=> //.
run_step (@PoolTake _ _ ten_over [:: 0; 3] (nseq 2 None) [::] (0, 2) [::] [::] [::] false).
run_step (@PoolSplit _ _ ten_over [:: 0; 3] (nseq 2 None) [::] [::] 0 1 2 [::] false isT).
run_step (@PoolPanic _ _ ten_over [:: 0; 3] (nseq 2 None) [:: (1, 2)] [::] 0 1 [::] false 0 isT erefl erefl).
run_step (@PoolTake _ _ ten_over [:: 0; 3] (nseq 2 None) [::] (1, 2) [::] [::] [::] true).
run_step (@PoolRun _ _ ten_over [:: 0; 3] [:: None; None] [::] [::] 1 2 [::] true 3 7 isT erefl erefl).
run_step (@PoolIdle _ _ ten_over [:: 0; 3] [:: None; Some 7] [::] [::] 2 [::] true).
exact: PoolRefl.
Qed.
Example ex_panic_result : pool_result ex_blown = Panic. Proof. by []. Qed.

(** In the first schedule both workers are busy after three steps, in different jobs, and the fourth
    step writes a slot. *)
Definition ex_busy := MkPool (nseq 3 None) [::] [:: Some (0, 1); Some (1, 3)] false : pool nat.
Example ex_schedule_busy :
  pool_steps ten_over [:: 1; 2; 3] 3 (pool_init nat [:: 1; 2; 3] 2) ex_busy /\
  ~~ pool_final ex_busy.
Proof.
split=> //.
run_step (@PoolTake _ _ ten_over [:: 1; 2; 3] (nseq 3 None) [::] (0, 3) [::] [::] [:: None] false).
run_step (@PoolSplit _ _ ten_over [:: 1; 2; 3] (nseq 3 None) [::] [::] 0 1 3 [:: None] false isT).
run_step (@PoolTake _ _ ten_over [:: 1; 2; 3] (nseq 3 None) [::] (1, 3) [::] [:: Some (0, 1)] [::] false).
exact: PoolRefl.
Qed.

(** Without workers nothing ever happens: the hypothesis is needed. *)
Example ex_no_workers : ~~ pool_final (pool_init nat [:: 1] 0) /\
  forall t, ~ pool_step ten_over [:: 1] (pool_init nat [:: 1] 0) t.
Proof.
split=> // t; move E: (pool_init nat [:: 1] 0) => s H.
case: H E => {s t}.
- by move=> out q1 j q2 [|? w1] w2 b [].
- by move=> out q [|? w1] lo mid hi w2 b _ [].
- by move=> out q [|? w1] lo hi w2 b x y _ _ _ [].
- by move=> out q [|? w1] lo hi w2 b x _ _ _ [].
- by move=> out q [|? w1] lo w2 b [].
- by move=> out q1 j q2 w [].
Qed.

(** The pool sizes of the three kinds of thread count, on a machine where rayon takes 8. *)
Example ex_pool_sizes : [/\ pool_size 7 Single = 1, pool_size 7 (Multi 4) = 4, pool_size 7 (Multi 0) = 8
  & pool_size 7 SensibleDefault = 8].
Proof. by []. Qed.

Lemma only (X : Type) (P : X -> Prop) (v r : X) : (forall r, P r <-> r = v) -> v = r -> P r.
Proof. by move=> H <-; apply/H. Qed.

(** Computing cells in a pool of four workers, in a context built by eight. *)
Example ex_par_compute : exists ctx cells proofs,
  par_das_context_new fr_params eip7594_consts (pool_size 7 SensibleDefault) ex_g1s ex_g2s PrecompNo
    (Ret ctx) /\
  par_compute_cells_and_kzg_proofs ex_env eip7594_consts (pool_size 7 (Multi 4)) ctx ex_blob
    (Ret (Ok (cells, proofs))).
Proof.
have [ctx Hctx] := ex_context; have [cells [proofs E]] := ex_compute Hctx.
exists ctx, cells, proofs; split.
  exact: (only (C20_context fr_params eip7594_consts 7 SensibleDefault ex_g1s ex_g2s PrecompNo) Hctx).
set r := Ret _ in E *.
exact (@only _ (par_compute_cells_and_kzg_proofs ex_env eip7594_consts (pool_size 7 (Multi 4)) ctx ex_blob)
  (compute_cells_and_kzg_proofs ex_env eip7594_consts ctx ex_blob) r
  (@C20_compute Fr G G G ex_env eip7594_consts 7 (Multi 4) ctx ex_blob) E).
Qed.
