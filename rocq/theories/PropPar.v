(** C20: parallel sections give the sequential result for every number of worker threads and
    every schedule. *)

From Coq Require Import NArith Init.Byte.
From mathcomp Require Import ssreflect ssrfun ssrbool eqtype ssrnat seq ssralg.
From mathcomp Require Import zify_ssreflect.
From Verif Require Import Base FFT Domain Lincomb FixedBaseMSM Toeplitz FK20Prover FK20Verifier.
From Verif Require Import Eip7594 Rayon RayonProofs RayonApi RayonApiProofs.

Set Implicit Arguments.
Unset Strict Implicit.
Unset Printing Implicit Defensive.

Section Pool.
Variables (A B : Type) (f : A -> outcome B) (xs : seq A) (workers : nat).
Local Notation reachable k s := (pool_steps f xs k (pool_init B xs workers) s).

(** However the workers take, split and interleave the jobs: when all is done, the caller has what
    a sequential loop gives, panic or not. *)
Theorem C20_schedule k s : reachable k s -> pool_final s -> pool_result s = omapM f xs.
Proof. exact: pool_final_result. Qed.

(** With at least one worker, no schedule gets stuck ... *)
Theorem C20_progress k s : 0 < workers -> reachable k s -> ~~ pool_final s ->
  exists t, pool_step f xs s t.
Proof.
move=> Hw H; apply: (pool_progress Hw (pool_inv_steps H (pool_inv_init _ _ _))).
exact: (pool_ok_steps H (pool_ok_init _ _ _)).
Qed.

(** ... and none goes on forever: all schedules end within this number of steps. *)
Theorem C20_terminates k s : reachable k s -> k <= 2 * (size xs * size xs) + 2.
Proof. by move=> /pool_cost_steps; rewrite pool_cost_init; lia. Qed.

(** So the possible results of the collection are exactly the sequential one. *)
Theorem C20_collect r : 0 < workers -> par_collect f xs workers r <-> r = omapM f xs.
Proof. exact: par_collectP. Qed.

(** Two workers never hold the same index, and no slot is written twice. *)
Theorem C20_disjoint k s w1 a b w2 c d w3 i : reachable k s ->
  p_workers s = w1 ++ Some (a, b) :: w2 ++ Some (c, d) :: w3 ->
  a <= i < b -> c <= i < d -> False.
Proof. exact: pool_disjoint. Qed.

Theorem C20_write_once k s t i y : reachable k s -> pool_step f xs s t ->
  nth None (p_out s) i = Some y -> nth None (p_out t) i = Some y.
Proof. exact: pool_write_once. Qed.

End Pool.

(** Every thread count gives a pool with a worker. *)
Theorem C20_pool_size rayon_num_threads t : 0 < pool_size rayon_num_threads t.
Proof. by rewrite /pool_size; case: t => [|[|n]|]. Qed.

Section Calls.
Import GRing.Theory.
Variables (F : fieldType) (G1 G2 GT : lmodType F) (fp : fparams F) (env : das_env G1 G2 GT).
Variables (K : consts) (rayon_num_threads : nat) (t : thread_count).
Local Notation workers := (pool_size rayon_num_threads t).

(** Building a context, and the calls with parallel sections: a result is possible with these
    threads exactly if it is the sequential one. *)
Theorem C20_context (g1s : seq G1) (g2s : seq G2) up r :
  par_das_context_new fp K workers g1s g2s up r <-> r = das_context_new fp K g1s g2s up.
Proof. exact/par_das_context_newP/C20_pool_size. Qed.

Theorem C20_compute ctx blob r :
  par_compute_cells_and_kzg_proofs env K workers ctx blob r <->
  r = compute_cells_and_kzg_proofs env K ctx blob.
Proof. exact/par_compute_cells_and_kzg_proofsP/C20_pool_size. Qed.

Theorem C20_recover ctx cell_indices cells r :
  par_recover_cells_and_kzg_proofs env K workers ctx cell_indices cells r <->
  r = recover_cells_and_kzg_proofs env K ctx cell_indices cells.
Proof. exact/par_recover_cells_and_kzg_proofsP/C20_pool_size. Qed.

End Calls.

Print Assumptions C20_schedule.
Print Assumptions C20_terminates.
Print Assumptions C20_recover.
