(** C65: calls by several threads that share one context, and so one pool, give what they give alone, and all of
    them end. *)

From Coq Require Import NArith Init.Byte.
From mathcomp Require Import ssreflect ssrfun ssrbool eqtype ssrnat seq ssralg.
From Verif Require Import Base Bytes Eip7594 Shared SharedApi SpecShared SharedProofs.
From mathcomp Require Import zify_ssreflect.

Set Implicit Arguments.
Unset Strict Implicit.
Unset Printing Implicit Defensive.

Section C65.
(** Any context, any number n of threads, any number m of workers; tr are the events so far. *)
Variables (F : fieldType) (G1 G2 GT : lmodType F) (env : das_env G1 G2 GT) (K : consts) (ctx : das_context G1 G2).
Variables (n m : nat).
Implicit Types (tr : seq (event answer)) (s : state answer).

(** Each call returns what it returns alone, and panics only if it panics alone: a panic stays in its call. *)
Theorem C65_result tr s t q r : run n m tr s -> List.In (Ended t (body env K ctx q) r) tr -> r = alone env K ctx q.
Proof. by move=> Hr /(ended_eval Hr) ->; apply: eval_body. Qed.
End C65.

Section Any.
(** Any calls made of any parallel sections, also those that panic *)
Variables (R : Type) (n m : nat).
Implicit Types (tr : seq (event R)) (s : state R).

Theorem C65_any tr s t c r : run n m tr s -> List.In (Ended t c r) tr -> r = eval c.
Proof. exact: ended_eval. Qed.

(** A thread gets its answers in the order of its calls, one for each. *)
Theorem C65_order tr s t : run n m tr s ->
  started_by t tr = ended_by t tr \/
  exists c p, nth Idle (st_threads s) t = Busy c p /\ started_by t tr = c :: ended_by t tr.
Proof.
move=> Hr; rewrite (answers_run t Hr).
by case: (nth _ _ _) => [|c p]; [left|right; exists c, p].
Qed.
Theorem C65_idle_answered tr s t : run n m tr s -> nth Idle (st_threads s) t = Idle ->
  started_by t tr = ended_by t tr.
Proof. by move=> Hr E; rewrite (answers_run t Hr) E. Qed.

(** There is no deadlock: with at least one worker something can be done while a thread is in a call. *)
Theorem C65_progress tr s : 0 < m -> run n m tr s -> ~ all_idle s -> can_work s.
Proof. by move=> Hm Hr Hi; apply: progress Hm (inv_run Hr) (not_idle Hi). Qed.

(** Without new calls the pool comes to an end, whatever the workers do. *)
Theorem C65_bounded tr s : run n m tr s -> exists bound, forall k tr' s', work_on k tr' s s' -> k <= bound.
Proof.
move=> Hr; exists (cost s) => k tr' s' /work_cost /(_ (inv_run Hr)).
exact: leq_trans (leq_addr _ _).
Qed.

(** So every execution without new calls can be continued until nothing is left to do, and then all are answered. *)
Theorem C65_answered tr s k tr' s' : 0 < m -> run n m tr s -> work_on k tr' s s' -> ~ can_work s' ->
  all_idle s' /\ forall t, started_by t (tr' ++ tr) = ended_by t (tr' ++ tr).
Proof.
move=> Hm Hr Hw Hc; have Hr' := work_run Hr Hw.
have Hi : all_idle s'.
  move=> t; case Et: (nth Idle (st_threads s') t) => [//|c p]; case: Hc.
  by apply: (C65_progress Hm Hr') => /(_ t); rewrite Et.
by split=> // t; apply: C65_idle_answered Hr' (Hi t).
Qed.
Theorem C65_completes tr s : 0 < m -> run n m tr s -> exists k tr' s', work_on k tr' s s' /\ all_idle s'.
Proof. by move=> Hm Hr; apply: completes Hm (inv_run Hr). Qed.
End Any.
Print Assumptions C65_result.
Print Assumptions C65_any.
Print Assumptions C65_order.
Print Assumptions C65_idle_answered.
Print Assumptions C65_progress.
Print Assumptions C65_bounded.
Print Assumptions C65_answered.
Print Assumptions C65_completes.
