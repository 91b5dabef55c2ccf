(** The life of a C# EthKZG object (C66). *)

From Coq Require Import NArith.
From mathcomp Require Import ssreflect ssrfun ssrbool eqtype ssrnat seq.
From Verif Require Import Base CsLife SpecCsLife CsLifeProofs.

Set Implicit Arguments.
Unset Strict Implicit.
Unset Printing Implicit Defensive.

Section Theorems.
Variables (A R : Type) (early : A -> option R) (native : A -> R).
Local Notation run := (cs_run early native).
Local Notation none := (cs_none A R).

Lemma nth_start (opss : seq (seq (cs_op A))) i : nth none (map (@cs_start A R) opss) i = cs_start R (nth [::] opss i).
Proof. by elim: opss i => [|ops opss IH] [|i] //=. Qed.

(** One thread, any sequence of operations. If no call that passes the checks comes after a Dispose, all operations
    return what they shall, and the context is freed, once, if and only if there was a Dispose. Otherwise the first such
    call aborts the process; freed memory is never touched. *)
Theorem C66_sequential o (ops : seq (cs_op A)) n : cs_fresh o -> 4 * size ops <= n ->
  run (nseq n 0) o [:: cs_start R ops] =
  if none_after_dispose early false ops
  then CsRunOk (if has (@is_dispose A) ops then MkCsObject 0 (rem (cs_context o) (cs_live o)) else o)
         [:: MkCsThread [::] (Outside A) (map (result_of early native) ops)]
  else CsRunFault A R AbortNull.
Proof.
case: o => p l [/= p0 pl _] Hn.
have [k Hk] := run_alone early native p0 pl false ops [::]; rewrite /obj_of /= => E.
rewrite -(subnKC (leq_trans Hk Hn)) run_add E.
by case: none_after_dispose => //; rewrite run_finished.
Qed.

(** Any number of threads that only call, in any interleaving: no fault, and the object stays as it is. *)
Theorem C66_calls o (opss : seq (seq (cs_op A))) sched : cs_fresh o ->
  all (fun ops => ~~ has (@is_dispose A) ops) opss ->
  exists ts, run sched o (map (@cs_start A R) opss) = CsRunOk o ts.
Proof.
case: o => p l [/= p0 pl _] H.
apply: (@only_calls_safe _ _ early native l p p0 pl sched (MkCsObject p l) (map (@cs_start A R) opss) erefl erefl) => i.
rewrite nth_start /only_calls /= andbT.
by elim: opss H i => [|ops opss IH] /= H [|i] //=; case/andP: H => // _ /IH.
Qed.

(** Any number of threads, with calls that overlap and a Dispose that excludes all other methods: freed memory is never
    touched and nothing is freed twice. *)
Theorem C66_dispose_excludes o (opss : seq (seq (cs_op A))) sched : cs_fresh o ->
  dispose_excludes early native sched o (map (@cs_start A R) opss) ->
  forall f, run sched o (map (@cs_start A R) opss) = CsRunFault A R f -> f = AbortNull.
Proof.
case: o => p l [/= p0 pl _] He f Ef.
have := dispose_excludes_safe (l := l) p0 pl _ He; rewrite Ef; case: f {Ef} => //=.
- by case; constructor 1; split=> // i; rewrite nth_start.
- by case; constructor 1; split=> // i; rewrite nth_start.
Qed.

(** If moreover no call that passes the checks starts after a Dispose has returned, there is no fault at all. *)
Theorem C66_in_time o (opss : seq (seq (cs_op A))) sched : cs_fresh o ->
  dispose_excludes early native sched o (map (@cs_start A R) opss) ->
  calls_in_time early native sched o (map (@cs_start A R) opss) ->
  exists o' ts, run sched o (map (@cs_start A R) opss) = CsRunOk o' ts.
Proof.
case: o => p l [/= p0 pl _]; apply: (in_time_safe (l := l) p0 pl).
by constructor 1; split=> // i; rewrite nth_start.
Qed.

(** In every run without a fault, each thread has got the results of its own operations in their order: what the
    other threads do shows in no result. *)
Theorem C66_results o (opss : seq (seq (cs_op A))) sched o' ts :
  run sched o (map (@cs_start A R) opss) = CsRunOk o' ts ->
  forall i, in_order early native (nth [::] opss i) (nth none ts i).
Proof.
by apply: run_in_order => i; rewrite nth_start; split=> //; exists [::].
Qed.

(** Nothing in the class provides the exclusion. A Dispose of another thread while a call is inside the native function
    frees the context under it. *)
Theorem C66_overlap_refuted o a : cs_fresh o -> early a = None ->
  exists sched n o' ts,
    [/\ run sched o [:: cs_start R [:: CsCall a]; cs_start R [:: CsDispose A]] = CsRunOk o' ts,
        in_native (nth none ts 0) &
        run (nseq n 1 ++ [:: 0]) o' ts = CsRunFault A R UseAfterFree].
Proof.
case: o => p l [/= /N.eqb_neq p0 pl ul] Ea.
exists [:: 0; 0], 3, (MkCsObject p l), [:: MkCsThread [::] (InCall p a) [::]; cs_start R [:: CsDispose A]]; split=> //.
  by rewrite /= /cs_step /= Ea /= /cs_deref /= ?p0 /= ?pl.
by rewrite /= /cs_step /= p0 /= /cs_free p0 /= pl /= /cs_deref p0 mem_rem_uniq // inE eqxx.
Qed.

(** A Dispose that has seen the context, and reads it again after another thread has finished its Dispose, does nothing
    more: the context is freed once. *)
Theorem C66_late_dispose o : cs_fresh o ->
  run [:: 0; 1; 1; 1; 1; 0; 0; 0] o [:: cs_start R [:: CsDispose A]; cs_start R [:: CsDispose A]] =
  CsRunOk (MkCsObject 0 (rem (cs_context o) (cs_live o))) (nseq 2 (MkCsThread [::] (Outside A) [:: CsDisposed R])).
Proof.
case: o => p l [/= /N.eqb_neq p0 pl ul].
by rewrite /= /cs_step /= /cs_free; do 4 rewrite ?p0 /= ?pl /=.
Qed.

(** Two threads that dispose can free the context twice. *)
Theorem C66_two_disposes_refuted o : cs_fresh o ->
  exists sched, run sched o [:: cs_start R [:: CsDispose A]; cs_start R [:: CsDispose A]] = CsRunFault A R FreedTwice.
Proof.
case: o => p l [/= /N.eqb_neq p0 pl ul]; exists [:: 0; 0; 1; 1; 0; 1].
by rewrite /= /cs_step /= /cs_free /= p0 /= p0 /= pl /= p0 mem_rem_uniq // inE eqxx.
Qed.
End Theorems.
