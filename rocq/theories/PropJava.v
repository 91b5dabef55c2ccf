(** The life of a LibEthKZG object (C39). *)

From Coq Require Import NArith.
From mathcomp Require Import ssreflect ssrfun ssrbool eqtype ssrnat seq.
From mathcomp Require Import zify_ssreflect.
From Verif Require Import Base JavaLife SpecJava JavaProofs.

Set Implicit Arguments.
Unset Strict Implicit.
Unset Printing Implicit Defensive.

Section Theorems.
Variables (A R : Type) (native : A -> R).

(** One thread, any sequence of calls and closes: no fault at any point; when it is through, calls
    before the first close have returned what the native function returns, later ones have thrown,
    and the context is freed if and only if there was a close. *)
Theorem C39_sequential o (ops : seq (java_op A)) n : fresh_object o ->
  safe (run native (nseq n 0) o [:: start R ops]) /\
  (4 * size ops <= n -> run native (nseq n 0) o [:: start R ops] =
     RunOk (if has (@is_close A) ops then MkObject 0 (rem (context_ptr o) (live o)) else o)
       [:: MkThread [::] (Idle A) (expected native false ops)]).
Proof.
case: o => p l [/= p0 pl _].
have [k Hk E] := run_ops native p0 pl false ops [::].
have F m : run native (nseq (k + m) 0) (MkObject p l) [:: start R ops] =
  RunOk (obj l p (has (@is_close A) ops)) [:: MkThread [::] (Idle A) (expected native false ops)].
  by rewrite nseqD run_cat E run_finished.
have S : safe (run native (nseq n 0) (MkObject p l) [:: start R ops]).
  have [/subnKC H|/ltnW/subnKC H] := leqP k n; first by rewrite -H F.
  move: (F 0); rewrite addn0 -H nseqD run_cat; by case: (run native (nseq n 0) _ _).
split=> // Hn; have /subnKC <- : k <= n by lia.
by rewrite F /obj; case: has.
Qed.

(** Closing again changes nothing: after a close, the object stays as it is. *)
Theorem C39_close_again o (ops : seq (java_op A)) n m : fresh_object o -> has (@is_close A) ops ->
  4 * size ops <= n -> forall ops', 4 * size ops' <= m ->
  exists t t', run native (nseq n 0) o [:: start R ops] = RunOk (MkObject 0 (rem (context_ptr o) (live o))) [:: t] /\
    run native (nseq m 0) (MkObject 0 (rem (context_ptr o) (live o))) [:: start R ops'] =
      RunOk (MkObject 0 (rem (context_ptr o) (live o))) [:: t'] /\
    done t' = [seq (if is_close op then RClosed R else RIllegalState R) | op <- ops'].
Proof.
move=> Ho Hc Hn ops' Hm; have [_ /(_ Hn) ->] := C39_sequential ops n Ho; rewrite Hc.
case: o Ho => p l [/= p0 pl _].
have [k Hk E] := run_ops native p0 pl true ops' [::].
eexists; exists (MkThread [::] (Idle A) (expected native true ops')); split; first by [].
have /subnKC <- : k <= m by lia.
rewrite nseqD run_cat E run_finished; split=> //=.
by elim: ops' {E Hk Hm} => [|[|a] ops' IH] //=; rewrite IH.
Qed.

(** Any number of threads whose operations exclude each other. *)
Theorem C39_exclusive o (opss : seq (seq (java_op A))) sched : fresh_object o ->
  exclusive native sched o (map (start R) opss) -> safe (run native sched o (map (start R) opss)).
Proof.
case: o => p l [/= p0 pl _]; apply: (exclusive_safe (l := l) p0 pl).
have Hi j : pc (nth (idle_thread A R) (map (start R) opss) j) = Idle A.
  by elim: opss j => [|ops opss IH] [|j] //=.
by exists 0; split=> [j _|]; rewrite /idle Hi //; left.
Qed.

(** Any number of threads, with calls that overlap and closes that exclude all other operations. *)
Theorem C39_readers_writer o (opss : seq (seq (java_op A))) sched : fresh_object o ->
  readers_writer native sched o (map (start R) opss) -> safe (run native sched o (map (start R) opss)).
Proof.
case: o => p l [/= p0 pl _]; apply: (readers_writer_safe (l := l) p0 pl).
constructor 1; split=> // i.
by elim: opss i => [|ops opss IH] [|i] //=.
Qed.

(** Any number of threads that only call, in any interleaving: the object stays as it is. *)
Theorem C39_no_close o (opss : seq (seq (java_op A))) sched : fresh_object o ->
  all (fun ops => ~~ has (@is_close A) ops) opss ->
  exists ts, run native sched o (map (start R) opss) = RunOk o ts.
Proof.
case: o => p l [/= p0 pl _] H.
apply: (@calling_safe _ _ native l p p0 pl sched (MkObject p l) (map (start R) opss) erefl erefl) => i.
by elim: opss H i => [|ops opss IH] //= => [_|/andP[H1 /IH H2]] [|i] //=; rewrite /calling /= andbT.
Qed.

Lemma nth_java_start (opss : seq (seq (java_op A))) i :
  nth (idle_thread A R) (map (start R) opss) i = start R (nth [::] opss i).
Proof. by elim: opss i => [|ops opss IH] [|i] //=. Qed.

(** In every run without a fault, each thread has the results of its own operations in their order: a call has returned
    what the native function returns, or has thrown since the object was closed. *)
Theorem C39_results o (opss : seq (seq (java_op A))) sched o' ts :
  run native sched o (map (start R) opss) = RunOk o' ts ->
  forall i, answered (answers native) (nth [::] opss i) (nth (idle_thread A R) ts i).
Proof.
move=> E; apply: (run_answers (opss := opss) _ E) => i.
by rewrite nth_java_start; exists [::]; split=> //; constructor.
Qed.

(** With calls only, each call has returned what the native function returns. *)
Theorem C39_values o (opss : seq (seq (java_op A))) sched o' ts : fresh_object o ->
  all (fun ops => ~~ has (@is_close A) ops) opss ->
  run native sched o (map (start R) opss) = RunOk o' ts ->
  forall i, answered (is_value native) (nth [::] opss i) (nth (idle_thread A R) ts i).
Proof.
case=> o0 _ _ H E; apply: (run_values (opss := opss) o0 _ _ E) => i; last by rewrite nth_java_start; exists [::]; split=> //; constructor.
by elim: opss {E} H i => [|ops opss IH] /= H [|i] //=; case/andP: H => // _ /IH.
Qed.

(** A close while another thread is inside the native function: the call goes on with the freed context. *)
Theorem C39_close_during_call_refuted o a : fresh_object o ->
  exists sched n o' ts,
    [/\ run native sched o [:: start R [:: OpCall a]; start R [:: OpClose A]] = RunOk o' ts,
        in_native_call (nth (idle_thread A R) ts 0) &
        run native (nseq n 1 ++ [:: 0]) o' ts = RunFault A R FreedContext].
Proof.
case: o => p l [/= /N.eqb_neq p0 pl ul].
exists [:: 0; 0; 0], 3, (MkObject p l), [:: MkThread [::] (CLeave p a) [::]; start R [:: OpClose A]]; split=> //.
  by rewrite /= /tstep /= /deref; do 5! rewrite ?p0 ?pl /=.
rewrite /= /tstep /= /native_destroy /deref; do 5! rewrite ?p0 ?pl /=.
by rewrite mem_rem_uniq // inE eqxx.
Qed.

(** ... or reads the zero and passes a null context. *)
Theorem C39_null_context_refuted o a : fresh_object o ->
  exists sched, run native sched o [:: start R [:: OpCall a]; start R [:: OpClose A]] =
    RunFault A R NullContext.
Proof.
case: o => p l [/= /N.eqb_neq p0 pl ul].
exists [:: 0; 1; 1; 1; 1; 0; 0]; rewrite /= /tstep /= /native_destroy /deref.
by do 5! rewrite ?p0 ?pl /=.
Qed.

(** Two closes: the context is freed twice. *)
Theorem C39_two_closes_refuted o : fresh_object o ->
  exists sched, run native sched o [:: start R [:: OpClose A]; start R [:: OpClose A]] =
    RunFault A R DoubleFree.
Proof.
case: o => p l [/= /N.eqb_neq p0 pl ul].
exists [:: 0; 0; 1; 1; 0; 1]; rewrite /= /tstep /= /native_destroy /deref; do 5! rewrite ?p0 ?pl /=.
by rewrite mem_rem_uniq // inE eqxx.
Qed.

(** A close that has passed its check before another close runs to the end does nothing more. *)
Theorem C39_late_close o : fresh_object o ->
  run native [:: 0; 1; 1; 1; 1; 0; 0; 0] o [:: start R [:: OpClose A]; start R [:: OpClose A]] =
  RunOk (MkObject 0 (rem (context_ptr o) (live o))) (nseq 2 (MkThread [::] (Idle A) [:: RClosed R])).
Proof.
case: o => p l [/= /N.eqb_neq p0 pl ul].
by rewrite /= /tstep /= /native_destroy /deref; do 5! rewrite ?p0 ?pl /=.
Qed.
End Theorems.
