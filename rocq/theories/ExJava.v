(** Concrete histories of a LibEthKZG object. *)

From Coq Require Import NArith.
From mathcomp Require Import ssreflect ssrfun ssrbool eqtype ssrnat seq.
From Verif Require Import Base JavaLife SpecJava PropJava.

Set Implicit Arguments.
Unset Strict Implicit.
Unset Printing Implicit Defensive.

(** Two contexts are allocated, the object holds the one at address 16. *)
Definition ex_obj : object := MkObject 16 [:: 8; 16]%num.
Example ex_fresh : fresh_object ex_obj. Proof. by []. Qed.
Definition nat_native (a : nat) : nat := a + a.
Local Notation close := (OpClose nat).
Local Notation call := (@OpCall nat).

Definition ex_ops := [:: call 1; call 2; close; call 3; close; call 4].

Example C39_sequential_applies :
  run nat_native (nseq 24 0) ex_obj [:: start nat ex_ops] =
  RunOk (MkObject 0 [:: 8%num]) [:: MkThread [::] (Idle nat)
    [:: RValue 2; RValue 4; RClosed nat; RIllegalState nat; RClosed nat; RIllegalState nat]].
Proof. by have [_ ->] := C39_sequential nat_native ex_ops 24 ex_fresh. Qed.
Example C39_sequential_computed :
  run nat_native (nseq 15 0) ex_obj [:: start nat ex_ops] =
  RunOk (MkObject 0 [:: 8%num]) [:: MkThread [::] (Idle nat)
    [:: RValue 2; RValue 4; RClosed nat; RIllegalState nat; RClosed nat; RIllegalState nat]].
Proof. by vm_compute. Qed.

Example C39_close_again_applies : exists t t',
  run nat_native (nseq 4 0) ex_obj [:: start nat [:: close]] = RunOk (MkObject 0 [:: 8%num]) [:: t] /\
  run nat_native (nseq 8 0) (MkObject 0 [:: 8%num]) [:: start nat [:: close; call 3]] =
    RunOk (MkObject 0 [:: 8%num]) [:: t'] /\
  done t' = [:: RClosed nat; RIllegalState nat].
Proof. exact: (C39_close_again nat_native (ops := [:: close]) (n := 4) (m := 8) ex_fresh isT isT (ops' := [:: close; call 3]) isT). Qed.

(** Two threads; the second closes between the calls of the first. *)
Definition ex_two : seq (seq (java_op nat)) := [:: [:: call 1; call 2]; [:: close]].
Definition ex_turns : seq nat := nseq 4 0 ++ nseq 4 1 ++ nseq 1 0.
Example ex_exclusive : exclusive nat_native ex_turns ex_obj (map (start nat) ex_two).
Proof. by rewrite /=; repeat (split; first by case=> [|[|j]] //= _; rewrite nth_nil). Qed.
Example C39_exclusive_applies : safe (run nat_native ex_turns ex_obj (map (start nat) ex_two)).
Proof. exact: (C39_exclusive ex_fresh ex_exclusive). Qed.
Example C39_exclusive_computed : run nat_native ex_turns ex_obj (map (start nat) ex_two) =
  RunOk (MkObject 0 [:: 8%num]) [:: MkThread [::] (Idle nat) [:: RValue 2; RIllegalState nat];
                                    MkThread [::] (Idle nat) [:: RClosed nat]].
Proof. by vm_compute. Qed.

(** Two calls overlap, then the second thread closes, then the first one calls again and the call throws. *)
Definition ex_rw : seq (seq (java_op nat)) := [:: [:: call 1; call 2]; [:: call 5; close]].
Definition ex_rw_turns : seq nat := [:: 0; 1; 0; 1; 1; 0; 1; 0; 1; 1; 1; 1; 0].
Lemma rw_step i sched o o' (ts ts' : seq (thread nat nat)) t : may_step ts i ->
  tstep nat_native o (nth (idle_thread nat nat) ts i) = TNext o' t -> set_nth (idle_thread nat nat) ts i t = ts' ->
  readers_writer nat_native sched o' ts' -> readers_writer nat_native (i :: sched) o ts.
Proof. by move=> H E <- H'; split=> //; rewrite E. Qed.
Ltac one_step :=
  match goal with |- readers_writer _ (?i :: ?s) ?o ?ts =>
    let r := eval vm_compute in (tstep nat_native o (nth (idle_thread nat nat) ts i)) in
    match r with TNext ?o' ?t =>
      let ts' := eval vm_compute in (set_nth (idle_thread nat nat) ts i t) in
      apply (@rw_step i s o o' ts ts' t); [|vm_compute; reflexivity|vm_compute; reflexivity|]
    end
  end.
Ltac others_idle := (intro; discriminate) || (intros _; case=> [|[|j]] /= H; [by []|by []|by rewrite nth_nil]).
Example ex_readers_writer : readers_writer nat_native ex_rw_turns ex_obj (map (start nat) ex_rw).
Proof.
rewrite /ex_rw_turns /ex_rw /start [map _ _]/=.
do 13 (one_step; first others_idle).
exact: I.
Qed.
Example C39_readers_writer_applies : safe (run nat_native ex_rw_turns ex_obj (map (start nat) ex_rw)).
Proof. exact (C39_readers_writer ex_fresh ex_readers_writer). Qed.
Example C39_readers_writer_computed : run nat_native ex_rw_turns ex_obj (map (start nat) ex_rw) =
  RunOk (MkObject 0 [:: 8%num]) [:: MkThread [::] (Idle nat) [:: RValue 2; RIllegalState nat];
                                    MkThread [::] (Idle nat) [:: RValue 10; RClosed nat]].
Proof. by vm_compute. Qed.

Example C39_no_close_applies : exists ts,
  run nat_native [:: 0; 1; 1; 0; 1; 0; 0; 1] ex_obj (map (start nat) [:: [:: call 1]; [:: call 5; call 6]]) =
  RunOk ex_obj ts.
Proof. exact: (C39_no_close nat_native (opss := [:: [:: call 1]; [:: call 5; call 6]]) _ ex_fresh isT). Qed.

Example C39_values_computed :
  run nat_native [:: 0; 1; 1; 0; 1; 0; 0; 1] ex_obj (map (start nat) [:: [:: call 1]; [:: call 5; call 6]]) =
  RunOk ex_obj [:: MkThread [::] (Idle nat) [:: RValue 2]; MkThread [:: call 6] (Idle nat) [:: RValue 10]].
Proof. by vm_compute. Qed.
Example C39_values_applies : answered (is_value nat_native) [:: call 5; call 6] (MkThread [:: call 6] (Idle nat) [:: RValue 10]).
Proof. exact (@C39_values nat nat nat_native ex_obj [:: [:: call 1]; [:: call 5; call 6]] _ _ _ ex_fresh isT C39_values_computed 1). Qed.
Example C39_results_applies : answered (answers nat_native) [:: call 1; call 2]
  (MkThread [::] (Idle nat) [:: RValue 2; RIllegalState nat]).
Proof. exact (C39_results C39_readers_writer_computed 0). Qed.

Example C39_close_during_call_applies : exists sched n o ts,
  [/\ run nat_native sched ex_obj [:: start nat [:: call 1]; start nat [:: close]] = RunOk o ts,
      in_native_call (nth (idle_thread nat nat) ts 0) &
      run nat_native (nseq n 1 ++ [:: 0]) o ts = RunFault nat nat FreedContext].
Proof. exact (C39_close_during_call_refuted nat_native 1 ex_fresh). Qed.
Example C39_close_during_call_computed :
  run nat_native [:: 0; 0; 0; 1; 1; 1; 0] ex_obj [:: start nat [:: call 1]; start nat [:: close]] =
  RunFault nat nat FreedContext.
Proof. by vm_compute. Qed.
Example C39_two_closes_applies :
  run nat_native [:: 0; 0; 1; 1; 0; 1] ex_obj [:: start nat [:: close]; start nat [:: close]] =
  RunFault nat nat DoubleFree.
Proof. by vm_compute. Qed.
Example C39_late_close_applies :
  run nat_native [:: 0; 1; 1; 1; 1; 0; 0; 0] ex_obj [:: start nat [:: close]; start nat [:: close]] =
  RunOk (MkObject 0 [:: 8%num]) (nseq 2 (MkThread [::] (Idle nat) [:: RClosed nat])).
Proof. exact: (C39_late_close nat_native ex_fresh). Qed.
