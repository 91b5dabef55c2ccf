(** Examples for PropCsLife.v: the native function doubles, arguments above 100 are refused by the checks. *)

From Coq Require Import NArith.
From mathcomp Require Import ssreflect ssrfun ssrbool eqtype ssrnat seq.
From Verif Require Import Base CsLife SpecCsLife CsLifeProofs PropCsLife.

Set Implicit Arguments.
Unset Strict Implicit.
Unset Printing Implicit Defensive.

Definition cx_early (a : nat) : option nat := if 100 < a then Some 0 else None.
Definition cx_native (a : nat) : nat := 2 * a.
Definition cx_obj : cs_object := MkCsObject 7 [:: 7%num; 8%num].
Local Notation call := (@CsCall nat).
Local Notation dispose := (@CsDispose nat).
Local Notation run := (cs_run cx_early cx_native).
Local Notation start := (@cs_start nat nat).

Example cx_fresh : cs_fresh cx_obj. Proof. by []. Qed.

(** Two calls, two Dispose, then a call that the checks refuse *)
Definition cx_ops : seq (cs_op nat) := [:: call 1; call 2; dispose; dispose; call 101].
Example C66_sequential_applies : run (nseq 20 0) cx_obj [:: start cx_ops] =
  CsRunOk (MkCsObject 0 [:: 8%num])
    [:: MkCsThread [::] (Outside nat) [:: CsValue 2; CsValue 4; CsDisposed nat; CsDisposed nat; CsValue 0]].
Proof. exact: (C66_sequential cx_early cx_native (ops := cx_ops) (n := 20) cx_fresh isT). Qed.
Example C66_sequential_aborts : run (nseq 8 0) cx_obj [:: start [:: dispose; call 3]] = CsRunFault nat nat AbortNull.
Proof. exact: (C66_sequential cx_early cx_native (ops := [:: dispose; call 3]) (n := 8) cx_fresh isT). Qed.

Example C66_calls_applies : exists ts,
  run [:: 0; 1; 1; 0; 1; 0; 1] cx_obj (map start [:: [:: call 1]; [:: call 5; call 6]]) = CsRunOk cx_obj ts.
Proof. exact: (C66_calls cx_early cx_native (opss := [:: [:: call 1]; [:: call 5; call 6]]) _ cx_fresh isT). Qed.

(** Two calls overlap, then the second thread disposes of the object; [cx_late] has one call more. *)
Definition cx_two : seq (seq (cs_op nat)) := [:: [:: call 1; call 101]; [:: call 5; dispose]].
Definition cx_turns : seq nat := [:: 0; 1; 0; 1; 1; 0; 1; 1; 1; 1; 0].
Definition cx_late : seq (seq (cs_op nat)) := [:: [:: call 1; call 2]; [:: call 5; dispose]].
Definition cx_late_turns : seq nat := rcons cx_turns 0.
Local Notation none := (cs_none nat nat).

Lemma cx_step i sched o o' (ts ts' : seq (cs_thread nat nat)) t : cs_may_step ts i ->
  cs_step cx_early cx_native o (nth none ts i) = CsNext o' t -> set_nth none ts i t = ts' ->
  dispose_excludes cx_early cx_native sched o' ts' -> dispose_excludes cx_early cx_native (i :: sched) o ts.
Proof. by move=> H E <- H'; split=> //; rewrite E. Qed.
Lemma cx_last i sched o (ts : seq (cs_thread nat nat)) f : cs_may_step ts i ->
  cs_step cx_early cx_native o (nth none ts i) = CsFault _ _ f -> dispose_excludes cx_early cx_native (i :: sched) o ts.
Proof. by move=> H E; split=> //; rewrite E. Qed.
Lemma cx_time i sched o o' (ts ts' : seq (cs_thread nat nat)) t : cs_in_time cx_early ts i ->
  cs_step cx_early cx_native o (nth none ts i) = CsNext o' t -> set_nth none ts i t = ts' ->
  calls_in_time cx_early cx_native sched o' ts' -> calls_in_time cx_early cx_native (i :: sched) o ts.
Proof. by move=> H E <- H'; split=> //; rewrite E. Qed.
Ltac one_step :=
  let go i s o ts L :=
    let r := eval vm_compute in (cs_step cx_early cx_native o (nth none ts i)) in
    match r with
    | CsNext ?o' ?t =>
      let ts' := eval vm_compute in (set_nth none ts i t) in
      apply (@L i s o o' ts ts' t); [|vm_compute; reflexivity|vm_compute; reflexivity|]
    | CsFault _ _ ?f => apply (@cx_last i s o ts f); [|vm_compute; reflexivity]
    end in
  match goal with
  | |- dispose_excludes _ _ (?i :: ?s) ?o ?ts => go i s o ts cx_step
  | |- calls_in_time _ _ (?i :: ?s) ?o ?ts => go i s o ts cx_time
  end.
Ltac others := (intro; discriminate) || (intros _; case=> [|[|j]] /= H; [by []|by []|by rewrite nth_nil]).
Ltac timely := exact I || (intros _; case=> [|[|j]] /=; [by []|by []|by rewrite nth_nil]) || (intro; discriminate).

Example cx_excludes : dispose_excludes cx_early cx_native cx_turns cx_obj (map start cx_two).
Proof. by rewrite /cx_turns /cx_two /cs_start [map _ _]/=; do 11 (one_step; first others). Qed.
Example cx_in_time : calls_in_time cx_early cx_native cx_turns cx_obj (map start cx_two).
Proof. by rewrite /cx_turns /cx_two /cs_start [map _ _]/=; do 11 (one_step; first timely). Qed.
Example cx_late_excludes : dispose_excludes cx_early cx_native cx_late_turns cx_obj (map start cx_late).
Proof. by rewrite /cx_late_turns /cx_late /cs_start [rcons _ _]/= [map _ _]/=; do 11 (one_step; first others); one_step; others. Qed.

Example C66_in_time_applies : exists o ts, run cx_turns cx_obj (map start cx_two) = CsRunOk o ts.
Proof. exact (C66_in_time cx_fresh cx_excludes cx_in_time). Qed.
Example C66_in_time_computed : run cx_turns cx_obj (map start cx_two) =
  CsRunOk (MkCsObject 0 [:: 8%num]) [:: MkCsThread [::] (Outside nat) [:: CsValue 2; CsValue 0];
                                        MkCsThread [::] (Outside nat) [:: CsValue 10; CsDisposed nat]].
Proof. by vm_compute. Qed.
Example C66_results_applies : in_order cx_early cx_native [:: call 1; call 101]
  (MkCsThread [::] (Outside nat) [:: CsValue 2; CsValue 0]).
Proof. exact (C66_results C66_in_time_computed 0). Qed.
Example cx_late_aborts : run cx_late_turns cx_obj (map start cx_late) = CsRunFault nat nat AbortNull.
Proof. by vm_compute. Qed.
Example C66_dispose_excludes_applies f : run cx_late_turns cx_obj (map start cx_late) = CsRunFault nat nat f -> f = AbortNull.
Proof. exact (C66_dispose_excludes cx_fresh cx_late_excludes (f := f)). Qed.

Example C66_overlap_applies : exists sched n o ts,
  [/\ run sched cx_obj [:: start [:: call 1]; start [:: dispose]] = CsRunOk o ts, in_native (nth none ts 0) &
      run (nseq n 1 ++ [:: 0]) o ts = CsRunFault nat nat UseAfterFree].
Proof. exact (@C66_overlap_refuted nat nat cx_early cx_native cx_obj 1 cx_fresh erefl). Qed.
Example C66_late_dispose_applies :
  run [:: 0; 1; 1; 1; 1; 0; 0; 0] cx_obj [:: start [:: dispose]; start [:: dispose]] =
  CsRunOk (MkCsObject 0 [:: 8%num]) (nseq 2 (MkCsThread [::] (Outside nat) [:: CsDisposed nat])).
Proof. exact (C66_late_dispose cx_early cx_native cx_fresh). Qed.
Example C66_two_disposes_applies :
  exists sched, run sched cx_obj [:: start [:: dispose]; start [:: dispose]] = CsRunFault nat nat FreedTwice.
Proof. exact: (C66_two_disposes_refuted cx_early cx_native cx_fresh). Qed.
