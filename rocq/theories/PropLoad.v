(** Loading of the native library in Java by any number of threads (C59). *)

From mathcomp Require Import ssreflect ssrfun ssrbool eqtype ssrnat seq.
From Verif Require Import JavaLoad SpecLoad JavaLoadProofs.

Set Implicit Arguments.
Unset Strict Implicit.
Unset Printing Implicit Defensive.

(** No two threads are in loadNativeLibrary at the same time. *)
Theorem C59_one_at_a_time l ts s : run init l ts s -> one_at_a_time None l.
Proof. by move/run_inv/inv_one. Qed.

(** Splitting of the events of an execution *)
Lemma run_split s l ts s' : run s l ts s' -> forall l1 e l2, l = l1 ++ e :: l2 ->
  exists ts1 s1 t s2 ts2, [/\ run s l1 ts1 s1, step t s1 (Some e) s2 & run s2 l2 ts2 s'].
Proof.
elim=> {s l ts s'} [s [] //|s t [e0|] s' l ts s'' St R IH] l1 e l2.
  case: l1 => [[Ee El]|e1 l1 [<- /IH]].
    by subst e0 l; exists [::], s, t, s', ts; split=> //; exact: RunNil.
  move=> [ts1 [s1 [u [s2 [ts2 [R1 S2 R2]]]]]]; exists (t :: ts1), s1, u, s2, ts2; split=> //.
  exact: (RunStep St R1).
move/IH => [ts1 [s1 [u [s2 [ts2 [R1 S2 R2]]]]]]; exists (t :: ts1), s1, u, s2, ts2; split=> //.
exact: (RunStep St R1).
Qed.

(** After a success nobody starts to load again. *)
Theorem C59_once l ts s : run init l ts s -> no_load_after_success l.
Proof.
move=> R l1 e l2 t E Se /(@List.in_split _ _ _) [l3 [l4 E2]].
have E' : l = (l1 ++ e :: l3) ++ LoadStart t :: l4 by rewrite E E2 -catA.
have [ts1 [s1 [u [s2 [ts2 [R1 St _]]]]]] := run_split R E'.
inversion St as [| | | |s0 Eb| | | | |]; subst.
by have [] := inv_before (run_inv R1) Eb; rewrite has_cat /= Se orbT.
Qed.

(** A native method is called only when the library has been loaded. *)
Theorem C59_loaded_before_use l ts s : run init l ts s -> native_after_success l.
Proof.
move=> R l1 t l2 /(run_split R) [ts1 [s1 [u [s2 [ts2 [R1 St _]]]]]].
inversion St as [| | | | | | | | |s0 Eb]; subst.
have I := run_inv R1; apply: (inv_loaded I); apply: (inv_after I (t := t)); by right.
Qed.

(** A constructor throws only when its own attempt to load failed. *)
Theorem C59_own_failure l ts s : run init l ts s -> throws_own_failure l.
Proof.
move=> R l1 t l2 /(run_split R) [ts1 [s1 [u [s2 [ts2 [R1 St _]]]]]].
inversion St as [| | | | | | | |s0 Eb|]; subst.
exact (inv_raise (run_inv R1) Eb).
Qed.

(** ** Nobody waits for ever *)
Section Finish.
Variable o : nat -> bool.

(** The attempts to load end as [o] says. *)
Definition outcomes (l : seq event) : Prop := forall u ok, List.In (LoadEnd u ok) l -> ok = o u.

(** Thread t alone can come to the end of its constructor, with the monitor free. *)
Definition can_finish (t : nat) (s : state) : Prop := exists l n s',
  [/\ run s l (nseq n t) s', outcomes l, pcs s' t = Idle, owner s' = None &
      forall u, u <> t -> pcs s' u = pcs s u].

Lemma finish_step t s e s' : step t s e s' -> outcomes (evs e) -> (forall u, u <> t -> pcs s' u = pcs s u) ->
  can_finish t s' -> can_finish t s.
Proof.
move=> St Oe Hs [l [n [s'' [R O Hi Ho Hu]]]]; exists (evs e ++ l), n.+1, s''; split=> //.
- by have := RunStep St R; case: e St Oe.
- by move=> u ok H; case: (List.in_app_or _ _ _ H) => [/Oe|/O].
- by move=> u ne; rewrite Hu // Hs.
Qed.
Lemma outcomes0 : outcomes [::]. Proof. by []. Qed.
Lemma goto_other s t p u : u <> t -> pcs (goto s t p) u = pcs s u.
Proof. by move=> ne; rewrite pcs_goto; case: eqP. Qed.
Lemma goto_same s t p : pcs (goto s t p) t = p. Proof. by rewrite pcs_goto eqxx. Qed.

Lemma finish_return t s : pcs s t = Return -> owner s = None -> can_finish t s.
Proof.
move=> E Eo; exists [:: NativeNew t], 1, (goto s t Idle); split=> //; [|by move=> u ok [|[]]|exact: goto_same|].
  exact: (RunStep (StepNew E) (RunNil _)).
by move=> u; exact: goto_other.
Qed.
Lemma finish_raise t s : pcs s t = Raise -> can_finish t s.
Proof.
move=> E; exists [:: Threw t], 1, (goto (MkState (loaded s) None (pcs s)) t Idle).
split=> //; [|by move=> u ok [|[]]|exact: goto_same|].
  exact: (RunStep (StepRaise E) (RunNil _)).
by move=> u ne; rewrite goto_other.
Qed.
Lemma finish_leave t s : pcs s t = Leave -> can_finish t s.
Proof.
move=> E; apply: (finish_step (StepLeave E) outcomes0); first by move=> u ne; rewrite goto_other.
by apply: finish_return => //; rewrite goto_same.
Qed.
Lemma finish_flag t s : pcs s t = SetFlag -> can_finish t s.
Proof.
move=> E; apply: (finish_step (StepFlag E) outcomes0); first by move=> u ne; rewrite goto_other.
by apply: finish_leave; rewrite goto_same.
Qed.
Lemma finish_loading t s : pcs s t = Loading -> can_finish t s.
Proof.
move=> E; apply: (finish_step (StepEnd (o t) E)).
- by move=> u ok [[<- <-]|[]].
- by move=> u ne; rewrite goto_other.
by case: (o t); [apply: finish_flag|apply: finish_raise]; rewrite goto_same.
Qed.
Lemma finish_before t s : pcs s t = Before -> can_finish t s.
Proof.
move=> E; apply: (finish_step (StepStart E)); first by move=> u ok [|[]].
  by move=> u ne; rewrite goto_other.
by apply: finish_loading; rewrite goto_same.
Qed.
Lemma finish_second t s : pcs s t = Second -> can_finish t s.
Proof.
move=> E; apply: (finish_step (StepSecond E) outcomes0); first by move=> u ne; rewrite goto_other.
by case: (loaded s); [apply: finish_leave|apply: finish_before]; rewrite goto_same.
Qed.
Lemma finish_wait t s : pcs s t = Wait -> owner s = None -> can_finish t s.
Proof.
move=> E Eo; apply: (finish_step (StepEnter E Eo) outcomes0); first by move=> u ne; rewrite goto_other.
by apply: finish_second; rewrite goto_same.
Qed.
Lemma finish_first t s : pcs s t = First -> owner s = None -> can_finish t s.
Proof.
move=> E Eo; apply: (finish_step (StepFirst E) outcomes0); first by move=> u ne; rewrite goto_other.
by case: (loaded s); [apply: finish_return|apply: finish_wait]; rewrite ?goto_same.
Qed.
Lemma finish_inside t s : inside (pcs s t) -> can_finish t s.
Proof.
case E: (pcs s t) => // _.
- exact: finish_second.
- exact: finish_before.
- exact: finish_loading.
- exact: finish_flag.
- exact: finish_leave.
- exact: finish_raise.
Qed.
Lemma finish_free t s : owner s = None -> pcs s t <> Idle -> can_finish t s.
Proof.
move=> Eo; case E: (pcs s t) => // _.
- exact: finish_first.
- exact: finish_wait.
- exact: finish_second.
- exact: finish_before.
- exact: finish_loading.
- exact: finish_flag.
- exact: finish_leave.
- exact: finish_raise.
- exact: finish_return.
Qed.

(** At any moment, however the attempts to load end, thread t gets to the end of its constructor when
    only it and the thread that is in the monitor run. *)
Theorem C59_finishes l ts s t : run init l ts s -> pcs s t <> Idle ->
  exists l' ts' s', [/\ run s l' ts' s', outcomes l', pcs s' t = Idle &
    forall u, u \in ts' -> u = t \/ owner s = Some u].
Proof.
move=> /run_inv I Ht; case Eo: (owner s) => [u|]; last first.
  have [l' [n [s' [R O E _ _]]]] := finish_free Eo Ht; exists l', (nseq n t), s'; split=> //.
  by move=> u; rewrite mem_nseq => /andP[_ /eqP ->]; left.
have [l1 [n1 [s1 [R1 O1 E1 Eo1 Hu]]]] := finish_inside ((inv_owner I u).2 Eo).
have [Et|ne] := @eqP _ t u.
  exists l1, (nseq n1 u), s1; split=> //; first by rewrite Et.
  by move=> v; rewrite mem_nseq => /andP[_ /eqP ->]; right.
have [l2 [n2 [s2 [R2 O2 E2 _ _]]]] := @finish_free t s1 Eo1 ltac:(by rewrite Hu).
exists (l1 ++ l2), (nseq n1 u ++ nseq n2 t), s2; split=> //.
- exact: run_cat R1 R2.
- by move=> v ok H; case: (List.in_app_or _ _ _ H) => [/O1|/O2].
by move=> v; rewrite mem_cat !mem_nseq => /orP[] /andP[_ /eqP ->]; [right|left].
Qed.
End Finish.

Print Assumptions C59_one_at_a_time.
Print Assumptions C59_once.
Print Assumptions C59_loaded_before_use.
Print Assumptions C59_own_failure.
Print Assumptions C59_finishes.
