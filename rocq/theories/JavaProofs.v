(** Invariants of the object of JavaLife.v. *)

From Coq Require Import NArith.
From mathcomp Require Import ssreflect ssrfun ssrbool eqtype ssrnat seq.
From mathcomp Require Import zify_ssreflect.
From Verif Require Import Base JavaLife SpecJava.

Set Implicit Arguments.
Unset Strict Implicit.
Unset Printing Implicit Defensive.

Section Java.
Variables (A R : Type) (native : A -> R).
Local Notation run := (run native).
Local Notation expected := (expected native).
Local Notation none := (idle_thread A R).

(** ** Invariants *)
(** The object and a thread inside (or outside) an operation that excludes the others. *)
Definition inv (l : seq N) (p : N) (o : object) (c : java_pc A) : Prop :=
  match c with
  | Idle => (context_ptr o = p /\ live o = l) \/ (context_ptr o = 0%num /\ live o = rem p l)
  | DLoad | CLoad _ => context_ptr o = p /\ live o = l
  | DFree q | CEnter q _ | CLeave q _ => [/\ q = p, context_ptr o = p & live o = l]
  | DStore => context_ptr o = p /\ live o = rem p l
  end.

Variables (l : seq N) (p : N).
Hypothesis p0 : (p <> 0)%num.
Hypothesis pl : p \in l.

Lemma p0E : (p =? 0)%num = false. Proof. exact/N.eqb_neq. Qed.

Lemma inv_step o (t : thread A R) : inv l p o (pc t) ->
  match tstep native o t with
  | TNext o' t' => inv l p o' (pc t')
  | TFinished => pc t = Idle _
  | TFault _ => False
  end.
Proof.
case: t => ops c d; rewrite /tstep; case: c => [||q||a|q a|q a] /=.
- case: ops => [|[|a] ops] //= H; case: ifP => H0 //=.
    by case: H => [[-> ->]|[E _]] //; move: H0; rewrite E.
  by case: H => [[-> ->]|[E _]] //; move: H0; rewrite E.
- by case.
- by case=> -> E1 E2; rewrite /native_destroy p0E E2 pl.
- by case=> E1 E2; right.
- by case.
- by case=> -> E1 E2; rewrite /deref p0E E2 pl.
- by case=> -> E1 E2; rewrite /deref p0E E2 pl; left.
Qed.

(** At most one thread is inside an operation. *)
Definition one_inside (o : object) (ts : seq (thread A R)) : Prop :=
  exists i, (forall j, j <> i -> idle (nth none ts j)) /\ inv l p o (pc (nth none ts i)).

Lemma idle_pc (t : thread A R) : idle t -> pc t = Idle A.
Proof. by case: t => ? [] //=. Qed.

Lemma exclusive_safe sched o ts : one_inside o ts -> exclusive native sched o ts -> safe (run sched o ts).
Proof.
elim: sched o ts => [|k sched IH] o ts //= [i [Hi Hinv]] [Hk].
have Hk' : inv l p o (pc (nth none ts k)).
  have [<- //|/eqP ne] := eqVneq i k.
  by rewrite (idle_pc (Hi k (nesym ne))) -(idle_pc (Hk i ne)).
have := inv_step Hk'; case: tstep => [o' t'|f|] //= Hs He; apply: IH He => //; exists k; last by split.
split; last by rewrite nth_set_nth /= eqxx.
by move=> j /eqP ne; rewrite nth_set_nth /= (negbTE ne); apply: Hk; exact/eqP.
Qed.

(** Threads that only call. *)
Definition calling (t : thread A R) : bool :=
  ~~ has (@is_close A) (todo t) &&
  match pc t with
  | Idle | CLoad _ => true
  | CEnter q _ | CLeave q _ => (q =? p)%num
  | _ => false
  end.

Lemma calling_safe sched o ts : context_ptr o = p -> live o = l ->
  (forall i, calling (nth none ts i)) ->
  exists ts', run sched o ts = RunOk o ts'.
Proof.
move=> E1 E2; elim: sched ts => [|k sched IH] ts H /=; first by exists ts.
have Hset t : calling t -> forall i, calling (nth none (set_nth none ts k t) i).
  by move=> Ht i; rewrite nth_set_nth /=; case: ifP.
have := H k; case Et: (nth none ts k) => [ops c d]; rewrite /calling /tstep /=.
case: c Et => [||q||a|q a|q a] Et /andP[Hc Hp] //=.
- case: ops Hc Et => [|[|a] ops] //= Hc Et; first exact: IH.
  by rewrite E1 p0E; apply/IH/Hset; rewrite /calling /= Hc.
- by apply/IH/Hset; rewrite /calling /= Hc E1 N.eqb_refl.
- by move/N.eqb_eq: Hp => ->; rewrite /deref p0E E2 pl; apply/IH/Hset; rewrite /calling /= Hc N.eqb_refl.
- by move/N.eqb_eq: Hp => ->; rewrite /deref p0E E2 pl; apply/IH/Hset; rewrite /calling /= Hc.
Qed.

(** Calls overlap, closes exclude: open, closing, closed. *)
Definition in_call (t : thread A R) : bool :=
  match pc t with Idle | CLoad _ => true | CEnter q _ | CLeave q _ => (q =? p)%num | _ => false end.
Definition closing (o : object) (c : java_pc A) : Prop :=
  match c with
  | DLoad => context_ptr o = p /\ live o = l
  | DFree q => [/\ q = p, context_ptr o = p & live o = l]
  | DStore => context_ptr o = p /\ live o = rem p l
  | _ => False
  end.
Definition rw_inv (o : object) (ts : seq (thread A R)) : Prop :=
  [\/ [/\ context_ptr o = p, live o = l & forall i, in_call (nth none ts i)],
      exists i, closing o (pc (nth none ts i)) /\ forall j, j <> i -> idle (nth none ts j) |
      [/\ context_ptr o = 0%num, live o = rem p l & forall i, idle (nth none ts i)]].

Lemma idle_in_call t : idle t -> in_call t.
Proof. by case: t => ? [] //=. Qed.
Lemma closing_in_close o (t : thread A R) : closing o (pc t) -> in_close t.
Proof. by case: t => ? [] //=. Qed.

Lemma readers_writer_safe sched o ts : rw_inv o ts -> readers_writer native sched o ts -> safe (run sched o ts).
Proof.
elim: sched o ts => [|k sched IH] o ts //= Hi [Hk].
have Hset t (P : pred (thread A R)) : P t -> (forall j, j <> k -> P (nth none ts j)) ->
    forall i, P (nth none (set_nth none ts k t) i).
  by move=> Ht H i; rewrite nth_set_nth /=; case: eqP => [_|/H].
have Hoth t j : j <> k -> nth none (set_nth none ts k t) j = nth none ts j.
  by move=> /eqP /negbTE ne; rewrite nth_set_nth /= ne.
case: Hi => [[E1 E2 Hc]|[i [Hcl Hoi]]|[E1 E2 Hc]].
- move: Hk (Hc k); rewrite /may_step; case Et: (nth none ts k) => [ops c d]; rewrite /in_call /idle /tstep /=.
  case: c Et => [||q||a|q a|q a] Et //=.
  + case: ops Et => [|[|a] ops] Et /= /(_ isT) Hm _ He; first by apply: IH He; constructor 1.
      move: He; rewrite E1 p0E => He; apply: IH He; constructor 2; exists k; split; first by rewrite nth_set_nth /= eqxx.
      by move=> j ne; rewrite Hoth //; apply: Hm.
    by move: He; rewrite E1 p0E => He; apply: IH He; constructor 1; split=> //; apply: Hset.
  + by move=> _ _ He; apply: IH He; constructor 1; split=> //; apply: Hset => //; rewrite /in_call /= E1 N.eqb_refl.
  + move=> _ /N.eqb_eq ->; rewrite /deref p0E E2 pl => He; apply: IH He; constructor 1; split=> //.
    by apply: Hset => //; rewrite /in_call /= N.eqb_refl.
  + move=> _ /N.eqb_eq ->; rewrite /deref p0E E2 pl => He; apply: IH He; constructor 1; split=> //.
    by apply: Hset.
- have [Eik|/eqP ne] := eqVneq i k; last first.
    have Hidle := Hoi k (nesym ne).
    move: Hk Hidle; rewrite /may_step; case Et: (nth none ts k) => [ops c d]; rewrite /idle /tstep /=.
    case: c Et => // Et; case: ops Et => [|[|a] ops] Et /= /(_ isT) Hm _ He.
    * by apply: IH He; constructor 2; exists i.
    * by have := Hm i ne; move: Hcl; rewrite /idle; case: (pc _).
    * by have := Hm i ne; rewrite (closing_in_close Hcl).
  move: Hcl Hoi Hk; rewrite {}Eik; case Et: (nth none ts k) => [ops c d] Hcl Hoi _; rewrite /tstep /=.
  case: c Et Hcl => [||q||a|q a|q a] Et //=.
  + case=> E1 E2 He; apply: IH He; constructor 2; exists k; split; first by rewrite nth_set_nth /= eqxx /= E1.
    by move=> j ne; rewrite Hoth //; apply: Hoi.
  + case=> -> E1 E2; rewrite /native_destroy p0E E2 pl => He; apply: IH He; constructor 2; exists k.
    split; first by rewrite nth_set_nth /= eqxx.
    by move=> j ne; rewrite Hoth //; apply: Hoi.
  + by case=> E1 E2 He; apply: IH He; constructor 3; split=> //=; apply: Hset.
- move: (Hc k); case Et: (nth none ts k) => [ops c d]; rewrite /idle /tstep /=; case: c Et => // Et _.
  case: ops Et => [|[|a] ops] Et /= He; first by apply: IH He; constructor 3.
    by move: He; rewrite E1 /= => He; apply: IH He; constructor 3; split=> //; apply: Hset.
  by move: He; rewrite E1 /= => He; apply: IH He; constructor 3; split=> //; apply: Hset.
Qed.

(** ** One thread *)
Lemma run_cat s1 s2 o ts : run (s1 ++ s2) o ts =
  match run s1 o ts with RunOk o ts => run s2 o ts | RunFault f => RunFault A R f end.
Proof.
by elim: s1 o ts => [|k s1 IH] o ts //=; case: tstep => [o' t'|f|] //=; rewrite IH.
Qed.

Lemma run_finished n o d : run (nseq n 0) o [:: MkThread [::] (Idle A) d] = RunOk o [:: MkThread [::] (Idle A) d].
Proof. by elim: n. Qed.

Definition obj (closed : bool) : object := if closed then MkObject 0 (rem p l) else MkObject p l.

Lemma run_op closed op ops (d : seq (java_result R)) :
  exists2 k, k <= 4 & run (nseq k 0) (obj closed) [:: MkThread (op :: ops) (Idle A) d] =
    RunOk (obj (closed || is_close op)) [:: MkThread ops (Idle A) (d ++ expected closed [:: op])].
Proof.
case: op => [|a]; case: closed; rewrite cats1.
- by exists 1.
- by exists 4 => //; rewrite /= /tstep /= /native_destroy /deref; do 4! rewrite ?p0E ?pl /=.
- by exists 1.
by exists 4 => //; rewrite /= /tstep /= /native_destroy /deref; do 4! rewrite ?p0E ?pl /=.
Qed.

Lemma expected_cons closed op ops :
  expected closed (op :: ops) = expected closed [:: op] ++ expected (closed || is_close op) ops.
Proof. by case: op => [|a] //=; case: closed. Qed.

Lemma run_ops closed ops (d : seq (java_result R)) :
  exists2 k, k <= 4 * size ops & run (nseq k 0) (obj closed) [:: MkThread ops (Idle A) d] =
    RunOk (obj (closed || has (@is_close A) ops)) [:: MkThread [::] (Idle A) (d ++ expected closed ops)].
Proof.
elim: ops closed d => [|op ops IH] closed d; first by exists 0; rewrite //= cats0 orbF.
have [k1 H1 E1] := run_op closed op ops d.
have [k2 H2 E2] := IH (closed || is_close op) (d ++ expected closed [:: op]).
exists (k1 + k2); first by rewrite -[size (op :: ops)]/((size ops).+1); lia.
by rewrite nseqD run_cat E1 E2 (expected_cons closed op ops) catA -[has _ (op :: ops)]/(is_close op || has _ ops) orbA.
Qed.
End Java.


(** Results, in every run *)
Section Answers.
Variables (A R : Type) (native : A -> R).
Local Notation none := (idle_thread A R).

Lemma step_answered (ok : java_op A -> java_result R -> Prop) ops o t o' t' :
  ok (OpClose A) (RClosed R) \/ ~~ has (@is_close A) ops ->
  (forall a, ok (OpCall a) (RValue (native a))) ->
  ((context_ptr o <> 0)%num \/ forall a, ok (OpCall a) (RIllegalState R)) ->
  answered ok ops t -> tstep native o t = TNext o' t' -> answered ok ops t'.
Proof.
move=> Hc Hv Hi; case: t => td c d [before [/= E Hb]]; move: E; rewrite /now /tstep /deref /native_destroy /= => E.
have fin op td' r : ops = before ++ op :: td' -> ok op r -> answered ok ops (MkThread td' (Idle A) (rcons d r)).
  move=> -> Hr; exists (rcons before op); rewrite cat_rcons; split=> //=.
  by rewrite -!cats1; apply: List.Forall2_app => //; constructor.
have Hclose td' : ops = before ++ OpClose A :: td' -> ok (OpClose A) (RClosed R).
  by case: Hc => // Hn E'; move: Hn; rewrite E' has_cat /= orbT.
case: c E => [||q||a|q a|q a] /= E.
- case: td E => [|[|a] td] E //=.
    by case: ifP => _ [_ <-]; [apply: (fin (OpClose A)) => //; apply: Hclose E|exists before].
  case: ifP => [/N.eqb_eq H0|_] [_ <-]; last by exists before.
  by apply: (fin (OpCall a)) => //; case: Hi.
- by case=> _ <-; exists before.
- by case: ifP => _; [|case: ifP => // _]; case=> _ <-; exists before.
- by case=> _ <-; apply: (fin (OpClose A)) => //; apply: Hclose E.
- by case=> _ <-; exists before.
- by case: ifP => // _; case: ifP => // _; case=> _ <-; exists before.
- by case: ifP => // _; case: ifP => // _; case=> _ <-; apply: (fin (OpCall a)).
Qed.

Lemma run_answers opss sched o ts o' ts' :
  (forall i, answered (answers native) (nth [::] opss i) (nth none ts i)) ->
  run native sched o ts = RunOk o' ts' -> forall i, answered (answers native) (nth [::] opss i) (nth none ts' i).
Proof.
elim: sched o ts => [|k sched IH] o ts H /=; first by case=> _ <-.
case E: tstep => [o1 t1|f|] //; last exact: IH.
apply: IH => i; rewrite nth_set_nth /=; case: eqP => [->|_]; last exact: H.
by apply: step_answered (H k) E => //; [left|right].
Qed.

Lemma step_no_close ops o t o' t' ok : ~~ has (@is_close A) ops -> answered ok ops t ->
  tstep native o t = TNext o' t' -> o' = o.
Proof.
move=> Hn; case: t => td c d [before [/= E _]]; move: Hn; rewrite E !has_cat /now /tstep /deref /native_destroy /=.
case: c {E} => [||q||a|q a|q a] /=; rewrite ?orbT //.
- by case: td => [|[|a] td] //=; rewrite ?orbT // => _ [].
- by move=> _ [].
- by move=> _; case: ifP => // _; case: ifP => // _ [].
- by move=> _; case: ifP => // _; case: ifP => // _ [].
Qed.

Lemma run_values opss sched o ts o' ts' : (context_ptr o <> 0)%num ->
  (forall i, ~~ has (@is_close A) (nth [::] opss i)) ->
  (forall i, answered (is_value native) (nth [::] opss i) (nth none ts i)) ->
  run native sched o ts = RunOk o' ts' -> forall i, answered (is_value native) (nth [::] opss i) (nth none ts' i).
Proof.
move=> o0 Hn; elim: sched ts => [|k sched IH] ts H /=; first by case=> _ <-.
case E: tstep => [o1 t1|f|] //; last exact: IH.
have Eo := step_no_close (Hn k) (H k) E; rewrite Eo in E *.
apply: IH => i; rewrite nth_set_nth /=; case: eqP => [->|_]; last exact: H.
by apply: step_answered (H k) E; [right; exact: Hn|move=> a; exists a|left].
Qed.
End Answers.
