(** Invariants of the object of CsLife.v. *)

From Coq Require Import NArith.
From mathcomp Require Import ssreflect ssrfun ssrbool eqtype ssrnat seq.
From Verif Require Import Base CsLife SpecCsLife.

Set Implicit Arguments.
Unset Strict Implicit.
Unset Printing Implicit Defensive.

Section Cs.
Variables (A R : Type) (early : A -> option R) (native : A -> R).
Local Notation run := (cs_run early native).
Local Notation none := (cs_none A R).
Variables (l : seq N) (p : N).
Hypothesis p0 : (p <> 0)%num.
Hypothesis pl : p \in l.

Lemma p0E : (p =? 0)%num = false. Proof. exact/N.eqb_neq. Qed.

(** Only calls *)
Definition only_calls (t : cs_thread A R) : bool :=
  ~~ has (@is_dispose A) (cs_todo t) &&
  match cs_at t with Outside => true | AtCall q _ | InCall q _ => (q =? p)%num | _ => false end.

Lemma only_calls_safe sched o ts : cs_context o = p -> cs_live o = l ->
  (forall i, only_calls (nth none ts i)) -> exists ts', run sched o ts = CsRunOk o ts'.
Proof.
move=> E1 E2; elim: sched ts => [|k sched IH] ts H /=; first by exists ts.
have Hset t : only_calls t -> forall i, only_calls (nth none (set_nth none ts k t) i).
  by move=> Ht i; rewrite nth_set_nth /=; case: ifP.
have := H k; case Et: (nth none ts k) => [ops c d]; rewrite /only_calls /cs_step /=.
case: c Et => [||q||q a|q a] Et /andP[Hc Hp] //=.
- case: ops Hc Et => [|[|a] ops] //= Hc Et; first exact: IH.
  by case: (early a) => [r|]; apply/IH/Hset; rewrite /only_calls /= Hc ?E1 ?N.eqb_refl.
- by move/N.eqb_eq: Hp => ->; rewrite /cs_deref p0E E2 pl; apply/IH/Hset; rewrite /only_calls /= Hc N.eqb_refl.
- by move/N.eqb_eq: Hp => ->; rewrite /cs_deref p0E E2 pl; apply/IH/Hset; rewrite /only_calls /= Hc.
Qed.

(** Calls overlap, Dispose excludes: open, disposing, disposed *)
Definition calls_p (t : cs_thread A R) : bool :=
  match cs_at t with Outside => true | AtCall q _ | InCall q _ => (q =? p)%num | _ => false end.
Definition calls_0 (t : cs_thread A R) : bool :=
  match cs_at t with Outside => true | AtCall q _ => (q =? 0)%num | _ => false end.
Definition disposing (o : cs_object) (c : cs_pc A) : Prop :=
  match c with
  | AtFree => cs_context o = p /\ cs_live o = l
  | InFree q => [/\ q = p, cs_context o = p & cs_live o = l]
  | AtStore => cs_context o = p /\ cs_live o = rem p l
  | _ => False
  end.
Definition rw_inv (o : cs_object) (ts : seq (cs_thread A R)) : Prop :=
  [\/ [/\ cs_context o = p, cs_live o = l & forall i, calls_p (nth none ts i)],
      exists i, disposing o (cs_at (nth none ts i)) /\ forall j, j <> i -> outside (nth none ts j) |
      [/\ cs_context o = 0%num, cs_live o = rem p l & forall i, calls_0 (nth none ts i)]].

Definition no_ub (r : cs_run_result A R) : Prop :=
  match r with CsRunFault UseAfterFree | CsRunFault FreedTwice => False | _ => True end.

Lemma disposing_in o (t : cs_thread A R) : disposing o (cs_at t) -> in_dispose t.
Proof. by case: t => ? [] //=. Qed.

Lemma dispose_excludes_safe sched o ts : rw_inv o ts -> dispose_excludes early native sched o ts -> no_ub (run sched o ts).
Proof.
elim: sched o ts => [|k sched IH] o ts //= Hi [Hk].
have Hset t (P : pred (cs_thread A R)) : P t -> (forall j, j <> k -> P (nth none ts j)) ->
    forall i, P (nth none (set_nth none ts k t) i).
  by move=> Ht H i; rewrite nth_set_nth /=; case: eqP => [_|/H].
have Hoth t j : j <> k -> nth none (set_nth none ts k t) j = nth none ts j.
  by move=> /eqP /negbTE ne; rewrite nth_set_nth /= ne.
case: Hi => [[E1 E2 Hc]|[i [Hcl Hoi]]|[E1 E2 Hc]].
- move: Hk (Hc k); rewrite /cs_may_step; case Et: (nth none ts k) => [ops c d]; rewrite /calls_p /outside /cs_step /=.
  case: c Et => [||q||q a|q a] Et //=.
  + case: ops Et => [|[|a] ops] Et /= /(_ isT) Hm _ He; first by apply: IH He; constructor 1.
      move: He; rewrite E1 p0E => He; apply: IH He; constructor 2; exists k; split; first by rewrite nth_set_nth /= eqxx.
      by move=> j ne; rewrite Hoth //; apply: Hm.
    by move: He; case: (early a) => [r|] He; apply: IH He; constructor 1; split=> //; apply: Hset => //;
      rewrite /calls_p /= ?E1 ?N.eqb_refl.
  + move=> _ /N.eqb_eq ->; rewrite /cs_deref p0E E2 pl => He; apply: IH He; constructor 1; split=> //.
    by apply: Hset => //; rewrite /calls_p /= N.eqb_refl.
  + move=> _ /N.eqb_eq ->; rewrite /cs_deref p0E E2 pl => He; apply: IH He; constructor 1; split=> //.
    by apply: Hset.
- have [Eik|/eqP ne] := eqVneq i k; last first.
    have Hidle := Hoi k (nesym ne).
    move: Hk Hidle; rewrite /cs_may_step; case Et: (nth none ts k) => [ops c d]; rewrite /outside /cs_step /=.
    case: c Et => // Et; case: ops Et => [|[|a] ops] Et /= /(_ isT) Hm _ He.
    * by apply: IH He; constructor 2; exists i.
    * by have := Hm i ne; move: Hcl; rewrite /outside; case: (cs_at _).
    * by have := Hm i ne; rewrite (disposing_in Hcl).
  move: Hcl Hoi Hk; rewrite {}Eik; case Et: (nth none ts k) => [ops c d] Hcl Hoi _; rewrite /cs_step /=.
  case: c Et Hcl => [||q||q a|q a] Et //=.
  + case=> E1 E2 He; apply: IH He; constructor 2; exists k; split; first by rewrite nth_set_nth /= eqxx /= E1.
    by move=> j ne; rewrite Hoth //; apply: Hoi.
  + case=> -> E1 E2; rewrite /cs_free p0E E2 pl => He; apply: IH He; constructor 2; exists k.
    split; first by rewrite nth_set_nth /= eqxx.
    by move=> j ne; rewrite Hoth //; apply: Hoi.
  + case=> E1 E2 He; apply: IH He; constructor 3; split=> //=; apply: Hset => // j /Hoi.
    by case: (nth none ts j) => ? [].
- move: (Hc k); case Et: (nth none ts k) => [ops c d]; rewrite /calls_0 /cs_step /=; case: c Et => [||q||q a|q a] // Et.
  + case: ops Et => [|[|a] ops] Et /= _ He; first by apply: IH He; constructor 3.
      by move: He; rewrite E1 /= => He; apply: IH He; constructor 3; split=> //; apply: Hset.
    by move: He; case: (early a) => [r|] He; apply: IH He; constructor 3; split=> //; apply: Hset => //;
      rewrite /calls_0 /= ?E1.
  + by move=> /N.eqb_eq ->.
Qed.

(** The same with calls in time *)
Definition time_inv (o : cs_object) (ts : seq (cs_thread A R)) : Prop :=
  [\/ [/\ cs_context o = p, cs_live o = l & forall i, calls_p (nth none ts i)],
      exists i, disposing o (cs_at (nth none ts i)) /\ forall j, j <> i -> outside (nth none ts j) |
      [/\ cs_context o = 0%num, forall i, outside (nth none ts i) & exists j, has_disposed (nth none ts j)]].

Lemma in_time_safe sched o ts : time_inv o ts -> dispose_excludes early native sched o ts ->
  calls_in_time early native sched o ts -> exists o' ts', run sched o ts = CsRunOk o' ts'.
Proof.
elim: sched o ts => [|k sched IH] o ts /=; first by exists o, ts.
move=> Hi [Hk He0] [Hm0 Ht0]; move: He0 Ht0.
have Hset t (P : pred (cs_thread A R)) : P t -> (forall j, j <> k -> P (nth none ts j)) ->
    forall i, P (nth none (set_nth none ts k t) i).
  by move=> Ht H i; rewrite nth_set_nth /=; case: eqP => [_|/H].
have Hoth t j : j <> k -> nth none (set_nth none ts k t) j = nth none ts j.
  by move=> /eqP /negbTE ne; rewrite nth_set_nth /= ne.
case: Hi => [[E1 E2 Hc]|[i [Hcl Hoi]]|[E1 E2 Hc]].
- move: Hk (Hc k); rewrite /cs_may_step; case Et: (nth none ts k) => [ops c d]; rewrite /calls_p /outside /cs_step /=.
  case: c Et => [||q||q a|q a] Et //=.
  + case: ops Et => [|[|a] ops] Et /= /(_ isT) Hm _ He; first by apply: IH He; constructor 1.
      move: He; rewrite E1 p0E => He; apply: IH He; constructor 2; exists k; split; first by rewrite nth_set_nth /= eqxx.
      by move=> j ne; rewrite Hoth //; apply: Hm.
    by move: He; case: (early a) => [r|] He; apply: IH He; constructor 1; split=> //; apply: Hset => //;
      rewrite /calls_p /= ?E1 ?N.eqb_refl.
  + move=> _ /N.eqb_eq ->; rewrite /cs_deref p0E E2 pl => He; apply: IH He; constructor 1; split=> //.
    by apply: Hset => //; rewrite /calls_p /= N.eqb_refl.
  + move=> _ /N.eqb_eq ->; rewrite /cs_deref p0E E2 pl => He; apply: IH He; constructor 1; split=> //.
    by apply: Hset.
- have [Eik|/eqP ne] := eqVneq i k; last first.
    have Hidle := Hoi k (nesym ne).
    move: Hk Hidle; rewrite /cs_may_step; case Et: (nth none ts k) => [ops c d]; rewrite /outside /cs_step /=.
    case: c Et => // Et; case: ops Et => [|[|a] ops] Et /= /(_ isT) Hm _ He.
    * by apply: IH He; constructor 2; exists i.
    * by have := Hm i ne; move: Hcl; rewrite /outside; case: (cs_at _).
    * by have := Hm i ne; rewrite (disposing_in Hcl).
  move: Hcl Hoi Hk; rewrite {}Eik; case Et: (nth none ts k) => [ops c d] Hcl Hoi _; rewrite /cs_step /=.
  case: c Et Hcl => [||q||q a|q a] Et //=.
  + case=> E1 E2 He; apply: IH He; constructor 2; exists k; split; first by rewrite nth_set_nth /= eqxx /= E1.
    by move=> j ne; rewrite Hoth //; apply: Hoi.
  + case=> -> E1 E2; rewrite /cs_free p0E E2 pl => He; apply: IH He; constructor 2; exists k.
    split; first by rewrite nth_set_nth /= eqxx.
    by move=> j ne; rewrite Hoth //; apply: Hoi.
  + case=> E1 E2 He; apply: IH He; constructor 3; split=> //=; first exact: Hset.
    by exists k; rewrite nth_set_nth /= eqxx /has_disposed /= has_rcons.
- case: Hc => j Hj; have Hkeep t : (has_disposed (nth none ts k) -> has_disposed t) ->
      exists j, has_disposed (nth none (set_nth none ts k t) j).
    by move=> H; exists j; rewrite nth_set_nth /=; case: eqP => // E; apply: H; rewrite -E.
  move: (E2 k) Hm0 Hkeep; rewrite /cs_in_time; case Et: (nth none ts k) => [ops c d]; rewrite /outside /cs_step /=.
  case: c Et => // Et; case: ops Et => [|[|a] ops] Et /= _ Hm Hkeep.
  + by move=> He; apply: IH He; constructor 3; split=> //; exists j.
  + rewrite E1 /= => He; apply: IH He; constructor 3; split=> //; first exact: Hset.
    by apply: Hkeep => _; rewrite /has_disposed /= has_rcons.
  + move: Hm; case: (early a) => [r|] Hm; last by move: (Hm erefl j); rewrite Hj.
    move=> He; apply: IH He; constructor 3; split=> //; first exact: Hset.
    by apply: Hkeep; rewrite /has_disposed /= has_rcons.
Qed.

(** One thread *)
Local Notation alone o t n := (run (nseq n 0) o [:: t]).

Lemma run_add n m o t : alone o t (n + m) =
  match alone o t n with CsRunOk o' ts => run (nseq m 0) o' ts | CsRunFault f => CsRunFault A R f end.
Proof.
rewrite nseqD; elim: n o [:: t] => [|n IH] o ts //=.
by case: cs_step => [o' t'|f|]; rewrite ?IH.
Qed.

Lemma run_finished n o d : alone o (MkCsThread [::] (Outside A) d) n = CsRunOk o [:: MkCsThread [::] (Outside A) d].
Proof. by elim: n. Qed.

Definition obj_of (disposed : bool) : cs_object := if disposed then MkCsObject 0 (rem p l) else MkCsObject p l.

Lemma run_alone disposed ops d : exists2 k, k <= 4 * size ops &
  alone (obj_of disposed) (MkCsThread ops (Outside A) d) k =
  if none_after_dispose early disposed ops
  then CsRunOk (obj_of (disposed || has (@is_dispose A) ops))
         [:: MkCsThread [::] (Outside A) (d ++ map (result_of early native) ops)]
  else CsRunFault A R AbortNull.
Proof.
elim: ops disposed d => [|op ops IH] disposed d /=; first by exists 0; rewrite ?orbF ?cats0.
have Hle m k : m <= 4 -> k <= 4 * size ops -> m + k <= 4 * (size ops).+1.
  by move=> Hm Hk; rewrite mulnS leq_add.
case: op => [|a] /=.
- have [k Hk E] := IH true (rcons d (CsDisposed R)).
  rewrite orbT; case: disposed.
    by exists (1 + k); [exact: Hle|rewrite run_add /= -cat_rcons -E].
  exists (4 + k); first exact: Hle.
  by rewrite run_add /= /cs_step /= p0E /= /cs_free p0E /= pl /= -cat_rcons -E.
- case Ea: (early a) => [r|] /=.
    have [k Hk E] := IH disposed (rcons d (CsValue r)).
    by exists (1 + k); [exact: Hle|rewrite run_add /= /cs_step /= Ea /= orbT -cat_rcons -E].
  case: disposed => /=.
    by exists (2 + 0); [exact: Hle|rewrite run_add /= /cs_step /= Ea].
  have [k Hk E] := IH false (rcons d (CsValue (native a))).
  exists (3 + k); first exact: Hle.
  by rewrite run_add /= /cs_step /= Ea /= /cs_deref p0E /= pl /= p0E pl /= -cat_rcons -E.
Qed.
End Cs.

Section Order.
Variables (A R : Type) (early : A -> option R) (native : A -> R).
Local Notation none := (cs_none A R).

(** A thread in a native call has passed the checks. *)
Definition passed (t : cs_thread A R) : Prop :=
  match cs_at t with AtCall _ a | InCall _ a => early a = None | _ => True end.

Lemma step_in_order ops o t o' t' : in_order early native ops t -> passed t -> cs_step early native o t = CsNext o' t' ->
  in_order early native ops t' /\ passed t'.
Proof.
case: t => todo c d [before [/= -> ->]]; rewrite /passed /current /cs_step /cs_deref /cs_free /=.
have fin op todo' r : r = result_of early native op ->
    in_order early native (before ++ op :: todo') (MkCsThread todo' (Outside A) (rcons (map (result_of early native) before) r)).
  by move=> ->; exists (rcons before op); rewrite cat_rcons map_rcons.
case: c => [||q||q a|q a] /=.
- case: todo => [|[|a] todo] //= _.
    by case: ifP => _ [_ <-]; split=> //; [apply: fin|exists before].
  by case Ea: (early a) => [r|] [_ <-]; split=> //; [apply: fin; rewrite /= Ea|exists before].
- by move=> _ [_ <-]; split=> //; exists before.
- by move=> _; case: ifP => _; [|case: ifP => // _]; case=> _ <-; split=> //; exists before.
- by move=> _ [_ <-]; split=> //; apply: fin.
- by move=> Ea; case: ifP => // _; case: ifP => // _; case=> _ <-; split=> //; exists before.
- by move=> Ea; case: ifP => // _; case: ifP => // _; case=> _ <-; split=> //; apply: fin; rewrite /= Ea.
Qed.

Lemma run_in_order opss sched o ts o' ts' :
  (forall i, in_order early native (nth [::] opss i) (nth none ts i) /\ passed (nth none ts i)) ->
  cs_run early native sched o ts = CsRunOk o' ts' ->
  forall i, in_order early native (nth [::] opss i) (nth none ts' i).
Proof.
elim: sched o ts => [|k sched IH] o ts H /=; first by case=> _ <- i; have [] := H i.
case E: cs_step => [o1 t1|f|] //; last exact: IH.
apply: IH => i; rewrite nth_set_nth /=; case: eqP => [->|_]; last exact: H.
by have [H1 H2] := H k; apply: step_in_order H1 H2 E.
Qed.
End Order.
