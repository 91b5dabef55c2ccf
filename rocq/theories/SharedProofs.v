(** Proofs about calls that share a pool: each section, seen alone, runs as in Rayon.v. *)

From mathcomp Require Import ssreflect ssrfun ssrbool eqtype ssrnat seq ssralg.
From Verif Require Import Base PolyCoeffProofs Rayon RayonProofs FixedBaseMSM Toeplitz FK20Prover Eip7594.
From Verif Require Import Shared SharedApi SpecShared.
From mathcomp Require Import zify_ssreflect.

Set Implicit Arguments.
Unset Strict Implicit.
Unset Printing Implicit Defensive.

(** What the section of thread t sees of the queue and of the workers. *)
Definition range_of (t : nat) (w : work) : option job :=
  if w is Range t' j then if t' == t then Some j else None else None.
Definition proj_q (t : nat) (q : seq work) : seq job := pmap (range_of t) q.
Definition top (t : nat) (w : seq work) : option job := if w is x :: _ then range_of t x else None.
Definition proj_w (t : nat) (ws : seq (seq work)) : seq (option job) := [seq top t w | w <- ws].

Lemma proj_q_cat t a b : proj_q t (a ++ b) = proj_q t a ++ proj_q t b.
Proof. exact: pmap_cat. Qed.
Lemma proj_w_cat t a b : proj_w t (a ++ b) = proj_w t a ++ proj_w t b.
Proof. exact: map_cat. Qed.
Lemma proj_w_cons t w ws : proj_w t (w :: ws) = top t w :: proj_w t ws.
Proof. by []. Qed.
Lemma proj_q_body t u q : proj_q t (Body u :: q) = proj_q t q.
Proof. by []. Qed.
Lemma proj_q_range t u j q : proj_q t (Range u j :: q) = if u == t then j :: proj_q t q else proj_q t q.
Proof. by rewrite /proj_q /=; case: eqP. Qed.
Lemma top_range t u j w : top t (Range u j :: w) = if u == t then Some j else None.
Proof. by []. Qed.
Lemma top_body t u w : top t (Body u :: w) = None.
Proof. by []. Qed.
Definition projE := (proj_q_cat, proj_w_cat, proj_w_cons, proj_q_body, proj_q_range, top_range, top_body).

Definition empty (Q : seq job) (W : seq (option job)) : bool := nilp Q && all (fun w => ~~ isSome w) W.
Definition is_body (w : work) : bool := if w is Body _ then true else false.
Definition body_of (t : nat) (w : work) : bool := if w is Body t' then t' == t else false.
Definition shape (ws : seq (seq work)) : bool := all (fun w => all is_body (behead w)) ws.

Lemma all_body_top t w : all is_body w -> top t w = None.
Proof. by case: w => [|[]] //. Qed.
Lemma shape_cat a b : shape (a ++ b) = shape a && shape b.
Proof. exact: all_cat. Qed.
Lemma shape_cons w ws : shape (w :: ws) = all is_body (behead w) && shape ws.
Proof. by []. Qed.

Lemma no_range_q t q : ~~ has (is_range t) q -> proj_q t q = [::].
Proof.
elim: q => [|x q IH] //= ; rewrite negb_or => /andP [Hx /IH E]; rewrite /proj_q /= -/(proj_q t q) E.
by case: x Hx => // u j /= /negbTE ->.
Qed.
Lemma no_range_w t ws : ~~ has (is_range t) (flatten ws) -> all (fun w => ~~ isSome w) (proj_w t ws).
Proof.
elim: ws => [|w ws IH] //=; rewrite has_cat negb_or => /andP [Hw /IH ->]; rewrite andbT.
by case: w Hw => [|[u|u j] w] //=; rewrite negb_or => /andP [/negbTE ->].
Qed.
Lemma no_range_empty t q ws : ~~ has (is_range t) (q ++ flatten ws) -> empty (proj_q t q) (proj_w t ws).
Proof. by rewrite has_cat negb_or => /andP [/no_range_q E /no_range_w H]; rewrite /empty E. Qed.

Lemma body_no_range t w : all is_body w -> ~~ has (is_range t) w.
Proof. by elim: w => [|[u|u j] w IH] //=. Qed.
Lemma empty_no_range t q ws : shape ws -> empty (proj_q t q) (proj_w t ws) ->
  ~~ has (is_range t) (q ++ flatten ws).
Proof.
move=> Hs /andP [/nilP Hq Hw]; rewrite has_cat negb_or; apply/andP; split.
  elim: q Hq => [|[u|u j] q IH] //.
  by rewrite proj_q_range /= ; case: eqP => // _ /IH.
elim: ws Hs Hw => [|w ws IH] //=; rewrite has_cat negb_or => /andP [Hb Hs] /andP [Hw /(IH Hs) ->].
rewrite andbT; case: w Hb Hw => [|[u|u j] w] //=; first by move=> /(body_no_range t).
by case: eqP => //= _ /(body_no_range t).
Qed.

Section Proofs.
Variable R : Type.
Notation call := (call R).
Notation thread := (thread R).

Lemma nth_set (ths : seq thread) t x u :
  nth Idle (set_nth Idle ths t x) u = if u == t then x else nth Idle ths u.
Proof. by rewrite nth_set_nth. Qed.

Lemma busy_lt (ths : seq thread) t c p : nth Idle ths t = Busy c p -> t < size ths.
Proof. by move=> E; rewrite ltnNge; apply/negP => /(nth_default Idle); rewrite E. Qed.

(** The invariant: thread, its parts in the queue, its parts at the workers. *)
Definition tinv (m : nat) (th : thread) (Q : seq job) (W : seq (option job)) : Prop :=
  match th with
  | Idle => empty Q W
  | Busy c0 (Runs c) => empty Q W /\ eval c = eval c0
  | Busy c0 (@Waits _ A B f xs k out b) =>
      (exists n, pool_steps f xs n (pool_init B xs m) (MkPool out Q W b)) /\
      (olet ys := omapM f xs in eval (k ys)) = eval c0
  end.
Definition busy (th : thread) : bool := if th is Busy _ _ then true else false.

Record inv (n m : nat) (s : state R) : Prop := MkInv {
  i_threads : size (st_threads s) = n;
  i_workers : size (st_workers s) = m;
  i_shape : shape (st_workers s);
  i_thread : forall t, tinv m (nth Idle (st_threads s) t) (proj_q t (st_queue s)) (proj_w t (st_workers s));
  i_body : forall t, count (body_of t) (st_queue s ++ flatten (st_workers s)) = busy (nth Idle (st_threads s) t)
}.

Lemma proj_w_nseq t m : proj_w t (nseq m [::]) = nseq m None.
Proof. by elim: m => //= m ->. Qed.
Lemma empty_nseq m : empty [::] (nseq m None).
Proof. by elim: m. Qed.
Lemma flatten_nseq_nil (T : Type) m : flatten (nseq m ([::] : seq T)) = [::].
Proof. by elim: m. Qed.

Lemma inv_init n m : inv n m (init R n m).
Proof.
split=> /=; first exact: size_nseq; first exact: size_nseq.
- by elim: m.
- by move=> t; rewrite nth_nseq if_same /= proj_w_nseq empty_nseq.
by move=> t; rewrite flatten_nseq_nil nth_nseq if_same.
Qed.

Lemma empty_cat1 Q1 j Q2 W : empty (Q1 ++ j :: Q2) W = false.
Proof. by rewrite /empty /nilp size_cat addnS. Qed.
Lemma empty_cat2 Q W1 j W2 : empty Q (W1 ++ Some j :: W2) = false.
Proof. by rewrite /empty all_cat /= !andbF. Qed.

Lemma tinv_idle m c r Q W : tinv m (Busy c (Runs (Return r))) Q W -> empty Q W /\ r = eval c.
Proof. by []. Qed.

Lemma tinv_step m c0 A B (f : A -> outcome B) xs k out b Q W out' Q' W' b' :
  pool_step f xs (MkPool out Q W b) (MkPool out' Q' W' b') ->
  tinv m (Busy c0 (Waits f xs k out b)) Q W -> tinv m (Busy c0 (Waits f xs k out' b')) Q' W'.
Proof. by move=> Hs [[n Hn] E]; split=> //; exists n.+1; apply: pool_steps_rcons Hn Hs. Qed.

(** If there is a part of a section, its thread waits. *)
Lemma tinv_waits m th Q W : ~~ empty Q W -> tinv m th Q W ->
  exists c A B (f : A -> outcome B) xs k out b, th = Busy c (Waits f xs k out b).
Proof.
move=> /negbTE He; case: th => [|c [c'|A B f xs k out b]] /=; rewrite ?He //.
  by case.
by move=> _; exists c, A, B, f, xs, k, out, b.
Qed.

Lemma tinv_pool m th Q W Q' W' : ~~ empty Q W ->
  (forall A B (f : A -> outcome B) xs out b, pool_step f xs (MkPool out Q W b) (MkPool out Q' W' b)) ->
  tinv m th Q W -> tinv m th Q' W'.
Proof.
move=> He Hs H; have [c [A [B [f [xs [k [out [b E]]]]]]]] := tinv_waits He H.
by move: H; rewrite E; apply: tinv_step; apply: Hs.
Qed.

Lemma size_set (ths : seq thread) t c p x : nth Idle ths t = Busy c p ->
  size (set_nth Idle ths t x) = size ths.
Proof. by move=> /busy_lt H; rewrite size_set_nth; apply/maxn_idPr. Qed.

Lemma result_eval m c0 A B (f : A -> outcome B) xs k out b Q W :
  tinv m (Busy c0 (Waits f xs k out b)) Q W -> empty Q W ->
  pool_result (MkPool out [::] [::] b) = omapM f xs /\
  eval (if pool_result (MkPool out [::] [::] b) is Ret ys then k ys else Return Panic) = eval c0.
Proof.
move=> [[n Hn] E] He; have Er := pool_final_result Hn He.
have Er' : pool_result (MkPool out [::] [::] b) = omapM f xs by rewrite -Er.
by rewrite Er'; split=> //; rewrite -E; case: (omapM f xs).
Qed.

Lemma count_flat (p : pred work) w1 w w2 :
  count p (flatten (w1 ++ w :: w2)) = count p (flatten w1) + count p w + count p (flatten w2).
Proof. by rewrite flatten_cat /= !count_cat addnA. Qed.

Lemma inv_step n m s e s' : step s e s' -> inv n m s -> inv n m s'.
Proof.
case=> {s e s'}.
- move=> ths q ws t c Ht Et [/= H1 H2 H3 H4 H5]; split=> //=.
  + by rewrite size_set_nth -H1; apply/maxn_idPr.
  + move=> u; rewrite nth_set -cats1 !projE cats0; case: eqP => [->|_] //.
    by have := H4 t; rewrite Et.
  + move=> u; rewrite nth_set -cats1 !count_cat; have := H5 u; rewrite count_cat /=.
    by case: (u =P t) => [->|/eqP Hu]; [rewrite Et eqxx|rewrite eq_sym (negbTE Hu)] => /=; lia.
- move=> ths q1 j q2 w1 w w2 Hf [/= H1 H2 H3 H4 H5].
  have Hw : all is_body w.
    move: H3; rewrite shape_cat shape_cons => /and3P [_ H _].
    by case: w Hf H {H2 H4 H5} => [|[t|t r] w].
  split=> //=.
  + by rewrite -H2 !size_cat.
  + by move: H3; rewrite !shape_cat !shape_cons /= Hw => /and3P [-> _ ->].
  + move=> u; have := H4 u; rewrite !projE (all_body_top u Hw).
    case: j {H4 H5} => [t|t r]; rewrite ?proj_q_body ?proj_q_range /=; first by [].
    case: eqP => // _; apply: tinv_pool; first by rewrite empty_cat1.
    by move=> *; apply: PoolTake.
  + by move=> u; have := H5 u; rewrite !count_cat !count_flat /=; lia.
- move=> ths q w1 t w w2 c A B f xs k Et [/= H1 H2 H3 H4 H5]; split=> //=.
  + by rewrite (size_set _ Et).
  + move=> u; rewrite nth_set; have := H4 u; rewrite !projE.
    case: (u =P t) => [->|/eqP Hu]; last by rewrite eq_sym (negbTE Hu).
    rewrite Et eqxx => -[/andP [/nilP -> He] E]; split=> //; exists 0.
    suff -> : proj_w t w1 ++ None :: proj_w t w2 = nseq m None by apply: PoolRefl.
    have Hsz : size (proj_w t w1 ++ None :: proj_w t w2) = m by rewrite -H2 !size_cat /= !size_map.
    move: He; rewrite -{}Hsz; elim: (_ ++ _) => [|[j|] l IH] //=.
    by move=> /IH <-.
  + move=> u; have := H5 u; rewrite nth_set; case: eqP => [->|//].
    by rewrite Et.
- move=> ths q w1 t lo mid hi w w2 Hm [/= H1 H2 H3 H4 H5]; split=> //=.
  + by rewrite -H2 !size_cat.
  + by move: H3; rewrite !shape_cat !shape_cons /= => /and3P [-> -> ->].
  + move=> u; have := H4 u; rewrite !projE; case: eqP => // _.
    apply: tinv_pool; first by rewrite empty_cat2.
    by move=> *; apply: PoolSplit.
  + by move=> u; have := H5 u; rewrite !count_cat !count_flat /=; lia.
- move=> ths q w1 t lo hi w w2 c A B f xs k out b x y Et Hlt Ex Ey [/= H1 H2 H3 H4 H5]; split=> //=.
  + by rewrite (size_set _ Et).
  + by rewrite -H2 !size_cat.
  + by move: H3; rewrite !shape_cat !shape_cons /= => /and3P [-> -> ->].
  + move=> u; rewrite nth_set; have := H4 u; rewrite !projE.
    case: (u =P t) => [->|/eqP Hu]; last by rewrite eq_sym (negbTE Hu).
    by rewrite eqxx Et; apply: tinv_step; apply: PoolRun Ex Ey.
  + move=> u; have := H5 u; rewrite nth_set !count_cat !count_flat /=.
    by case: (u =P t) => [->|_]; rewrite ?Et /=; lia.
- move=> ths q w1 t lo hi w w2 c A B f xs k out b x Et Hlt Ex Ey [/= H1 H2 H3 H4 H5].
  have Hw : all is_body w by move: H3; rewrite shape_cat shape_cons /= => /and3P [].
  split=> //=.
  + by rewrite (size_set _ Et).
  + by rewrite -H2 !size_cat.
  + move: H3; rewrite !shape_cat !shape_cons /= => /and3P [-> _ ->].
    by rewrite andbT; case: (w) Hw => //= a l /andP [].
  + move=> u; rewrite nth_set; have := H4 u; rewrite !projE (all_body_top u Hw).
    case: (u =P t) => [->|/eqP Hu]; last by rewrite eq_sym (negbTE Hu).
    by rewrite eqxx Et; apply: tinv_step; apply: PoolPanic Ex Ey.
  + move=> u; have := H5 u; rewrite nth_set !count_cat !count_flat /=.
    by case: (u =P t) => [->|_]; rewrite ?Et /=; lia.
- move=> ths q w1 t lo w w2 [/= H1 H2 H3 H4 H5].
  have Hw : all is_body w by move: H3; rewrite shape_cat shape_cons /= => /and3P [].
  split=> //=.
  + by rewrite -H2 !size_cat.
  + move: H3; rewrite !shape_cat !shape_cons /= => /and3P [-> _ ->].
    by rewrite andbT; case: (w) Hw => //= a l /andP [].
  + move=> u; have := H4 u; rewrite !projE (all_body_top u Hw); case: eqP => // _.
    apply: tinv_pool; first by rewrite empty_cat2.
    by move=> *; apply: PoolIdle.
  + by move=> u; have := H5 u; rewrite !count_cat !count_flat /=; lia.
- move=> ths q1 t j q2 ws c A B f xs k out Et [/= H1 H2 H3 H4 H5]; split=> //=.
  + move=> u; have := H4 u; rewrite !projE; case: eqP => [<-|_] //.
    by rewrite Et; apply: tinv_step; apply: PoolDrop.
  + by move=> u; have := H5 u; rewrite !count_cat /=; lia.
- move=> ths q w1 t w w2 c A B f xs k out b Et Hn [/= H1 H2 H3 H4 H5]; split=> //=.
  + by rewrite (size_set _ Et).
  + move=> u; rewrite nth_set; case: eqP => [->|_] //.
    have He := no_range_empty Hn; have := H4 t; rewrite Et => /result_eval /(_ He) [_ E].
    by split.
  + by move=> u; have := H5 u; rewrite nth_set; case: eqP => [->|_] //; rewrite Et.
- move=> ths q w1 t w w2 c r Et [/= H1 H2 H3 H4 H5].
  have Hw : all is_body w by move: H3; rewrite shape_cat shape_cons /= => /and3P [].
  split=> //=.
  + by rewrite (size_set _ Et).
  + by rewrite -H2 !size_cat.
  + move: H3; rewrite !shape_cat !shape_cons /= => /and3P [-> _ ->].
    by rewrite andbT; case: (w) Hw => //= a l /andP [].
  + move=> u; rewrite nth_set; have := H4 u; rewrite !projE (all_body_top u Hw).
    case: eqP => [->|_] //; rewrite Et => -[]; by [].
  + move=> u; have := H5 u; rewrite nth_set !count_cat !count_flat /=.
    case: (u =P t) => [->|/eqP Hu]; first by rewrite Et eqxx /=; lia.
    by rewrite eq_sym (negbTE Hu); lia.
Qed.

Lemma inv_run n m tr (s : state R) : run n m tr s -> inv n m s.
Proof. by elim=> [|tr' s0 e s1 _ I H]; [apply: inv_init|apply: inv_step H I]. Qed.

(** *** Results *)

Lemma end_step n m (s : state R) t c r s' : inv n m s -> step s (Some (Ended t c r)) s' -> r = eval c.
Proof.
move=> I H; move Ee: (Some (Ended t c r)) H => e H.
case: H Ee I => // ths q w1 t' w w2 c' r' Et [_ -> ->] [_ _ _ /(_ t') /= H4 _].
by move: H4; rewrite Et => -[].
Qed.

Lemma ended_eval n m tr (s : state R) t c r : run n m tr s -> List.In (Ended t c r) tr -> r = eval c.
Proof.
elim=> [|tr' s0 [e|] s1 Hr IH H] //= [E|/IH //].
by rewrite E in H; apply: end_step (inv_run Hr) H.
Qed.

(** *** Answers come in order *)
Definition current (th : thread) : seq call := if th is Busy c _ then [:: c] else [::].

Lemma answers_run n m tr (s : state R) t : run n m tr s ->
  started_by t tr = current (nth Idle (st_threads s) t) ++ ended_by t tr.
Proof.
elim=> [|tr' s0 e s1 Hr IH H]; first by rewrite /= nth_nseq if_same.
case: H IH => {s0 e s1 Hr} /=.
- move=> ths q ws t' c _ Et; rewrite nth_set eq_sym; case: eqP => [->|//] /=.
  by rewrite Et /= => ->.
- by [].
- by move=> ths q w1 t' w w2 c A B f xs k Et ->; rewrite nth_set; case: eqP => [->|//]; rewrite Et.
- by [].
- by move=> ths q w1 t' lo hi w w2 c A B f xs k out b x y Et _ _ _ ->; rewrite nth_set; case: eqP => [->|//]; rewrite Et.
- by move=> ths q w1 t' lo hi w w2 c A B f xs k out b x Et _ _ _ ->; rewrite nth_set; case: eqP => [->|//]; rewrite Et.
- by [].
- by [].
- by move=> ths q w1 t' w w2 c A B f xs k out b Et _ ->; rewrite nth_set; case: eqP => [->|//]; rewrite Et.
- by move=> ths q w1 t' w w2 c r Et ->; rewrite nth_set eq_sym; case: eqP => [<-|//] /=; rewrite Et.
Qed.

(** *** Progress *)

Lemma split_has (T : Type) (p : pred T) (l : seq T) : has p l -> exists l1 x l2, l = l1 ++ x :: l2 /\ p x.
Proof.
move=> H; have : ~~ all (predC p) l by rewrite all_predC negbK.
by move=> /not_all_split [l1 [x [l2 [-> Hx]]]]; exists l1, x, l2; split=> //; move: Hx => /=; rewrite negbK.
Qed.

Lemma count_busy n m (s : state R) u : inv n m s ->
  0 < count (body_of u) (st_queue s ++ flatten (st_workers s)) -> busy (nth Idle (st_threads s) u).
Proof. by move=> I; rewrite (i_body I); case: (busy _). Qed.

Definition top_is_range (w : seq work) : bool := if w is Range _ _ :: _ then true else false.
Lemma free_or ths w : ~~ top_is_range w -> ~~ free ths w ->
  exists t w', w = Body t :: w' /\ ~~ waits (nth (@Idle R) ths t).
Proof. by case: w => [|[t|t j] w] //= _ H; exists t, w. Qed.

Lemma range_step n m ths q w1 t lo hi w w2 :
  inv n m (MkState ths q (w1 ++ (Range t (lo, hi) :: w) :: w2)) ->
  exists s', step (MkState ths q (w1 ++ (Range t (lo, hi) :: w) :: w2)) (None : option (event R)) s'.
Proof.
move=> I; have := i_thread I t => /= H.
have := H; rewrite !projE eqxx => H'.
have [|c [A [B [f [xs [k [out [b E]]]]]]]] := tinv_waits _ H'; first by rewrite empty_cat2.
move: H'; rewrite E => -[[i Hi] _].
have Ip := pool_inv_steps Hi (pool_inv_init f xs m); have Op := pool_ok_steps Hi (pool_ok_init B xs m).
have Hjob : lo <= hi by move: Op; rewrite /pool_ok /= all_cat /= => /and3P [_ /and3P []].
case: (ltngtP lo hi) Hjob => // [Hlt _|Ehi _]; last by rewrite Ehi; eexists; apply: StepIdle.
have Hx : lo < size xs.
  by apply: (pi_lt Ip); rewrite /pending /= !pendE (job_range_run Hlt) !mem_cat inE eqxx /= !orbT.
case Ex: (aget xs lo) => [x|]; last first.
  have : exists x : A, true by case: (xs) Hx => // x ? _; exists x.
  by move=> [x0 _]; rewrite (aget_nth x0 Hx) in Ex.
case Ey: (f x) => [y|].
  by eexists; apply: StepRun E Hlt Ex Ey.
by eexists; apply: StepPanic E Hlt Ex Ey.
Qed.

Lemma not_idle (s : state R) : ~ all_idle s -> has busy (st_threads s).
Proof.
move=> H; apply/negbNE/negP => Hb; apply: H => t.
case: (ltnP t (size (st_threads s))) => [Ht|/(nth_default Idle) //].
by move: Hb; rewrite -all_predC => /(all_nthP Idle) /(_ t Ht) /=; case: (nth _ _ _).
Qed.

Lemma no_tops_no_ranges (ws : seq (seq work)) t : shape ws -> ~~ has top_is_range ws ->
  ~~ has (is_range t) (flatten ws).
Proof.
elim: ws => [|w ws IH] //= /andP [Hw Hs]; rewrite negb_or => /andP [Ht /(IH Hs)].
rewrite has_cat negb_or => ->; rewrite andbT.
by case: w Hw Ht => [|[u|u j] w] //= /(body_no_range t).
Qed.

Lemma progress n m (s : state R) : 0 < m -> inv n m s -> has busy (st_threads s) ->
  exists e s', step s e s' /\ ~~ starts e.
Proof.
case: s => ths q ws Hm I /= Hb.
case Hr: (has top_is_range ws).
  have [w1 [w [w2 [E Ht]]]] := split_has Hr.
  case: w E Ht => [|[t|t [lo hi]] w] // E _; rewrite {}E in I *.
  by have [s' Hs] := range_step I; exists None, s'.
case Hf: (has (free ths) ws && ~~ nilp q).
  move: Hf => /andP [/split_has [w1 [w [w2 [E Hw]]]] Hq].
  case: q I Hq => // j q I _; rewrite E.
  by exists None, (MkState ths ([::] ++ q) (w1 ++ (j :: w) :: w2)); split=> //; apply: (@StepTake _ ths [::]).
case Hn: (has (fun w => ~~ nilp w) ws).
  have [w1 [w [w2 [E Hw]]]] := split_has Hn.
  have Hwr : ~~ top_is_range w.
    by apply/negP => H; move: Hr; rewrite E has_cat /= H orbT.
  case: w E Hw Hwr => [|[t|t j] w] // E _ _.
  have : busy (nth Idle ths t).
    by apply: (count_busy I); rewrite /= E count_cat count_flat /= eqxx; lia.
  case Et: (nth Idle ths t) => [|c [[r|A B f xs k]|A B f xs k out b]] // _; rewrite E.
  - by exists (Some (Ended t c r)); eexists; split; first exact: StepEnd Et.
  - by exists None; eexists; split; first exact: StepPar Et.
  have Eq : q = [::].
    move: Hf; rewrite E has_cat /= Et /= orbT /=.
    by case: (q).
  have Hno : ~~ has (is_range t) (q ++ flatten (w1 ++ (Body t :: w) :: w2)).
    by rewrite Eq -E; apply: no_tops_no_ranges (i_shape I) (negbT Hr).
  by exists None; eexists; split; first exact: StepJoin Et Hno.
have Ef : flatten ws = [::].
  move: Hn {I Hr Hf}; elim: (ws) => [|w l IH] //= H.
  by move: H; case: w.
have [t [Et Ht]] : exists t, busy (nth Idle ths t) /\ t < size ths.
  have /(has_nthP Idle) [t Ht Hbt] := Hb; by exists t.
have := i_body I t; rewrite /= Ef cats0 Et => Hc.
have Hq : ~~ nilp q by case: (q) Hc.
have : ws <> [::] by move=> E0; have := i_workers I; rewrite /= E0 /=; lia.
move: Hf; rewrite Hq andbT; case: (ws) Hn => // w l /= Hn.
by case: w Hn.
Qed.

(** *** Termination *)
Fixpoint call_cost (c : call) : nat :=
  match c with
  | Return _ => 1
  | @Par _ A B f xs k =>
      (2 * (size xs * size xs) + 2) + (if omapM f xs is Ret ys then call_cost (k ys) else 1) + 2
  end.
Definition thread_cost (th : thread) : nat :=
  match th with
  | Idle => 0
  | Busy _ (Runs c) => call_cost c
  | Busy _ (@Waits _ A B f xs k out b) => (if omapM f xs is Ret ys then call_cost (k ys) else 1).+1
  end.
Definition queued_cost (w : work) : nat := if w is Range _ j then (job_cost j).+2 else 1.
Definition held_cost (w : work) : nat := if w is Range _ j then (job_cost j).+1 else 0.
Definition cost (s : state R) : nat :=
  sumn (map thread_cost (st_threads s)) + sumn (map queued_cost (st_queue s))
  + sumn (map held_cost (flatten (st_workers s))).

Lemma cost_set (ths : seq thread) t x : t < size ths ->
  sumn (map thread_cost (set_nth Idle ths t x)) + thread_cost (nth Idle ths t) =
  sumn (map thread_cost ths) + thread_cost x.
Proof.
elim: ths t => [|a l IH] [|t] //= H; first by lia.
by have := IH t H; lia.
Qed.

Lemma cost_step n m (s : state R) e s' : inv n m s -> step s e s' -> ~~ starts e -> cost s' < cost s.
Proof.
move=> I H; case: H I => {s e s'} //.
- move=> ths q1 j q2 w1 w w2 _ _ _; rewrite /cost /= !flatten_cat /= !map_cat !sumn_cat /= !map_cat !sumn_cat.
  by case: j => [t|t j] /=; lia.
- move=> ths q w1 t w w2 c A B f xs k Et _ _; rewrite /cost /=.
  have := cost_set (Busy c (Waits f xs k (nseq (size xs) None) false)) (busy_lt Et); rewrite Et /=.
  by rewrite /job_cost /= subn0; case: (omapM f xs) => [ys|]; lia.
- move=> ths q w1 t lo mid hi w w2 Hm _ _; rewrite /cost /= !flatten_cat /= !map_cat !sumn_cat /=.
  by have := cost_split Hm; lia.
- move=> ths q w1 t lo hi w w2 c A B f xs k out b x y Et Hlt _ _ _ _; rewrite /cost /= !flatten_cat /= !map_cat !sumn_cat /=.
  have := cost_set (Busy c (Waits f xs k (set_nth None out lo (Some y)) b)) (busy_lt Et); rewrite Et /=.
  by have := cost_run Hlt; lia.
- move=> ths q w1 t lo hi w w2 c A B f xs k out b x Et Hlt _ _ _ _; rewrite /cost /= !flatten_cat /= !map_cat !sumn_cat /=.
  have := cost_set (Busy c (Waits f xs k out true)) (busy_lt Et); rewrite Et /= !map_cat !sumn_cat.
  by lia.
- by move=> ths q w1 t lo w w2 _ _; rewrite /cost /= !flatten_cat /= !map_cat !sumn_cat /= !map_cat !sumn_cat; lia.
- by move=> ths q1 t j q2 ws c A B f xs k out _ _ _; rewrite /cost /= !map_cat !sumn_cat /=; lia.
- move=> ths q w1 t w w2 c A B f xs k out b Et Hn I _; rewrite /cost /=.
  have := i_thread I t; rewrite /= Et => /result_eval /(_ (no_range_empty Hn)) [Er _].
  rewrite {}Er; have := cost_set (Busy c (Runs (if omapM f xs is Ret ys then k ys else Return Panic))) (busy_lt Et).
  by rewrite Et /=; case: (omapM f xs) => [ys|] /=; lia.
- move=> ths q w1 t w w2 c r Et I _; rewrite /cost /= !flatten_cat /= !map_cat !sumn_cat /= !map_cat !sumn_cat.
  by have := cost_set Idle (busy_lt Et); rewrite Et /=; lia.
Qed.

Lemma work_inv n m k tr (s s' : state R) : work_on k tr s s' -> inv n m s -> inv n m s'.
Proof. by elim=> // {k tr s s'} k tr s s' e s'' _ IH H _ /IH; apply: inv_step H. Qed.

Lemma work_cost n m k tr (s s' : state R) : work_on k tr s s' -> inv n m s -> k + cost s' <= cost s.
Proof.
elim=> {k tr s s'} [s|k tr s s' e s'' Hw IH H Hs I]; first by [].
by have := IH I; have := cost_step (work_inv Hw I) H Hs; lia.
Qed.

Lemma work_run n m tr k tr' (s s' : state R) : run n m tr s -> work_on k tr' s s' -> run n m (tr' ++ tr) s'.
Proof.
move=> Hr H; elim: H Hr => {k tr' s s'} // k tr' s s' e s'' _ IH H _ /IH H'.
by have := RunStep H' H; case: e {H}.
Qed.

Lemma completes n m (s : state R) : 0 < m -> inv n m s ->
  exists k tr s', work_on k tr s s' /\ all_idle s'.
Proof.
move=> Hm I; suff H c : forall k tr s', work_on k tr s s' -> cost s' <= c ->
    exists k' tr' s'', work_on k' tr' s s'' /\ all_idle s''.
  by apply: (H (cost s) 0 [::] s (WorkRefl s)).
elim: c => [|c IH] k tr s' Hw Hc; have I' := work_inv Hw I;
  case Hb: (has busy (st_threads s')).
- have [e [s2 [Hs He]]] := progress Hm I' Hb.
  by have := cost_step I' Hs He; lia.
- exists k, tr, s'; split=> // t; case: (ltnP t (size (st_threads s'))) => [Ht|/(nth_default Idle) //].
  move: Hb => /negbT; rewrite -all_predC => /(all_nthP Idle) /(_ t Ht) /=; by case: (nth _ _ _).
- have [e [s2 [Hs He]]] := progress Hm I' Hb.
  have := cost_step I' Hs He => Hlt.
  by apply: (IH _ _ _ (WorkStep Hw Hs He)); lia.
exists k, tr, s'; split=> // t; case: (ltnP t (size (st_threads s'))) => [Ht|/(nth_default Idle) //].
move: Hb => /negbT; rewrite -all_predC => /(all_nthP Idle) /(_ t Ht) /=; by case: (nth _ _ _).
Qed.
End Proofs.

(** *** The bodies of the API *)
Lemma eval_bind (A B : Type) (c : call A) (k : A -> call B) :
  eval (call_bind c k) = olet x := eval c in eval (k x).
Proof.
elim: c k => [[x|]|X Y f xs k' IH] k //=.
by case: (omapM f xs) => //= ys; apply: IH.
Qed.

Lemma eval_straight (A B : Type) (m : outcome A) (k : A -> call B) :
  eval (straight m k) = olet x := m in eval (k x).
Proof. exact: eval_bind. Qed.

Section Api.
Variables (F : fieldType) (G1 G2 GT : lmodType F) (env : das_env G1 G2 GT) (K : consts).

Lemma eval_sum bt matrices :
  eval (call_sum_matrix_vector_mul env bt matrices) = sum_matrix_vector_mul (de_me env) bt matrices.
Proof.
rewrite /call_sum_matrix_vector_mul /sum_matrix_vector_mul /oassert.
case: (_ == _) => //; rewrite [LHS]/= omapM_bind.
case: (omapM (@circulant_from_toeplitz F) _) => // l; rewrite !obind_Ret.
case: (omapM _ _) => // col; rewrite !obind_Ret.
by rewrite eval_straight; case: (transpose col).
Qed.

Lemma eval_h_poly bt p c :
  eval (call_compute_h_poly_commitments env bt p c) = compute_h_poly_commitments (de_me env) bt p c.
Proof.
rewrite /call_compute_h_poly_commitments /compute_h_poly_commitments /oassert.
case: (is_power_of_two c) => //=; case: (is_power_of_two (size p)) => //.
rewrite eval_straight; case: (omapM _ _) => // l; rewrite !obind_Ret; exact: eval_sum.
Qed.

Lemma eval_multi pr i :
  eval (call_compute_multi_opening_proofs env pr i) = compute_multi_opening_proofs (de_me env) pr i.
Proof.
rewrite /call_compute_multi_opening_proofs /compute_multi_opening_proofs /compute_multi_opening_proofs_poly_coeff.
rewrite eval_straight; case: (input_coeffs pr i) => // p; rewrite !obind_Ret eval_bind eval_h_poly.
case: (compute_h_poly_commitments _ _ _ _) => // h; rewrite !obind_Ret eval_straight.
case: (Domain.fft_g1 _ _) => // x; rewrite !obind_Ret eval_straight.
case: (BitRev.reverse_bit_order _) => // y; rewrite !obind_Ret eval_straight.
by case: (coset_evaluations _ _ _).
Qed.

Lemma eval_body ctx q : eval (body env K ctx q) = alone env K ctx q.
Proof.
case: q => [blob|blob|idx cells|cs idx cells ps]; rewrite /body /alone.
- by rewrite eval_straight; case: (blob_to_kzg_commitment _ _ _ _).
- rewrite eval_bind /call_compute_cells_and_kzg_proofs /compute_cells_and_kzg_proofs /call_try eval_straight.
  case: (rlift _ _) => [[x|x]|] //; rewrite obind_Ret eval_bind eval_multi [in RHS]/rbind.
  case: (compute_multi_opening_proofs _ _ _) => [[a b]|] //.
  by rewrite obind_Ret eval_straight /=; case: (serialize_cells_and_proofs _ _ _ _).
- rewrite eval_bind /call_recover_cells_and_kzg_proofs /recover_cells_and_kzg_proofs /call_try eval_straight.
  case: (recover_polynomial_coeff _ _ _ _ _) => [[x|x]|] //; rewrite obind_Ret eval_bind eval_multi [in RHS]/rbind.
  case: (compute_multi_opening_proofs _ _ _) => [[a b]|] //.
  by rewrite obind_Ret eval_straight /=; case: (serialize_cells_and_proofs _ _ _ _).
by rewrite eval_straight; case: (verify_cell_kzg_proof_batch _ _ _ _ _ _ _).
Qed.
End Api.
