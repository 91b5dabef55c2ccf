(** Proofs about the pool of Rayon.v. *)

From mathcomp Require Import ssreflect ssrfun ssrbool eqtype ssrnat seq bigop ssralg.
From mathcomp Require Import zify_ssreflect.
From Verif Require Import Base FFT Domain Lincomb FixedBaseMSM Toeplitz Rayon.

Set Implicit Arguments.
Unset Strict Implicit.
Unset Printing Implicit Defensive.

Definition job_range (j : job) : seq nat := iota j.1 (j.2 - j.1).
Definition pend_q (q : seq job) : seq nat := flatten (map job_range q).
Definition pend_w (w : seq (option job)) : seq nat := flatten (map (oapp job_range [::]) w).
Definition pending (B : Type) (s : pool B) : seq nat := pend_q (p_queue s) ++ pend_w (p_workers s).

Lemma pend_q_cat a b : pend_q (a ++ b) = pend_q a ++ pend_q b.
Proof. by rewrite /pend_q map_cat flatten_cat. Qed.
Lemma pend_w_cat a b : pend_w (a ++ b) = pend_w a ++ pend_w b.
Proof. by rewrite /pend_w map_cat flatten_cat. Qed.
Lemma pend_q_cons j q : pend_q (j :: q) = job_range j ++ pend_q q. Proof. by []. Qed.
Lemma pend_w_some j q : pend_w (Some j :: q) = job_range j ++ pend_w q. Proof. by []. Qed.
Lemma pend_w_none q : pend_w (None :: q) = pend_w q. Proof. by []. Qed.
Definition pendE := (pend_q_cat, pend_w_cat, pend_q_cons, pend_w_some, pend_w_none).

Lemma job_range_split lo mid hi : lo < mid < hi ->
  job_range (lo, hi) = job_range (lo, mid) ++ job_range (mid, hi).
Proof.
move=> H; rewrite /job_range /=.
have -> : hi - lo = (mid - lo) + (hi - mid) by lia.
by rewrite iotaD; congr (_ ++ iota _ _); lia.
Qed.

Lemma job_range_run lo hi : lo < hi -> job_range (lo, hi) = lo :: job_range (lo.+1, hi).
Proof. by move=> H; rewrite /job_range /=; have -> : hi - lo = (hi - lo.+1).+1 by lia. Qed.

Lemma job_range_nil lo : job_range (lo, lo) = [::].
Proof. by rewrite /job_range /= subnn. Qed.

Lemma aget_Ret_lt (T : Type) (xs : seq T) i x : aget xs i = Ret x -> i < size xs.
Proof. by move=> E; rewrite ltnNge; apply/negP => H; rewrite aget_panic in E. Qed.

Section PoolProofs.
Variables (A B : Type) (f : A -> outcome B) (xs : seq A).
Notation step := (pool_step f xs).

Record pool_inv (s : pool B) : Prop := PoolInv {
  pi_size : size (p_out s) = size xs;
  pi_uniq : uniq (pending s);
  pi_lt : forall i, i \in pending s -> i < size xs;
  pi_none : forall i, i \in pending s -> nth None (p_out s) i = None;
  pi_out : forall i y, nth None (p_out s) i = Some y ->
             exists2 x, aget xs i = Ret x & f x = Ret y;
  pi_all : p_panic s = false -> forall i, i < size xs -> nth None (p_out s) i = None ->
             i \in pending s;
  pi_panic : p_panic s -> exists i x, aget xs i = Ret x /\ f x = Panic
}.

Lemma pool_inv_init n : pool_inv (pool_init B xs n).
Proof.
have E : pending (pool_init B xs n) = iota 0 (size xs).
  rewrite /pending /pool_init /= pend_q_cons /job_range /= subn0.
  have -> : pend_w (nseq n None) = [::] by elim: n => //= n IH; rewrite pend_w_none.
  by rewrite !cats0.
split; rewrite ?E /pool_init /=.
- by rewrite size_nseq.
- exact: iota_uniq.
- by move=> i; rewrite mem_iota.
- by move=> i _; rewrite nth_nseq if_same.
- by move=> i y; rewrite nth_nseq if_same.
- by move=> _ i H _; rewrite mem_iota.
- by [].
Qed.

Lemma pool_inv_perm out q w q' w' b :
  perm_eq (pend_q q ++ pend_w w) (pend_q q' ++ pend_w w') ->
  pool_inv (MkPool out q w b) -> pool_inv (MkPool out q' w' b).
Proof.
move=> P [H1 H2 H3 H4 H5 H6 H7]; rewrite /pending /= in H1 H2 H3 H4 H5 H6 H7.
have M := perm_mem P.
split; rewrite /pending /= => //.
- by rewrite -(perm_uniq P).
- by move=> i; rewrite -M; apply: H3.
- by move=> i; rewrite -M; apply: H4.
- by move=> Hb i Hi Hn; rewrite -M; apply: H6.
Qed.

(** Dropping pending work. *)
Lemma pool_inv_drop out q w d q' w' b :
  perm_eq (pend_q q ++ pend_w w) (d ++ (pend_q q' ++ pend_w w')) ->
  (exists i x, aget xs i = Ret x /\ f x = Panic) ->
  pool_inv (MkPool out q w b) -> pool_inv (MkPool out q' w' true).
Proof.
move=> P Hx [H1 H2 H3 H4 H5 H6 H7]; rewrite /pending /= in H1 H2 H3 H4 H5 H6 H7.
have M := perm_mem P.
split; rewrite /pending /= => //.
- by move: H2; rewrite (perm_uniq P) cat_uniq => /and3P [].
- by move=> i Hi; apply: H3; rewrite M mem_cat Hi orbT.
- by move=> i Hi; apply: H4; rewrite M mem_cat Hi orbT.
Qed.

Lemma perm_count (T : eqType) (a b : seq T) : (forall p, count p a = count p b) -> perm_eq a b.
Proof. by move=> H; apply/permP. Qed.

Lemma pool_inv_step s t : step s t -> pool_inv s -> pool_inv t.
Proof.
case=> {s t}.
- move=> out q1 j q2 w1 w2 b; apply: pool_inv_perm; apply: perm_count => p.
  by rewrite !pendE !count_cat; lia.
- move=> out q w1 lo mid hi w2 b H; apply: pool_inv_perm; apply: perm_count => p.
  by rewrite !pendE (job_range_split H) !count_cat; lia.
- move=> out q w1 lo hi w2 b x y Hlt Hx Hy [H1 H2 H3 H4 H5 H6 H7].
  rewrite /pending /= in H1 H2 H3 H4 H5 H6 H7.
  set old := pend_q _ ++ _ in H2 H3 H4 H6.
  set new := pend_q q ++ pend_w (w1 ++ Some (lo.+1, hi) :: w2).
  have P : perm_eq old (lo :: new).
    apply: perm_count => p; rewrite /old /new !pendE (job_range_run Hlt).
    by rewrite -cat1s !count_cat /= !count_cat; lia.
  have M := perm_mem P; have Hl := aget_Ret_lt Hx.
  have /andP [Hnew Unew] : (lo \notin new) && uniq new by rewrite -cons_uniq -(perm_uniq P).
  split; rewrite /pending /= -?/new => //.
  + by rewrite size_set_nth_in ?H1.
  + by move=> i Hi; apply: H3; rewrite M inE Hi orbT.
  + move=> i Hi; rewrite nth_set_nth /=; case: eqP => [E|_].
      by rewrite -E Hi in Hnew.
    by apply: H4; rewrite M inE Hi orbT.
  + move=> i z; rewrite nth_set_nth /=; case: eqP => [-> [<-]|_]; first by exists x.
    exact: H5.
  + move=> Hb i Hi; rewrite nth_set_nth /=; case: eqP => [//|/eqP Hne Hn].
    by have := H6 Hb i Hi Hn; rewrite M inE (negbTE Hne).
- move=> out q w1 lo hi w2 b x Hlt Hx Hp I.
  apply: (@pool_inv_drop out q _ (job_range (lo, hi)) _ _ b _ _ I); last by exists lo, x.
  by apply: perm_count => p; rewrite !pendE !count_cat; lia.
- move=> out q w1 lo w2 b; apply: pool_inv_perm; apply: perm_count => p.
  by rewrite !pendE job_range_nil !count_cat /=; lia.
- move=> out q1 j q2 w I; apply: (@pool_inv_drop out _ _ (job_range j) _ _ true _ _ I).
    by apply: perm_count => p; rewrite !pendE !count_cat; lia.
  by case: I => *; auto.
Qed.

Lemma pool_inv_steps k s t : pool_steps f xs k s t -> pool_inv s -> pool_inv t.
Proof. by elim=> // {k s t} k s t u H _ IH I; apply: IH; apply: pool_inv_step H I. Qed.

Lemma omapM_Panic (l : seq A) i x : aget l i = Ret x -> f x = Panic -> omapM f l = Panic.
Proof.
elim: l i => [|a l IH] [|i] //=.
  by move=> [<-] ->.
move=> Ha Hf; case: (f a) => //= b.
by rewrite (IH i).
Qed.

Lemma omapM_pmap (l : seq A) (o : seq (option B)) : size o = size l -> all isSome o ->
  (forall i y, nth None o i = Some y -> exists2 x, aget l i = Ret x & f x = Ret y) ->
  omapM f l = Ret (pmap id o).
Proof.
elim: l o => [|a l IH] [|[b|] o] //= [Hs] Ha H.
have [x [<-] ->] := H 0 b erefl.
by rewrite /= (IH o Hs Ha) // => i y Hi; have [x' Hx Hy] := H i.+1 y Hi; exists x'.
Qed.

Lemma pool_final_result n k s : pool_steps f xs k (pool_init B xs n) s -> pool_final s ->
  pool_result s = omapM f xs.
Proof.
move=> /pool_inv_steps /(_ (pool_inv_init n)) [H1 H2 H3 H4 H5 H6 H7] /andP [/nilP Hq Hw].
rewrite /pool_result; case Hb: (p_panic s).
  by have [i [x [Hx Hp]]] := H7 Hb; rewrite (omapM_Panic Hx Hp).
have Hn : pending s = [::].
  rewrite /pending Hq /=; elim: (p_workers s) Hw => [|[j|] w IH] //= Hw.
have Ha : all isSome (p_out s).
  apply/(all_nthP None) => i; rewrite H1 => Hi.
  case E: (nth None _ i) => [//|].
  by have := H6 Hb i Hi E; rewrite Hn.
by rewrite Ha /= (omapM_pmap H1 Ha H5).
Qed.

(** Every execution stops. *)
Definition job_cost (j : job) : nat := 2 * ((j.2 - j.1) * (j.2 - j.1)).
Definition cost_q (q : seq job) : nat := sumn (map (fun j => (job_cost j).+2) q).
Definition cost_w (w : seq (option job)) : nat :=
  sumn (map (oapp (fun j => (job_cost j).+1) 0) w).
Definition pool_cost (s : pool B) : nat := cost_q (p_queue s) + cost_w (p_workers s).

Lemma cost_q_cat a b : cost_q (a ++ b) = cost_q a + cost_q b.
Proof. by rewrite /cost_q map_cat sumn_cat. Qed.
Lemma cost_w_cat a b : cost_w (a ++ b) = cost_w a + cost_w b.
Proof. by rewrite /cost_w map_cat sumn_cat. Qed.
Lemma cost_q_cons j q : cost_q (j :: q) = (job_cost j).+2 + cost_q q. Proof. by []. Qed.
Lemma cost_w_some j q : cost_w (Some j :: q) = (job_cost j).+1 + cost_w q. Proof. by []. Qed.
Lemma cost_w_none q : cost_w (None :: q) = cost_w q. Proof. by []. Qed.
Definition costE := (cost_q_cat, cost_w_cat, cost_q_cons, cost_w_some, cost_w_none).

Lemma cost_split lo mid hi : lo < mid < hi ->
  job_cost (lo, mid) + job_cost (mid, hi) + 4 <= job_cost (lo, hi).
Proof.
move=> H; rewrite /job_cost /=.
have -> : hi - lo = (mid - lo) + (hi - mid) by lia.
have : 0 < mid - lo by lia.
have : 0 < hi - mid by lia.
by move: (mid - lo) (hi - mid) => a b *; nia.
Qed.

Lemma cost_run lo hi : lo < hi -> job_cost (lo.+1, hi) < job_cost (lo, hi).
Proof.
move=> H; rewrite /job_cost /=.
have -> : hi - lo = (hi - lo.+1).+1 by lia.
by move: (hi - lo.+1) => a; nia.
Qed.

Lemma pool_cost_step s t : step s t -> pool_cost t < pool_cost s.
Proof.
case=> {s t}; rewrite /pool_cost /=.
- by move=> *; rewrite !costE; lia.
- by move=> out q w1 lo mid hi w2 b H; rewrite !costE; have := cost_split H; lia.
- by move=> out q w1 lo hi w2 b x y H _ _; rewrite !costE; have := cost_run H; lia.
- by move=> *; rewrite !costE; lia.
- by move=> *; rewrite !costE; lia.
- by move=> *; rewrite !costE; lia.
Qed.

Lemma pool_cost_steps k s t : pool_steps f xs k s t -> k + pool_cost t <= pool_cost s.
Proof. by elim=> // {k s t} k s t u /pool_cost_step H _; lia. Qed.

Lemma pool_cost_init n : pool_cost (pool_init B xs n) = 2 * (size xs * size xs) + 2.
Proof.
have E : cost_w (nseq n None) = 0 by elim: n => //= n IH; rewrite cost_w_none.
by rewrite /pool_cost /= E cost_q_cons /job_cost /= subn0 /cost_q /=; lia.
Qed.

(** Some step is possible until the end. *)
Definition job_ok (j : job) : bool := j.1 <= j.2.
Definition pool_ok (n : nat) (s : pool B) : bool :=
  [&& all job_ok (p_queue s), all (oapp job_ok true) (p_workers s) & size (p_workers s) == n].

Lemma pool_ok_step n s t : step s t -> pool_ok n s -> pool_ok n t.
Proof.
case=> {s t}; rewrite /pool_ok /=.
- move=> out q1 j q2 w1 w2 b; rewrite !all_cat /= !size_cat /=.
  by move=> /and3P [/and3P [-> -> ->]] /andP [-> ->] ->.
- move=> out q w1 lo mid hi w2 b /andP [H1 H2]; rewrite !all_cat /= !size_cat /= /job_ok /=.
  by move=> /and3P [-> /and3P [-> _ ->]] ->; rewrite (ltnW H1) (ltnW H2).
- move=> out q w1 lo hi w2 b x y H _ _; rewrite !all_cat /= !size_cat /= /job_ok /=.
  by move=> /and3P [-> /and3P [-> _ ->]] ->; rewrite H.
- move=> out q w1 lo hi w2 b x H _ _; rewrite !all_cat /= !size_cat /=.
  by move=> /and3P [-> /and3P [-> _ ->]] ->.
- move=> out q w1 lo w2 b; rewrite !all_cat /= !size_cat /=.
  by move=> /and3P [-> /and3P [-> _ ->]] ->.
- move=> out q1 j q2 w; rewrite !all_cat /=.
  by move=> /and3P [/and3P [-> _ ->] -> ->].
Qed.

Lemma pool_ok_steps n k s t : pool_steps f xs k s t -> pool_ok n s -> pool_ok n t.
Proof. by elim=> // {k s t} k s t u H _ IH I; apply: IH; apply: pool_ok_step H I. Qed.

Lemma pool_ok_init n : pool_ok n (pool_init B xs n).
Proof. by rewrite /pool_ok /= /job_ok /= size_nseq eqxx andbT; elim: n. Qed.

Lemma not_all_split (T : Type) (p : pred T) (l : seq T) : ~~ all p l ->
  exists l1 x l2, l = l1 ++ x :: l2 /\ ~~ p x.
Proof.
elim: l => //= a l IH; rewrite negb_and; case Ha: (p a) => /=.
  by move=> /IH [l1 [x [l2 [-> H]]]]; exists (a :: l1), x, l2.
by move=> _; exists [::], a, l; rewrite Ha.
Qed.

Lemma pool_progress n s : 0 < n -> pool_inv s -> pool_ok n s -> ~~ pool_final s ->
  exists t, step s t.
Proof.
case: s => out q w b Hn I /and3P [/= Hq Hw /eqP Hs].
rewrite /pool_final /= negb_and.
case Hi: (all (fun w => ~~ isSome w) w) => /=.
  rewrite orbF; case: q I Hq => // j q I Hq _.
  case: w I Hw Hs Hi => [|[j'|] w] //= I Hw Hs Hi; first by rewrite -Hs in Hn.
  by eexists; apply: (@PoolTake _ _ f xs out [::] j q [::] w b).
move=> _; have [w1 [o [w2 [E Ho]]]] := not_all_split (negbT Hi).
case: o E Ho => [[lo hi]|] // E _; rewrite {}E in I Hw Hs *.
have Hjob : lo <= hi by move: Hw; rewrite all_cat /= => /and3P [].
case: (ltngtP lo hi) Hjob => // [Hlt _|-> _]; last by eexists; apply: PoolIdle.
have Hx : lo < size xs.
  by apply: (pi_lt I); rewrite /pending /= !pendE (job_range_run Hlt) !mem_cat inE eqxx /= !orbT.
case Ex: (aget xs lo) => [x|]; last first.
  have : exists x : A, true by case: (xs) Hx => // x ? _; exists x.
  by move=> [x0 _]; rewrite (aget_nth x0 Hx) in Ex.
case Ey: (f x) => [y|].
  by eexists; apply: (PoolRun _ _ _ _ _ Hlt Ex Ey).
by eexists; apply: (PoolPanic _ _ _ _ _ Hlt Ex Ey).
Qed.

Lemma pool_steps_rcons k s t u : pool_steps f xs k s t -> step t u -> pool_steps f xs k.+1 s u.
Proof.
move=> H; elim: H u => [{k s t} s u H|{k s t} k s t v H _ IH u Hu].
  exact: PoolTrans H (PoolRefl _ _ _).
exact: PoolTrans H (IH _ Hu).
Qed.

Lemma pool_completes n k s : 0 < n -> pool_steps f xs k (pool_init B xs n) s ->
  exists k' t, [/\ pool_steps f xs k' s t & pool_final t].
Proof.
move=> Hn Hk.
have I := pool_inv_steps Hk (pool_inv_init n); have O := pool_ok_steps Hk (pool_ok_init n).
have [m Hm] : exists m, pool_cost s <= m by exists (pool_cost s).
elim: m s {k Hk} I O Hm => [|m IH] s I O Hm; case Hf: (pool_final s).
- by exists 0, s; split=> //; apply: PoolRefl.
- by have [t /pool_cost_step] := pool_progress Hn I O (negbT Hf); lia.
- by exists 0, s; split=> //; apply: PoolRefl.
have [t Ht] := pool_progress Hn I O (negbT Hf).
have Hc := pool_cost_step Ht.
have [|k' [u [Hu Fu]]] := IH t (pool_inv_step Ht I) (pool_ok_step Ht O); first by lia.
by exists k'.+1, u; split=> //; apply: PoolTrans Ht Hu.
Qed.

Lemma par_collectP n r : 0 < n -> par_collect f xs n r <-> r = omapM f xs.
Proof.
move=> Hn; split=> [[k [s [Hk Hf <-]]]|->]; first exact: pool_final_result Hk Hf.
have [k [s [Hk Hf]]] := pool_completes Hn (PoolRefl f xs (pool_init B xs n)).
by exists k, s; split=> //; apply: pool_final_result Hk Hf.
Qed.

(** Slots are written at most once, and workers never share an index. *)
Lemma pool_write_once n k s t i y : pool_steps f xs k (pool_init B xs n) s ->
  step s t -> nth None (p_out s) i = Some y -> nth None (p_out t) i = Some y.
Proof.
move=> /pool_inv_steps /(_ (pool_inv_init n)) I H.
case: H I => {s t} //= out q w1 lo hi w2 b x z Hlt _ _ I Hi.
rewrite nth_set_nth /=; case: eqP => [E|//].
have := pi_none I (i := lo); rewrite /pending /= !pendE (job_range_run Hlt) !mem_cat inE eqxx /= !orbT.
by rewrite -E Hi => /(_ isT).
Qed.

Lemma pool_disjoint n k s w1 a b w2 c d w3 i : pool_steps f xs k (pool_init B xs n) s ->
  p_workers s = w1 ++ Some (a, b) :: w2 ++ Some (c, d) :: w3 ->
  a <= i < b -> c <= i < d -> False.
Proof.
move=> /pool_inv_steps /(_ (pool_inv_init n)) I E H1 H2.
have := pi_uniq I; rewrite /pending E !pendE.
have M1 : i \in job_range (a, b) by rewrite mem_iota /=; lia.
have M2 : i \in job_range (c, d) by rewrite mem_iota /=; lia.
move: (pend_q _) (pend_w w1) (pend_w w2) (pend_w w3) => l0 l1 l2 l3.
rewrite !catA -(catA _ (job_range (c, d))) cat_uniq => /and3P [_ /hasPn Hh _].
have := Hh i; rewrite mem_cat M2 => /(_ isT).
change (i \notin (((l0 ++ l1) ++ job_range (a, b)) ++ l2) -> False).
by rewrite !mem_cat M1 orbT.
Qed.

End PoolProofs.

Section ParToeplitzProofs.
Import GRing.Theory.
Variables (F : fieldType) (V : lmodType F) (fp : fparams F) (me : msm_env V) (n : nat).
Hypothesis Hn : 0 < n.

Lemma par_bindP (A B C : Type) (f : A -> outcome B) (xs : seq A) (k : seq B -> outcome C -> Prop)
  (m : seq B -> outcome C) r :
  (forall ys r, k ys r <-> r = m ys) ->
  par_bind n f xs k r <-> r = (olet ys := omapM f xs in m ys).
Proof.
move=> Hk; rewrite /par_bind !par_collectP //.
split=> [[[<- ->] //|[ys]]|].
  by rewrite par_collectP // Hk => <- ->.
case E: (omapM f xs) => [ys|] /= ->; last by left.
by right; exists ys; rewrite ?par_collectP ?Hk.
Qed.

Lemma seq_bindP (B C : Type) (x : outcome B) (k : B -> outcome C -> Prop) (m : B -> outcome C) r :
  (forall y r, k y r <-> r = m y) -> seq_bind x k r <-> r = (olet y := x in m y).
Proof. by move=> Hk; case: x => [y|] /=. Qed.

Lemma seq_assertP (C : Type) b (k : outcome C -> Prop) (m : outcome C) r :
  (forall r, k r <-> r = m) -> seq_assert b k r <-> r = oassert b m.
Proof. by move=> Hk; case: b. Qed.

Lemma omapM_bind (A B C : Type) (f : A -> outcome B) (g : B -> outcome C) (l : seq A) :
  omapM (fun x => olet y := f x in g y) l = (olet ys := omapM f l in omapM g ys).
Proof.
elim: l => //= x l ->; case: (f x) => //= y.
case: (omapM f l) => //=; last by case: (g y).
Qed.

Lemma par_batch_toeplitz_newP (vectors : seq (seq V)) up r :
  par_batch_toeplitz_new fp n vectors up r <-> r = batch_toeplitz_new fp vectors up.
Proof.
rewrite /par_batch_toeplitz_new /batch_toeplitz_new.
apply: seq_bindP => v0 {}r; apply: seq_assertP => {}r; apply: seq_assertP => {}r.
apply: seq_bindP => d {}r; apply: par_bindP => vs {}r; apply: seq_bindP => tr {}r.
by apply: par_bindP => pt {}r; split=> ->.
Qed.

Lemma par_sum_matrix_vector_mulP bt matrices r :
  par_sum_matrix_vector_mul me n bt matrices r <-> r = sum_matrix_vector_mul me bt matrices.
Proof.
rewrite /par_sum_matrix_vector_mul /sum_matrix_vector_mul.
apply: seq_assertP => {}r.
rewrite par_bindP; last first.
  move=> ys {}r; apply: seq_bindP => tr {}r; apply: par_bindP => res {}r.
  by split=> [<-|->].
rewrite omapM_bind; by case: (omapM _ _).
Qed.

End ParToeplitzProofs.
