From mathcomp Require Import ssreflect ssrfun ssrbool eqtype ssrnat seq div fintype bigop ssralg poly.
From mathcomp Require Import zify_ssreflect.
From Verif Require Import Base Spec SpecKZG BitRev FFT FFTProofs Domain DomainProofs PolyCoeffProofs.
From Verif Require Import Lincomb LincombProofs FixedBaseMSM Toeplitz.

Set Implicit Arguments.
Unset Strict Implicit.
Unset Printing Implicit Defensive.

Import GRing.Theory.
Local Open Scope ring_scope.

(** ** Transposition *)
Section Transpose.
Variables (T : Type) (x0 : T).

Lemma transpose_row (row : seq T) (cols : seq (seq T)) : size cols = size row ->
  ofor (zip (iota 0 (size row)) row) (fun ie result =>
     olet c := aget result ie.1 in aset result ie.1 (rcons c ie.2)) cols =
  Ret (mkseq (fun j => rcons (nth [::] cols j) (nth x0 row j)) (size row)).
Proof.
move=> Sc; set body := (X in ofor _ X _).
pose Q j (r : seq (seq T)) := size r = size row /\ forall t, (t < size row)%N ->
  nth [::] r t = if (t < j)%N then rcons (nth [::] cols t) (nth x0 row t) else nth [::] cols t.
have [||r -> [Sr Hr]] := @ofor_enum_inv T (seq (seq T)) x0 row body cols Q.
- by split=> // t Ht; rewrite ltn0.
- move=> j r Hj [Sr Hr]; rewrite /body /= (aget_nth [::]) ?Sr //=.
  rewrite (aset_set_nth [::]) ?Sr //; eexists; first by [].
  split; first by rewrite size_set_nth_in ?Sr.
  move=> t Ht; rewrite nth_set_nth /=; case: eqP => [->|Hne].
    by rewrite ltnSn Hr // ltnn.
  by rewrite Hr //; have -> : (t < j.+1)%N = (t < j)%N by lia.
congr Ret; apply: (@eq_from_nth _ [::]); first by rewrite size_mkseq.
by move=> t Ht; rewrite Sr in Ht; rewrite Hr // Ht nth_mkseq.
Qed.

Lemma transpose_loop (v : seq (seq T)) c (acc : seq (seq T)) : size acc = c ->
  all (fun row => size row == c) v ->
  ofor v (fun row result =>
        ofor (zip (iota 0 (size row)) row) (fun ie result =>
          olet c := aget result ie.1 in aset result ie.1 (rcons c ie.2)) result) acc =
  Ret (mkseq (fun j => nth [::] acc j ++ [seq nth x0 row j | row <- v]) c).
Proof.
elim: v acc => [|row v IH] acc Sa /=.
  move=> _; congr Ret; apply: (@eq_from_nth _ [::]); rewrite ?size_mkseq // => j Hj.
  by rewrite nth_mkseq -?Sa ?cats0.
case/andP => /eqP Sr Hall; rewrite transpose_row ?Sa ?Sr //= IH ?size_mkseq //.
congr Ret; apply: (@eq_from_nth _ [::]); rewrite ?size_mkseq // => j Hj.
by rewrite !nth_mkseq // cat_rcons.
Qed.

Lemma transposeE (v : seq (seq T)) c : (0 < c)%N -> (0 < size v)%N ->
  all (fun row => size row == c) v ->
  transpose v = Ret (mkseq (fun j => [seq nth x0 row j | row <- v]) c).
Proof.
move=> c0 v0 Hall.
case: v v0 Hall => [|[|x r] v] // _ Hall.
  by move: Hall => /= /andP[/eqP E] _; rewrite -E in c0.
have Sr : size (x :: r) = c by case/andP: Hall => /eqP.
rewrite /transpose Sr (transpose_loop _ Hall) ?size_nseq //; congr Ret.
by apply/eq_in_map => j; rewrite mem_iota => /andP[_ Hj]; rewrite nth_nseq; case: ifP.
Qed.

End Transpose.

(** ** take_every_nth *)
Section Every.
Variables (T : Type) (x0 : T).

Lemma take_every_nthE (s : seq T) n q : (0 < n)%N -> size s = (q * n)%N ->
  take_every_nth s n = mkseq (fun i => mkseq (fun j => nth x0 s (i + j * n)) q) n.
Proof.
move=> n0 Ss; rewrite /take_every_nth /mkseq; apply/eq_in_map => i.
rewrite mem_iota => /andP[_ Hi]; rewrite add0n in Hi.
have Sd : size (drop i s) = (q * n - i)%N by rewrite size_drop Ss.
rewrite /step_by Sd.
have -> : ((q * n - i + n.-1) %/ n = q)%N.
  case: q Ss Sd => [|q] Ss Sd.
    by rewrite mul0n sub0n add0n divn_small // prednK.
  have -> : (q.+1 * n - i + n.-1 = q.+1 * n + (n.-1 - i))%N by rewrite mulSn; lia.
  by rewrite divnMDl // divn_small ?addn0 //; lia.
suff H k : (k <= q)%N -> pmap (oget (drop i s)) [seq (i0 * n)%N | i0 <- iota 0 k] =
   [seq nth x0 s (i + j * n) | j <- iota 0 k] by apply: H.
elim: k => [|k IH] Hk //.
rewrite -addn1 iotaD !map_cat pmap_cat IH ?(ltnW Hk) //=; congr (_ ++ _).
have Hb : (k * n < size (drop i s))%N.
  rewrite Sd; have : (k.+1 * n <= q * n)%N by rewrite leq_mul2r Hk orbT.
  by rewrite mulSn; lia.
by rewrite add0n (oget_nth x0) //= nth_drop.
Qed.

End Every.

(** ** Cyclic convolution *)
Section Conv.
Variables (F : fieldType) (V : lmodType F).

(** Entry a of the cyclic convolution of c and x of length M. *)
Definition cconv M (c : seq F) (x : seq V) : seq V :=
  mkseq (fun a => \sum_(b < M) c`_((a + M - b) %% M) *: x`_b) M.

Lemma dft_cconv (w : F) M (c : seq F) (x : seq V) j : w ^+ M = 1 -> (j < M)%N ->
  (dft w M (cconv M c x))`_j =
  ((dft (V := [lmodType F of F^o]) w M c)`_j : F) *: (dft w M x)`_j.
Proof.
move=> w1 Hj; rewrite !nth_mkseq //.
under eq_bigr => a _ do rewrite nth_mkseq // scaler_sumr.
rewrite exchange_big /= scaler_sumr; apply: eq_bigr => b _.
rewrite scalerA mulr_suml scaler_suml.
have M0 : (0 < M)%N by apply: leq_trans Hj.
pose h (t : 'I_M) : 'I_M := Ordinal (ltn_pmod (t + b) M0).
have hinj : injective h.
  move=> t u /(congr1 val) /= /eqP; rewrite eqn_modDr !modn_small // => /eqP E.
  exact: val_inj.
rewrite (reindex_inj hinj) /=; apply: eq_bigr => t _.
have -> : (((t + b) %% M + M - b) %% M = t)%N.
  have Hb := ltn_ord b; have Ht := ltn_ord t.
  rewrite -addnBA ?(ltnW Hb) // modnDml -addnA subnKC ?(ltnW Hb) //.
  by rewrite modnDr modn_small.
rewrite scalerA; congr (_ *: _).
have -> : w ^+ (j * ((t + b) %% M)) = w ^+ (j * t) * w ^+ (j * b).
  rewrite -exprD -mulnDr ![w ^+ (j * _)]exprM.
  by rewrite expr_mod // -exprM mulnC exprM w1 expr1n.
by rewrite [_ *: (c`_t : F^o)]/GRing.scale /= -!mulrA; congr (_ * _); rewrite mulrC.
Qed.

Variables (fp : fparams F) (ok : fp_ok fp) (k : nat).
Hypothesis Hk : (k <= fp_adicity fp)%N.
Let d := mkdom fp k.
Let w := omega fp k.
Local Notation M := (2 ^ k)%N.

(** Fast computation of a sum of cyclic convolutions. *)
Lemma ifft_sum_cconv n (l : seq (seq F * seq V)) m : (m < M)%N -> n = M ->
  ifft_g1_take_n d (mkseq (fun j => \sum_(cx <- l)
     ((dft (V := [lmodType F of F^o]) w M cx.1)`_j : F) *: (dft w M cx.2)`_j) n) (Some m) =
  Ret (mkseq (fun a => \sum_(cx <- l) (cconv M cx.1 cx.2)`_a) m).
Proof.
move=> Hm ->; rewrite (ifft_g1E ok Hk) Hm.
have w1 : w ^+ M = 1 by exact: (omega_order ok Hk).
have w2 : (0 < k)%N -> w ^+ (2 ^ k.-1) = -1.
  by move=> k0; apply: (omega_half ok); rewrite k0.
rewrite resize_id ?size_mkseq //.
pose y := mkseq (fun a => \sum_(cx <- l) (cconv M cx.1 cx.2)`_a) M.
have -> : mkseq (fun j => \sum_(cx <- l)
     ((dft (V := [lmodType F of F^o]) w M cx.1)`_j : F) *: (dft w M cx.2)`_j) M = dft w M y.
  apply: (@eq_from_nth _ 0); rewrite ?size_mkseq // => j Hj.
  rewrite [LHS]nth_mkseq //.
  under eq_bigr => cx _ do rewrite -dft_cconv //.
  rewrite [RHS]nth_mkseq //.
  under [RHS]eq_bigr => t _ do rewrite nth_mkseq // scaler_sumr.
  rewrite exchange_big /=; apply: eq_bigr => cx _.
  by rewrite nth_mkseq //.
rewrite (dft_inv w1 w2 (two_neq0 ok)) ?size_mkseq //; congr Ret.
rewrite -map_take -map_comp.
apply: (@eq_from_nth _ 0).
  by rewrite size_map size_take !size_mkseq Hm.
move=> a; rewrite size_map size_take size_mkseq Hm => Ha.
rewrite (nth_map 0) ?size_take ?size_mkseq ?Hm //= scalerA mulVf ?(pow2_neq0 ok) // scale1r.
by rewrite nth_take // !nth_mkseq // (ltn_trans Ha).
Qed.

End Conv.

Lemma omapM_nth (A B : Type) (a0 : A) (b0 : B) (f : A -> outcome B) (l : seq A) (r : seq B) :
  omapM f l = Ret r <->
  size r = size l /\ forall i, (i < size l)%N -> f (nth a0 l i) = Ret (nth b0 r i).
Proof.
elim: l r => [|x l IH] r /=.
  split; first by case=> <-.
  by case=> /size0nil ->.
split.
  case E: (f x) => [y|] //=; case E2: (omapM f l) => [ys|] //= [<-].
  by have [/(_ E2)[Sy Hy] _] := IH ys; split; rewrite /= ?Sy // => -[|i] //= Hi; apply: Hy.
case: r => [|y ys] [] //= [Sy] H.
rewrite (H 0%N isT) /=; have -> // : omapM f l = Ret ys.
by apply/IH; split=> // i Hi; apply: (H i.+1).
Qed.

Lemma omapM_Ret_nth (A B : Type) (a0 : A) (f : A -> outcome B) (g : nat -> B) (l : seq A) :
  (forall i, (i < size l)%N -> f (nth a0 l i) = Ret (g i)) -> omapM f l = Ret (mkseq g (size l)).
Proof.
elim: l g => [|x l IH] g H //=.
rewrite (H 0%N isT) /= (IH (fun i => g i.+1)); last by move=> i; apply: (H i.+1).
congr (Ret (_ :: _)); rewrite -[RHS]/(map g (iota 1 (size l))).
have -> : iota 1 (size l) = map succn (iota 0 (size l)) by rewrite -(iotaDl 1%N).
by rewrite -map_comp.
Qed.

Lemma zip_map2 (A B C D : Type) (f : A -> C) (g : B -> D) (s : seq A) (t : seq B) :
  zip (map f s) (map g t) = [seq (f xy.1, g xy.2) | xy <- zip s t].
Proof. by elim: s t => [|x s IH] [|y t] //=; rewrite IH. Qed.

Section Batch.
Variables (F : fieldType) (V : lmodType F) (fp : fparams F) (ok : fp_ok fp) (me : msm_env V).
Variables (k : nat).
Hypothesis Hk : (k < fp_adicity fp)%N.
Let d := mkdom fp k.+1.
Let w := omega fp k.+1.
Local Notation n := (2 ^ k)%N.
Local Notation M := (2 ^ k.+1)%N.

Definition precomp_width_ok (up : use_precomp) : bool :=
  if up is PrecompYes width then (0 < width)%N else true.

Lemma fixed_base_msm_new_ret up (pts : seq V) : precomp_width_ok up ->
  exists m, fixed_base_msm_new pts up = Ret m.
Proof.
case: up => [width|] /= Hw; last by eexists.
rewrite /precomp_window_new; rewrite (omapM_Ret (g := fun p => (foldl
     (fun (st : seq V * V) _ => (rcons st.1 st.2, st.2 + p)) ([::], p) (iota 0 (2 ^ width.-1))).1)).
  by eexists.
by move=> x; rewrite /precompute_points Hw.
Qed.

(** The MSM made for these fixed points and these scalars gives their linear combination. *)
Definition msm_runs up (pts : seq V) (scalars : seq F) : Prop :=
  forall m, fixed_base_msm_new pts up = Ret m ->
  fixed_base_msm_run me m scalars = Ret (lincomb pts scalars).

Lemma msm_runs_no pts scalars : msm_runs PrecompNo pts scalars.
Proof. by move=> m [<-]; rewrite /= g1_lincombE. Qed.

(** Column j of the transformed vectors and of the transformed circulant rows. *)
Definition column_points (xs : seq (seq V)) (j : nat) : seq V :=
  [seq \sum_(t < M) w ^+ (j * t) *: (x`_t) | x <- xs].
Definition circulant_row (tm : toeplitz_matrix F) : seq F := tm_col tm ++ rev (rot 1 (tm_row tm)).
Definition column_scalars (tms : seq (toeplitz_matrix F)) (j : nat) : seq F :=
  [seq \sum_(t < M) w ^+ (j * t) * (circulant_row tm)`_t | tm <- tms].

Lemma batch_toeplitz_newE (xs : seq (seq V)) up : (0 < size xs)%N ->
  all (fun x => size x == n) xs ->
  batch_toeplitz_new fp xs up =
  olet t := omapM (fun v => fixed_base_msm_new v up) (mkseq (column_points xs) M) in
  Ret (MkBatchToeplitz (size xs) t n d).
Proof.
move=> x0 Hall; rewrite /batch_toeplitz_new (aget_nth [::]) // obind_Ret.
have E0 : size (nth [::] xs 0) = n by apply/eqP/(all_nthP [::] Hall).
rewrite E0 Hall /oassert is_power_of_two_exp -expnSr (domain_new_exp ok Hk) obind_Ret -/d.
rewrite (omapM_Ret (g := fun x => dft w M (resize M 0 x))); last first.
  by move=> x; rewrite /d (fft_g1E ok Hk).
rewrite obind_Ret size_map (@transposeE _ 0 _ M) ?expn_gt0 ?size_map //; last first.
  by apply/allP => y /mapP[x _ ->]; rewrite size_mkseq.
rewrite obind_Ret; congr (obind (omapM _ _) _).
apply: (@eq_from_nth _ [::]); rewrite ?size_mkseq // => j Hj.
rewrite !nth_mkseq // /column_points -map_comp; apply: eq_map => x /=.
rewrite nth_mkseq //; apply: eq_bigr => t _.
by rewrite nth_resize.
Qed.

(** Entry (a, b) of a Toeplitz matrix. *)
Definition toeplitz_entry (tm : toeplitz_matrix F) (a b : nat) : F :=
  if (a < b)%N then (tm_row tm)`_(b - a) else (tm_col tm)`_(a - b).

Lemma circulant_entry tm a b : size (tm_row tm) = n -> size (tm_col tm) = n ->
  (a < n)%N -> (b < n)%N ->
  (circulant_row tm)`_((a + M - b) %% M) = toeplitz_entry tm a b.
Proof.
move=> Sr Sc Ha Hb; rewrite /toeplitz_entry /circulant_row nth_cat Sc.
have EM : M = (n + n)%N by rewrite expnS mul2n addnn.
case: (ltnP a b) => Hab.
  have -> : ((a + M - b) %% M = a + M - b)%N by rewrite modn_small //; lia.
  rewrite ifF; last by lia.
  rewrite nth_rev ?size_rot ?Sr; last by lia.
  rewrite /rot nth_cat size_drop Sr.
  by rewrite ifT; [rewrite nth_drop; congr nth; lia | lia].
have -> : (a + M - b = (a - b) + M)%N by lia.
rewrite modnDr modn_small; last by lia.
by rewrite ifT //; lia.
Qed.

Lemma toeplitz_cconv tm (x : seq V) a : size (tm_row tm) = n -> size (tm_col tm) = n ->
  size x = n -> (a < n)%N ->
  (cconv M (circulant_row tm) x)`_a = \sum_(b < n) toeplitz_entry tm a b *: x`_b.
Proof.
move=> Sr Sc Sx Ha; have EM : M = (n + n)%N by rewrite expnS mul2n addnn.
rewrite nth_mkseq; last by lia.
rewrite [in X in _ = X](eq_bigr (fun b : 'I_n => (circulant_row tm)`_((a + M - b) %% M) *: x`_b));
  last by move=> b _; rewrite circulant_entry.
transitivity (\sum_(0 <= b < M) (circulant_row tm)`_((a + M - b) %% M) *: x`_b).
  by rewrite big_mkord.
rewrite (@big_cat_nat _ _ _ n) //=; last by lia.
rewrite [X in _ + X]big_nat_cond [X in _ + X]big1 ?addr0 ?big_mkord //.
by move=> b /andP[/andP[Hb _] _]; rewrite [x`__]nth_default ?Sx // scaler0.
Qed.

Theorem sum_matrix_vector_mulE (xs : seq (seq V)) up bt (tms : seq (toeplitz_matrix F)) :
  (0 < size xs)%N -> all (fun x => size x == n) xs -> size tms = size xs ->
  (forall tm, List.In tm tms -> size (tm_row tm) = n /\ size (tm_col tm) = n) ->
  batch_toeplitz_new fp xs up = Ret bt ->
  (forall j, (j < M)%N -> msm_runs up (column_points xs j) (column_scalars tms j)) ->
  sum_matrix_vector_mul me bt tms =
  Ret (mkseq (fun a => \sum_(tx <- zip tms xs) \sum_(b < n) toeplitz_entry tx.1 a b *: tx.2`_b) n).
Proof.
move=> x0 Hall St Htm; rewrite batch_toeplitz_newE //.
case E: (omapM _ _) => [t|] //= [<-] Hmsm; rewrite /sum_matrix_vector_mul /=.
rewrite St eqxx /oassert.
have -> : omapM (@circulant_from_toeplitz F) tms = Ret (map circulant_row tms).
  clear -Htm; elim: tms Htm => [|tm tms IH] Htm //=.
  have [Sr Sc] := Htm tm (or_introl erefl).
  rewrite {1}/circulant_from_toeplitz Sr expn_gt0 /= IH // => tm' H'.
  by apply: Htm; right.
rewrite obind_Ret (omapM_Ret (g := fun c => dft (V := [lmodType F of F^o]) w M (resize M 0 c)));
  last by move=> c; apply: (fft_g1E ok Hk).
rewrite obind_Ret (@transposeE _ 0 _ M) ?expn_gt0 ?size_map ?St //; last first.
  by apply/allP => y /mapP[x _ ->]; rewrite size_mkseq.
rewrite obind_Ret; set ms := mkseq _ M.
have Ems : ms = mkseq (column_scalars tms) M.
  apply/eq_in_map => j; rewrite mem_iota => /andP[_ Hj].
  rewrite /column_scalars -!map_comp; apply: eq_map => tm /=.
  rewrite nth_mkseq //; apply: eq_bigr => b _.
  by rewrite nth_resize.
rewrite Ems {ms Ems}.
have [St' Ht] := proj1 (omapM_nth [::] (FBNoPrecomp [::]) _ _ _) E.
rewrite size_mkseq in St' Ht.
rewrite (@omapM_Ret_nth _ _ (FBNoPrecomp [::], [::]) _
  (fun j => lincomb (column_points xs j) (column_scalars tms j))); last first.
  rewrite size_zip St' size_mkseq minnn => j Hj.
  rewrite nth_zip ?St' ?size_mkseq // [(_, _).1]/= [(_, _).2]/= nth_mkseq //.
  by apply: Hmsm => //; rewrite -Ht // nth_mkseq.
rewrite obind_Ret size_zip St' size_mkseq minnn.
have Hm : (n < M)%N by rewrite ltn_exp2l.
have := @ifft_sum_cconv F V fp ok k.+1 Hk M [seq (circulant_row tx.1, tx.2) | tx <- zip tms xs] n Hm erefl.
rewrite -/d -/w => H; set s := mkseq _ M in H; set s' := mkseq _ M.
have -> : s' = s.
  apply/eq_in_map => j; rewrite mem_iota => /andP[_ Hj].
  rewrite lincomb_zip big_map /column_points /column_scalars zip_map2 big_map.
  rewrite [LHS](eq_bigr (fun tx : seq V * toeplitz_matrix F =>
    ((dft (V := [lmodType F of F^o]) w M (circulant_row tx.2))`_j : F) *: (dft w M tx.1)`_j)); last first.
    by move=> tx _; rewrite !nth_mkseq.
  elim: tms xs {x0 Hall St Htm E Ht Hmsm H s s'} => [|tm tms IH] [|x xs]; rewrite ?big_nil //.
  by rewrite !big_cons IH.
rewrite H; congr Ret; apply/eq_in_map => a; rewrite mem_iota => /andP[_ Ha].
rewrite big_map; clear H s s' Hmsm Ht St' E x0 t.
elim: tms xs Htm Hall St => [|tm tms IH] [|x xs] Htm //; rewrite ?big_nil //.
case/andP => /eqP Sx Hall [St]; rewrite !big_cons IH //; last by move=> tm' H; apply: Htm; right.
have [Sr Sc] := Htm tm (or_introl erefl).
by rewrite toeplitz_cconv.
Qed.
End Batch.
