From mathcomp Require Import ssreflect ssrfun ssrbool eqtype ssrnat seq fintype bigop ssralg poly.
From mathcomp Require Import zify_ssreflect.
From Verif Require Import Base SpecKZG Lincomb.

Set Implicit Arguments.
Unset Strict Implicit.
Unset Printing Implicit Defensive.

Import GRing.Theory.
Local Open Scope ring_scope.

Section Lincomb.
Variables (F : fieldType) (V : lmodType F).

Lemma lincomb_zip (points : seq V) (scalars : seq F) :
  lincomb points scalars = \sum_(ps <- zip points scalars) ps.2 *: ps.1.
Proof.
rewrite /lincomb (big_nth (0, 0)) size_zip big_mkord.
by apply: eq_bigr => i _; rewrite nth_zip_cond size_zip ltn_ord.
Qed.

Lemma multi_exp_fold (l : seq (V * F)) :
  foldr (fun ps acc => ps.2 *: ps.1 + acc) 0 l = \sum_(ps <- l) ps.2 *: ps.1.
Proof. by elim: l => [|ps l IH]; rewrite ?big_nil // big_cons -IH. Qed.

Lemma zip_unzip12 (A B : Type) (l : seq (A * B)) : zip (unzip1 l) (unzip2 l) = l.
Proof. by elim: l => [|[a b] l IH] //=; rewrite IH. Qed.

Theorem g1_lincombE (points : seq V) (scalars : seq F) :
  g1_lincomb points scalars = Some (lincomb points scalars).
Proof.
rewrite /g1_lincomb lincomb_zip; set l := zip _ _; set fl := [seq _ <- _ | _].
have E : \sum_(ps <- l) ps.2 *: ps.1 = \sum_(ps <- fl) ps.2 *: ps.1.
  rewrite /fl big_filter [LHS](bigID (fun ps : V * F => ps.1 != 0)) /= [X in _ + X]big1 ?addr0 //.
  by move=> ps /negPn/eqP->; rewrite scaler0.
rewrite E; case: nilP => [E0|_]; last first.
  rewrite /g1_lincomb_unsafe !size_map eqxx /= /multi_exp.
  have -> : (0 \in unzip1 fl) = false.
    apply/negbTE/mapP => -[ps]; rewrite mem_filter => /andP[/negP n0 _] /esym E0.
    by apply: n0; rewrite E0.
  by rewrite multi_exp_fold zip_unzip12.
by have -> : fl = [::]; [apply: size0nil; rewrite -(size_map fst) -/(unzip1 fl) E0 | rewrite big_nil].
Qed.

Lemma commit_wide n (srs : seq V) (f : {poly F}) : (size f <= n)%N ->
  commit srs f = \sum_(i < n) f`_i *: srs`_i.
Proof.
move=> Hn; rewrite /commit -(subnKC Hn) big_split_ord /= [X in _ = _ + X]big1 ?addr0 // => i _.
by rewrite nth_default ?scale0r ?leq_addr.
Qed.

Lemma commitD srs (f g : {poly F}) : commit srs (f + g) = commit srs f + commit srs g :> V.
Proof.
pose n := maxn (size f) (size g).
rewrite !(@commit_wide n) ?leq_maxl ?leq_maxr //; last exact: size_add.
by rewrite -big_split; apply: eq_bigr => i _; rewrite coefD scalerDl.
Qed.

Lemma commitZ srs c (f : {poly F}) : commit srs (c *: f) = c *: commit srs f :> V.
Proof.
rewrite !(@commit_wide (size f)) // ?size_scale_leq // scaler_sumr.
by apply: eq_bigr => i _; rewrite coefZ scalerA.
Qed.

Lemma commitN srs (f : {poly F}) : commit srs (- f) = - commit srs f :> V.
Proof. by rewrite -scaleN1r commitZ scaleN1r. Qed.

Lemma commit0 srs : commit srs (0 : {poly F}) = 0 :> V.
Proof. by rewrite /commit size_poly0 big_ord0. Qed.

Lemma commit_sum srs (I : Type) (r : seq I) P (f : I -> {poly F}) :
  commit srs (\sum_(i <- r | P i) f i) = \sum_(i <- r | P i) commit srs (f i) :> V.
Proof.
elim/big_rec2: _ => [|i x y _ <-]; by [exact: commit0 | exact: commitD].
Qed.

(** With a proper setup the commitment is the evaluation at tau. *)
Lemma commit_srs tau (G : V) n (f : {poly F}) : (size f <= n)%N ->
  commit (srs_of tau G n) f = f.[tau] *: G.
Proof.
move=> Hn; rewrite /commit horner_coef scaler_suml; apply: eq_bigr => i _.
by rewrite nth_mkseq ?scalerA // (leq_trans (ltn_ord i) Hn).
Qed.

Theorem commit_g1E (srs : seq V) (poly : seq F) :
  commit_g1 srs poly = if (size poly <= size srs)%N then Ret (commit srs (Poly poly)) else Panic.
Proof.
rewrite /commit_g1 /aslice /=; case: leqP => Hs //=.
rewrite subn0 drop0 g1_lincombE /=; congr Ret.
rewrite /lincomb size_takel // minnn (@commit_wide (size poly)) ?size_Poly //.
by apply: eq_bigr => i _; rewrite coef_Poly nth_take.
Qed.

End Lincomb.
