(** The batch addition computes sums of points when no exceptional pair is met. *)

From mathcomp Require Import ssreflect ssrfun ssrbool eqtype ssrnat seq div bigop ssralg.
From mathcomp Require Import zify_ssreflect.
From Verif Require Import Base Domain PolyCoeff PolyCoeffProofs SpecMSM BatchAddition.

Set Implicit Arguments.
Unset Strict Implicit.
Unset Printing Implicit Defensive.

Import GRing.Theory.
Local Open Scope ring_scope.

(** ** Pairs *)
Section Pairs.
Variable T : Type.
Implicit Type l : seq T.

Lemma pairs_ind (P : seq T -> Prop) :
  P [::] -> (forall p, P [:: p]) -> (forall p q l, P l -> P [:: p, q & l]) -> forall l, P l.
Proof.
move=> H0 H1 H2 l; suff [] : P l /\ (forall p, P (p :: l)) by [].
elim: l => [|q l [IH1 IH2]]; first by split.
by split=> // p; apply: H2.
Qed.

Lemma size_pairs l : size (pairs l) = (size l)./2.
Proof. by elim/pairs_ind: l => [|p|p q l IH] //=; rewrite IH. Qed.

Lemma nth_pairs x0 l i : (i < (size l)./2)%N ->
  nth (x0, x0) (pairs l) i = (nth x0 l i.*2, nth x0 l i.*2.+1).
Proof.
elim/pairs_ind: l i => [|p|p q l IH] [|i] //= Hi.
by apply: IH; lia.
Qed.

Lemma pairs_even l : pairs (take (size l)./2.*2 l) = pairs l.
Proof. by elim/pairs_ind: l => [|p|p q l IH] //=; rewrite IH. Qed.

End Pairs.

Lemma pairs_map (S T : Type) (f : S -> T) (l : seq S) :
  pairs (map f l) = [seq (f pq.1, f pq.2) | pq <- pairs l].
Proof. by elim/pairs_ind: l => [|p|p q l IH] //=; rewrite IH. Qed.

Lemma zip_cat_r (S T : Type) (s : seq S) (t1 t2 : seq T) : size s = size t1 ->
  zip s (t1 ++ t2) = zip s t1.
Proof.
by move=> H; rewrite -{1}[s]cats0 zip_cat //; case: t2 => [|? ?]; rewrite ?cats0 //= cats0.
Qed.

Section Proofs.
Variables (Fq : fieldType) (V : zmodType) (of_affine : Fq * Fq -> V) (A : V -> Fq * Fq).
Hypothesis HC : curve_coords of_affine A.

Lemma A_inj : injective A.
Proof. by move=> P Q E; rewrite -[P](cc_of HC) E (cc_of HC). Qed.

Definition den (pq : V * V) : Fq := choose_add_or_double (A pq.1) (A pq.2).

Lemma den_regular P Q : P != 0 -> Q != 0 -> P + Q != 0 ->
  den (P, Q) != 0 /\ point_add_double (A P) (A Q) (den (P, Q))^-1 = A (P + Q).
Proof.
move=> HP HQ HS; rewrite /den /choose_add_or_double /point_add_double (inj_eq A_inj) /=.
case: (eqVneq P Q) => [E|Hne].
  rewrite -E in HQ HS *.
  have := cc_tangent HC HP HS; case: (A P) => x y /=.
  rewrite -!mulr2n -!expr2 => -[Hd ->]; split=> //.
  have E3 m : m - x - x = m - x *+ 2 by rewrite mulr2n opprD addrA.
  by rewrite !E3.
have := cc_chord HC HP HQ Hne HS; case: (A P) (A Q) => [x1 y1] [x2 y2] /=.
move=> [Hd ->]; rewrite -!expr2; split=> //.
by rewrite subr_eq0 eq_sym.
Qed.

Lemma den_cancel P Q : P + Q = 0 -> den (P, Q) = 0.
Proof.
move=> /eqP; rewrite addrC addr_eq0 => /eqP ->; rewrite /den /choose_add_or_double /=.
case: (eqVneq P 0) => [->|HP]; first by rewrite oppr0 eqxx (cc_zero HC) addr0.
rewrite (cc_opp HC HP) /=; case: eqP => [E|_]; last by rewrite subrr.
by have := congr1 snd E => /= <-; rewrite -{1}[(A P).2]opprK (_ : - (A P).2 = (A P).2) ?addNr //;
   have := congr1 snd E => /= {1}<-.
Qed.

Lemma pair_startsE q : (0 < q)%N -> pair_starts q.*2 = Ret [seq (i * 2)%N | i <- iota 0 q].
Proof.
move=> Hq; rewrite /pair_starts (_ : (2 <= q.*2)%N) /=; last by lia.
congr Ret; rewrite /step_by; congr (map _ (iota 0 _)).
rewrite (_ : (q.*2 - 1 + 2.-1 = q * 2)%N); last by lia.
by rewrite mulnK.
Qed.

Lemma pair_denominatorsE l q : size l = q.*2 -> (0 < q)%N ->
  pair_denominators (map A l) = Ret (map den (pairs l)).
Proof.
move=> Sl Hq; rewrite /pair_denominators size_map Sl pair_startsE //=.
rewrite (@omapM_Ret_in _ _ _ (fun i => den (nth 0 l i, nth 0 l i.+1))).
  congr Ret; apply: (@eq_from_nth _ 0); first by rewrite !size_map size_iota size_pairs Sl doubleK.
  rewrite !size_map size_iota => i Hi.
  rewrite (nth_map 0%N) ?size_map ?size_iota // (nth_map 0%N) ?size_iota // nth_iota // add0n.
  rewrite (nth_map (0, 0)) ?size_pairs ?Sl ?doubleK //.
  by rewrite nth_pairs ?Sl ?doubleK // muln2.
move=> i /mapP [j]; rewrite mem_iota => Hj ->.
have H1 : (j * 2 < size l)%N by lia.
have H2 : ((j * 2).+1 < size l)%N by lia.
by rewrite !(aget_nth (A 0)) ?size_map //= !(nth_map 0).
Qed.

Lemma add_pairsE l q rest : size l = q.*2 -> (0 < q)%N -> regular_pairs l ->
  exists s, [/\ add_pairs (map A l) ([seq (den pq)^-1 | pq <- pairs l] ++ rest) = Ret s,
    size s = size l & take q s = map A (pair_sums l)].
Proof.
move=> Sl Hq Hr; rewrite /add_pairs size_map Sl pair_startsE //=.
have Sp : size (pairs l) = q by rewrite size_pairs Sl doubleK.
rewrite zip_cat_r; last by rewrite !size_map size_iota Sp.
set L := zip _ _.
have SL : size L = q by rewrite /L size_zip !size_map size_iota Sp minnn.
have NL k : (k < q)%N -> nth (0%N, 0) L k = ((k * 2)%N, (den (nth 0 l (k * 2), nth 0 l (k * 2).+1))^-1).
  move=> Hk; rewrite nth_zip ?size_map ?size_iota ?Sp //.
  rewrite (nth_map 0%N) ?size_iota // nth_iota // add0n.
  by rewrite (nth_map (0, 0)) ?Sp // nth_pairs ?Sl ?doubleK // muln2.
pose new j := A (nth 0 (pair_sums l) j).
pose Inv k (s : seq (Fq * Fq)) := size s = q.*2 /\
  forall j, (j < q.*2)%N -> nth (A 0) s j = if (j < k)%N then new j else A (nth 0 l j).
have Newk k : (k < q)%N -> nth 0 (pair_sums l) k = nth 0 l (k * 2) + nth 0 l (k * 2).+1.
  by move=> Hk; rewrite (nth_map (0, 0)) ?Sp // nth_pairs ?Sl ?doubleK // muln2.
have [||s E [Ss Hs]] := @ofor_inv _ _ (0%N, 0) L (fun ii points =>
    olet p1 := aget points ii.1 in
    olet p2 := aget points ii.1.+1 in
    aset points (ii.1 %/ 2) (point_add_double p1 p2 ii.2)) (map A l) Inv.
- split; first by rewrite size_map.
  by move=> j Hj; rewrite (nth_map 0) // Sl.
- rewrite SL => k s Hk [Ss Hs].
  have H1 : (k * 2 < size s)%N by rewrite Ss; lia.
  have H2 : ((k * 2).+1 < size s)%N by rewrite Ss; lia.
  rewrite NL // !(aget_nth (A 0)) //=.
  rewrite mulnK // !Hs; try by rewrite -Ss.
  have -> : (k * 2 < k)%N = false by clear; lia.
  have -> : ((k * 2).+1 < k)%N = false by clear; lia.
  have Hm : (nth 0 l (k * 2), nth 0 l (k * 2).+1) \in pairs l.
    by apply/(nthP (0, 0)); exists k; rewrite ?Sp // nth_pairs ?Sl ?doubleK // muln2.
  have /and3P [R1 R2 R3] := allP Hr _ Hm.
  have [_ ->] := den_regular R1 R2 R3.
  have H3 : (k < size s)%N by rewrite Ss; lia.
  rewrite (aset_set_nth (A 0)) //; eexists; first by [].
  split; first by rewrite size_set_nth_in.
  move=> j Hj; rewrite nth_set_nth /=; case: (eqVneq j k) => [->|Hjk].
    by rewrite ltnSn /new Newk.
  have -> : (j < k.+1)%N = (j < k)%N by move: Hjk; clear; lia.
  by rewrite Hs.
exists s; split; [exact: E|exact: Ss|].
rewrite SL in Hs.
have Sps : size (pair_sums l) = q by rewrite size_map.
apply: (@eq_from_nth _ (A 0)).
  by rewrite size_take Ss size_map Sps; case: ltnP => //; lia.
rewrite size_take Ss => j Hj.
have Hjq : (j < q)%N by move: Hj; clear; case: (ltnP q q.*2) => H1 H2; lia.
rewrite nth_take // Hs; last by move: Hjq; clear; lia.
by rewrite Hjq (nth_map 0) // Sps.
Qed.

Lemma dens_regular l : regular_pairs l -> all (fun x => x != 0) (map den (pairs l)).
Proof.
move=> /allP H; apply/allP => _ /mapP [[P Q] /H /and3P [H1 H2 H3] ->].
by have [] := den_regular H1 H2 H3.
Qed.

(** The even part of a list and what is left. *)
Definition evens (l : seq V) := take (size l)./2.*2 l.
Definition leftover (l : seq V) : V := if odd (size l) then last 0 l else 0.

Lemma size_evens l : size (evens l) = (size l)./2.*2.
Proof. by rewrite size_take; case: ltnP => //; lia. Qed.

Lemma pop_oddE l s : pop_odd of_affine (map A l) s = Ret (map A (evens l), s + leftover l).
Proof.
rewrite /pop_odd size_map /leftover /evens; case: (boolP (odd (size l))) => Ho.
  have H0 : (0 < size l)%N by case: (l) Ho.
  rewrite (aget_nth (A 0)) ?size_map; last by lia.
  rewrite /= (nth_map 0); last by lia.
  rewrite (cc_of HC) nth_last -map_take.
  by congr (Ret (map A (take _ l), _)); lia.
rewrite addr0 take_oversize //; lia.
Qed.

Lemma sum_pairs l s : s + leftover l + \sum_(P <- pair_sums l) P = s + \sum_(P <- l) P.
Proof.
rewrite -addrA; congr (_ + _); rewrite /leftover.
elim/pairs_ind: l => [|p|p q l IH].
- by rewrite /= /pair_sums /= !big_nil addr0.
- by rewrite /pair_sums /= big_nil big_seq1 addr0.
rewrite /pair_sums [pairs _]/= [size _]/= [odd _]/= negbK [map _ _]/= !big_cons -/(pair_sums l).
rewrite addrCA -addrA; congr (_ + (_ + _)); rewrite -IH; congr (_ + _).
by case: (boolP (odd _)) => //; case: (l).
Qed.

Lemma tree_roundE l s : (1 < size l)%N -> regular_pairs l ->
  tree_round of_affine (map A l, s) = Ret (map A (pair_sums l), s + leftover l).
Proof.
move=> Hl Hr; rewrite /tree_round pop_oddE /=.
have Hq : (0 < (size l)./2)%N by lia.
rewrite (@pair_denominatorsE _ (size l)./2) ?size_evens //=.
rewrite batch_inverse_spec /=; last by apply: dens_regular; rewrite /regular_pairs pairs_even.
have Hr' : regular_pairs (evens l) by rewrite /regular_pairs pairs_even.
have [v [E Sv Tv]] := add_pairsE [::] (size_evens l) Hq Hr'.
rewrite -map_comp; rewrite cats0 in E; rewrite E /=.
rewrite !size_map size_pairs size_evens doubleK Tv.
by rewrite /pair_sums pairs_even.
Qed.

Lemma size_pair_sums (l : seq V) : size (pair_sums l) = (size l)./2.
Proof. by rewrite size_map size_pairs. Qed.

Lemma treeE fuel l s : regular_tree BATCH_INVERSE_THRESHOLD l -> (size l <= fuel)%N ->
  exists ls, owhile fuel (fun st => BATCH_INVERSE_THRESHOLD < size st.1)%N (tree_round of_affine) (map A l, s)
    = Ret (map A ls.1, ls.2) /\ ls.2 + \sum_(P <- ls.1) P = s + \sum_(P <- l) P.
Proof.
elim: fuel l s => [|f IH] l s Ht Hf.
  by exists (l, s); move: Hf; rewrite leqn0 => /nilP ->.
rewrite [owhile _ _ _ _]/= size_map; case: (ltnP BATCH_INVERSE_THRESHOLD (size l)) => Hs; last by exists (l, s).
case: Ht Hs Hf => {l} [l Hl|l Hr Ht] Hs Hf; first by lia.
have H1 : (1 < size l)%N by exact: leq_trans Hs.
rewrite tree_roundE //=.
have [|ls [-> E2]] := IH (pair_sums l) (s + leftover l) Ht.
  by rewrite size_pair_sums; lia.
by exists ls; rewrite E2 sum_pairs.
Qed.

Lemma fold_sum l s : foldl (fun sum point => sum + of_affine point) s (map A l) = s + \sum_(P <- l) P.
Proof.
elim: l s => [|P l IH] s /=; first by rewrite big_nil addr0.
by rewrite IH big_cons (cc_of HC) addrA.
Qed.

Lemma batch_additionE l : regular_tree BATCH_INVERSE_THRESHOLD l ->
  batch_addition_binary_tree_stride of_affine (map A l) = Ret (\sum_(P <- l) P).
Proof.
move=> Ht; rewrite /batch_addition_binary_tree_stride /nilp size_map.
case: (posnP (size l)) => [/size0nil ->|_]; first by rewrite big_nil.
have [ls [-> E]] := treeE 0 Ht (leqnn _).
by rewrite /= fold_sum E add0r.
Qed.

Lemma batch_addition_cancel l : cancelling_tree BATCH_INVERSE_THRESHOLD l ->
  batch_addition_binary_tree_stride of_affine (map A l) = Panic.
Proof.
move=> Ht; rewrite /batch_addition_binary_tree_stride /nilp size_map.
have Hl : (BATCH_INVERSE_THRESHOLD < size l)%N by case: Ht.
case: (posnP (size l)) => [E|_]; first by rewrite E in Hl.
suff H fuel s : (size l <= fuel)%N ->
   owhile fuel (fun st => BATCH_INVERSE_THRESHOLD < size st.1)%N (tree_round of_affine) (map A l, s) = Panic.
  by rewrite H.
elim: Ht fuel s {Hl} => {l} [l Hl Hc|l Hl Hr Ht IH] [|f] s Hf;
  try by exfalso; move: Hl Hf; rewrite leqn0; case: (size l).
  rewrite [owhile _ _ _ _]/= size_map Hl /tree_round pop_oddE /=.
  have H1 : (1 < size l)%N by exact: leq_trans Hl.
  have Hq : (0 < (size l)./2)%N by lia.
  rewrite (@pair_denominatorsE _ (size l)./2) ?size_evens //=.
  rewrite batch_inverse_panic //= pairs_even.
  have /hasP [[P Q] Hm /eqP E] := Hc.
  by apply/mapP; exists (P, Q); rewrite ?den_cancel.
rewrite [owhile _ _ _ _]/= size_map Hl.
have H1 : (1 < size l)%N by exact: leq_trans Hl.
by rewrite tree_roundE //= IH // size_pair_sums; lia.
Qed.

(** ** Several lists *)

Lemma compute_thresholdE (ls : seq (seq V)) :
  compute_threshold (map (map A) ls) = sumn [seq size (pairs l) | l <- ls].
Proof.
rewrite /compute_threshold -map_comp; congr sumn; apply: eq_map => l /=.
by rewrite size_map size_pairs; case: eqP => H; lia.
Qed.

Lemma multi_popE (ls : seq (seq V)) (ss : seq V) : size ls = size ss ->
  multi_pop of_affine (map (map A) ls) ss =
  Ret [seq (map A (evens lt.1), lt.2 + leftover lt.1) | lt <- zip ls ss].
Proof.
rewrite /multi_pop; elim: ls ss => [|l ls IH] [|t ss] //= [S].
by rewrite pop_oddE /= IH.
Qed.

Lemma multi_denominatorsE (ls : seq (seq V)) :
  multi_denominators (map (map A) (map evens ls)) = Ret (flatten [seq map den (pairs l) | l <- ls]).
Proof.
rewrite /multi_denominators; match goal with |- ofor _ ?b _ = _ => set body := b end.
suff H acc : ofor (map (map A) (map evens ls)) body acc =
    Ret (acc ++ flatten [seq map den (pairs l) | l <- ls]) by rewrite H.
elim: ls acc => [|l ls IH] acc /=; first by rewrite cats0.
rewrite {1}/body size_map size_evens; case: (ltnP (size l)./2.*2 2) => Hl.
  rewrite /= IH; congr (Ret (_ ++ _)).
  have : size (pairs l) = 0%N by rewrite size_pairs; lia.
  by move=> /size0nil ->.
have Hq : (0 < (size l)./2)%N by lia.
rewrite (@pair_denominatorsE _ (size l)./2) ?size_evens //=.
by rewrite IH pairs_even catA.
Qed.

Lemma multi_addE (ls : seq (seq V)) : all (@regular_pairs V) ls ->
  exists off, multi_add (map (map A) (map evens ls))
    (flatten [seq [seq (den pq)^-1 | pq <- pairs l] | l <- ls]) =
  Ret (map (map A) (map (@pair_sums V) ls), off).
Proof.
rewrite /multi_add => Hls; set D := flatten _.
match goal with |- exists _, ofor _ ?b _ = _ => set body := b end.
suff H pre acc : D = pre ++ flatten [seq [seq (den pq)^-1 | pq <- pairs l] | l <- ls] ->
  exists off, ofor (map (map A) (map evens ls)) body (acc, size pre) =
    Ret (acc ++ map (map A) (map (@pair_sums V) ls), off) by apply: (H [::] [::]).
clearbody D.
elim: ls pre acc Hls => [|l ls IH] pre acc /= Hls ED; first by exists (size pre); rewrite cats0.
case/andP: Hls => Hl Hls.
have Hle : regular_pairs (evens l) by rewrite /regular_pairs pairs_even.
rewrite {1}/body size_map size_evens; case: (ltnP (size l)./2.*2 2) => Hs.
  have Ep : pairs l = [::] by apply: size0nil; rewrite size_pairs; lia.
  have Ee : evens l = [::] by apply: size0nil; rewrite size_evens; lia.
  rewrite Ee /=; rewrite Ep /= in ED.
  have [off E] := IH pre (rcons acc [::]) Hls ED.
  by exists off; rewrite E /pair_sums Ep cat_rcons.
have Hq : (0 < (size l)./2)%N by lia.
set mine := [seq (den pq)^-1 | pq <- pairs l] in ED.
have Smine : size mine = (size l)./2 by rewrite size_map size_pairs.
rewrite {1}/aslice ED !size_cat leq_addr leqnn /=.
rewrite drop_size_cat // take_oversize; last by rewrite !size_cat; lia.
have Emine : mine = [seq (den pq)^-1 | pq <- pairs (evens l)] by rewrite pairs_even.
rewrite {1}Emine.
have [v [-> Sv Tv]] := add_pairsE (flatten [seq [seq (den pq)^-1 | pq <- pairs l] | l <- ls])
  (size_evens l) Hq Hle.
rewrite /= Sv size_evens -muln2 mulnK // Tv.
have [|off E] := IH (pre ++ mine) (rcons acc (map A (pair_sums l))) Hls.
  by rewrite ED -catA.
exists off.
rewrite size_cat Smine in E.
have -> : pair_sums (evens l) = pair_sums l by rewrite /pair_sums pairs_even.
by rewrite E cat_rcons.
Qed.

Lemma sums_pairs (ls : seq (seq V)) (ss : seq V) : size ls = size ss ->
  [seq st.1 + \sum_(P <- st.2) P
  | st <- zip [seq lt.2 + leftover lt.1 | lt <- zip ls ss] (map (@pair_sums V) ls)] =
  [seq st.1 + \sum_(P <- st.2) P | st <- zip ss ls].
Proof. by elim: ls ss => [|l ls IH] [|t ss] //= [S]; rewrite sum_pairs IH. Qed.

Lemma multi_roundE (ls : seq (seq V)) (ss : seq V) : size ls = size ss ->
  all (@regular_pairs V) ls ->
  multi_round of_affine (map (map A) ls, ss) =
  Ret (map (map A) (map (@pair_sums V) ls), [seq lt.2 + leftover lt.1 | lt <- zip ls ss]).
Proof.
move=> S Hr; rewrite /multi_round [(_, ss).1]/= [(_, ss).2]/= multi_popE // obind_Ret.
cbv zeta; have -> : unzip1 [seq (map A (evens lt.1), lt.2 + leftover lt.1) | lt <- zip ls ss] =
   map (map A) (map evens ls).
  rewrite /unzip1 -map_comp -[in RHS](@unzip1_zip _ _ ls ss) ?S // /unzip1 -!map_comp.
  exact: eq_map.
have -> : unzip2 [seq (map A (evens lt.1), lt.2 + leftover lt.1) | lt <- zip ls ss] =
   [seq lt.2 + leftover lt.1 | lt <- zip ls ss].
  by rewrite /unzip2 -map_comp; apply: eq_map.
rewrite multi_denominatorsE obind_Ret batch_inverse_scratch_pad_spec; last first.
  elim: (ls) Hr => [|l ls' IH] //= /andP [H1 H2].
  by rewrite all_cat dens_regular //=; apply: IH.
rewrite obind_Ret map_flatten.
have [off E] := multi_addE Hr.
have -> : [seq [seq x^-1 | x <- y] | y <- [seq map den (pairs l) | l <- ls]] =
    [seq [seq (den pq)^-1 | pq <- pairs l] | l <- ls].
  by rewrite -map_comp; apply: eq_map => l /=; rewrite -map_comp.
by rewrite E.
Qed.

Lemma sumn_consE n (s : seq nat) : sumn (n :: s) = (n + sumn s)%N. Proof. by []. Qed.

Lemma sumn_half_le (ls : seq (seq V)) :
  (sumn (map size (map (@pair_sums V) ls)) <= sumn (map size ls))%N.
Proof.
elim: ls => [|l ls IH] //; rewrite !map_cons !sumn_consE size_pair_sums.
by apply: leq_add => //; move: (size l) => n; clear; lia.
Qed.

Lemma sumn_half (ls : seq (seq V)) k : (k < sumn [seq size (pairs l) | l <- ls])%N ->
  (sumn (map size (map (@pair_sums V) ls)) < sumn (map size ls))%N.
Proof.
move=> H; have {H} : (0 < sumn [seq size (pairs l) | l <- ls])%N by apply: leq_trans H.
elim: ls => [|l ls IH] //; rewrite !map_cons !sumn_consE size_pairs size_pair_sums => H.
have H2 := sumn_half_le ls.
case: (posnP (size l)./2) => E.
  by rewrite E add0n in H; have := IH H; rewrite E; move: H2; clear; lia.
by move: H2 E; clear; lia.
Qed.

Lemma forestE fuel (ls : seq (seq V)) (ss : seq V) :
  regular_forest BATCH_INVERSE_THRESHOLD ls -> size ls = size ss ->
  (sumn (map size ls) <= fuel)%N ->
  exists ts, [/\ owhile fuel (fun st => BATCH_INVERSE_THRESHOLD < compute_threshold st.1)%N
      (multi_round of_affine) (map (map A) ls, ss) = Ret (map (map A) ts.1, ts.2),
    size ts.1 = size ts.2 &
    [seq st.1 + \sum_(P <- st.2) P | st <- zip ts.2 ts.1] =
    [seq st.1 + \sum_(P <- st.2) P | st <- zip ss ls]].
Proof.
elim: fuel ls ss => [|f IH] ls ss Hf S Hn.
  exists (ls, ss); split=> //; rewrite /= compute_thresholdE.
  case: ltnP => // /sumn_half; lia.
rewrite [owhile _ _ _ _]/= compute_thresholdE; case: ltnP => Hs; last by exists (ls, ss).
have Hlt := sumn_half Hs.
case: Hf S Hn Hs Hlt => {ls} [ls Hl|ls Hr Ht] S Hn Hs Hlt; first by lia.
rewrite multi_roundE // obind_Ret.
set ss' := [seq lt.2 + leftover lt.1 | lt <- zip ls ss].
have S' : size (map (@pair_sums V) ls) = size ss' by rewrite !size_map size_zip S minnn.
have [|ts [E1 E2 E3]] := IH _ ss' Ht S'; first by lia.
by exists ts; rewrite E1 E3 sums_pairs.
Qed.

Lemma multi_batch_additionE (ls : seq (seq V)) : regular_forest BATCH_INVERSE_THRESHOLD ls ->
  multi_batch_addition_binary_tree_stride of_affine (map (map A) ls) =
  Ret [seq \sum_(P <- l) P | l <- ls].
Proof.
move=> Hf; rewrite /multi_batch_addition_binary_tree_stride size_map.
have -> : map size (map (map A) ls) = map size ls.
  by rewrite -map_comp; apply: eq_map => l /=; rewrite size_map.
have [|[ts tz] [-> /= E2 E3]] := forestE Hf _ (leqnn _) (ss := nseq (size ls) 0).
  by rewrite size_nseq.
congr Ret; rewrite [RHS](_ : _ = [seq st.1 + \sum_(P <- st.2) P | st <- zip (nseq (size ls) 0) ls]).
  rewrite -E3; elim: tz ts E2 {E3} => [|t tz IH] [|l ts] //= [S].
  by rewrite fold_sum IH.
by elim: (ls) => [|l ls' IH] //=; rewrite add0r IH.
Qed.

Lemma batch_inverse_scratch_pad_panic (v pad : seq Fq) :
  0 \in v -> batch_inverse_scratch_pad v pad = Panic.
Proof.
move=> /batch_inverse_panic; rewrite /batch_inverse /batch_inverse_scratch_pad.
case: (foldl _ _ v) => t s; case: (invert_expect t) => //= t'.
by case: (foldl _ _ (zip _ _)).
Qed.

Lemma multi_batch_addition_cancel (ls : seq (seq V)) :
  cancelling_forest BATCH_INVERSE_THRESHOLD ls ->
  multi_batch_addition_binary_tree_stride of_affine (map (map A) ls) = Panic.
Proof.
move=> Hf; rewrite /multi_batch_addition_binary_tree_stride size_map.
have -> : map size (map (map A) ls) = map size ls.
  by rewrite -map_comp; apply: eq_map => l /=; rewrite size_map.
suff H fuel ss : (sumn (map size ls) <= fuel)%N -> size ls = size ss ->
    owhile fuel (fun st => BATCH_INVERSE_THRESHOLD < compute_threshold st.1)%N
      (multi_round of_affine) (map (map A) ls, ss) = Panic.
  by rewrite H ?size_nseq.
elim: Hf fuel ss => {ls} [ls Hl Hc|ls Hl Hr Ht IH] [|f] ss Hn S;
  try by have := sumn_half Hl; move: Hn; clear; lia.
  rewrite [owhile _ _ _ _]/= compute_thresholdE Hl.
  rewrite /multi_round [(_, ss).1]/= [(_, ss).2]/= multi_popE // obind_Ret.
  cbv zeta; have -> : unzip1 [seq (map A (evens lt.1), lt.2 + leftover lt.1) | lt <- zip ls ss] =
     map (map A) (map evens ls).
    rewrite /unzip1 -map_comp -[in RHS](@unzip1_zip _ _ ls ss) ?S // /unzip1 -!map_comp.
    exact: eq_map.
  rewrite multi_denominatorsE obind_Ret batch_inverse_scratch_pad_panic //.
  have /hasP [l Hm /hasP [[P Q] Hpq /eqP E]] := Hc.
  apply/flattenP; exists (map den (pairs l)); first by apply/mapP; exists l.
  by apply/mapP; exists (P, Q); rewrite ?den_cancel.
rewrite [owhile _ _ _ _]/= compute_thresholdE Hl multi_roundE // obind_Ret.
apply: IH; first by have := sumn_half Hl; move: Hn; clear; lia.
by rewrite !size_map size_zip S minnn.
Qed.

End Proofs.
