From mathcomp Require Import ssreflect ssrfun ssrbool eqtype ssrnat seq div prime.
From mathcomp Require Import fintype bigop ssralg poly zify_ssreflect.
From Verif Require Import Base Spec FFT Domain DomainProofs PolyCoeff.

Set Implicit Arguments.
Unset Strict Implicit.
Unset Printing Implicit Defensive.

Import GRing.Theory.
Local Open Scope ring_scope.

Lemma obind_Ret (A B : Type) (a : A) (f : A -> outcome B) : obind (Ret a) f = f a.
Proof. by []. Qed.

Section Lists.
Variable F : fieldType.

Lemma Poly_inj_size (a b : seq F) : size a = size b -> Poly a = Poly b -> a = b.
Proof.
move=> Hs E; apply: (@eq_from_nth _ 0) => // i _.
by rewrite -(coef_Poly a) E coef_Poly.
Qed.

(** Adding [c] to entry [n]. *)
Lemma aset_addP (r : seq F) n (c : F) : (n < size r)%N ->
  exists2 r', (olet x := aget r n in aset r n (x + c)) = Ret r' &
    size r' = size r /\ Poly r' = Poly r + c *: 'X^n.
Proof.
move=> Hn; rewrite (aget_nth 0) //= (aset_set_nth 0) //.
eexists; first by []; split; first by rewrite size_set_nth_in.
apply/polyP => i; rewrite coefD coefZ coefXn !coef_Poly nth_set_nth /=.
by case: eqP => [->|_]; rewrite ?mulr1 ?mulr0 ?addr0.
Qed.

Lemma Poly_nseq0 n : Poly (nseq n (0 : F)) = 0.
Proof. by apply/polyP => i; rewrite coef_Poly nth_nseq if_same coef0. Qed.

Lemma Poly_sum (a : seq F) : Poly a = \sum_(i < size a) a`_i *: 'X^i.
Proof.
rewrite -poly_def; apply/polyP => i; rewrite coef_Poly coef_poly.
by case: ltnP => // H; rewrite nth_default.
Qed.

Lemma zip_iota_nth (T : Type) (x0 : T) (a : seq T) k : (k < size a)%N ->
  nth (0%N, x0) (zip (iota 0 (size a)) a) k = (k, nth x0 a k).
Proof. by move=> Hk; rewrite nth_zip ?size_iota // nth_iota. Qed.

Lemma size_zip_iota (T : Type) (a : seq T) : size (zip (iota 0 (size a)) a) = size a.
Proof. by rewrite size_zip size_iota minnn. Qed.

(** Loop over an enumerated list. *)
Lemma ofor_enum_inv (T S : Type) (x0 : T) (a : seq T) (body : nat * T -> S -> outcome S) (s : S)
  (P : nat -> S -> Prop) :
  P 0%N s ->
  (forall k s, (k < size a)%N -> P k s -> exists2 s', body (k, nth x0 a k) s = Ret s' & P k.+1 s') ->
  exists2 s', ofor (zip (iota 0 (size a)) a) body s = Ret s' & P (size a) s'.
Proof.
move=> H0 H.
have Hs k s1 : (k < size (zip (iota 0 (size a)) a))%N -> P k s1 ->
    exists2 s', body (nth (0%N, x0) (zip (iota 0 (size a)) a) k) s1 = Ret s' & P k.+1 s'.
  by rewrite size_zip_iota => Hk; rewrite zip_iota_nth //; apply: H.
have [s' E P'] := ofor_inv H0 Hs.
by exists s' => //; rewrite size_zip_iota in P'.
Qed.

Lemma poly_add_aux (s l : seq F) : (size s <= size l)%N ->
  exists2 r, ofor (iota 0 (size s)) (fun i larger =>
    olet x := aget larger i in
    olet y := aget s i in
    aset larger i (x + y)) l = Ret r & size r = size l /\ Poly r = Poly l + Poly s.
Proof.
move=> Hs.
pose P k (r : seq F) := size r = size l /\ Poly r = Poly l + \sum_(i < k) s`_i *: 'X^i.
have [||r -> [Sr Er]] := @ofor_iota_inv _ (size s) (fun i larger =>
    olet x := aget larger i in
    olet y := aget s i in
    aset larger i (x + y)) l P.
- by split=> //; rewrite big_ord0 addr0.
- move=> k r Hk [Sr Er].
  have [|r' Er' [Sr' Pr']] := @aset_addP r k s`_k; first by rewrite Sr; lia.
  exists r'; first by rewrite -Er' (aget_nth 0 Hk).
  by split; [rewrite Sr' | rewrite Pr' Er big_ord_recr /= addrA].
by exists r => //; split=> //; rewrite Er -Poly_sum.
Qed.

Theorem poly_add_spec (a b : seq F) :
  exists2 r, poly_add a b = Ret r & size r = maxn (size a) (size b) /\ Poly r = Poly a + Poly b.
Proof.
rewrite /poly_add; case: ltnP => H.
  have [r E [Sr Pr]] := poly_add_aux (ltnW H); exists r => //.
  by rewrite Sr Pr addrC.
by have [r E [Sr Pr]] := poly_add_aux H; exists r.
Qed.

Lemma Poly_neg (a : seq F) : Poly (poly_neg a) = - Poly a.
Proof.
apply/polyP => i; rewrite coefN !coef_Poly.
case: (ltnP i (size a)) => Hi; first by rewrite (nth_map 0).
by rewrite !nth_default ?oppr0 ?size_map.
Qed.

Theorem poly_sub_spec (a b : seq F) :
  exists2 r, poly_sub a b = Ret r & size r = maxn (size a) (size b) /\ Poly r = Poly a - Poly b.
Proof.
have [r E [Sr Pr]] := poly_add_spec a (poly_neg b).
by exists r => //; rewrite Sr size_map Pr Poly_neg.
Qed.

Theorem poly_eval_spec (p : seq F) (x : F) : poly_eval p x = (Poly p).[x].
Proof.
rewrite /poly_eval foldl_rev horner_Poly.
by elim: p => [|c p IH] //=; rewrite IH.
Qed.

Theorem poly_mul_spec (a b : seq F) : (0 < size a + size b)%N ->
  exists2 r, poly_mul a b = Ret r & size r = (size a + size b - 1)%N /\ Poly r = Poly a * Poly b.
Proof.
move=> Hab; rewrite /poly_mul eqn0Ngt Hab /=.
set n := (size a + size b - 1)%N.
pose P k (r : seq F) := size r = n /\ Poly r = \sum_(i < k) (a`_i *: 'X^i) * Poly b.
set body := (X in ofor _ X _).
have [||r -> [Sr Er]] := @ofor_enum_inv F (seq F) 0 a body (nseq n 0) P.
- by split; [rewrite size_nseq | rewrite big_ord0 Poly_nseq0].
- move=> i r Hi [Sr Er]; rewrite /body /=.
  pose Q j (s : seq F) := size s = n /\ Poly s = Poly r + \sum_(l < j) (a`_i * b`_l) *: 'X^(i + l).
  set body2 := (X in ofor _ X _).
  have [||s -> [Ss Es]] := @ofor_enum_inv F (seq F) 0 b body2 r Q.
  + by split=> //; rewrite big_ord0 addr0.
  + move=> j s Hj [Ss Es]; rewrite /body2 /=.
    have [|s' E' [Ss' Ps']] := @aset_addP s (i + j)%N (a`_i * b`_j).
      by rewrite Ss /n; lia.
    exists s' => //; split; first by rewrite Ss'.
    by rewrite Ps' Es big_ord_recr /= addrA.
  exists s => //; split=> //.
  rewrite Es Er big_ord_recr /=; congr (_ + _).
  rewrite [in RHS]Poly_sum mulr_sumr; apply: eq_bigr => l _.
  by rewrite exprD -scalerAl -scalerAr scalerA.
by exists r => //; split=> //; rewrite Er -mulr_suml -Poly_sum.
Qed.

Theorem poly_mul_panic (a b : seq F) : poly_mul a b = Panic <-> a = [::] /\ b = [::].
Proof.
case: (posnP (size a + size b)) => [|H].
  move/eqP; rewrite addn_eq0 !size_eq0 => /andP[/eqP-> /eqP->].
  by split.
have [r -> _] := poly_mul_spec H; split=> //.
by case=> Ea Eb; rewrite Ea Eb in H.
Qed.

Theorem vanishing_poly_spec (rs : seq F) :
  exists2 p, vanishing_poly rs = Ret p &
    size p = (size rs).+1 /\ Poly p = \prod_(x <- rs) ('X - x%:P).
Proof.
rewrite /vanishing_poly.
suff H (p0 : seq F) : (0 < size p0)%N ->
  exists2 p, ofor rs (fun root poly => poly_mul poly [:: - root; 1]) p0 = Ret p &
    size p = (size rs + size p0)%N /\ Poly p = Poly p0 * \prod_(x <- rs) ('X - x%:P).
  have [p E [Sp Pp]] := H [:: 1] isT.
  exists p => //; rewrite Sp addn1 Pp /= cons_poly_def mul0r add0r mul1r //.
elim: rs p0 => [|x rs IH] p0 Hp0 /=; first by exists p0 => //; rewrite big_nil mulr1.
have [|p1 -> [Sp1 Pp1]] := @poly_mul_spec p0 [:: - x; 1]; first by lia.
rewrite /= in Sp1.
have [|p E [Sp Pp]] := IH p1; first by lia.
exists p => //; split; first by lia.
rewrite Pp Pp1 big_cons mulrA; congr (_ * _ * _).
by rewrite /= !cons_poly_def mul0r add0r mul1r polyCN.
Qed.

End Lists.

Section BatchInverse.
Variable F : fieldType.
Implicit Types v : seq F.

Definition prods (acc : F) v := mkseq (fun i => acc * \prod_(x <- take i.+1 v) x) (size v).

Lemma first_pass (acc : F) pre v :
  foldl (fun (st : F * seq F) f => (st.1 * f, rcons st.2 (st.1 * f))) (acc, pre) v =
  (acc * \prod_(x <- v) x, pre ++ prods acc v).
Proof.
elim: v acc pre => [|f v IH] acc pre /=; first by rewrite big_nil mulr1 cats0.
rewrite IH big_cons mulrA; congr pair.
rewrite cat_rcons /prods /mkseq /= take0 big_seq1; congr (_ ++ _ :: _).
rewrite -[iota 1 _]/(iota (1 + 0) _) iotaDl -map_comp; apply: eq_map => i /=.
by rewrite big_cons mulrA.
Qed.

Lemma prods_rcons v x : prods 1 (rcons v x) = rcons (prods 1 v) (\prod_(y <- rcons v x) y).
Proof.
rewrite /prods /mkseq size_rcons -addn1 iotaD map_cat /= add0n cats1; congr rcons.
  apply/eq_in_map => i; rewrite mem_iota add0n => /andP[_ Hi].
  by rewrite -cats1 takel_cat.
by rewrite mul1r take_oversize // size_rcons.
Qed.

Lemma prod_neq0 v : all (fun x => x != 0) v = (\prod_(y <- v) y != 0).
Proof.
elim: v => [|y v IH] /=; first by rewrite big_nil oner_neq0.
by rewrite big_cons mulf_eq0 negb_or IH.
Qed.

Lemma second_pass v (out : seq F) : all (fun x => x != 0) v ->
  foldl (fun (st : F * seq F) fs => (st.1 * fs.1, (st.1 * fs.2) :: st.2))
    ((\prod_(x <- v) x)^-1, out)
    (zip (rev v) (drop 1 (rev (prods 1 v)) ++ [:: 1])) = (1, [seq x^-1 | x <- v] ++ out).
Proof.
elim/last_ind: v out => [|v x IH] out.
  by rewrite big_nil invr1 /= /prods.
rewrite all_rcons => /andP[x0 Hv].
have Hd : rev (prods 1 v) ++ [:: 1] =
    (\prod_(y <- v) y) :: (if size v is 0 then [::] else drop 1 (rev (prods 1 v)) ++ [:: 1]).
  case/lastP: v {IH Hv} => [|v y]; first by rewrite big_nil /prods.
  by rewrite prods_rcons rev_rcons size_rcons /= drop0.
rewrite prods_rcons !rev_rcons /= drop0 Hd /= -cats1 big_cat /= big_seq1.
have v0 : \prod_(y <- v) y != 0 by rewrite -prod_neq0.
rewrite map_cat /= -catA /=.
have -> : (\prod_(y <- v) y * x)^-1 * x = (\prod_(y <- v) y)^-1 by rewrite invfM -mulrA mulVf ?mulr1.
have -> : (\prod_(y <- v) y * x)^-1 * \prod_(y <- v) y = x^-1 by rewrite invfM mulrC mulVKf.
case: v IH Hv {Hd v0} => [|y v] IH Hv; first by rewrite big_nil invr1.
by have := IH (x^-1 :: out) Hv.
Qed.

Theorem batch_inverse_scratch_pad_spec v pad : all (fun x => x != 0) v ->
  batch_inverse_scratch_pad v pad = Ret ([seq x^-1 | x <- v], prods 1 v).
Proof.
move=> Hv; rewrite /batch_inverse_scratch_pad first_pass mul1r /=.
have Hp := Hv; rewrite prod_neq0 in Hp.
rewrite /invert_expect (negbTE Hp) /= second_pass // cats0.
have Sp : size (prods 1 v) = size v by rewrite size_mkseq.
rewrite size_zip size_cat size_drop !size_rev Sp /=.
have -> : (size v - minn (size v) (size v - 1 + 1) = 0)%N by lia.
by rewrite take0.
Qed.

Theorem batch_inverse_spec v : all (fun x => x != 0) v ->
  batch_inverse v = Ret [seq x^-1 | x <- v].
Proof. by move=> Hv; rewrite /batch_inverse batch_inverse_scratch_pad_spec. Qed.

Theorem batch_inverse_panic v : 0 \in v -> batch_inverse v = Panic.
Proof.
move=> H0; rewrite /batch_inverse /batch_inverse_scratch_pad first_pass mul1r /= /invert_expect.
have : ~~ (\prod_(y <- v) y != 0) by rewrite -prod_neq0 -has_predC; apply/hasP; exists 0 => //=; rewrite eqxx.
by rewrite negbK => /eqP ->; rewrite eqxx.
Qed.
End BatchInverse.

Section Lagrange.
Variable F : fieldType.
Variable pts : seq (F * F).
Local Notation n := (size pts).
Let x i : F := (nth (0, 0) pts i).1.
Let y i : F := (nth (0, 0) pts i).2.

(** Product of the linear factors of the first [j] points, without the [k]-th. *)
Let lp (k j : nat) : {poly F} := \prod_(i < j | val i != k) ('X - (x i)%:P).
Let ld (k j : nat) : F := \prod_(i < j | val i != k) (x k - x i).

Let lpS k j : lp k j.+1 = if j == k then lp k j else lp k j * ('X - (x j)%:P).
Proof.
rewrite /lp big_mkcond big_ord_recr /= -big_mkcond /=.
by case: eqP => //=; rewrite mulr1.
Qed.

Let ldS k j : ld k j.+1 = if j == k then ld k j else ld k j * (x k - x j).
Proof.
rewrite /ld big_mkcond big_ord_recr /= -big_mkcond /=.
by case: eqP => //=; rewrite mulr1.
Qed.

Let size_lp k j : size (lp k j) = (if (k < j)%N then j else j.+1).
Proof.
elim: j => [|j IH]; first by rewrite /lp big_ord0 size_poly1.
rewrite lpS; case: eqP => [E|Hne]; first by rewrite IH E ltnn ltnSn.
rewrite size_mul ?polyXsubC_eq0 //; last by rewrite -size_poly_gt0 IH; case: (ltnP k j); lia.
by rewrite size_XsubC IH; case: (ltnP k j); case: (ltnP k j.+1); lia.
Qed.

Let inner_inv (k j : nat) (st : lagr_state F) : Prop :=
  [/\ size (l_contrib st) = n, l_den st = ld k j &
   if (j == 0)%N || ((j == 1)%N && (k == 0)%N)
   then l_deg st = 0%N /\ l_contrib st = nseq n 0
   else l_deg st = 1%N /\ Poly (l_contrib st) = lp k j].

Lemma lagrange_inner_loop k : (2 <= n)%N -> (k < n)%N ->
  exists2 st, ofor (zip (iota 0 n) pts) (lagrange_inner n k (x k)) (LagrState (nseq n 0) 1 0%N)
    = Ret st & [/\ size (l_contrib st) = n, l_den st = ld k n & Poly (l_contrib st) = lp k n].
Proof.
move=> Hn Hk.
have [||st -> Hst] := @ofor_enum_inv (F * F)%type _ (0, 0) pts (lagrange_inner n k (x k))
     (LagrState (nseq n 0) 1 0%N) (inner_inv k).
- by split; rewrite /= ?size_nseq // /ld big_ord0.
- move=> j st Hj [Hs Hd Hc].
  rewrite /lagrange_inner [nth _ _ _]surjective_pairing -/(x j).
  case: eqP => [Ejk|Hne].
    exists st => //; split=> //; first by rewrite ldS (introT eqP Ejk).
    rewrite lpS (introT eqP Ejk); subst k.
    by move: (Hc); case: (j) => [|[|i]].
  case: ifP Hc => Hj0 [-> Hc] /=.
    have {Hj0} Hl : lp k j = 1 /\ ld k j = 1.
      case/orP: Hj0 => [/eqP->|/andP[/eqP-> /eqP->]]; first by rewrite /lp /ld !big_ord0.
      by rewrite lpS ldS eqxx /lp /ld !big_ord0.
    have H0n : (0 < size (nseq n (0%R : F)))%N by rewrite size_nseq; lia.
    rewrite Hc (aget_nth 0 H0n) obind_Ret (aset_set_nth 0 _ H0n) obind_Ret.
    set c1 := set_nth _ _ _ _.
    have H1n : (1 < size c1)%N by rewrite size_set_nth_in // size_nseq; lia.
    rewrite (aget_nth 0 H1n) obind_Ret (aset_set_nth 0 _ H1n) obind_Ret /c1.
    eexists; first by []; split=> /=.
    + by rewrite size_set_nth_in ?size_set_nth_in ?size_nseq //; lia.
    + by rewrite Hd ldS; case: eqP Hne.
    + rewrite ifF; last by lia.
      split=> //; rewrite lpS (introF eqP Hne) Hl.1 mul1r.
      apply/polyP => i; rewrite coef_Poly !nth_set_nth /= nth_nseq.
      rewrite coefB coefX coefC nth_set_nth /= !nth_nseq.
      by case: i => [|[|i]]; rewrite /= ?if_same ?add0r ?sub0r ?subr0 ?oppr0.
  rewrite size_map Hs eqxx /=.
  set c := l_contrib st in Hs Hc *.
  have Hlast : c`_n.-1 = 0.
    rewrite -coef_Poly Hc nth_default // size_lp.
    by move: Hk Hj Hne {Hn Hs}; move: (size pts) => m; case: (ltnP k j); lia.
  have Sc : size (take n (0 :: c)) = n by rewrite size_takel //= Hs.
  have Pc : Poly (take n (0 :: c)) = Poly c * 'X.
    apply/polyP => i; rewrite coef_Poly coefMX coef_Poly.
    case: (ltnP i n) => Hi; first by rewrite nth_take //; case: i Hi.
    rewrite nth_default ?Sc //; case: i Hi => [|i] //= Hi.
    case: (ltngtP i n.-1) => Hi'; [lia | | by rewrite Hi'].
    by rewrite nth_default // Hs; lia.
  set m := [seq _ | el <- c].
  have Sm : size m = n by rewrite size_map.
  have [r] := poly_add_aux (s := m) (l := take n (0 :: c)) ltac:(by rewrite Sc Sm).
  rewrite Sm Sc => -> [Sr Pr] /=.
  exists (LagrState r (l_den st * (x k - x j)) 1) => //; split=> //=.
    by rewrite Hd ldS; case: eqP Hne.
  rewrite ifF; last by lia.
  split=> //; rewrite lpS (introF eqP Hne) Pr Pc -Hc mulrBr; congr (_ + _).
  apply/polyP => i; rewrite coefN coefMC !coef_Poly.
  case: (ltnP i (size c)) => Hi; first by rewrite (nth_map 0).
  by rewrite !nth_default ?mul0r ?oppr0 // size_map.
case: Hst => Hs Hd; have -> : (n == 0)%N || ((n == 1)%N && (k == 0)%N) = false by lia.
by case=> _ Hc; exists st.
Qed.

Lemma lagrange_outer_step k coeffs : (2 <= n)%N -> (k < n)%N -> size coeffs = n -> ld k n != 0 ->
  exists2 r, lagrange_outer pts (k, nth (0, 0) pts k) coeffs = Ret r &
    size r = n /\ Poly r = Poly coeffs + (y k / ld k n) *: lp k n.
Proof.
move=> Hn Hk Hs Hd; rewrite /lagrange_outer [nth _ _ _]surjective_pairing -/(x k) -/(y k).
have [st -> [Hc Hden Hp]] := lagrange_inner_loop Hn Hk; rewrite /= Hden.
rewrite /invert_expect (negbTE Hd) /=.
set c := l_contrib st in Hc Hp *.
set body := (X in ofor _ X _).
pose P j (r : seq F) := size r = n /\
   Poly r = Poly coeffs + \sum_(i < j) (c`_i * (ld k n)^-1 * y k) *: 'X^i.
have [||r E [Sr Pr]] := @ofor_enum_inv _ _ 0 c body coeffs P.
- by split=> //; rewrite big_ord0 addr0.
- move=> j r Hj [Sr Pr]; rewrite /body /=.
  have [|r' Er' [Sr' Pr']] := @aset_addP _ r j (c`_j * (ld k n)^-1 * y k); first by rewrite Sr -Hc.
  exists r' => //; split; first by rewrite Sr'.
  by rewrite Pr' Pr big_ord_recr /= addrA.
exists r => //; split=> //; rewrite Pr; congr (_ + _).
rewrite -Hp Poly_sum scaler_sumr; apply: eq_bigr => i _.
by rewrite scalerA; congr (_ *: _); rewrite -mulrA mulrC (mulrC (y k)).
Qed.

Lemma ld_neq0 k : uniq (map fst pts) -> (k < n)%N -> ld k n != 0.
Proof.
move=> U Hk; apply/prodf_neq0 => -[i /= Hi] Hne; rewrite subr_eq0.
rewrite /x -!(nth_map _ 0) // nth_uniq ?size_map //.
by rewrite eq_sym.
Qed.

Theorem lagrange_interpolate_spec : (2 <= size pts)%N -> uniq (map fst pts) ->
  exists2 c, lagrange_interpolate pts = Ret (Some c) &
    size c = size pts /\ forall p, p \in pts -> (Poly c).[p.1] = p.2.
Proof.
move=> Hn U; rewrite /lagrange_interpolate Hn /=.
pose P j (r : seq F) := size r = n /\ Poly r = \sum_(k < j) (y k / ld k n) *: lp k n.
have [||c -> [Sc Pc]] := @ofor_enum_inv (F * F)%type _ (0, 0) pts (lagrange_outer pts) (nseq n 0) P.
- by split; rewrite ?size_nseq // big_ord0 Poly_nseq0.
- move=> k r Hk [Sr Pr].
  have [|r' E [Sr' Pr']] := lagrange_outer_step Hn Hk Sr; first exact: ld_neq0.
  by exists r' => //; split=> //; rewrite Pr' Pr big_ord_recr.
exists c => //; split=> // p /(nthP (0, 0)) [i Hi <-]; rewrite -/(x i) -/(y i).
rewrite Pc horner_sum (bigD1 (Ordinal Hi)) //= [X in _ + X]big1 ?addr0.
  rewrite hornerZ horner_prod.
  have -> : \prod_(j < n | j != i :> nat) ('X - (x j)%:P).[x i] = ld i n.
    by apply: eq_bigr => j _; rewrite hornerXsubC.
  by rewrite mulfVK // ld_neq0.
move=> [k /= Hk] Hne; rewrite hornerZ /lp horner_prod (bigD1 (Ordinal Hi)) /=.
  by rewrite hornerXsubC subrr mul0r mulr0.
by rewrite eq_sym; apply: contra Hne => /eqP E; apply/eqP/val_inj.
Qed.

Theorem lagrange_interpolate_panic : (size pts < 2)%N \/ ~~ uniq (map fst pts) ->
  lagrange_interpolate pts = Panic.
Proof.
rewrite /lagrange_interpolate; case: leqP => [Hn|//] /=; case=> [//|U].
have [k Hk Hld] : exists2 k, (k < n)%N & ld k n == 0.
  case/(uniqPn 0): U => i [j [Hij]]; rewrite size_map => Hj Eij.
  exists j => //; apply/prodf_eq0; exists (Ordinal (ltn_trans Hij Hj)) => /=; first by lia.
  have Hi : (i < n)%N := ltn_trans Hij Hj.
  by rewrite /x -(nth_map _ 0 fst Hj) -(nth_map _ 0 fst Hi) Eij subrr.
suff -> : ofor (zip (iota 0 n) pts) (lagrange_outer pts) (nseq n 0) = Panic by [].
move: (nseq n 0) (size_nseq n (0 : F)) => c Sc.
have : exists2 kp, kp \in (zip (iota 0 n) pts) & forall c, size c = n -> lagrange_outer pts kp c = Panic.
  exists (k, nth (0, 0) pts k).
    by rewrite -(zip_iota_nth _ Hk) mem_nth // size_zip_iota.
  move=> c' _; rewrite /lagrange_outer [nth _ _ _]surjective_pairing -/(x k).
  have [st -> [_ Hd _]] := lagrange_inner_loop Hn Hk.
  by rewrite /= /invert_expect Hd Hld.
have Hany kp : kp \in zip (iota 0 n) pts -> forall c, size c = n ->
    lagrange_outer pts kp c = Panic \/ exists2 r, lagrange_outer pts kp c = Ret r & size r = n.
  case/(nthP (0%N, (0, 0))) => i; rewrite size_zip_iota => Hi <- c' Sc'.
  rewrite zip_iota_nth //.
  case: (eqVneq (ld i n) 0) => [E0|H0].
    left; rewrite /lagrange_outer [nth _ _ _]surjective_pairing -/(x i).
    have [st -> [_ Hd _]] := lagrange_inner_loop Hn Hi.
    by rewrite /= /invert_expect Hd E0 eqxx.
  right; have [r E [Sr _]] := lagrange_outer_step Hn Hi Sc' H0.
  by exists r.
elim: (zip (iota 0 n) pts) c Sc Hany => [|kp l IH] c Sc Hany [kp' H1 H2] //=.
have [->//|[r E Sr]] := Hany kp (mem_head _ _) c Sc.
rewrite E /=; apply: IH => //.
  by move=> kp1 Hkp1; apply: Hany; rewrite in_cons Hkp1 orbT.
exists kp' => //; move: H1; rewrite in_cons => /orP[/eqP Ek|//].
by move: E; rewrite -Ek H2.
Qed.

End Lagrange.
