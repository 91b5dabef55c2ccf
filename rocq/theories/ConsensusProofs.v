(** Proofs about the reference functions of [SpecConsensus]: what they compute in terms of
    polynomials. *)

From mathcomp Require Import ssreflect ssrfun ssrbool eqtype ssrnat seq div fintype bigop.
From mathcomp Require Import ssralg poly polydiv.
From Verif Require Import Spec BitRevProofs SpecKZG Base PolyCoeffProofs FFTProofs DomainProofs.
From Verif Require Import LincombProofs FK20ProverProofs.
From Verif Require Import SpecConsensus.
From mathcomp Require Import zify_ssreflect.

Set Implicit Arguments.
Unset Strict Implicit.
Unset Printing Implicit Defensive.

Import GRing.Theory.
Local Open Scope ring_scope.

Section Fft.
Variable F : fieldType.
Implicit Types (vals a b xs ys : seq F).

Lemma nth_evens vals i : (evens vals)`_i = vals`_(i.*2).
Proof.
rewrite /evens; case: (ltnP i (size vals).+1./2) => Hi; first by rewrite nth_mkseq.
by rewrite !nth_default ?size_mkseq //; move: Hi; rewrite -divn2 -muln2; move: (size vals) => n; lia.
Qed.
Lemma nth_odds vals i : (odds vals)`_i = vals`_(i.*2.+1).
Proof.
rewrite /odds; case: (ltnP i (size vals)./2) => Hi; first by rewrite nth_mkseq.
by rewrite !nth_default ?size_mkseq //; move: Hi; rewrite -divn2 -muln2; move: (size vals) => n; lia.
Qed.

Lemma size_evens vals k : size vals = (2 ^ k.+1)%N -> size (evens vals) = (2 ^ k)%N.
Proof. by move=> Sv; rewrite /evens size_mkseq Sv expnS -divn2; lia. Qed.
Lemma size_odds vals k : size vals = (2 ^ k.+1)%N -> size (odds vals) = (2 ^ k)%N.
Proof. by move=> Sv; rewrite /odds size_mkseq Sv expnS -divn2; lia. Qed.

Lemma evens_powers (w : F) m : evens (compute_powers w (2 * m)) = compute_powers (w ^+ 2) m.
Proof.
apply: (@eq_from_nth _ 0) => [|i]; rewrite !size_mkseq; first by rewrite -divn2; lia.
move=> Hi; have Hm : (i < m)%N by move: Hi; rewrite -divn2; lia.
by rewrite nth_evens !nth_mkseq -?exprM ?mul2n // ltn_double.
Qed.

Lemma size_fft_rec k vals roots : size vals = (2 ^ k)%N -> size (fft_rec k vals roots) = (2 ^ k)%N.
Proof.
elim: k vals roots => [|k IH] vals roots //= Sv.
by rewrite size_cat !size_mkseq !IH ?expnS ?mul2n ?addnn ?size_odds // (size_evens Sv).
Qed.

(** The recursion evaluates the polynomial at the powers of w. *)
Lemma fft_recE k (w : F) vals : size vals = (2 ^ k)%N -> ((0 < k)%N -> w ^+ (2 ^ k.-1) = -1) ->
  fft_rec k vals (compute_powers w (2 ^ k)) = mkseq (fun i => (Poly vals).[w ^+ i]) (2 ^ k).
Proof.
elim: k w vals => [|k IH] w vals Sv Hw.
  case: vals Sv => [|x [|y s]] // _.
  by rewrite /mkseq /= cons_poly_def mul0r add0r hornerC.
have Hw1 : w ^+ (2 ^ k) = -1 by exact: Hw.
have Se : size (evens vals) = (2 ^ k)%N by exact: size_evens.
have So : size (odds vals) = (2 ^ k)%N by exact: size_odds.
have Hw2 : (0 < k)%N -> (w ^+ 2) ^+ (2 ^ k.-1) = -1.
  by move=> k0; rewrite -exprM -expnS prednK.
have E i : (Poly vals).[w ^+ i] =
    (Poly (evens vals)).[(w ^+ 2) ^+ i] + (Poly (odds vals)).[(w ^+ 2) ^+ i] * w ^+ i.
  rewrite (@horner_take _ _ (2 * 2 ^ k)) ?Sv ?expnS //.
  rewrite (@sum_even_odd _ [lmodType F of F^o] (2 ^ k) (fun j => (w ^+ i) ^+ j * vals`_j)).
  rewrite !(@horner_take _ _ (2 ^ k)) ?Se ?So //; congr (_ + _).
    apply: eq_bigr => j _; rewrite nth_evens -!exprM; congr (_ ^+ _ * _); lia.
  rewrite mulr_suml; apply: eq_bigr => j _; rewrite nth_odds mulrAC -!exprM -exprD.
  congr (_ ^+ _ * _); lia.
rewrite /= [in evens (compute_powers _ _)]expnS evens_powers !IH // !size_mkseq.
apply: (@eq_from_nth _ 0) => [|i]; rewrite ?size_cat !size_mkseq ?expnS ?mul2n ?addnn //.
move=> Hi; rewrite nth_mkseq // nth_cat size_mkseq E.
have S j : (j < 2 ^ k)%N -> (compute_powers w (2 * 2 ^ k))`_(j %% (2 * 2 ^ k)) = w ^+ j.
  by move=> Hj; rewrite modn_small ?nth_mkseq //; lia.
rewrite -mul2n in Hi *.
case: (ltnP i (2 ^ k)) => H; first by rewrite nth_mkseq // S // !nth_mkseq.
have Hj : (i - 2 ^ k < 2 ^ k)%N by lia.
rewrite nth_mkseq // S // !nth_mkseq //.
have Ei : w ^+ i = - w ^+ (i - 2 ^ k) by rewrite -{1}(subnK H) exprD Hw1 mulrN1.
have Ei2 : (w ^+ 2) ^+ i = (w ^+ 2) ^+ (i - 2 ^ k).
  by rewrite -!exprM ![(2 * _)%N]mulnC !exprM Ei sqrrN.
by rewrite Ei Ei2 mulrN.
Qed.

Lemma inverse_roots (w : F) n : (0 < n)%N -> w ^+ n = 1 ->
  take 1 (compute_powers w n) ++ rev (drop 1 (compute_powers w n)) = compute_powers w^-1 n.
Proof.
move=> n0 Hw; apply: (@eq_from_nth _ 0).
  by rewrite size_cat size_rev size_takel ?size_drop !size_mkseq //; lia.
move=> i; rewrite size_cat size_rev size_drop size_takel ?size_mkseq // => Hi.
have Hi' : (i < n)%N by lia.
rewrite nth_cat size_takel ?size_mkseq // nth_mkseq // exprVn.
case: ltnP => H.
  have -> : i = 0%N by lia.
  by rewrite nth_take // nth_mkseq // expr0 invr1.
rewrite nth_rev ?size_drop ?size_mkseq; last by lia.
rewrite nth_drop nth_mkseq; last by lia.
apply/eqP; rewrite eq_sym -[_^-1]mul1r -Hw; apply/eqP.
have -> : (1 + (n - 1 - (i - 1).+1) = n - i)%N by lia.
have wi0 : w ^+ i != 0.
  rewrite expf_eq0 negb_and; apply/orP; right; apply/eqP => w0.
  by move/eqP: Hw; rewrite w0 expr0n eqn0Ngt n0 /= eq_sym oner_eq0.
by apply: (mulIf wi0); rewrite -mulrA mulVf // mulr1 -exprD subnK // ltnW.
Qed.

Section Inverse.
Variables (k : nat) (w : F).
Hypothesis w1 : w ^+ (2 ^ k) = 1.
Hypothesis w2 : (0 < k)%N -> w ^+ (2 ^ k.-1) = -1.
Hypothesis two : 2%:R != 0 :> F.
Local Notation roots := (compute_powers w (2 ^ k)).

Lemma fft_fieldE vals : size vals = (2 ^ k)%N ->
  fft_field k vals roots = mkseq (fun i => (Poly vals).[w ^+ i]) (2 ^ k).
Proof. by move=> Sv; rewrite /fft_field fft_recE. Qed.

Lemma size_ifft_field vals : size vals = (2 ^ k)%N -> size (ifft_field k vals roots) = (2 ^ k)%N.
Proof. by move=> Sv; rewrite size_map size_fft_rec. Qed.

(** The inverse transform of the values of f is the list of coefficients of f. *)
Lemma ifft_field_values (f : {poly F}) : (size f <= 2 ^ k)%N ->
  ifft_field k (mkseq (fun i => f.[w ^+ i]) (2 ^ k)) roots = mkseq (fun i => f`_i) (2 ^ k).
Proof.
move=> Sf; have n0 : (0 < 2 ^ k)%N by rewrite expn_gt0.
have [w1' w2'] := inv_root w1 w2.
rewrite /ifft_field inverse_roots // fft_recE ?size_mkseq //.
pose c : seq F := mkseq (fun i => f`_i) (2 ^ k).
have Ef : Poly c = f.
  apply/polyP => i; rewrite coef_Poly; case: (ltnP i (2 ^ k)) => Hi; first by rewrite nth_mkseq.
  by rewrite !nth_default ?size_mkseq // (leq_trans Sf).
have Sc : size c = (2 ^ k)%N by rewrite size_mkseq.
have := @dft_inv F [lmodType F of F^o] w k c w1 w2 two Sc.
rewrite (@dft_eval _ w) ?Sc // Ef (@dft_eval _ w^-1) ?size_mkseq // => ->.
rewrite -map_comp -[RHS]/c -[RHS]map_id; apply: eq_map => x /=.
by rewrite [_ *: _]mulrC mulfK //; elim: (k) => [|m IH]; rewrite ?oner_eq0 // expnS natrM mulf_neq0.
Qed.

Lemma Poly_shift_vals vals (g x : F) : (Poly (shift_vals vals g)).[x] = (Poly vals).[g * x].
Proof. by rewrite /shift_vals -scale_by_powersE horner_scale_by_powers. Qed.

Lemma coset_fft_fieldE (g : F) vals : size vals = (2 ^ k)%N ->
  coset_fft_field g k vals roots = mkseq (fun i => (Poly vals).[g * w ^+ i]) (2 ^ k).
Proof.
move=> Sv; rewrite /coset_fft_field fft_fieldE ?size_mkseq //.
by apply: eq_mkseq => i; rewrite Poly_shift_vals.
Qed.

Lemma coset_ifft_field_values (g : F) (f : {poly F}) : g != 0 -> (size f <= 2 ^ k)%N ->
  coset_ifft_field g k (mkseq (fun i => f.[g * w ^+ i]) (2 ^ k)) roots = mkseq (fun i => f`_i) (2 ^ k).
Proof.
move=> g0 Sf.
pose c : seq F := mkseq (fun i => f`_i) (2 ^ k).
have Ef : Poly c = f.
  apply/polyP => i; rewrite coef_Poly; case: (ltnP i (2 ^ k)) => Hi; first by rewrite nth_mkseq.
  by rewrite !nth_default ?size_mkseq // (leq_trans Sf).
pose h := Poly (shift_vals c g).
have Sh : (size h <= 2 ^ k)%N by rewrite (leq_trans (size_Poly _)) // !size_mkseq.
have -> : mkseq (fun i => f.[g * w ^+ i]) (2 ^ k) = mkseq (fun i => h.[w ^+ i]) (2 ^ k).
  by apply: eq_mkseq => i; rewrite /h Poly_shift_vals Ef.
rewrite /coset_ifft_field ifft_field_values // /shift_vals size_mkseq.
apply/eq_in_map => i; rewrite mem_iota add0n => /andP[_ Hi].
rewrite nth_mkseq // /h coef_Poly nth_mkseq ?size_mkseq // nth_mkseq // -mulrA -exprMn mulfV //.
by rewrite expr1n mulr1.
Qed.
End Inverse.

(** ** Polynomials *)

Lemma Poly_mkseq_coef n (f : {poly F}) : (size f <= n)%N -> Poly (mkseq (fun i => f`_i) n) = f.
Proof.
move=> Sf; apply/polyP => i; rewrite coef_Poly; case: (ltnP i n) => Hi; first by rewrite nth_mkseq.
by rewrite !nth_default ?size_mkseq // (leq_trans Sf).
Qed.

Lemma size_add_polynomialcoeff a b : size (add_polynomialcoeff a b) = maxn (size a) (size b).
Proof. by rewrite /add_polynomialcoeff; case: leqP => H; rewrite size_mkseq; lia. Qed.

Lemma Poly_add_polynomialcoeff a b : Poly (add_polynomialcoeff a b) = Poly a + Poly b.
Proof.
rewrite /add_polynomialcoeff.
suff H (c d : seq F) : (size d <= size c)%N ->
    Poly (mkseq (fun i => c`_i + (if (i < size d)%N then d`_i else 0)) (size c)) = Poly c + Poly d.
  by case: leqP => Hs; rewrite H // 1?addrC // ltnW.
move=> Hs; apply/polyP => i; rewrite coefD !coef_Poly.
case: (ltnP i (size c)) => Hi; last by rewrite !nth_default ?size_mkseq ?addr0 // (leq_trans Hs).
by rewrite nth_mkseq //; case: ltnP => // Hd; rewrite [d`__]nth_default.
Qed.

Lemma Poly_neg_polynomialcoeff a : Poly (neg_polynomialcoeff a) = - Poly a.
Proof. exact: Poly_neg. Qed.

Lemma Poly_shifted n (c : F) b : Poly (nseq n 0 ++ [seq c * x | x <- b]) = c *: 'X^n * Poly b.
Proof.
rewrite Poly_cat size_nseq Poly_nseq0 add0r -scalerAl scalerAr; congr (_ * _).
apply/polyP => i; rewrite coefZ !coef_Poly; case: (ltnP i (size b)) => Hi; first by rewrite (nth_map 0).
by rewrite !nth_default ?size_map // mulr0.
Qed.

Lemma multiply_fold b ps r : size (foldl (fun r pc => add_polynomialcoeff r
      (nseq pc.1 0 ++ [seq pc.2 * x | x <- b])) r ps) =
    foldl (fun m (pc : nat * F) => maxn m (pc.1 + size b)) (size r) ps /\
  Poly (foldl (fun r pc => add_polynomialcoeff r
      (nseq pc.1 0 ++ [seq pc.2 * x | x <- b])) r ps) =
    Poly r + (\sum_(pc <- ps) pc.2 *: 'X^(pc.1)) * Poly b.
Proof.
elim: ps r => [|[n c] ps IH] r /=; first by rewrite big_nil mul0r addr0.
have [-> ->] := IH (add_polynomialcoeff r (nseq n 0 ++ [seq c * x | x <- b])).
rewrite size_add_polynomialcoeff size_cat size_nseq size_map Poly_add_polynomialcoeff Poly_shifted.
by rewrite big_cons mulrDl addrA.
Qed.

Lemma multiply_size_fold (b m k : nat) (s : seq F) :
  foldl (fun m (pc : nat * F) => maxn m (pc.1 + b)) m (zip (iota k (size s)) s) =
  if s is [::] then m else maxn m (k + (size s).-1 + b).
Proof.
elim: s m k => [|x s IH] m k //=; rewrite IH; case: s {IH} => [|y s] /=; first by rewrite addn0.
lia.
Qed.

Lemma Poly_multiply_polynomialcoeff a b :
  Poly (multiply_polynomialcoeff a b) = Poly a * Poly b.
Proof.
rewrite /multiply_polynomialcoeff; have [_ ->] := multiply_fold b (zip (iota 0 (size a)) a) [:: 0].
rewrite /= cons_poly_def mul0r !add0r; congr (_ * _).
rewrite [RHS]Poly_sum (big_nth (0%N, 0)) size_zip_iota big_mkord; apply: eq_bigr => i _.
by rewrite zip_iota_nth.
Qed.

Lemma size_multiply_polynomialcoeff a b : (0 < size a)%N -> (0 < size b)%N ->
  size (multiply_polynomialcoeff a b) = ((size a).-1 + size b)%N.
Proof.
move=> Ha Hb; rewrite /multiply_polynomialcoeff.
have [-> _] := multiply_fold b (zip (iota 0 (size a)) a) [:: 0].
by rewrite multiply_size_fold; case: a Ha => //= x a _; lia.
Qed.

Lemma evaluate_polynomialcoeffE a z : evaluate_polynomialcoeff a z = (Poly a).[z].
Proof.
rewrite /evaluate_polynomialcoeff foldl_rev horner_Poly.
by elim: a => [|c p IH] //=; rewrite IH.
Qed.

Lemma Poly_linear (c d : F) : Poly [:: c; d] = d *: 'X + c%:P.
Proof. by rewrite /= !cons_poly_def mul0r add0r mul_polyC. Qed.

Lemma vanishing_polynomialcoeffE xs :
  size (vanishing_polynomialcoeff xs) = (size xs).+1 /\
  Poly (vanishing_polynomialcoeff xs) = \prod_(x <- xs) ('X - x%:P).
Proof.
rewrite /vanishing_polynomialcoeff.
have H p : (0 < size p)%N ->
    size (foldl (fun p x => multiply_polynomialcoeff p [:: - x; 1]) p xs) = (size p + size xs)%N /\
    Poly (foldl (fun p x => multiply_polynomialcoeff p [:: - x; 1]) p xs) =
      Poly p * \prod_(x <- xs) ('X - x%:P).
  elim: xs p => [|x xs IH] p p0 /=; first by rewrite big_nil mulr1 addn0.
  have Sm := @size_multiply_polynomialcoeff p [:: - x; 1] p0 isT.
  have [|-> ->] := IH (multiply_polynomialcoeff p [:: - x; 1]); rewrite ?Sm //=; first by lia.
  split; first by lia.
  rewrite Poly_multiply_polynomialcoeff Poly_linear big_cons mulrA; congr (_ * _ * _).
  by rewrite scale1r polyCN.
have [-> ->] := H [:: 1] isT; split; first by rewrite /=; lia.
by rewrite /= cons_poly_def mul0r add0r mul1r.
Qed.

(** ** Division *)
Section Division.
Variables (a0 b : seq F).
Hypothesis b0 : (0 < size b)%N.
Hypothesis lb : b`_(size b).-1 != 0.
Let bpos := (size b).-1.
Let step := (fun st diff => let: (a, o) := st in
   let quot := a`_(diff + bpos) / b`_bpos in
   (mkseq (fun j => if (diff <= j <= diff + bpos)%N then a`_j - b`_(j - diff) * quot else a`_j)
      (size a), quot :: o)) : seq F * seq F -> nat -> seq F * seq F.

Lemma divide_loop d a (o : seq F) : size a = size a0 -> (d + bpos <= size a0)%N ->
  Poly a0 = Poly a + 'X^d * Poly o * Poly b -> (forall j, (d + bpos <= j)%N -> a`_j = 0) ->
  let st := foldl step (a, o) (rev (iota 0 d)) in
  [/\ size st.2 = (size o + d)%N, Poly a0 = Poly st.1 + Poly st.2 * Poly b &
      forall j, (bpos <= j)%N -> (st.1)`_j = 0].
Proof.
elim: d a o => [|d IH] a o Sa Hd E Z.
  by rewrite /=; split; rewrite ?addn0 //; rewrite E expr0 mul1r.
have -> : rev (iota 0 d.+1) = d :: rev (iota 0 d) by rewrite -(addn1 d) iotaD rev_cat.
rewrite /= -/step; set quot := a`_(d + bpos) / b`_bpos; set a' := mkseq _ _.
have Sa' : size a' = size a by rewrite size_mkseq.
have Na' j : (a')`_j = if (d <= j <= d + bpos)%N then a`_j - b`_(j - d) * quot else a`_j.
  case: (ltnP j (size a)) => Hj; first by rewrite nth_mkseq.
  have -> : (d <= j <= d + bpos)%N = false.
    by apply/negP => /andP[_ H]; move: Hd Hj; rewrite -Sa => Hd Hj; have := leq_trans Hd (leq_trans Hj H); lia.
  by rewrite !nth_default ?Sa'.
have Ea' : Poly a' = Poly a - quot *: ('X^d * Poly b).
  apply/polyP => j; rewrite coefB coefZ coefXnM !coef_Poly Na'.
  case: (ltnP j d) => H1; first by rewrite mulr0 subr0.
  case: (leqP j (d + bpos)) => H2; first by rewrite mulrC.
  rewrite [b`__]nth_default ?mulr0 ?subr0 //; move: H2 b0; rewrite /bpos; move: (size b) => m; lia.
have [||||Q1 Q2 Q3] := IH a' (quot :: o).
- by rewrite Sa' Sa.
- by lia.
- have ET : 'X^d * quot%:P * Poly b = quot *: ('X^d * Poly b).
    by rewrite -mul_polyC mulrA [quot%:P * _]mulrC.
  have EA : 'X^d * (Poly o * 'X) * Poly b = 'X^d.+1 * Poly o * Poly b.
    by rewrite exprSr [Poly o * 'X]mulrC !mulrA.
  by rewrite E Ea' /= cons_poly_def mulrDr mulrDl ET EA addrA addrAC subrK.
- move=> j Hj; rewrite Na'; case: (ltngtP j (d + bpos)) => H; [by lia | | ].
    by rewrite andbF Z //; lia.
  rewrite H leq_addr /= addKn /quot mulrC divfK // subrr //.
split=> //; rewrite Q1 /=; lia.
Qed.

Lemma divide_polynomialcoeffE :
  size (divide_polynomialcoeff a0 b) = ((size a0).+1 - size b)%N /\
  Poly (divide_polynomialcoeff a0 b) = Poly a0 %/ Poly b.
Proof.
have Sb : size (Poly b) = size b.
  rewrite (PolyK (c := 0)) //; move: lb b0; case: (b) => //= x s.
  by rewrite (last_nth 0).
rewrite /divide_polynomialcoeff; case: ltnP => H.
  split; first by rewrite /=; lia.
  by rewrite /= divp_small // Sb (leq_ltn_trans (size_Poly _)).
rewrite -/bpos -/step.
have [|||Q1 Q2 Q3] := @divide_loop (size a0 - size b).+1 a0 [::] erefl.
- by rewrite /bpos; lia.
- by rewrite /= mulr0 mul0r addr0.
- by move=> j Hj; apply: nth_default; move: Hj H b0; rewrite /bpos; move: (size a0) (size b) => m1 m2; lia.
split; first by rewrite Q1 /=; lia.
rewrite Q2 addrC divp_addl_mul_small // Sb.
apply: (@leq_ltn_trans bpos); last by rewrite /bpos prednK.
by apply/leq_sizeP => j Hj; rewrite coef_Poly Q3.
Qed.
End Division.

(** ** Interpolation *)
Section Interpolation.
Variables xs ys : seq F.
Hypothesis U : uniq xs.
Hypothesis Sy : size ys = size xs.
Local Notation n := (size xs).

Let factor i j : seq F :=
  [:: - (xs`_i - xs`_j)^-1 * xs`_j; (xs`_i - xs`_j)^-1].
Let summand i m := foldl (fun s j => if j == i then s else
  let weight_adjustment := (xs`_i - xs`_j)^-1 in
  multiply_polynomialcoeff s [:: - weight_adjustment * xs`_j; weight_adjustment])
  [:: ys`_i] (iota 0 m).

Lemma summandE i m : size (summand i m) = (1 + m - (i < m))%N /\
  forall x, (Poly (summand i m)).[x] = ys`_i * \prod_(j < m | j != i :> nat) ((xs`_i - xs`_j)^-1 * (x - xs`_j)).
Proof.
elim: m => [|m [IHs IHp]].
  by split=> // x; rewrite big_ord0 mulr1 /summand /= cons_poly_def mul0r add0r hornerC.
rewrite /summand -addn1 iotaD foldl_cat /= -/(summand i m) add0n.
have [Emi|ne] := eqVneq m i.
  split; first by rewrite IHs Emi ltnn addn1 ltnSn; lia.
  by move=> x; rewrite IHp addn1 big_mkcond [in RHS]big_mkcond big_ord_recr /= -big_mkcond Emi eqxx mulr1 big_mkcond.
have Sm : size (multiply_polynomialcoeff (summand i m) (factor i m)) = (size (summand i m)).+1.
  rewrite size_multiply_polynomialcoeff //; first by rewrite /= IHs; lia.
  by rewrite IHs; lia.
split; first by rewrite Sm IHs; move: ne; lia.
move=> x; rewrite Poly_multiply_polynomialcoeff hornerM IHp addn1.
rewrite [in RHS]big_mkcond big_ord_recr /= -big_mkcond ne mulrA; congr (_ * _).
rewrite -[X in X.[x]]/(Poly (factor i m)) Poly_linear hornerD hornerZ hornerX hornerC mulNr -mulrBr //.
Qed.

Lemma interpolate_polynomialcoeffE :
  size (interpolate_polynomialcoeff xs ys) = maxn 1 n /\
  forall i, (i < n)%N -> (Poly (interpolate_polynomialcoeff xs ys)).[xs`_i] = ys`_i.
Proof.
pose part m := foldl (fun r i => add_polynomialcoeff r (summand i (size ys))) [:: 0] (iota 0 m).
have H m : (m <= n)%N -> size (part m) = (if m is 0 then 1 else n)%N /\
    forall x, (Poly (part m)).[x] = \sum_(i < m) (Poly (summand i n)).[x].
  elim: m => [|m IH] Hm.
    by split=> // x; rewrite big_ord0 /part /= cons_poly_def mul0r add0r horner0.
  have [Ss Sp] := IH (ltnW Hm).
  rewrite /part -addn1 iotaD foldl_cat /= -/(part m) add0n Sy.
  split.
    by rewrite size_add_polynomialcoeff Ss (summandE m n).1 Hm; move: Hm; clear; case: m; lia.
  by move=> x; rewrite Poly_add_polynomialcoeff hornerD Sp addn1 big_ord_recr.
have [Sn Pn] := H n (leqnn _); split.
  by rewrite -[interpolate_polynomialcoeff _ _]/(part n) Sn; move: (n) => m; case: m => [|m] //; lia.
move=> i Hi; rewrite -[interpolate_polynomialcoeff _ _]/(part n) Pn (bigD1 (Ordinal Hi)) //=.
rewrite (summandE i n).2 big1 ?mulr1; last first.
  move=> j ne; rewrite mulVf // subr_eq0 nth_uniq //; by rewrite eq_sym.
rewrite big1 ?addr0 // => j ne; rewrite (summandE j n).2.
rewrite (bigD1 (Ordinal Hi)) /=; last by rewrite eq_sym.
by rewrite subrr mulr0 mul0r mulr0.
Qed.

(** The interpolation polynomial is the one of degree below n with these values. *)
Lemma interpolate_unique (f : {poly F}) : (size f <= n)%N ->
  (forall i, (i < n)%N -> f.[xs`_i] = ys`_i) -> Poly (interpolate_polynomialcoeff xs ys) = f.
Proof.
move=> Sf Hf; have [Ss Hp] := interpolate_polynomialcoeffE.
case: (posnP n) => n0.
  have xs0 : xs = [::] by apply: size0nil.
  have f0 : f = 0 by apply/eqP; rewrite -size_poly_leq0 -n0.
  by rewrite f0 /interpolate_polynomialcoeff xs0 /= cons_poly_def mul0r add0r.
apply/eqP; rewrite -subr_eq0; apply/eqP; apply: (roots_geq_poly_eq0 (rs := xs)) => //.
  apply/allP => x /(nthP 0)[i Hi <-]; rewrite rootE hornerD hornerN Hp // Hf // subrr //.
apply: leq_trans (size_add _ _) _; rewrite size_opp geq_max Sf andbT.
by apply: leq_trans (size_Poly _) _; rewrite Ss geq_max n0 leqnn.
Qed.
End Interpolation.
End Fft.

(** ** Opening proofs *)
Section Opening.
Variables (F : fieldType) (V : lmodType F).

Lemma lincomb_commit (setup : seq V) (q : seq F) : (size q <= size setup)%N ->
  lincomb (take (size q) setup) q = commit setup (Poly q).
Proof.
move=> Hs; rewrite /lincomb size_takel // minnn (@commit_wide _ _ (size q)) ?size_Poly //.
by apply: eq_bigr => i _; rewrite coef_Poly nth_take.
Qed.

Lemma compute_kzg_proof_multi_implE (setup : seq V) (poly zs : seq F) : uniq zs -> (0 < size zs)%N ->
  (size poly <= size setup)%N ->
  compute_kzg_proof_multi_impl setup poly zs =
  (commit setup (Poly poly %/ \prod_(z <- zs) ('X - z%:P)), [seq (Poly poly).[z] | z <- zs]).
Proof.
move=> U Hz Hs; rewrite /compute_kzg_proof_multi_impl.
have -> : [seq evaluate_polynomialcoeff poly z | z <- zs] = [seq (Poly poly).[z] | z <- zs].
  by apply: eq_map => z; exact: evaluate_polynomialcoeffE.
set ys := map _ zs; have Sy : size ys = size zs by rewrite size_map.
have [SI _] := interpolate_polynomialcoeffE U Sy.
set I := interpolate_polynomialcoeff zs ys in SI *.
have [SV PV] := vanishing_polynomialcoeffE zs; set vz := vanishing_polynomialcoeff zs in SV PV *.
set sh := add_polynomialcoeff poly _.
have Ssh : size sh = maxn (size poly) (size zs).
  by rewrite size_add_polynomialcoeff size_map SI; move: Hz; clear; lia.
have lv : vz`_(size vz).-1 != 0.
  have Sp : size (Poly vz) = size vz by rewrite PV size_prod_XsubC SV.
  have := monic_prod_XsubC zs xpredT id; rewrite -PV monicE /lead_coef Sp coef_Poly => /eqP ->.
  exact: oner_neq0.
have v0 : (0 < size vz)%N by rewrite SV.
have [Sq Pq] := divide_polynomialcoeffE sh v0 lv.
congr pair; rewrite lincomb_commit; last first.
  by rewrite Sq Ssh SV; move: Hs; clear; lia.
rewrite Pq PV Poly_add_polynomialcoeff Poly_neg_polynomialcoeff; congr commit.
rewrite divpD divpN (@divp_small _ (Poly I)) ?subr0 // size_prod_XsubC ltnS.
by apply: leq_trans (size_Poly _) _; rewrite SI; move: Hz; clear; lia.
Qed.
End Opening.

(** ** Recovery *)
Section Recovery.
Variable F : fieldType.

Lemma size_assign (n : nat) (ps : seq (nat * seq F)) (s : seq F) :
  size (foldl (fun e ic => assign_slice n e ic.1 ic.2) s ps) = size s.
Proof. by elim: ps s => [|p ps IH] s //=; rewrite IH size_mkseq. Qed.

Lemma assign_other (n i j : nat) (ps : seq (nat * seq F)) (s : seq F) : (j < n)%N ->
  (i * n + j < size s)%N -> i \notin unzip1 ps ->
  (foldl (fun e ic => assign_slice n e ic.1 ic.2) s ps)`_(i * n + j) = s`_(i * n + j).
Proof.
move=> Hj; elim: ps s => [|[i' v] ps IH] s //= Hs; rewrite inE negb_or => /andP[ne nin].
rewrite IH ?size_mkseq // nth_mkseq //.
case: ifP => // /andP[H1 H2]; case/eqP: ne.
apply/eqP; rewrite eqn_leq; apply/andP; split; rewrite -ltnS.
  by rewrite -(@ltn_pmul2r n) //; move: H2 Hj; clear; lia.
by rewrite -(@ltn_pmul2r n) //; move: H1 Hj; clear; lia.
Qed.

Lemma assign_at (n t j : nat) (ps : seq (nat * seq F)) (s : seq F) : (j < n)%N ->
  (t < size ps)%N -> uniq (unzip1 ps) -> all (fun p => (p.1.+1 * n <= size s)%N) ps ->
  (foldl (fun e ic => assign_slice n e ic.1 ic.2) s ps)`_((nth (0%N, [::]) ps t).1 * n + j) =
  (nth (0%N, [::]) ps t).2`_j.
Proof.
move=> Hj; elim: ps t s => [|[i v] ps IH] [|t] s //=.
  move=> _ /andP[nin _] /andP[Hs _].
  have Hp : (i * n + j < size s)%N by apply: leq_trans Hs; rewrite mulSn addnC ltn_add2r.
  rewrite assign_other ?size_mkseq // nth_mkseq // leq_addr mulSn addnC ltn_add2r Hj /=.
  by rewrite addnK.
rewrite ltnS => Ht /andP[_ U] /andP[_ Hs]; apply: IH => //; by rewrite size_mkseq.
Qed.

Lemma coef_comp_Xn (p : {poly F}) m i : (0 < m)%N ->
  (p \Po 'X^m)`_i = if (m %| i)%N then p`_(i %/ m) else 0.
Proof.
move=> m0; rewrite coef_comp_poly; case: ifP => D; last first.
  rewrite big1 // => j _; rewrite -exprM coefXn; case: eqP => [E|_]; last by rewrite mulr0.
  by rewrite E dvdn_mulr in D.
have [q Eq] := dvdnP D; rewrite Eq mulnK //.
case: (ltnP q (size p)) => H.
  rewrite (bigD1 (Ordinal H)) //= -exprM coefXn mulnC eqxx mulr1 big1 ?addr0 // => j ne.
  by rewrite -exprM coefXn eqn_pmul2l // (_ : (q == j) = false) ?mulr0 // eq_sym; exact: negbTE.
rewrite nth_default // big1 // => j _; rewrite -exprM coefXn mulnC eqn_pmul2l //.
by rewrite gtn_eqF ?mulr0 // (leq_trans (ltn_ord j)).
Qed.

Variables (l c n : nat) (w g : F).
Let k := (l + c)%N.
Hypothesis w1 : w ^+ (2 ^ k) = 1.
Hypothesis w2 : (0 < k)%N -> w ^+ (2 ^ k.-1) = -1.
Hypothesis two : 2%:R != 0 :> F.
Hypothesis g0 : g != 0.
Hypothesis gN : g ^+ (2 ^ k) != 1.
Let v := w ^+ (2 ^ l).
Local Notation roots := (compute_powers w (2 ^ k)).
Local Notation rootsr := (compute_powers v (2 ^ c)).

Let v1 : v ^+ (2 ^ c) = 1.
Proof. by rewrite /v -exprM -expnD. Qed.

Variable missing : seq nat.
Hypothesis Hm : all (fun i => (i < 2 ^ c)%N) missing.
Let Vp : {poly F} := \prod_(i <- missing) ('X - (v ^+ bitrev c i)%:P).
Let Z : {poly F} := Vp \Po 'X^(2 ^ l).

Let size_Xl : size ('X^(2 ^ l) : {poly F}) = (2 ^ l).+1.
Proof. exact: size_polyXn. Qed.
Let size_Vp : size Vp = (size missing).+1.
Proof.
rewrite /Vp -(big_map (fun i => v ^+ bitrev c i) xpredT (fun x => 'X - x%:P)).
by rewrite size_prod_XsubC size_map.
Qed.
Let Z0 : Z != 0.
Proof. by rewrite /Z comp_poly_eq0 ?size_Xl // ?ltnS ?expn_gt0 // -size_poly_gt0 size_Vp. Qed.
Let size_Z : size Z = (size missing * 2 ^ l).+1.
Proof. by rewrite (polySpred Z0) /Z size_comp_poly size_Xl size_Vp. Qed.
Let Zhorner x : Z.[x] = \prod_(i <- missing) (x ^+ (2 ^ l) - v ^+ bitrev c i).
Proof.
rewrite /Z horner_comp hornerXn /Vp horner_prod.
by apply: eq_bigr => i _; rewrite hornerXsubC.
Qed.

Let Zcoset i : Z.[g * w ^+ i] != 0.
Proof.
rewrite Zhorner prodf_seq_neq0; apply/allP => j Hj; apply/implyP => _.
rewrite subr_eq0; apply/eqP => E; move/eqP: gN; apply.
have : ((g * w ^+ i) ^+ (2 ^ l)) ^+ (2 ^ c) = 1 by rewrite E exprAC v1 expr1n.
by rewrite -exprM -expnD exprMn exprAC w1 expr1n mulr1.
Qed.

Let Zmissing i j : i \in missing -> (j < 2 ^ l)%N -> Z.[w ^+ bitrev k (i * 2 ^ l + j)] = 0.
Proof.
move=> Hi Hj; rewrite Zhorner; apply/eqP; rewrite prodf_seq_eq0; apply/hasP; exists i => //=.
rewrite exprAC -/v /k addnC bitrev_split // exprD mulnC exprM v1 expr1n mul1r subrr //.
Qed.

Lemma expand_fold (s : seq F) m (z : seq F) : (m + size s <= 2 ^ c)%N -> size z = (2 ^ k)%N ->
  let r := foldl (fun z ic => set_nth 0 z (ic.1 * 2 ^ l) ic.2) z (zip (iota m (size s)) s) in
  size r = (2 ^ k)%N /\
  forall i, r`_i = if (2 ^ l %| i)%N && (m <= i %/ 2 ^ l < m + size s)%N then s`_(i %/ 2 ^ l - m) else z`_i.
Proof.
have l0 : (0 < 2 ^ l)%N by rewrite expn_gt0.
elim: s m z => [|x s IH] m z /= Hs Sz.
  split=> // i; rewrite addn0; case: ifP => // /andP[_ /andP[A B]]; move: A B; clear; lia.
have Hmn : (m * 2 ^ l < size z)%N.
  by rewrite Sz /k expnD mulnC ltn_pmul2l // (leq_trans _ Hs) // addnS ltnS leq_addr.
have [||Sr Hr] := IH m.+1 (set_nth 0 z (m * 2 ^ l) x); first by rewrite addSnnS.
  by rewrite size_set_nth (maxn_idPr Hmn).
split=> // i; rewrite Hr nth_set_nth /= addnS -addSn.
case: (boolP (2 ^ l %| i)%N) => /= D; last first.
  by case: eqP => // E; case/negP: D; rewrite E dvdn_mull.
have {D} [q ->] := dvdnP D; rewrite mulnK // eqn_pmul2r //.
case: (ltngtP m q) => [H|H|<-] /=.
- by case: ifP => // _; have -> : (q - m = (q - m.+1).+1)%N by move: H; clear; lia.
- by [].
by rewrite addSn ltnS leq_addr subnn.
Qed.

Lemma construct_vanishing_polynomialE : (size missing < 2 ^ c)%N ->
  size (construct_vanishing_polynomial l c rootsr missing) = (2 ^ k)%N /\
  Poly (construct_vanishing_polynomial l c rootsr missing) = Z.
Proof.
move=> Hlt; rewrite /construct_vanishing_polynomial.
have -> : [seq rootsr`_(bitrev c i) | i <- missing] = [seq v ^+ bitrev c i | i <- missing].
  by apply: eq_map => i; rewrite nth_mkseq // bitrev_lt.
have [Sv Pv] := vanishing_polynomialcoeffE [seq v ^+ bitrev c i | i <- missing].
set s := vanishing_polynomialcoeff _ in Sv Pv *.
rewrite size_map in Sv; rewrite big_map -/Vp in Pv.
have [||Sr Hr] := @expand_fold s 0 (nseq (2 ^ (l + c)) 0); first by rewrite Sv.
  by rewrite size_nseq.
split=> //; apply/polyP => i; rewrite coef_Poly Hr leq0n add0n subn0 nth_nseq if_same /=.
rewrite /Z -Pv coef_comp_Xn ?expn_gt0 // coef_Poly.
case: (boolP (2 ^ l %| i)%N) => //= _; case: ltnP => // H.
by rewrite nth_default.
Qed.
Lemma recover_core (idx : seq nat) (evals : seq (seq F)) (f : {poly F}) :
  missing = [seq i <- iota 0 (2 ^ c) | i \notin idx] ->
  size idx = size evals -> uniq idx -> all (fun i => (i < 2 ^ c)%N) idx ->
  (size missing < 2 ^ c)%N -> (n + size missing * 2 ^ l <= 2 ^ k)%N ->
  (size f <= n)%N ->
  (forall t j, (t < size idx)%N -> (j < 2 ^ l)%N ->
     f.[w ^+ bitrev k (nth 0%N idx t * 2 ^ l + j)] = (nth [::] evals t)`_j) ->
  recover_polynomialcoeff g l c n roots rootsr idx evals = mkseq (fun i => f`_i) n.
Proof.
move=> Em Sz U Hi Hlt Hn Sf Hf; rewrite /recover_polynomialcoeff -/k -Em.
set rbo := foldl _ _ _; set ext := bit_reversal_permutation _ _ _.
have k0 : (0 < 2 ^ k)%N by rewrite expn_gt0.
have l0 : (0 < 2 ^ l)%N by rewrite expn_gt0.
have Er t j : (t < size idx)%N -> (j < 2 ^ l)%N ->
    rbo`_(nth 0%N idx t * 2 ^ l + j) = (nth [::] evals t)`_j.
  move=> Ht Hj; have := @assign_at (2 ^ l) t j (zip idx evals) (nseq (2 ^ k) 0) Hj.
  rewrite size_zip -Sz minnn nth_zip //= unzip1_zip; last by rewrite Sz.
  move=> H; apply: H => //.
  apply/allP => p /(nthP (0%N, [::]))[q]; rewrite size_zip -Sz minnn => Hq <-.
  rewrite nth_zip //= size_nseq /k expnD mulnC leq_pmul2l //.
  exact: (allP Hi _ (mem_nth 0%N Hq)).
have [Sz0 Pz0] := construct_vanishing_polynomialE Hlt.
set zc := construct_vanishing_polynomial _ _ _ _ in Sz0 Pz0 *.
have Sfz : (size (f * Z)%R <= 2 ^ k)%N.
  apply: leq_trans (size_mul_leq _ _) _; rewrite size_Z addnS /=.
  by apply: leq_trans Hn; rewrite leq_add2r.
rewrite (fft_fieldE w2 Sz0) Pz0.
have Sext : size ext = (2 ^ k)%N by rewrite size_mkseq.
have -> : [seq a.1 * a.2 | a <- zip (mkseq (fun i => Z.[w ^+ i]) (2 ^ k)) ext] =
    mkseq (fun i => (f * Z).[w ^+ i]) (2 ^ k).
  apply: (@eq_from_nth _ 0); rewrite size_map size_zip Sext !size_mkseq minnn // => p Hp.
  rewrite (nth_map (0, 0)) ?size_zip ?Sext ?size_mkseq ?minnn // nth_zip ?size_mkseq //=.
  rewrite !nth_mkseq // hornerM mulrC.
  have Hq := bitrev_lt k p; set q := bitrev k p in Hq *.
  have Ep : p = bitrev k q by rewrite /q bitrev_inv.
  have Eq : q = (q %/ 2 ^ l * 2 ^ l + q %% 2 ^ l)%N by exact: divn_eq.
  have Hj : (q %% 2 ^ l < 2 ^ l)%N by rewrite ltn_pmod.
  have Hc : (q %/ 2 ^ l < 2 ^ c)%N by rewrite ltn_divLR // mulnC -expnD.
  case: (boolP (q %/ 2 ^ l \in idx)%N) => Hin.
    congr (_ * _); have := Hin; rewrite -index_mem => Ht.
    have := Er _ _ Ht Hj; rewrite -Hf // (nth_index 0%N Hin) -Eq => ->.
    by rewrite -Ep.
  have Hmis : (q %/ 2 ^ l \in missing)%N by rewrite Em mem_filter Hin mem_iota.
  by have := Zmissing Hmis Hj; rewrite -Eq -Ep => ->; rewrite ?mul0r ?mulr0.
rewrite (ifft_field_values w1 w2 two Sfz).
rewrite (coset_fft_fieldE w2) ?size_mkseq // (coset_fft_fieldE w2 g Sz0) Pz0 Poly_mkseq_coef //.
have -> : [seq a.1 / a.2 | a <- zip (mkseq (fun i => (f * Z).[g * w ^+ i]) (2 ^ k))
     (mkseq (fun i => Z.[g * w ^+ i]) (2 ^ k))] = mkseq (fun i => f.[g * w ^+ i]) (2 ^ k).
  apply: (@eq_from_nth _ 0); rewrite size_map size_zip !size_mkseq minnn // => p Hp.
  rewrite (nth_map (0, 0)) ?size_zip ?size_mkseq ?minnn // nth_zip ?size_mkseq //=.
  by rewrite !nth_mkseq // hornerM mulfK.
have Hnk : (n <= 2 ^ k)%N by apply: leq_trans Hn; rewrite leq_addr.
rewrite (coset_ifft_field_values w1 w2 two g0) //; last exact: leq_trans Sf Hnk.
by rewrite /mkseq -map_take take_iota (minn_idPl Hnk).
Qed.
End Recovery.
