From Coq Require Import NArith PArith.
From mathcomp Require Import ssreflect ssrfun ssrbool eqtype ssrnat seq div prime.
From mathcomp Require Import fintype bigop ssralg poly zify_ssreflect.
From Verif Require Import Base Spec BitRev BitRevProofs FFT FFTProofs Domain.

Set Implicit Arguments.
Unset Strict Implicit.
Unset Printing Implicit Defensive.

Import GRing.Theory.
Local Open Scope ring_scope.

(** The field constants are as they should be: the root has order 2^adicity. *)
Record fp_ok (F : fieldType) (fp : fparams F) : Prop := FpOk {
  fp_ad_pos : (0 < fp_adicity fp)%N;
  fp_ad_le : (fp_adicity fp <= 32)%N;
  fp_two : 2%:R != 0 :> F;
  fp_half : fp_root fp ^+ (2 ^ (fp_adicity fp).-1) = -1
}.

(** The 2^k-th root of unity used for the domain of size 2^k. *)
Definition omega (F : fieldType) (fp : fparams F) (k : nat) : F :=
  fp_root fp ^+ (2 ^ (fp_adicity fp - k)).

Section Roots.
Variables (F : fieldType).

Lemma dft_sum (z : F) n : z ^+ n = 1 -> z != 1 -> \sum_(j < n) z ^+ j = 0.
Proof.
move=> zn z1; have := subrX1 z n; rewrite zn subrr => /esym/eqP.
by rewrite mulf_eq0 subr_eq0 (negbTE z1) => /eqP.
Qed.

Lemma expf_order_lt (w : F) k i : w ^+ (2 ^ k) = 1 -> ((0 < k)%N -> w ^+ (2 ^ k.-1) = -1) ->
  2%:R != 0 :> F -> (0 < i < 2 ^ k)%N -> w ^+ i != 1.
Proof.
move=> H1 H2 two Hi; apply/eqP => E.
have k0 : (0 < k)%N by case: k Hi {H1 H2} => //; rewrite expn0; lia.
(* the set of exponents with power 1 contains gcd(i, 2^k), a proper power of two *)
have [m Hm] : exists2 m, (2 ^ k)%N = (2 ^ m.+1 * (2 ^ k.-1 %/ 2 ^ m))%N /\ (m < k)%N & w ^+ (2 ^ m) = 1.
  have Hg : w ^+ gcdn i (2 ^ k) = 1.
    case: (egcdnP (2 ^ k) (proj1 (andP Hi))) => u v Huv _.
    have : w ^+ (u * i) = 1 by rewrite mulnC exprM E expr1n.
    by rewrite Huv exprD mulnC exprM H1 expr1n mul1r.
  have Hd : (gcdn i (2 ^ k) %| 2 ^ k)%N by rewrite dvdn_gcdr.
  case/(dvdn_pfactor _ _ (isT : prime 2)): Hd => m Hmk Em.
  have Hmk2 : (m < k)%N.
    rewrite ltn_neqAle Hmk andbT; apply/eqP => Emk.
    have : (2 ^ k %| i)%N by rewrite -Emk -Em dvdn_gcdl.
    by move/dvdn_leq; lia.
  exists m; last by rewrite -Em.
  split=> //; rewrite -expnB //; last lia.
  by rewrite -expnD; congr expn; lia.
case: Hm => _ Hm Ew.
have : w ^+ (2 ^ k.-1) = 1.
  have -> : (2 ^ k.-1 = 2 ^ m * 2 ^ (k.-1 - m))%N by rewrite -expnD; congr expn; lia.
  by rewrite exprM Ew expr1n.
rewrite H2 // => /eqP; rewrite eq_sym -subr_eq0 opprK => /eqP E2.
by move/eqP: two; apply; rewrite -E2 -[1]/(1%:R) -natrD.
Qed.

End Roots.

Section Params.
Variables (F : fieldType) (fp : fparams F).
Hypothesis ok : fp_ok fp.
Let ad := fp_adicity fp.

Lemma omega_order k : (k <= ad)%N -> omega fp k ^+ (2 ^ k) = 1.
Proof.
move=> Hk; rewrite /omega -exprM -expnD subnK //.
have Ead : (fp_adicity fp = (fp_adicity fp).-1.+1)%N by rewrite prednK //; case: ok.
by rewrite Ead expnSr exprM (fp_half ok) expr2 mulrNN mulr1.
Qed.

Lemma omega_half k : (0 < k <= ad)%N -> omega fp k ^+ (2 ^ k.-1) = -1.
Proof.
move=> /andP[k0 Hk]; rewrite /omega -exprM -expnD -(fp_half ok).
congr (_ ^+ (2 ^ _)); rewrite -/ad; lia.
Qed.

Lemma two_neq0 : 2%:R != 0 :> F.
Proof. by case: ok. Qed.

Lemma pow2_neq0 k : (2 ^ k)%:R != 0 :> F.
Proof. by rewrite natrX expf_neq0 ?two_neq0. Qed.

Lemma omega_neq0 k : (k <= ad)%N -> omega fp k != 0.
Proof.
move=> Hk; apply/eqP => E; have := omega_order Hk.
rewrite E expr0n expn_eq0 /= => /eqP; rewrite eq_sym oner_eq0 //.
Qed.

Lemma omega_pow_neq1 k i : (k <= ad)%N -> (0 < i < 2 ^ k)%N -> omega fp k ^+ i != 1.
Proof.
move=> Hk Hi; apply: (@expf_order_lt _ _ k) => //; first exact: omega_order.
  by move=> k0; apply: omega_half; rewrite k0.
exact: two_neq0.
Qed.

Lemma omega_primitive k : (k <= ad)%N -> (2 ^ k).-primitive_root (omega fp k).
Proof.
move=> Hk; apply/andP; split; first by rewrite expn_gt0.
apply/forallP => i; rewrite unity_rootE; apply/eqP.
case: (i.+1 =P (2 ^ k)%N) => [->|Hi]; first by rewrite omega_order // eqxx.
apply/negbTE/omega_pow_neq1 => //; have := ltn_ord i; lia.
Qed.

Lemma omega_inj k i j : (k <= ad)%N -> (i < 2 ^ k)%N -> (j < 2 ^ k)%N ->
  omega fp k ^+ i = omega fp k ^+ j -> i = j.
Proof.
move=> Hk Hi Hj /eqP; rewrite (eq_prim_root_expr (omega_primitive Hk)).
by rewrite !modn_small // => /eqP.
Qed.

(** Powers of a smaller root inside a bigger domain. *)
Lemma omega_sub k m : (k + m <= ad)%N -> omega fp k = omega fp (k + m) ^+ (2 ^ m).
Proof.
move=> H; rewrite /omega -exprM -expnD; congr (_ ^+ (2 ^ _)); rewrite -/ad; lia.
Qed.

(** The domain of size 2^k, in closed form. *)
Definition mkdom k : domain F :=
  let w := omega fp k in
  MkDomain (mkseq (fun i => w ^+ i) (2 ^ k)) (2 ^ k)%:R (2 ^ k)%:R^-1 w w^-1
    (precompute_twiddle_factors w (2 ^ k)) (precompute_twiddle_factors w^-1 (2 ^ k)).

Lemma domain_rootsE n (g : F) : (0 < n)%N ->
  domain_roots n g = Ret (mkseq (fun i => g ^+ i) n).
Proof.
case: n => // n _; rewrite /domain_roots /=.
set body := (X in ofor _ X _).
pose P k (s : seq F) := s = mkseq (fun i => g ^+ i) k.+1.
have H0 : P 0%N [:: 1] by rewrite /P /mkseq /= expr0.
have Hstep k s : (k < size (iota 1 n))%N -> P k s ->
   exists2 s', body (nth 0%N (iota 1 n) k) s = Ret s' & P k.+1 s'.
  rewrite size_iota => Hk ->; rewrite nth_iota // add1n /body /=.
  rewrite (aget_nth 0) ?size_mkseq // nth_mkseq //=.
  eexists; first by [].
  by rewrite /P [RHS]/mkseq -[in RHS]addn1 iotaD map_cat cats1 /= exprSr.
have [s -> ->] := ofor_inv H0 Hstep.
by rewrite size_iota.
Qed.

Lemma pow_vartimeE (x : F) e : pow_vartime x e = x ^+ (N.to_nat e).
Proof.
case: e => [|e]; first by rewrite expr0.
rewrite /=; elim: e => [e IH|e IH|]; last by rewrite expr1.
  have -> : (Pos.to_nat e~1 = (Pos.to_nat e + Pos.to_nat e).+1)%N by rewrite Pos2Nat.inj_xI; lia.
  by rewrite /= IH exprS exprD mulrC.
have -> : (Pos.to_nat e~0 = Pos.to_nat e + Pos.to_nat e)%N by rewrite Pos2Nat.inj_xO; lia.
by rewrite /= IH exprD.
Qed.

Lemma pow_vartime_exp2 (x : F) k : pow_vartime x (N.shiftl 1 (N.of_nat k)) = x ^+ (2 ^ k).
Proof. by rewrite pow_vartimeE N.shiftl_1_l -N_of_nat_expn2 Nat2N.id. Qed.

Lemma domain_new_exp k : (k <= ad)%N -> domain_new fp (2 ^ k) = Ret (mkdom k).
Proof.
move=> Hk; rewrite /domain_new is_power_of_two_exp.
have -> : compute_generator_for_size fp (2 ^ k) = Ret (omega fp k).
  rewrite /compute_generator_for_size is_power_of_two_exp trailing_zeros_exp.
  by cbv zeta; rewrite ltnNge Hk pow_vartime_exp2.
rewrite /= /invert_expect.
rewrite (negbTE (omega_neq0 Hk)) /= (negbTE (pow2_neq0 k)) /=.
by rewrite domain_rootsE ?expn_gt0.
Qed.

Lemma domain_new_panic k : (ad < k)%N -> domain_new fp (2 ^ k) = Panic.
Proof.
move=> Hk; rewrite /domain_new is_power_of_two_exp /compute_generator_for_size.
by rewrite is_power_of_two_exp /= trailing_zeros_exp Hk.
Qed.

Lemma dsize_mkdom k : dsize (mkdom k) = (2 ^ k)%N.
Proof. by rewrite /dsize size_mkseq. Qed.

End Params.

Section DFT.
Variables (F : fieldType) (V : lmodType F).

Lemma size_dft (w : F) n (a : seq V) : size (dft w n a) = n.
Proof. by rewrite size_mkseq. Qed.

Lemma dft_inv (w : F) k (a : seq V) : w ^+ (2 ^ k) = 1 -> ((0 < k)%N -> w ^+ (2 ^ k.-1) = -1) ->
  2%:R != 0 :> F -> size a = (2 ^ k)%N ->
  dft w^-1 (2 ^ k) (dft w (2 ^ k) a) = [seq (2 ^ k)%:R *: x | x <- a].
Proof.
move=> H1 H2 two Sa; set n := (2 ^ k)%N.
have n0 : (0 < n)%N by rewrite expn_gt0.
have w0 : w != 0.
  by apply/eqP => E; move: H1; rewrite E expr0n -/n (gtn_eqF n0) => /eqP; rewrite eq_sym oner_eq0.
apply: (@eq_from_nth _ 0); first by rewrite size_mkseq size_map Sa.
move=> i; rewrite size_mkseq => Hi; rewrite nth_mkseq // (nth_map 0) ?Sa //.
have -> : \sum_(j < n) w^-1 ^+ (i * j) *: (dft w n a)`_j =
          \sum_(l < n) (\sum_(j < n) (w^-1 ^+ i * w ^+ l) ^+ j) *: a`_l.
  rewrite (eq_bigr (fun j : 'I_n => \sum_(l < n) ((w^-1 ^+ i * w ^+ l) ^+ j) *: a`_l)); last first.
    move=> j _; rewrite nth_mkseq // scaler_sumr; apply: eq_bigr => l _.
    by rewrite scalerA exprMn -!exprM [(j * l)%N]mulnC.
  by rewrite exchange_big /=; apply: eq_bigr => l _; rewrite scaler_suml.
rewrite (bigD1 (Ordinal Hi)) //= [X in _ + X]big1 ?addr0.
  congr (_ *: _); rewrite -exprMn mulVf // expr1n.
  rewrite (eq_bigr (fun=> 1)); last by move=> j _; rewrite expr1n.
  by rewrite sumr_const card_ord.
move=> l Hl; rewrite dft_sum ?scale0r //.
  by rewrite exprMn -!exprM mulnC exprM exprVn H1 invr1 expr1n mulnC exprM H1 expr1n mulr1.
have Hli : (l : nat) <> i by move=> E; move/eqP: Hl; apply; apply: val_inj.
have Hl2 := ltn_ord l.
case: (ltngtP i l) => [Hlt|Hgt|]; last by move=> E; case: Hli.
  have -> : w^-1 ^+ i * w ^+ l = w ^+ (l - i).
    by rewrite exprVn -{1}(subnK (ltnW Hlt)) exprD mulrCA mulVf ?mulr1 // expf_neq0.
  by apply: (@expf_order_lt _ _ k) => //; lia.
have -> : w^-1 ^+ i * w ^+ l = (w ^+ (i - l))^-1.
  rewrite exprVn -{1}(subnK (ltnW Hgt)) exprD invfM -mulrA mulVf ?mulr1 // expf_neq0 //.
rewrite invr_eq1; apply: (@expf_order_lt _ _ k) => //; lia.
Qed.

Lemma inv_root (w : F) k : w ^+ (2 ^ k) = 1 -> ((0 < k)%N -> w ^+ (2 ^ k.-1) = -1) ->
  w^-1 ^+ (2 ^ k) = 1 /\ ((0 < k)%N -> w^-1 ^+ (2 ^ k.-1) = -1).
Proof.
move=> H1 H2; rewrite exprVn H1 invr1; split=> // k0.
by rewrite exprVn H2 // invrN1.
Qed.

Lemma dft_inv' (w : F) k (a : seq V) : w ^+ (2 ^ k) = 1 -> ((0 < k)%N -> w ^+ (2 ^ k.-1) = -1) ->
  2%:R != 0 :> F -> size a = (2 ^ k)%N ->
  dft w (2 ^ k) (dft w^-1 (2 ^ k) a) = [seq (2 ^ k)%:R *: x | x <- a].
Proof.
move=> H1 H2 two Sa; have [H1' H2'] := inv_root H1 H2.
by rewrite -{1}[w]invrK dft_inv.
Qed.

End DFT.

(** DFT over the scalars is evaluation. *)
Section Eval.
Variables (F : fieldType).

Lemma horner_take (s : seq F) n (x : F) : (size s <= n)%N ->
  (Poly s).[x] = \sum_(j < n) x ^+ j * s`_j.
Proof.
move=> Hs; rewrite (@horner_coef_wide _ n); last by apply: leq_trans (size_Poly s) Hs.
by apply: eq_bigr => j _; rewrite coef_Poly mulrC.
Qed.

Lemma dft_eval (w : F) n (a : seq F^o) : (size a <= n)%N ->
  dft (V := [lmodType F of F^o]) w n a = mkseq (fun i => (Poly (a : seq F)).[w ^+ i]) n.
Proof.
move=> Sa; apply: eq_mkseq => i; rewrite (@horner_take _ n) //.
by apply: eq_bigr => j _; rewrite exprM.
Qed.

Lemma Poly_resize n (s : seq F) : (size s <= n)%N -> Poly (resize n 0 s) = Poly s.
Proof.
move=> Hs; apply/polyP => i; rewrite !coef_Poly.
case: (ltnP i n) => Hi; first by rewrite nth_resize.
by rewrite !nth_default // ?size_resize // (leq_trans Hs).
Qed.

Lemma Poly_take_resize n (s : seq F) : Poly (resize n 0 s) = Poly (take n s).
Proof.
apply/polyP => i; rewrite !coef_Poly.
case: (ltnP i n) => Hi; first by rewrite nth_resize // nth_take.
by rewrite !nth_default // ?size_resize // size_take; case: ltnP => // H; apply: leq_trans H Hi.
Qed.

Lemma scale_by_powersE (g : F) (a : seq F) :
  scale_by_powers g a = mkseq (fun i => a`_i * g ^+ i) (size a).
Proof.
rewrite /scale_by_powers.
suff H n pre : (foldl (fun (st : F * seq F) point => (st.1 * g, rcons st.2 (point * st.1)))
    (g ^+ n, pre) a).2 = pre ++ mkseq (fun i => a`_i * g ^+ (n + i)) (size a).
  by rewrite -[1](expr0 g) H.
elim: a n pre => [|x a IH] n pre /=; first by rewrite cats0.
rewrite -exprSr IH cat_rcons /mkseq /= addn0; congr (_ ++ _ :: _).
rewrite -[iota 1 _]/(iota (1 + 0) _) iotaDl -map_comp; apply: eq_map => i /=.
by rewrite addnCA add1n.
Qed.

Lemma size_scale_by_powers (g : F) a : size (scale_by_powers g a) = size a.
Proof. by rewrite scale_by_powersE size_mkseq. Qed.

Lemma Poly_scale_by_powers (g : F) a :
  Poly (scale_by_powers g a) = Poly a \Po (g *: 'X).
Proof.
apply/polyP => i.
have -> : (Poly a \Po (g *: 'X))`_i = g ^+ i * (Poly a)`_i.
  rewrite coef_comp_poly.
  have E (j : nat) : ((g *: 'X) ^+ j)`_i = g ^+ j * (i == j)%:R.
    by rewrite exprZn coefZ coefXn.
  case: (ltnP i (size (Poly a))) => Hi.
    rewrite (bigD1 (Ordinal Hi)) //= big1 ?addr0; first by rewrite E eqxx mulr1 mulrC.
    move=> j Hj; rewrite E; have -> : (i == j) = false; last by rewrite !mulr0.
    by apply/negbTE; rewrite eq_sym; apply: contra Hj => /eqP Ej; apply/eqP/val_inj.
  rewrite nth_default // mulr0 big1 // => j _; rewrite E.
  have -> : (i == j) = false; last by rewrite !mulr0.
  by apply/negbTE; have := ltn_ord j; lia.
rewrite !coef_Poly scale_by_powersE.
case: (ltnP i (size a)) => Hi; first by rewrite nth_mkseq // mulrC.
by rewrite !nth_default ?mulr0 ?size_mkseq.
Qed.

Lemma horner_scale_by_powers (g x : F) a :
  (Poly (scale_by_powers g a)).[x] = (Poly a).[g * x].
Proof. by rewrite Poly_scale_by_powers horner_comp !hornerE. Qed.

End Eval.

Section Transforms.
Variables (F : fieldType) (fp : fparams F).
Hypothesis ok : fp_ok fp.
Let ad := fp_adicity fp.
Variable V : lmodType F.
Variable k : nat.
Hypothesis Hk : (k <= ad)%N.
Let w := omega fp k.
Let d := mkdom fp k.

Let k32 : (k <= 32)%N.
Proof. by apply: leq_trans Hk _; case: ok. Qed.
Let w1 : w ^+ (2 ^ k) = 1.
Proof. exact: omega_order. Qed.
Let w2 : (0 < k)%N -> w ^+ (2 ^ k.-1) = -1.
Proof. by move=> k0; apply: omega_half; rewrite ?k0. Qed.

Lemma fft_g1E (a : seq V) : fft_g1 d a = Ret (dft w (2 ^ k) (resize (2 ^ k) 0 a)).
Proof.
rewrite /fft_g1 dsize_mkdom fft_inplace_spec // ?size_resize //.
Qed.

Lemma ifft_g1E (a : seq V) n :
  ifft_g1_take_n d a n =
  match n with
  | None => Ret [seq (2 ^ k)%:R^-1 *: x | x <- dft w^-1 (2 ^ k) (resize (2 ^ k) 0 a)]
  | Some m => if (m < 2 ^ k)%N
      then Ret [seq (2 ^ k)%:R^-1 *: x | x <- take m (dft w^-1 (2 ^ k) (resize (2 ^ k) 0 a))]
      else Panic
  end.
Proof.
have [w1' w2'] := inv_root w1 w2.
rewrite /ifft_g1_take_n dsize_mkdom fft_inplace_spec // ?size_resize //=.
by case: n => [m|] //=; rewrite size_dft /oassert; case: ltnP.
Qed.

(** [fft_scalars] evaluates. *)
Theorem fft_scalars_eval (p : seq F) :
  fft_scalars d p = Ret (mkseq (fun i => (Poly (take (2 ^ k) p)).[w ^+ i]) (2 ^ k)).
Proof.
rewrite /fft_scalars dsize_mkdom fft_inplace_spec // ?size_resize //.
by rewrite dft_eval ?size_resize // Poly_take_resize.
Qed.

Theorem coset_fft_scalars_eval (p : seq F) cf :
  coset_fft_scalars d p cf =
  Ret (mkseq (fun i => (Poly (take (2 ^ k) p)).[cf_generator cf * w ^+ i]) (2 ^ k)).
Proof.
rewrite /coset_fft_scalars dsize_mkdom fft_inplace_spec // ?size_scale_by_powers ?size_resize //.
rewrite dft_eval ?size_scale_by_powers ?size_resize //.
by congr Ret; apply: eq_mkseq => i; rewrite horner_scale_by_powers Poly_take_resize.
Qed.

Lemma ifft_scalarsE (a : seq F) :
  ifft_scalars d a = Ret [seq (2 ^ k)%:R^-1 * x | x <-
     (dft (V := [lmodType F of F^o]) w^-1 (2 ^ k) (resize (2 ^ k) 0 a) : seq F)].
Proof.
have [w1' w2'] := inv_root w1 w2.
rewrite /ifft_scalars dsize_mkdom fft_inplace_spec // ?size_resize //=.
by congr Ret; apply: eq_map => x; rewrite mulrC.
Qed.

Lemma ifft_fft (p : seq F) : (size p <= 2 ^ k)%N ->
  ifft_scalars d (mkseq (fun i => (Poly p).[w ^+ i]) (2 ^ k)) = Ret (resize (2 ^ k) 0 p).
Proof.
move=> Hp; rewrite ifft_scalarsE [resize _ _ (mkseq _ _)]resize_id ?size_mkseq //.
have := @dft_eval F w (2 ^ k) (resize (2 ^ k) 0 p); rewrite size_resize leqnn => /(_ isT).
rewrite Poly_resize // => <-.
rewrite dft_inv // ?(two_neq0 ok) ?size_resize // -map_comp; congr Ret.
rewrite -[RHS]map_id; apply: eq_map => x /=.
by rewrite /GRing.scale /= mulrA mulVf ?mul1r // (pow2_neq0 ok).
Qed.

(** [ifft_scalars] interpolates: the returned coefficients take the given values. *)
Theorem ifft_scalars_interp (a : seq F) :
  exists2 p, ifft_scalars d a = Ret p &
    size p = (2 ^ k)%N /\ forall i, (i < 2 ^ k)%N -> (Poly p).[w ^+ i] = a`_i.
Proof.
rewrite ifft_scalarsE; eexists; first by []; split; first by rewrite size_map size_mkseq.
move=> i Hi.
set b : seq F^o := resize _ _ _; set q := map _ _.
have Sq : size q = (2 ^ k)%N by rewrite size_map size_mkseq.
have := @dft_eval F w (2 ^ k) q; rewrite Sq leqnn => /(_ isT) E.
rewrite -(nth_mkseq 0 (fun i => (Poly q).[w ^+ i]) Hi) -E.
have -> : dft (V := [lmodType F of F^o]) w (2 ^ k) q =
   [seq (2 ^ k)%:R^-1 *: x | x <- dft (V := [lmodType F of F^o]) w (2 ^ k)
     (dft (V := [lmodType F of F^o]) w^-1 (2 ^ k) b)].
  apply: (@eq_from_nth _ 0); first by rewrite [RHS]size_map [LHS]size_mkseq [RHS]size_mkseq.
  move=> j; rewrite size_mkseq => Hj; rewrite [RHS](nth_map 0) ?size_mkseq // [LHS]nth_mkseq // [in RHS]nth_mkseq //.
  rewrite scaler_sumr; apply: eq_bigr => l _; rewrite /q (nth_map 0) ?size_mkseq //.
  by rewrite /GRing.scale /= mulrCA.
rewrite dft_inv' // ?(two_neq0 ok) ?size_resize // -map_comp.
rewrite (nth_map 0) ?size_resize //= scalerA mulVf ?scale1r ?(pow2_neq0 ok) //.
by rewrite nth_resize.
Qed.

Lemma fft_ifft (a : seq F) : size a = (2 ^ k)%N ->
  obind (ifft_scalars d a) (fft_scalars d) = Ret a.
Proof.
move=> Sa; have [p -> [Sp Hp]] := ifft_scalars_interp a.
rewrite /= fft_scalars_eval take_oversize ?Sp //; congr Ret.
apply: (@eq_from_nth _ 0); rewrite size_mkseq // => i Hi.
by rewrite nth_mkseq // Hp.
Qed.

Theorem coset_ifft_scalars_interp (a : seq F) (g : F) : g != 0 ->
  exists2 p, coset_ifft_scalars d a (MkCosetFFT g g^-1) = Ret p &
    size p = (2 ^ k)%N /\ forall i, (i < 2 ^ k)%N -> (Poly p).[g * w ^+ i] = a`_i.
Proof.
move=> g0; rewrite /coset_ifft_scalars.
have [p -> [Sp Hp]] := ifft_scalars_interp a.
eexists; first by []; split; first by rewrite size_scale_by_powers.
move=> i Hi; rewrite horner_scale_by_powers mulrA mulVf // mul1r.
exact: Hp.
Qed.

End Transforms.

(** Uniqueness of interpolation on a domain. *)
Section Unique.
Variables (F : fieldType) (fp : fparams F).
Hypothesis ok : fp_ok fp.
Variable k : nat.
Hypothesis Hk : (k <= fp_adicity fp)%N.

Lemma poly_eq_on_coset (p q : {poly F}) (g : F) : g != 0 ->
  (size p <= 2 ^ k)%N -> (size q <= 2 ^ k)%N ->
  (forall i, (i < 2 ^ k)%N -> p.[g * omega fp k ^+ i] = q.[g * omega fp k ^+ i]) -> p = q.
Proof.
move=> g0 Sp Sq H; apply/eqP; rewrite -subr_eq0; apply/eqP.
pose rs := mkseq (fun i => g * omega fp k ^+ i) (2 ^ k).
apply: (@roots_geq_poly_eq0 _ _ rs).
- apply/allP => x /mapP[i]; rewrite mem_iota add0n => /andP[_ Hi] ->.
  by rewrite /root !hornerE H // subrr.
- rewrite map_inj_in_uniq ?iota_uniq // => i j; rewrite !mem_iota !add0n => /andP[_ Hi] /andP[_ Hj].
  by move/(mulfI g0)/(omega_inj ok Hk Hi Hj).
- rewrite size_mkseq; apply: leq_trans (size_add _ _) _.
  by rewrite size_opp geq_max Sp Sq.
Qed.

Lemma poly_eq_on_domain (p q : {poly F}) :
  (size p <= 2 ^ k)%N -> (size q <= 2 ^ k)%N ->
  (forall i, (i < 2 ^ k)%N -> p.[omega fp k ^+ i] = q.[omega fp k ^+ i]) -> p = q.
Proof.
move=> Sp Sq H; apply: (@poly_eq_on_coset p q 1) => //; first exact: oner_neq0.
by move=> i Hi; rewrite !mul1r H.
Qed.

End Unique.
