From mathcomp Require Import ssreflect ssrfun ssrbool eqtype ssrnat seq div prime fintype bigop.
From mathcomp Require Import ssralg poly polydiv zify_ssreflect.
From Verif Require Import Base Spec SpecKZG BitRev BitRevProofs FFT FFTProofs Domain DomainProofs.
From Verif Require Import PolyCoeffProofs Lincomb LincombProofs FixedBaseMSM Toeplitz ToeplitzProofs.
From Verif Require Import FK20Prover.

Set Implicit Arguments.
Unset Strict Implicit.
Unset Printing Implicit Defensive.

Import GRing.Theory.
Local Open Scope ring_scope.

Section Sums.
Variable V : zmodType.

Lemma sum_block (g : nat -> V) q n :
  \sum_(i < n) \sum_(b < q) g (i + b * n)%N = \sum_(t < q * n) g t.
Proof.
rewrite exchange_big /=; elim: q => [|q IH]; first by rewrite mul0n !big_ord0.
rewrite big_ord_recr /= IH -!(big_mkord xpredT g) mulSn addnC.
rewrite [in RHS](@big_cat_nat _ _ _ (q * n)) ?leq_addr //=; congr (_ + _).
by rewrite -{2}[(q * n)%N]add0n big_addn addKn big_mkord; apply: eq_bigr.
Qed.
End Sums.

Lemma sum_ord_last (V : zmodType) (f : nat -> V) n : (0 < n)%N ->
  \sum_(b < n) f b = \sum_(b < n.-1) f b + f n.-1.
Proof. by case: n => // n _; rewrite big_ord_recr. Qed.

Section Quotient.
Variable F : fieldType.

Lemma Poly_cat (s t : seq F) : Poly (s ++ t) = Poly s + 'X^(size s) * Poly t.
Proof.
apply/polyP => i; rewrite coefD coefXnM !coef_Poly nth_cat.
by case: ltnP => H; rewrite ?addr0 // [s`__]nth_default // add0r.
Qed.

Lemma Poly_take_drop L (s : seq F) :
  Poly s = Poly (take L s) + 'X^L * Poly (drop L s).
Proof.
case: (ltnP (size s) L) => H.
  by rewrite take_oversize ?(ltnW H) // drop_oversize ?(ltnW H) //= mulr0 addr0.
by rewrite -{1}(cat_take_drop L s) Poly_cat size_takel.
Qed.

(** Division by X^L - z from the tails of the coefficient list. *)
Lemma quotient_tails (f : seq F) L K z : (0 < L)%N -> (size f <= K * L)%N ->
  Poly f %/ ('X^L - z%:P) = \sum_(a < K) z ^+ a *: Poly (drop (a.+1 * L) f).
Proof.
move=> L0 Sf; set q := RHS.
pose r : {poly F} := \sum_(a < K) z ^+ a *: Poly (take L (drop (a * L) f)).
have E : Poly f = q * ('X^L - z%:P) + r.
  have H n : Poly f = (\sum_(a < n) z ^+ a *: Poly (drop (a.+1 * L) f)) * ('X^L - z%:P) +
      (\sum_(a < n) z ^+ a *: Poly (take L (drop (a * L) f))) + z ^+ n *: Poly (drop (n * L) f).
    elim: n => [|n IH].
      by rewrite !big_ord0 mul0r !add0r expr0 scale1r mul0n drop0.
    rewrite !big_ord_recr /= {1}IH.
    rewrite [X in _ + _ *: X = _](Poly_take_drop L) drop_drop -[(L + n * L)%N]mulSn.
    set A := \sum_(_ < _) _; set B := \sum_(_ < _) _; set t := Poly (take _ _).
    set u := Poly (drop _ _).
    have Eu : z ^+ n *: u * ('X^L - z%:P) = z ^+ n *: ('X^L * u) - z ^+ n.+1 *: u.
      rewrite mulrBr -!scalerAl [u * z%:P]mulrC mul_polyC scalerA -exprSr.
      by rewrite [u * _]mulrC.
    rewrite mulrDl Eu scalerDr -!addrA; congr (_ + _).
    rewrite [RHS]addrC -!addrA [- _ + _]addrC -!addrA; do 2! congr (_ + _).
    by rewrite addrCA subrr addr0.
  have := H K; rewrite [drop (K * L) f]drop_oversize //= scaler0 addr0; exact.
have Sd : size ('X^L - z%:P) = L.+1.
  by rewrite size_addl size_polyXn // size_opp size_polyC; case: (z != 0).
rewrite E divp_addl_mul_small // Sd ltnS.
apply: (leq_trans (size_sum _ _ _)); apply/bigmax_leqP => a _.
apply: (leq_trans (size_scale_leq _ _)); apply: (leq_trans (size_Poly _)).
by rewrite size_take; case: ltnP => // /ltnW.
Qed.
End Quotient.

Section Prover.
Variables (F : fieldType) (V : lmodType F) (fp : fparams F) (ok : fp_ok fp) (me : msm_env V).
(** Polynomials with 2^(l+c) coefficients, cosets of size 2^l, 2^(l+c+e) points to open. *)
Variables (l c e : nat).
Hypothesis Hc : (2 <= c)%N.
Hypothesis Had : (l + c + e <= fp_adicity fp)%N.
Hypothesis H32 : (l + c + e < 32)%N.

Local Notation L := (2 ^ l)%N.
Local Notation K := (2 ^ c)%N.
Local Notation N := (2 ^ (l + c))%N.
Local Notation n := (l + c + e)%N.

Let NE : N = (K * L)%N.
Proof. by rewrite expnD mulnC. Qed.
Let L0 : (0 < L)%N. Proof. by rewrite expn_gt0. Qed.
Let K4 : (3 < K)%N. Proof. by rewrite -[4%N]/(2 ^ 2)%N leq_exp2l. Qed.
Hypothesis Hcad : (c < fp_adicity fp)%N.

(** The setup, reversed, without its last L points and downsampled. *)
Definition srs_vectors (srs : seq V) : seq (seq V) :=
  mkseq (fun i => resize K 0 (mkseq (fun b => srs`_(N - L - 1 - (i + b * L))) K.-1)) L.

(** The Toeplitz matrices of a polynomial. *)
Definition poly_toeplitz (poly : seq F) : seq (toeplitz_matrix F) :=
  mkseq (fun i => MkToeplitz (mkseq (fun j => poly`_(N - 1 - (i + j * L))) K)
                             (poly`_(N - 1 - i) :: nseq K.-1 0)) L.

(** Every MSM made for this polynomial gives the linear combination. *)
Definition fk20_msm_ok up (srs : seq V) (poly : seq F) : Prop :=
  forall j, (j < 2 ^ c.+1)%N ->
  msm_runs me up (column_points fp c (srs_vectors srs) j) (column_scalars fp c (poly_toeplitz poly) j).

Lemma fk20_msm_ok_no srs poly : fk20_msm_ok PrecompNo srs poly.
Proof. by move=> j Hj; apply: msm_runs_no. Qed.

Lemma next_pow2_K : next_power_of_two K.-1 = K.
Proof.
rewrite /next_power_of_two (@up_log_eq 2 c.-1) //; first by rewrite prednK //; lia.
have EK : K = (2 * 2 ^ c.-1)%N by rewrite -expnS prednK //; lia.
by have := K4; rewrite prednK ?(ltnW Hc) // EK; lia.
Qed.

Lemma srs_vectorsE srs : size srs = N ->
  [seq resize (next_power_of_two (size v)) 0 v | v <- take_every_nth (drop L (rev srs)) L] =
  srs_vectors srs.
Proof.
move=> Ss.
have Sd : size (drop L (rev srs)) = (K.-1 * L)%N.
  by rewrite size_drop size_rev Ss NE -subn1 mulnBl mul1n.
rewrite (take_every_nthE 0 L0 Sd) /srs_vectors -map_comp.
apply/eq_in_map => i; rewrite mem_iota => /andP[_ Hi] /=.
rewrite size_mkseq next_pow2_K; congr resize.
apply/eq_in_map => b; rewrite mem_iota => /andP[_ Hb].
have Hib : (i + b * L < K.-1 * L)%N.
  have : (b.+1 * L <= K.-1 * L)%N by rewrite leq_mul2r; lia.
  by rewrite mulSn; lia.
have NL : (N = L + K.-1 * L)%N by rewrite -mulSn prednK ?NE //; lia.
rewrite nth_drop nth_rev ?Ss; last by lia.
congr nth; lia.
Qed.

(** The prover built by [fk20_prover_new]. *)
Definition mkprover srs bt : fk20_prover V :=
  MkFK20Prover bt L (2 ^ n) (mkdom fp (c + e)) (mkdom fp n) (mkdom fp (l + c)) srs.

Lemma fk20_prover_newE (srs : seq V) up : size srs = N ->
  fk20_prover_new fp srs N L (2 ^ n) up =
  olet bt := batch_toeplitz_new fp (srs_vectors srs) up in Ret (mkprover srs bt).
Proof.
move=> Ss; rewrite /fk20_prover_new !is_power_of_two_exp Ss leqnn /oassert.
have -> : (L < 2 ^ n)%N by rewrite ltn_exp2l //; lia.
have -> : (L < N)%N by rewrite ltn_exp2l //; lia.
cbv zeta; rewrite srs_vectorsE //; case: (batch_toeplitz_new _ _ _) => [bt|] //.
rewrite !obind_Ret.
have -> : (2 ^ n %/ L = 2 ^ (c + e))%N by rewrite -addnA expnD mulKn.
rewrite (domain_new_exp ok); last by lia.
rewrite obind_Ret (domain_new_exp ok Had) obind_Ret (domain_new_exp ok) //; lia.
Qed.

Lemma size_srs_vectors srs : (0 < size (srs_vectors srs))%N.
Proof. by rewrite size_mkseq. Qed.
Lemma all_srs_vectors srs : all (fun x => size x == K) (srs_vectors srs).
Proof. by apply/allP => x /mapP[i _ ->]; rewrite size_resize. Qed.

Lemma batch_toeplitz_new_srs srs up : precomp_width_ok up ->
  exists bt, batch_toeplitz_new fp (srs_vectors srs) up = Ret bt.
Proof.
move=> Hup; rewrite (batch_toeplitz_newE ok Hcad) ?size_srs_vectors ?all_srs_vectors //.
set cols := mkseq _ _.
suff [t ->] : exists t, omapM (fun v => fixed_base_msm_new v up) cols = Ret t by eexists.
elim: cols => [|v cols [t IH]]; first by exists [::].
by have [m Hm] := fixed_base_msm_new_ret v Hup; exists (m :: t); rewrite /= Hm IH.
Qed.

(** The commitments to the tails of the polynomial. *)
Lemma h_polyE (srs : seq V) up bt (poly : seq F) : size srs = N -> size poly = N ->
  batch_toeplitz_new fp (srs_vectors srs) up = Ret bt -> fk20_msm_ok up srs poly ->
  compute_h_poly_commitments me bt poly L =
  Ret (mkseq (fun a => commit srs (Poly (drop (a.+1 * L) poly))) K).
Proof.
move=> Ss Sp Hbt Hmsm.
rewrite /compute_h_poly_commitments !is_power_of_two_exp Sp is_power_of_two_exp /oassert.
have Sr : size (rev poly) = (K * L)%N by rewrite size_rev Sp.
rewrite (take_every_nthE 0 L0 Sr).
rewrite (@omapM_Ret_nth _ _ [::] _ (nth (MkToeplitz [::] [::]) (poly_toeplitz poly))); last first.
  rewrite size_mkseq => i Hi; rewrite !nth_mkseq //.
  set row := mkseq _ _; set row' := mkseq _ _.
  have -> : row = row'.
    apply/eq_in_map => j; rewrite mem_iota => /andP[_ Hj].
    have Hij : (i + j * L < K * L)%N.
      have : (j.+1 * L <= K * L)%N by rewrite leq_mul2r; lia.
      by rewrite mulSn; lia.
    rewrite nth_rev ?Sp ?NE //; congr nth; lia.
  have K0 : (0 < K)%N by rewrite expn_gt0.
  rewrite (aget_nth 0) ?size_mkseq // obind_Ret (aset_set_nth 0) ?size_nseq ?size_mkseq //.
  rewrite obind_Ret /toeplitz_new.
  have -> : set_nth 0 (nseq K 0) 0 row'`_0 = poly`_(N - 1 - i) :: nseq K.-1 0.
    rewrite nth_mkseq // mul0n addn0; case: (K) K0 => [|k'] //.
  by rewrite /nilp size_mkseq -lt0n K0.
rewrite obind_Ret size_mkseq.
have -> : mkseq (nth (MkToeplitz [::] [::]) (poly_toeplitz poly)) L = poly_toeplitz poly.
  have {1}-> : L = size (poly_toeplitz poly) by rewrite size_mkseq.
  exact: mkseq_nth.
rewrite (@sum_matrix_vector_mulE F V fp ok me c Hcad (srs_vectors srs) up bt) //.
- congr Ret; apply/eq_in_map => a; rewrite mem_iota => /andP[_ Ha].
  have -> : zip (poly_toeplitz poly) (srs_vectors srs) =
     [seq (nth (MkToeplitz [::] [::]) (poly_toeplitz poly) i, nth [::] (srs_vectors srs) i) | i <- iota 0 L].
    rewrite /poly_toeplitz /srs_vectors /mkseq zip_map; apply/eq_in_map => i.
    by rewrite mem_iota => /andP[_ Hi]; rewrite !(nth_map 0%N) ?size_iota // !nth_iota.
  rewrite big_map -{1}[L]subn0 -/(index_iota 0 L) big_mkord.
  pose g t := poly`_(N - 1 - t + a * L) *: srs`_(N - L - 1 - t).
  rewrite (eq_bigr (fun i : 'I_L => \sum_(b < K.-1) g (i + b * L)%N)); last first.
    move=> [i Hi] _ /=; rewrite !nth_mkseq //.
    set tm := MkToeplitz _ _; set x := resize _ _ _.
    rewrite (sum_ord_last (fun b => toeplitz_entry tm a b *: x`_b)) ?expn_gt0 // /x.
    rewrite nth_resize ?[_`_K.-1]nth_default ?size_mkseq ?scaler0 ?addr0; try lia.
    apply: eq_bigr => -[b Hb] _ /=; rewrite nth_resize; last by lia.
    rewrite nth_mkseq // /g; congr (_ *: _).
    have Hib : (i + b * L < K.-1 * L)%N.
      have : (b.+1 * L <= K.-1 * L)%N by rewrite leq_mul2r; lia.
      by rewrite mulSn; lia.
    have NL : (N = L + K.-1 * L)%N by rewrite -mulSn prednK ?NE //; lia.
    rewrite /toeplitz_entry /=; case: (ltnP a b) => Hab.
      rewrite nth_mkseq; last by lia.
      have HaL : (a * L <= b * L)%N by rewrite leq_mul2r; lia.
      congr nth; rewrite mulnBl; lia.
    case: (a - b)%N (subnKC Hab) => [|d] Ed /=.
      rewrite -Ed addn0; congr nth; lia.
    rewrite nth_nseq if_same [RHS]nth_default // Sp -Ed mulnDl mulSn; lia.
  rewrite sum_block.
  have NL : (N = L + K.-1 * L)%N by rewrite -mulSn prednK ?NE //; lia.
  rewrite (@commit_wide _ _ (K.-1 * L)); last first.
    by rewrite (leq_trans (size_Poly _)) // size_drop Sp NL mulSn subnDl leq_subr.
  rewrite (reindex_inj rev_ord_inj) /=; apply: eq_bigr => -[t Ht] _ /=.
  rewrite /g coef_Poly nth_drop mulSn; congr (poly`__ *: srs`__); lia.
- exact: size_srs_vectors.
- exact: all_srs_vectors.
- by rewrite !size_mkseq.
- move=> tm /(@List.in_map_iff _ _ _ _ _)[i [<- _]] /=.
  by rewrite size_mkseq size_nseq; split=> //; lia.
Qed.

(** The proof for position k of the (bit-reversed) list of cosets. *)
Definition proof_point (k : nat) : F := omega fp (c + e) ^+ bitrev (c + e) k.
Definition coset_proof (srs : seq V) (f : {poly F}) (k : nat) : V :=
  commit srs (f %/ ('X^L - (proof_point k)%:P)).
Definition coset_evals (f : {poly F}) (k : nat) : seq F :=
  mkseq (fun j => f.[omega fp n ^+ bitrev n (k * L + j)]) L.

Let HceA : (c + e <= fp_adicity fp)%N. Proof. lia. Qed.

Lemma fft_tails (srs : seq V) (poly : seq F) : size poly = N ->
  fft_g1 (mkdom fp (c + e)) (mkseq (fun a => commit srs (Poly (drop (a.+1 * L) poly))) K) =
  Ret (mkseq (fun j => commit srs (Poly poly %/ ('X^L - (omega fp (c + e) ^+ j)%:P))) (2 ^ (c + e))).
Proof.
move=> Sp; rewrite (fft_g1E ok HceA); congr Ret.
apply/eq_in_map => j; rewrite mem_iota => /andP[_ Hj].
have HK : (K <= 2 ^ (c + e))%N by rewrite leq_exp2l // leq_addr.
rewrite (@quotient_tails _ _ _ (2 ^ (c + e))) //; last first.
  by rewrite Sp NE leq_mul2r HK orbT.
rewrite commit_sum; apply: eq_bigr => a _.
rewrite commitZ exprM nth_resize //; congr (_ *: _).
case: (ltnP a K) => Ha; first by rewrite nth_mkseq.
rewrite nth_default ?size_mkseq // drop_oversize ?commit0 //.
by rewrite Sp NE leq_mul2r (leq_trans Ha) ?orbT.
Qed.

Lemma coset_evaluationsE (poly : seq F) : (size poly <= 2 ^ n)%N ->
  coset_evaluations (mkdom fp n) L poly = Ret (mkseq (coset_evals (Poly poly)) (2 ^ (c + e))).
Proof.
move=> Sp; rewrite /coset_evaluations (fft_scalars_eval ok Had) take_oversize // obind_Ret.
rewrite (reverse_bit_order_mkseq 0 (size_mkseq _ _) H32) obind_Ret L0 /oassert; congr Ret.
rewrite chunks_exactE size_mkseq.
have E : (2 ^ n = 2 ^ (c + e) * L)%N by rewrite -addnA expnD mulnC.
have -> : (2 ^ n %/ L = 2 ^ (c + e))%N by rewrite E mulnK.
apply/eq_in_map => k; rewrite mem_iota => /andP[_ Hk].
have Hkj j : (j < L)%N -> (k * L + j < 2 ^ n)%N.
  move=> Hj; rewrite E; have : (k.+1 * L <= 2 ^ (c + e) * L)%N by rewrite leq_mul2r Hk orbT.
  by rewrite mulSn; lia.
set ev := mkseq _ _.
have Sd : (L <= size (drop (k * L) ev))%N.
  rewrite size_drop size_mkseq.
  by have := Hkj L.-1; rewrite prednK // => /(_ (leqnn _)); lia.
rewrite /coset_evals; apply: (@eq_from_nth _ 0); rewrite size_takel // ?size_mkseq //.
move=> j Hj; rewrite nth_take // nth_drop !nth_mkseq ?bitrev_lt ?Hkj //.
Qed.

Theorem multi_opening_coeffE (srs : seq V) up bt (poly : seq F) : size srs = N -> size poly = N ->
  batch_toeplitz_new fp (srs_vectors srs) up = Ret bt -> fk20_msm_ok up srs poly ->
  compute_multi_opening_proofs_poly_coeff me (mkprover srs bt) poly =
  Ret (mkseq (coset_proof srs (Poly poly)) (2 ^ (c + e)), mkseq (coset_evals (Poly poly)) (2 ^ (c + e))).
Proof.
move=> Ss Sp Hbt Hm; rewrite /compute_multi_opening_proofs_poly_coeff /mkprover /=.
rewrite (h_polyE Ss Sp Hbt Hm) obind_Ret fft_tails // obind_Ret.
rewrite (reverse_bit_order_mkseq 0 (size_mkseq _ _)); last by lia.
rewrite obind_Ret coset_evaluationsE ?obind_Ret; last by rewrite Sp leq_exp2l // leq_addr.
congr (Ret (_, _)); apply/eq_in_map => k; rewrite mem_iota => /andP[_ Hk].
by rewrite nth_mkseq ?bitrev_lt.
Qed.

(** The coefficients of the polynomial whose values in bit-reversed order are the data. *)
Lemma input_coeffs_data (srs : seq V) bt (data : seq F) : size data = N ->
  exists2 poly, input_coeffs (mkprover srs bt) (InputData data) = Ret poly &
    size poly = N /\ forall i, (i < N)%N ->
      (Poly poly).[omega fp (l + c) ^+ bitrev (l + c) i] = data`_i.
Proof.
move=> Sd; rewrite /input_coeffs /= (reverse_bit_order_mkseq 0 Sd); last by lia.
rewrite obind_Ret.
have Hlc : (l + c <= fp_adicity fp)%N by lia.
have [poly -> [Sp Hp]] := ifft_scalars_interp ok Hlc (mkseq (fun i => data`_(bitrev (l + c) i)) N).
exists poly => //; split=> // i Hi.
by rewrite Hp ?bitrev_lt // nth_mkseq ?bitrev_lt // bitrev_inv.
Qed.

Lemma fk20_commitE (srs : seq V) bt input poly : size srs = N -> size poly = N ->
  input_coeffs (mkprover srs bt) input = Ret poly ->
  fk20_commit (mkprover srs bt) input = Ret (commit srs (Poly poly)).
Proof.
by move=> Ss Sp Hi; rewrite /fk20_commit Hi obind_Ret /= commit_g1E Ss Sp leqnn.
Qed.

(** The test-only reference implementation computes the same. *)
Theorem open_multi_pointE (srs : seq V) (poly : seq F) : size poly = N -> (N <= size srs)%N ->
  open_multi_point fp srs poly L (2 ^ n) =
  Ret (mkseq (coset_proof srs (Poly poly)) (2 ^ (c + e)), mkseq (coset_evals (Poly poly)) (2 ^ (c + e))).
Proof.
move=> Sp Ss; rewrite /open_multi_point /compute_h_poly !is_power_of_two_exp Sp is_power_of_two_exp Ss.
have -> : (L < 2 ^ n)%N by rewrite ltn_exp2l //; lia.
have -> : (N %/ L = K)%N by rewrite NE mulnK.
rewrite /oassert is_power_of_two_exp obind_Ret.
rewrite (@omapM_Ret_nth _ _ [::] _ (fun a => commit srs (Poly (drop (a.+1 * L) poly)))); last first.
  rewrite size_map size_iota => a Ha; rewrite (nth_map 0%N) ?size_iota // nth_iota // add1n.
  rewrite /shift_polynomial commit_g1E; case: (leqP (size poly) (a.+1 * L)) => Hs.
    by rewrite [drop _ _]drop_oversize.
  by rewrite size_drop Sp ifT //; lia.
rewrite obind_Ret size_map size_iota.
have -> : (2 ^ n %/ L = 2 ^ (c + e))%N by rewrite -addnA expnD mulKn.
rewrite (domain_new_exp ok HceA) obind_Ret fft_tails // obind_Ret.
rewrite (reverse_bit_order_mkseq 0 (size_mkseq _ _)); last by lia.
rewrite obind_Ret (domain_new_exp ok Had) obind_Ret.
rewrite coset_evaluationsE ?obind_Ret; last by rewrite Sp leq_exp2l // leq_addr.
congr (Ret (_, _)); apply/eq_in_map => k; rewrite mem_iota => /andP[_ Hk].
by rewrite nth_mkseq ?bitrev_lt.
Qed.

End Prover.
