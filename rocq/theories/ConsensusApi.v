(** The reference functions of [SpecConsensus] at the constants of EIP-7594. *)

From Coq Require Import ZArith NArith Init.Byte Strings.Byte.
From mathcomp Require Import ssreflect ssrfun ssrbool eqtype ssrnat seq div fintype bigop.
From mathcomp Require Import ssralg poly polydiv.
From Verif Require Import Base Bytes Spec BitRevProofs SpecKZG SpecDAS LincombProofs DomainProofs.
From Verif Require Import FK20VerifierProofs VerifierSoundness NaiveProofs FK20Verifier Eip7594.
From Verif Require Import Eip7594Proofs ApiEip ZField FrPrime Fr SpecFr FrEnv SpecVerify.
From Verif Require Import ApiVerifyProofs SpecConsensus ConsensusProofs PropProver.
From mathcomp Require Import zify_ssreflect.

Set Implicit Arguments.
Unset Strict Implicit.
Unset Printing Implicit Defensive.

Import GRing.Theory.
Local Open Scope ring_scope.

(** ** Roots of unity *)
Lemma of_Z_pow (p : primeZ) (a e : Z) (m : nat) : (0 <= e)%Z ->
  @of_Z p (a ^ (Z.of_nat m * e))%Z = (@of_Z p (a ^ e)%Z : Zp p) ^+ m.
Proof.
move=> He; elim: m => [|m IH]; first by rewrite expr0 -of_Z1.
by rewrite Nat2Z.inj_succ Z.mul_succ_l Z.pow_add_r ?of_ZM ?IH ?exprSr //; lia.
Qed.

Lemma root_pow (p : primeZ) (a e E : Z) (m : nat) (x : Zp p) : (0 <= e)%Z -> E = (Z.of_nat m * e)%Z ->
  zval x = (a ^ e mod p)%Z -> @of_Z p (a ^ E)%Z = x ^+ m.
Proof.
move=> He -> Hx; rewrite of_Z_pow //; congr (_ ^+ _).
by apply: zval_inj; rewrite zval_of_Z Hx.
Qed.

Lemma exponent_ge0 : (0 <= (r_modulus - 1) / 8192)%Z.
Proof. exact: Z.lt_le_incl exponent_pos. Qed.
Lemma exponent13 : ((r_modulus - 1) / 2 ^ Z.of_nat 13 = Z.of_nat 1 * ((r_modulus - 1) / 8192))%Z.
Proof. by vm_compute. Qed.
Lemma exponent12 : ((r_modulus - 1) / 2 ^ Z.of_nat 12 = Z.of_nat 2 * ((r_modulus - 1) / 8192))%Z.
Proof. by vm_compute. Qed.
Lemma exponent7 : ((r_modulus - 1) / 2 ^ Z.of_nat 7 = Z.of_nat 64 * ((r_modulus - 1) / 8192))%Z.
Proof. by vm_compute. Qed.

Lemma root13 : root_of_unity 13 = w8192.
Proof.
rewrite -[RHS]expr1; exact (@root_pow rZ 7 _ _ 1 w8192 exponent_ge0 exponent13 w8192_power).
Qed.
Lemma root12 : root_of_unity 12 = w4096.
Proof. exact (@root_pow rZ 7 _ _ 2 w8192 exponent_ge0 exponent12 w8192_power). Qed.
Lemma root7 : root_of_unity 7 = w8192 ^+ 64.
Proof. exact (@root_pow rZ 7 _ _ 64 w8192 exponent_ge0 exponent7 w8192_power). Qed.

Local Opaque w8192 w4096 root_of_unity.

Lemma roots13 : compute_roots_of_unity 13 = compute_powers w8192 (2 ^ 13).
Proof. by rewrite /compute_roots_of_unity root13. Qed.
Lemma roots12 : compute_roots_of_unity 12 = compute_powers w4096 (2 ^ 12).
Proof. by rewrite /compute_roots_of_unity root12. Qed.
Lemma roots7 : compute_roots_of_unity 7 = compute_powers (w8192 ^+ (2 ^ 6)) (2 ^ 7).
Proof. by rewrite /compute_roots_of_unity root7. Qed.

(** ** Cosets *)
Section Generic.
Variable F : fieldType.

Lemma brp_powers (w : F) k :
  bit_reversal_permutation 0 k (compute_powers w (2 ^ k)) = mkseq (fun i => w ^+ bitrev k i) (2 ^ k).
Proof. by apply: eq_mkseq => i; rewrite nth_mkseq // bitrev_lt. Qed.

Lemma slice_mkseq (T : Type) (f : nat -> T) a n N : (a + n <= N)%N ->
  take n (drop a (mkseq f N)) = mkseq (fun j => f (a + j)%N) n.
Proof.
move=> H; rewrite /mkseq -map_drop -map_take drop_iota take_iota add0n.
have -> : minn n (N - a) = n by move: H; clear; lia.
have := iotaDl a 0 n; rewrite addn0 => ->; by rewrite -map_comp.
Qed.

Lemma slice_bound l c k : (k < 2 ^ c)%N -> (2 ^ l * k + 2 ^ l <= 2 ^ (l + c))%N.
Proof. by move=> H; rewrite expnD addnC -mulnS leq_pmul2l ?expn_gt0. Qed.

Lemma coset_slice (w : F) l c k : (k < 2 ^ c)%N ->
  take (2 ^ l) (drop (2 ^ l * k) (bit_reversal_permutation 0 (l + c) (compute_powers w (2 ^ (l + c))))) =
  mkseq (cell_point w (l + c) l k) (2 ^ l).
Proof.
move=> Hk; rewrite brp_powers slice_mkseq ?slice_bound //; apply: eq_mkseq => j.
by rewrite /cell_point mulnC.
Qed.

Lemma coset_first (w : F) l c k : (k < 2 ^ c)%N ->
  (bit_reversal_permutation 0 (l + c) (compute_powers w (2 ^ (l + c))))`_(2 ^ l * k) =
  w ^+ bitrev c k.
Proof.
move=> Hk; rewrite brp_powers nth_mkseq; last first.
  by apply: leq_trans (slice_bound l Hk); rewrite -addn1 leq_add2l expn_gt0.
have l0 : (0 < 2 ^ l)%N by rewrite expn_gt0.
by rewrite mulnC -[(k * _)%N]addn0 [(l + c)%N]addnC (@bitrev_split c l k 0 l0) bitrev0.
Qed.
End Generic.

Lemma coset_for_cellE k : (k < 128)%N -> coset_for_cell k = mkseq (cell_point w8192 13 6 k) 64.
Proof. by move=> Hk; rewrite /coset_for_cell roots13; exact: (@coset_slice Fr w8192 6 7 k Hk). Qed.

Lemma coset_shiftE k : (k < 128)%N -> coset_shift_for_cell k = coset_point k.
Proof. by move=> Hk; rewrite /coset_shift_for_cell roots13; exact: (@coset_first Fr w8192 6 7 k Hk). Qed.

Lemma size_coset k : (k < 128)%N -> size (coset_for_cell k) = 64%N.
Proof. by move=> Hk; rewrite coset_for_cellE // size_mkseq. Qed.

Lemma coset_uniq k : (k < 128)%N -> uniq (coset_for_cell k).
Proof.
move=> Hk; rewrite coset_for_cellE //; have := @cell_points_uniq _ _ fr_ok 13 6 7 erefl Had13 k.
by rewrite omega13.
Qed.

Lemma coset_prod k : (k < 128)%N ->
  \prod_(z <- coset_for_cell k) ('X - z%:P) = coset_vanishing k.
Proof.
move=> Hk; rewrite coset_for_cellE //; have := @cell_vanishing _ _ fr_ok 13 6 7 erefl Had13 k.
by rewrite omega13.
Qed.

(** ** Failing maps *)
Lemma map_assert_some (A B : Type) (f : A -> option B) (g : A -> B) (l : seq A) (P : A -> Prop) :
  (forall x, P x -> f x = Some (g x)) -> (forall i x0, (i < size l)%N -> P (nth x0 l i)) ->
  map_assert f l = Some (map g l).
Proof.
move=> Hf; elim: l => [|x l IH] //= H; rewrite Hf ?IH //; first by move=> i x0; exact: (H i.+1).
exact: (H 0%N x).
Qed.

Lemma map_assert_nth (A B : Type) (x0 : A) (y0 : B) (f : A -> option B) (l : seq A) ys :
  map_assert f l = Some ys -> size ys = size l /\
  forall i, (i < size l)%N -> f (nth x0 l i) = Some (nth y0 ys i).
Proof.
elim: l ys => [|x l IH] ys /=; first by case=> <-.
case E: (f x) => [y|] //; case E2: (map_assert f l) => [ys'|] //= [<-] /=.
have [S H] := IH _ E2; rewrite S; split=> // -[|i] //=; exact: H.
Qed.

Lemma map_assert_total (A B : Type) (x0 : A) (f : A -> option B) (l : seq A) :
  (forall i, (i < size l)%N -> isSome (f (nth x0 l i))) -> exists ys, map_assert f l = Some ys.
Proof.
elim: l => [|x l IH] H /=; first by eexists.
have := H 0%N isT; rewrite /=; case: (f x) => // y _.
have [|ys ->] := IH; first by move=> i; exact: (H i.+1).
by eexists.
Qed.

Lemma map_assert_none (A B : Type) (x0 : A) (f : A -> option B) (l : seq A) i :
  (i < size l)%N -> f (nth x0 l i) = None -> map_assert f l = None.
Proof.
elim: l i => [|x l IH] [|i] //=; first by move=> _ ->.
by move=> Hi H; case: (f x) => // y; rewrite (IH i).
Qed.

(** ** Field elements *)
Lemma bytes_to_bls_fieldE b : bytes_to_bls_field b = scalar_from_bytes_be b.
Proof. by []. Qed.

Lemma bytes_to_field_elements_some n bytes (f : nat -> Fr) :
  (forall i, (i < n)%N -> fr_be (f i) = chunk bytes i) ->
  bytes_to_field_elements n bytes = Some (mkseq f n).
Proof.
move=> H; apply: (@map_assert_some _ _ _ _ _ (fun i => (i < n)%N)) => [i Hi|i x0].
  rewrite bytes_to_bls_fieldE -/(chunk bytes i) -H //.
  by apply/scalar_from_some; rewrite ?size_be_bytes.
by rewrite size_iota => Hi; rewrite nth_iota.
Qed.

Lemma bytes_to_field_elements_none n bytes i : (i < n)%N -> ~~ canonical (chunk bytes i) ->
  bytes_to_field_elements n bytes = None.
Proof.
move=> Hi; rewrite -canonicalE => H; apply: (@map_assert_none _ _ 0%N _ _ i); first by rewrite size_iota.
by rewrite nth_iota // bytes_to_bls_fieldE add0n -/(chunk bytes i); case: scalar_from_bytes_be H.
Qed.

Lemma chunk_size bytes n i : size bytes = (n * 32)%N -> (i < n)%N -> size (chunk bytes i) = 32%N.
Proof.
move=> Sb Hi; rewrite /chunk size_takel // size_drop Sb -mulnBl -{1}[32%N]mul1n leq_pmul2r // subn_gt0 //.
Qed.

Lemma bytes_to_field_elements_total n bytes : size bytes = (n * 32)%N ->
  (forall i, (i < n)%N -> canonical (chunk bytes i)) ->
  exists2 xs, bytes_to_field_elements n bytes = Some xs &
    size xs = n /\ forall i, (i < n)%N -> fr_be xs`_i = chunk bytes i.
Proof.
move=> Sb H.
have [|xs E] := @map_assert_total _ _ 0%N (fun i => bytes_to_bls_field (chunk bytes i)) (iota 0 n).
  by move=> i; rewrite size_iota => Hi; rewrite nth_iota // bytes_to_bls_fieldE canonicalE add0n; exact: H.
exists xs => //; have [Sx Hx] := @map_assert_nth _ _ 0%N 0 _ _ _ E.
rewrite size_iota in Sx Hx; split=> // i Hi.
have := Hx i Hi; rewrite nth_iota // add0n bytes_to_bls_fieldE => /scalar_from_some H1.
by apply: H1; exact: chunk_size Sb Hi.
Qed.

(** ** From values to coefficients *)
Section Values.
Variable F : fieldType.

Lemma brp_values (T : Type) (x0 : T) k (f : nat -> T) :
  bit_reversal_permutation x0 k (mkseq (fun i => f (bitrev k i)) (2 ^ k)) = mkseq f (2 ^ k).
Proof.
apply: (@eq_from_nth _ x0); rewrite ?size_mkseq // => i Hi.
by rewrite !nth_mkseq ?bitrev_lt // bitrev_inv.
Qed.

Lemma eval_to_coeff k (w : F) (f : {poly F}) : w ^+ (2 ^ k) = 1 -> ((0 < k)%N -> w ^+ (2 ^ k.-1) = -1) ->
  2%:R != 0 :> F -> (size f <= 2 ^ k)%N ->
  ifft_field k (bit_reversal_permutation 0 k (mkseq (fun i => f.[w ^+ bitrev k i]) (2 ^ k)))
    (compute_powers w (2 ^ k)) = mkseq (fun i => f`_i) (2 ^ k).
Proof.
by move=> w1 w2 two Sf; rewrite (@brp_values _ 0 k (fun i => f.[w ^+ i])) ifft_field_values.
Qed.

Lemma map_mkseq_in (S T : Type) (g : S -> T) (f : nat -> S) (h : nat -> T) n :
  (forall i, (i < n)%N -> g (f i) = h i) -> map g (mkseq f n) = mkseq h n.
Proof.
move=> H; rewrite /mkseq -map_comp; apply/eq_in_map => i.
by rewrite mem_iota add0n => /andP[_]; exact: H.
Qed.

(** ** Parts of the batch verification *)
Lemma weights_fold (V : lmodType F) (cs : seq V) (ci : nat -> nat) (rp : nat -> F) (s : seq nat) (w : seq F) :
  size w = size cs -> all (fun k => ci k < size cs)%N s ->
  lincomb cs (foldl (fun w k => set_nth 0 w (ci k) (w`_(ci k) + rp k)) w s) =
  lincomb cs w + \sum_(k <- s) rp k *: cs`_(ci k).
Proof.
elim: s w => [|k s IH] w Sw /=; first by rewrite big_nil addr0.
case/andP=> Hk Hs; rewrite IH ?size_set_nth ?Sw ?(maxn_idPr Hk) // big_cons addrA; congr (_ + _).
rewrite /lincomb size_set_nth Sw (maxn_idPr Hk) minnn.
rewrite (eq_bigr (fun i : 'I_(size cs) => w`_i *: cs`_i + (if val i == ci k then rp k *: cs`_(ci k) else 0))).
  by rewrite big_split /=; congr (_ + _); rewrite -big_mkcond (big_pred1 (Ordinal Hk)).
move=> i _; rewrite nth_set_nth /=; case: eqP => [->|_]; last by rewrite addr0.
by rewrite scalerDl.
Qed.

Lemma lincomb_zeros (V : lmodType F) (cs : seq V) m : lincomb cs (nseq m 0) = 0.
Proof. by rewrite /lincomb big1 // => i _; rewrite nth_nseq if_same scale0r. Qed.

Lemma Poly_nseq0 m : Poly (nseq m (0 : F)) = 0.
Proof. by apply/polyP => i; rewrite coef_Poly coef0 nth_nseq if_same. Qed.

Lemma Poly_single (c : F) : Poly [:: c] = c%:P.
Proof. by rewrite /= cons_poly_def mul0r add0r. Qed.

Lemma interp_fold n (rp : nat -> F) (ip : nat -> seq F) (s : seq nat) (p : seq F) :
  size p = n -> (0 < n)%N -> {in s, forall k, size (ip k) = n} ->
  let q := foldl (fun p k => add_polynomialcoeff p (multiply_polynomialcoeff [:: rp k] (ip k))) p s in
  size q = n /\ Poly q = Poly p + \sum_(k <- s) rp k *: Poly (ip k).
Proof.
move=> Sp n0; elim: s p Sp => [|k s IH] p Sp H /=; first by rewrite big_nil addr0.
have Sk : size (ip k) = n by apply: H; rewrite mem_head.
have [||S P] := IH (add_polynomialcoeff p (multiply_polynomialcoeff [:: rp k] (ip k))).
- rewrite size_add_polynomialcoeff size_multiply_polynomialcoeff ?Sk //= add0n Sp maxnn //.
- by move=> i Hi; apply: H; rewrite inE Hi orbT.
split; first exact: S.
by rewrite P Poly_add_polynomialcoeff Poly_multiply_polynomialcoeff Poly_single mul_polyC big_cons addrA.
Qed.

Lemma sum_iota (V : zmodType) (f : nat -> V) n : \sum_(k <- iota 0 n) f k = \sum_(k < n) f k.
Proof. by rewrite -(big_mkord xpredT f) /index_iota subn0. Qed.
End Values.

(** [get_deduplicated_commitments]: keep the elements that are their own first occurrence. *)
Lemma deduplicatedE (T : eqType) (x0 : T) (s : seq T) :
  [seq nth x0 s i | i <- iota 0 (size s) & index (nth x0 s i) s == i] = distinct s.
Proof.
elim/last_ind: s => [|s x IH] //.
rewrite size_rcons -addn1 iotaD filter_cat map_cat add0n.
have -> : [seq nth x0 (rcons s x) i | i <- iota 0 (size s) & index (nth x0 (rcons s x) i) (rcons s x) == i] =
    distinct s.
  rewrite -IH (@eq_in_filter _ _ (fun i => index (nth x0 s i) s == i)).
    apply/eq_in_map => i; rewrite mem_filter mem_iota => /and3P[_ _ Hi].
    by rewrite nth_rcons Hi.
  move=> i; rewrite mem_iota add0n => /andP[_ Hi].
  by rewrite nth_rcons Hi -cats1 index_cat mem_nth.
rewrite /= nth_rcons ltnn eqxx -cats1 index_cat.
have -> : distinct (s ++ [:: x]) = if x \in s then distinct s else rcons (distinct s) x.
  by rewrite cats1; exact: first_occurrences_rcons.
case: (boolP (x \in s)) => Hx /=.
  have -> : (index x s == size s) = false by apply/negbTE; rewrite neq_ltn index_mem Hx.
  by rewrite /= cats0.
by rewrite eqxx /= addn0 eqxx /= nth_cat ltnn subnn /= cats1.
Qed.

(** ** Missing cells *)
Lemma size_missing m (idx : seq nat) : uniq idx -> all (fun i => (i < m)%N) idx ->
  size [seq i <- iota 0 m | i \notin idx] = (m - size idx)%N /\ (size idx <= m)%N.
Proof.
move=> U A; have H := count_predC (fun i => i \in idx) (iota 0 m).
have E : count (fun i => i \in idx) (iota 0 m) = size idx.
  rewrite -size_filter; apply/perm_size/uniq_perm => //; first exact: filter_uniq (iota_uniq _ _).
  move=> x; rewrite mem_filter mem_iota add0n leq0n; case Hx: (x \in idx) => //=.
  exact: (allP A x Hx).
rewrite size_iota E in H; rewrite size_filter.
have {}H : (size idx + count (fun i => i \notin idx) (iota 0 m) = m)%N := H.
move: H; set a := count _ _; set b := size idx; clear; lia.
Qed.

Lemma recover_bound l a : (a <= 2 ^ l)%N -> (2 ^ (l + l) + a * 2 ^ l <= 2 ^ (l + l.+1))%N.
Proof. by move=> H; rewrite addnS expnS mul2n -addnn leq_add2l expnD leq_pmul2r ?expn_gt0. Qed.

Lemma recover_generic (F : fieldType) l c n (w g : F) (idx : seq nat) (evals : seq (seq F)) (f : {poly F}) :
  w ^+ (2 ^ (l + c)) = 1 -> ((0 < l + c)%N -> w ^+ (2 ^ (l + c).-1) = -1) -> 2%:R != 0 :> F ->
  g != 0 -> g ^+ (2 ^ (l + c)) != 1 ->
  size idx = size evals -> uniq idx -> all (fun i => (i < 2 ^ c)%N) idx -> (0 < size idx)%N ->
  (n + (2 ^ c - size idx) * 2 ^ l <= 2 ^ (l + c))%N -> (size f <= n)%N ->
  (forall t j, (t < size idx)%N -> (j < 2 ^ l)%N ->
     f.[w ^+ bitrev (l + c) (nth 0%N idx t * 2 ^ l + j)] = (nth [::] evals t)`_j) ->
  recover_polynomialcoeff g l c n (compute_powers w (2 ^ (l + c)))
    (compute_powers (w ^+ (2 ^ l)) (2 ^ c)) idx evals = mkseq (fun i => f`_i) n.
Proof.
move=> w1 w2 two g0 gN Sz U A i0 Hn Sf Hf; have [Sm Sc] := size_missing U A.
pose ms := [seq i <- iota 0 (2 ^ c) | i \notin idx].
have Lm : (size ms < 2 ^ c)%N.
  rewrite Sm; move: i0 Sc; set a := size idx; set b := (2 ^ c)%N; clear; lia.
rewrite -Sm in Hn.
exact (@recover_core F l c n w g w1 w2 two g0 gN ms idx evals f erefl Sz U A Lm Hn Sf Hf).
Qed.

Lemma size_recover (F : fieldType) g l c n (roots rr : seq F) idx evals :
  (size (recover_polynomialcoeff g l c n roots rr idx evals) <= n)%N.
Proof. by rewrite /recover_polynomialcoeff size_take; case: ltnP. Qed.

(** ** The roots used *)
Lemma two_Fr : 2%:R != 0 :> Fr.
Proof. exact: (two_neq0 fr_ok). Qed.
Lemma w4096_half : w4096 ^+ (2 ^ 11) = -1.
Proof. rewrite -omega12; exact: (omega_half fr_ok (k := 12) isT). Qed.
Lemma pow_half_one (F : fieldType) (w : F) k : w ^+ (2 ^ k) = -1 -> w ^+ (2 ^ k.+1) = 1.
Proof. by move=> H; rewrite expnS mulnC exprM H sqrrN expr1n. Qed.

Lemma polynomial_eval_to_coeffE (f : {poly Fr}) : (size f <= 2 ^ 12)%N ->
  polynomial_eval_to_coeff (mkseq (fun i => f.[w4096 ^+ bitrev 12 i]) (2 ^ 12)) =
  mkseq (fun i => f`_i) (2 ^ 12).
Proof.
move=> Sf; rewrite /polynomial_eval_to_coeff roots12.
exact (@eval_to_coeff Fr 12 w4096 f (pow_half_one w4096_half) (fun=> w4096_half) two_Fr Sf).
Qed.

Lemma recover_polynomialcoeffE (idx : seq nat) (evals : seq (seq Fr)) (f : {poly Fr}) :
  size idx = size evals -> uniq idx -> all (fun i => (i < 128)%N) idx -> (64 <= size idx)%N ->
  (size f <= 2 ^ 12)%N ->
  (forall t j, (t < size idx)%N -> (j < 64)%N ->
     f.[w8192 ^+ bitrev 13 (nth 0%N idx t * 64 + j)] = (nth [::] evals t)`_j) ->
  recover_polynomialcoeff PRIMITIVE_ROOT_OF_UNITY 6 7 (2 ^ 12)
    (compute_roots_of_unity 13) (compute_roots_of_unity 7) idx evals = mkseq (fun i => f`_i) (2 ^ 12).
Proof.
move=> Sz U A H64 Sf Hf; rewrite roots13 roots7.
have b : (2 ^ 12 + (2 ^ 7 - size idx) * 2 ^ 6 <= 2 ^ (6 + 7))%N.
  by apply: (@recover_bound 6); rewrite leq_subLR -[(2 ^ 7)%N]/(64 + 2 ^ 6)%N leq_add2r.
exact (@recover_generic Fr 6 7 (2 ^ 12) w8192 _ idx evals f (pow_half_one w8192_half)
  (fun=> w8192_half) two_Fr mulgen_neq0 gN13 Sz U A (@leq_trans 64 1 _ isT H64) b Sf Hf).
Qed.

Section Groups.
Variables (G1 G2 GT : lmodType Fr) (env : das_env G1 G2 GT) (std : env_std env).
Variables (g1s : seq G1) (g2s : seq G2).
Hypothesis S1 : size g1s = (2 ^ 12)%N.
Local Notation comp := (te_g1_to_compressed (de_te env)).
Local Notation fromc := (de_g1_from_compressed env).

Lemma map_mkseq (S T : Type) (g : S -> T) (f : nat -> S) n : map g (mkseq f n) = mkseq (fun i => g (f i)) n.
Proof. by rewrite /mkseq -map_comp. Qed.

Lemma opening_cell p k : (size p <= 2 ^ 12)%N -> (k < 128)%N ->
  compute_kzg_proof_multi_impl g1s p (coset_for_cell k) =
  (proof_of_poly g1s (Poly p) k, mkseq (fun j => (Poly p).[w8192 ^+ bitrev 13 (k * 64 + j)]) 64).
Proof.
rewrite -S1 => Sp Hk.
rewrite compute_kzg_proof_multi_implE ?coset_uniq ?size_coset // coset_prod //.
by rewrite coset_for_cellE // map_mkseq.
Qed.

Lemma ref_cells_and_proofsE p : (size p <= 2 ^ 12)%N ->
  ref_cells_and_proofs g1s comp p = output_of_poly env g1s (Poly p).
Proof.
move=> Sp; rewrite /ref_cells_and_proofs /output_of_poly; cbv zeta.
rewrite (@map_mkseq_in _ _ _ _ (cell_of_poly (Poly p))); last first.
  move=> k Hk; rewrite (opening_cell Sp Hk) [(_, _).2]/= /coset_evals_to_cell map_mkseq; exact: erefl.
rewrite (@map_mkseq_in _ _ _ _ (fun k => comp (proof_of_poly g1s (Poly p) k))); first exact: erefl.
by move=> k Hk; rewrite (opening_cell Sp Hk) [(_, _).1]/=.
Qed.

Lemma ref_cells_coef (f : {poly Fr}) : (size f <= 2 ^ 12)%N ->
  ref_cells_and_proofs g1s comp (mkseq (fun i => f`_i) (2 ^ 12)) = output_of_poly env g1s f.
Proof.
move=> Sf; rewrite ref_cells_and_proofsE; last exact (eq_leq (size_mkseq _ _)).
by rewrite (Poly_mkseq_coef Sf).
Qed.

(** ** The pairing check *)
Lemma pairing_sum B (P C Q : nat -> G1) (x h : nat -> Fr) (H K : G2) :
  de_pair env (\sum_(t < B) x t *: P t) K
  + de_pair env (\sum_(t < B) x t *: C t - \sum_(t < B) x t *: Q t
                 + \sum_(t < B) (x t * h t) *: P t) (- H) =
  \sum_(t < B) x t *: (de_pair env (P t) (K - h t *: H) - de_pair env (C t - Q t) H).
Proof.
have bil := es_bil std.
rewrite (pairNr bil) -!sumrB -big_split /= !(pair_suml bil) -sumrB.
apply: eq_bigr => t _.
rewrite (pairBr bil) (pairZr bil) -scalerA -!scalerBr -scalerDr !(pairZl bil) -scalerBr.
congr (_ *: _); rewrite [de_pair env (_ + _ *: _) _](pairDl bil) (pairZl bil) opprD addrA.
by rewrite addrAC.
Qed.

(** The check of the reference is the weighted sum of the defects. *)
Lemma verify_implE (coms : seq G1) (ci ki : seq nat) (evals : seq (seq Fr)) (proofs : seq G1) (r : Fr)
  (I : nat -> {poly Fr}) :
  let B := size ki in
  size ci = B -> size evals = B -> size proofs = B ->
  all (fun c => (c < size coms)%N) ci -> all (fun k => (k < 128)%N) ki ->
  (forall t, (t < B)%N -> size (nth [::] evals t) = 64%N) ->
  (forall t, (t < B)%N -> (size (I t) <= 64)%N /\ forall j, (j < 64)%N ->
     (I t).[w8192 ^+ bitrev 13 (nth 0%N ki t * 64 + j)] = (nth [::] evals t)`_j) ->
  verify_cell_kzg_proof_batch_impl g1s g2s (de_pair env) coms ci ki evals proofs r =
  (\sum_(t < B) r ^+ t *:
     (de_pair env proofs`_t (g2s`_64 - coset_point (nth 0%N ki t) ^+ 64 *: g2s`_0)
      - de_pair env (coms`_(nth 0%N ci t) - commit g1s (I t)) g2s`_0) == 0).
Proof.
move=> B Sc Se Sp Ac Ak Sev HI; rewrite /verify_cell_kzg_proof_batch_impl; cbv zeta.
rewrite -/B; congr (_ == 0); rewrite /compute_powers.
set rp := mkseq _ B.
have Hrp t : (t < B)%N -> rp`_t = r ^+ t by move=> Ht; rewrite nth_mkseq.
have Kt t : (t < B)%N -> (nth 0%N ki t < 128)%N by move=> Ht; exact: (all_nthP 0%N Ak).
rewrite (lincomb_full _ Sp).
rewrite weights_fold ?size_nseq //; last first.
  by apply/allP => t; rewrite mem_iota add0n => /andP[_ Ht]; apply: (all_nthP 0%N Ac); rewrite Sc.
rewrite lincomb_zeros add0r sum_iota.
have Sip t : (t < B)%N -> size (interpolate_polynomialcoeff (coset_for_cell (nth 0%N ki t)) (nth [::] evals t)) = 64%N.
  move=> Ht; have Hk := Kt t Ht.
  have [-> _] := @interpolate_polynomialcoeffE Fr (coset_for_cell (nth 0%N ki t)) (nth [::] evals t)
     (coset_uniq Hk) (etrans (Sev t Ht) (esym (size_coset Hk))).
  by rewrite size_coset.
have [||Sq Pq] := @interp_fold Fr 64 (fun t => rp`_t)
   (fun t => interpolate_polynomialcoeff (coset_for_cell (nth 0%N ki t)) (nth [::] evals t))
   (iota 0 B) (nseq 64 0) (size_nseq _ _).
- by [].
- by move=> t; rewrite mem_iota add0n => /andP[_ Ht]; exact: Sip.
move: Sq Pq; cbv zeta; set q := foldl _ _ (iota 0 B) => Sq Pq.
have -> : lincomb (take 64 g1s) q = \sum_(t < B) rp`_t *: commit g1s (I t).
  rewrite -Sq lincomb_commit; last by rewrite Sq S1.
  rewrite Pq Poly_nseq0 add0r sum_iota commit_sum; apply: eq_bigr => -[t Ht] _ /=.
  rewrite commitZ; congr (_ *: commit _ _).
  have Hk := Kt t Ht; have [SI EI] := HI t Ht.
  apply: (@interpolate_unique Fr (coset_for_cell (nth 0%N ki t)) (nth [::] evals t)
     (coset_uniq Hk) (etrans (Sev t Ht) (esym (size_coset Hk)))); first by rewrite size_coset.
  move=> j; rewrite size_coset // => Hj.
  by rewrite coset_for_cellE // nth_mkseq //; exact: EI.
rewrite lincomb_full //.
rewrite (eq_bigr (fun t : 'I_B => rp`_t *: proofs`_t)); last by move=> -[t Ht] _; rewrite /= Hrp.
have -> : \sum_(t < B) (rp`_t * coset_shift_for_cell (nth 0%N ki t) ^+ 64) *: proofs`_t =
    \sum_(t < B) (rp`_t * coset_point (nth 0%N ki t) ^+ 64) *: proofs`_t.
  by apply: eq_bigr => -[t Ht] _; rewrite [nat_of_ord _]/= coset_shiftE ?Kt.
rewrite (@pairing_sum B (fun t => proofs`_t) (fun t => coms`_(nth 0%N ci t)) (fun t => commit g1s (I t))
  (fun t => rp`_t) (fun t => coset_point (nth 0%N ki t) ^+ 64)).
by apply: eq_bigr => -[t Ht] _; rewrite /= Hrp.
Qed.
End Groups.

(** ** The Lagrange form of the setup *)
Section Lagrange.
Variables (F : fieldType) (V : lmodType F) (k : nat) (w : F).
Hypothesis w1 : w ^+ (2 ^ k) = 1.
Hypothesis w2 : (0 < k)%N -> w ^+ (2 ^ k.-1) = -1.
Hypothesis two : 2%:R != 0 :> F.

Lemma powers_uniq : uniq (compute_powers w (2 ^ k)).
Proof.
apply/(uniqP 0) => i j; rewrite !inE size_mkseq => Hi Hj; rewrite !nth_mkseq // => E.
have w0 : w != 0.
  by apply/eqP => E0; move/eqP: w1; rewrite E0 expr0n expn_eq0 /= eq_sym oner_eq0.
wlog Hij : i j Hi Hj E / (i <= j)%N.
  by move=> H; case: (leqP i j) => [|/ltnW] Hij; [|symmetry]; apply: H.
have {}E : w ^+ (j - i) = 1.
  by apply: (mulIf (expf_neq0 i w0)); rewrite -exprD subnK // mul1r.
apply/eqP; rewrite eqn_leq Hij leqNgt; apply/negP => Hlt.
have : w ^+ (j - i) != 1 by apply: (@expf_order_lt _ _ k) => //; move: Hj Hlt; clear; move: (2 ^ k)%N => m; lia.
by rewrite E eqxx.
Qed.

Lemma values_unique (f g : {poly F}) : (size f <= 2 ^ k)%N -> (size g <= 2 ^ k)%N ->
  (forall i, (i < 2 ^ k)%N -> f.[w ^+ i] = g.[w ^+ i]) -> f = g.
Proof.
move=> Sf Sg H; rewrite -(Poly_mkseq_coef Sf) -(Poly_mkseq_coef Sg).
rewrite -!(ifft_field_values w1 w2 two) //; congr (Poly (ifft_field _ _ _)).
apply: (@eq_from_nth _ 0); rewrite !size_mkseq // => i Hi; rewrite !nth_mkseq //; exact: H.
Qed.

Lemma basis_exists i : (i < 2 ^ k)%N -> exists2 f : {poly F}, (size f <= 2 ^ k)%N &
  forall j, (j < 2 ^ k)%N -> f.[w ^+ j] = (i == j)%:R.
Proof.
move=> Hi; pose ys := mkseq (fun j => (i == j)%:R : F) (2 ^ k).
have Sy : size ys = size (compute_powers w (2 ^ k)) by rewrite !size_mkseq.
have [S H] := interpolate_polynomialcoeffE powers_uniq Sy.
exists (Poly (interpolate_polynomialcoeff (compute_powers w (2 ^ k)) ys)).
  apply: leq_trans (size_Poly _) _; rewrite S size_mkseq geq_max leqnn expn_gt0 //.
move=> j Hj; have := H j; rewrite size_mkseq => /(_ Hj).
by rewrite !nth_mkseq.
Qed.

Lemma bitrev_reindex (f : nat -> V) : \sum_(i < 2 ^ k) f (bitrev k i) = \sum_(i < 2 ^ k) f i.
Proof.
pose h (i : 'I_(2 ^ k)) : 'I_(2 ^ k) := Ordinal (bitrev_lt k i).
have hi : injective h.
  move=> i j /(congr1 val) /= E; apply: val_inj => /=.
  by rewrite -[RHS](@bitrev_inv k) // -E bitrev_inv.
by rewrite [RHS](reindex_inj hi).
Qed.

Lemma lagrange_commit (g1s lag : seq V) (f : {poly F}) : size lag = (2 ^ k)%N ->
  (forall i (g : {poly F}), (i < 2 ^ k)%N -> (size g <= 2 ^ k)%N ->
     (forall j, (j < 2 ^ k)%N -> g.[w ^+ j] = (i == j)%:R) -> lag`_i = commit g1s g) ->
  (size f <= 2 ^ k)%N ->
  lincomb (bit_reversal_permutation 0 k lag) (mkseq (fun i => f.[w ^+ bitrev k i]) (2 ^ k)) =
  commit g1s f.
Proof.
move=> Sl Hl Sf; rewrite lincomb_full ?size_mkseq //.
rewrite (eq_bigr (fun i : 'I_(2 ^ k) => f.[w ^+ bitrev k i] *: lag`_(bitrev k i))); last first.
  by move=> i _; rewrite nth_mkseq.
rewrite (bitrev_reindex (fun i => f.[w ^+ i] *: lag`_i)).
have [b Hb] := @finite_choice {poly F} 0 (fun i g => (size g <= 2 ^ k)%N /\
   forall j, (j < 2 ^ k)%N -> g.[w ^+ j] = (i == j)%:R) (2 ^ k)
   (fun i Hi => let: ex_intro2 g A B := basis_exists Hi in ex_intro _ g (conj A B)).
have Ef : f = \sum_(i < 2 ^ k) f.[w ^+ i] *: b i.
  apply: values_unique => //.
    apply: leq_trans (size_sum _ _ _) _; apply/bigmax_leqP => i _.
    apply: leq_trans (size_scale_leq _ _) _; by case: (Hb i (ltn_ord i)).
  move=> j Hj; rewrite horner_sum (bigD1 (Ordinal Hj)) //= big1 ?addr0.
    by rewrite hornerZ (Hb j Hj).2 // eqxx mulr1.
  move=> i Hne; rewrite hornerZ (Hb i (ltn_ord i)).2 //.
  have -> : (val i == j) = false by apply/negbTE; move: Hne; rewrite -val_eqE.
  by rewrite mulr0.
rewrite [in RHS]Ef commit_sum; apply: eq_bigr => i _; rewrite commitZ.
by have [Sb Eb] := Hb i (ltn_ord i); rewrite -(Hl _ _ (ltn_ord i) Sb Eb).
Qed.
End Lagrange.
