(** Properties C32, C33: Reed-Solomon coding. *)

From mathcomp Require Import ssreflect ssrfun ssrbool eqtype ssrnat seq div prime.
From mathcomp Require Import fintype bigop ssralg poly zify_ssreflect.
From Verif Require Import Base Spec Domain DomainProofs PolyCoeffProofs ZField Fr.
From Verif Require Import ReedSolomon ReedSolomonProofs.

Set Implicit Arguments.
Unset Strict Implicit.
Unset Printing Implicit Defensive.

Import GRing.Theory.
Local Open Scope ring_scope.

Section RS.
(** A code with poly_len = 2^p, expansion factor 2^e and block size 2^b. *)
Variables (p e b : nat) (rs : reed_solomon Fr).
Hypothesis Hpe : (p + e <= 32)%N.
Hypothesis Hb : (b <= p + e)%N.
Hypothesis Hrs : rs_new fr_params (2 ^ p) (2 ^ e) (2 ^ b) = Ret rs.

Let w : Fr := d_generator (rs_evaluation_domain rs).
Let gN := mulgen_pow_neq1 Hpe.

Let rsE : rs = mkrs fr_params p e b.
Proof. by move: Hrs; rewrite (rs_new_exp fr_ok Hpe Hb mulgen_neq0) => -[]. Qed.

(** The codeword positions are the powers of [w], a primitive root of unity of order 2^(p+e). *)
Theorem C32_domain : (2 ^ (p + e)).-primitive_root w.
Proof. by rewrite /w rsE; apply: (omega_primitive fr_ok Hpe). Qed.

Theorem C32_recover (idx : seq nat) (data : seq Fr) :
  all (fun i => (i < 2 ^ b)%N) idx ->
  (size idx * 2 ^ (p + e - b) <= 2 ^ (p + e) - 2 ^ p)%N ->
  let agrees (f : {poly Fr}) :=
    forall i, (i < 2 ^ (p + e))%N -> (i %% 2 ^ b)%N \notin idx -> f.[w ^+ i] = data`_i in
  match recover_polynomial_coefficient rs data idx with
  | Ret (Ok c) => [/\ size c = (2 ^ p)%N, agrees (Poly c) &
                      forall f : {poly Fr}, (size f <= 2 ^ p)%N -> agrees f -> f = Poly c]
  | Ret (Err err) => err = PolynomialHasInvalidLength (2 ^ (p + e)) (2 ^ p) /\
                     forall f : {poly Fr}, (size f <= 2 ^ p)%N -> ~ agrees f
  | Panic => False
  end.
Proof.
move=> Hidx Hs; cbv zeta; rewrite /w rsE.
have Hs' : (size idx <= rs_max p e b)%N by rewrite /rs_max leq_divRL ?expn_gt0.
case: (rs_recover_exact fr_ok Hpe Hb mulgen_neq0 gN Hidx Hs' data) => [[c -> [Sc Ac]]|[-> H]] //.
split=> // f Sf Af.
have Sc' : (size (Poly c) <= 2 ^ p)%N by rewrite -Sc size_Poly.
exact: (rs_agrees_unique fr_ok Hpe Hb mulgen_neq0 gN Hidx Hs' Sf Sc' Af Ac).
Qed.

(** The erased positions are ignored. *)
Theorem C32_erased_ignored (idx : seq nat) (data data' : seq Fr) :
  all (fun i => (i < 2 ^ b)%N) idx ->
  (size idx * 2 ^ (p + e - b) <= 2 ^ (p + e) - 2 ^ p)%N ->
  (forall i, (i < 2 ^ (p + e))%N -> (i %% 2 ^ b)%N \notin idx -> data`_i = data'`_i) ->
  recover_polynomial_coefficient rs data idx = recover_polynomial_coefficient rs data' idx.
Proof.
move=> Hidx Hs Hd; have := C32_recover data Hidx Hs; have := C32_recover data' Hidx Hs; cbv zeta.
case: (recover_polynomial_coefficient rs data' idx) => [[c'|e']|] //;
case: (recover_polynomial_coefficient rs data idx) => [[c|e'']|] //.
- case=> Sc' Ac' Uc' [Sc Ac Uc]; congr (Ret (Ok _)); apply: Poly_inj_size; rewrite ?Sc //.
  by apply: Uc'; rewrite -?Sc ?size_Poly // => i Hi Hn; rewrite Ac ?Hd.
- case=> Sc' Ac' Uc' [_ H]; case: (H (Poly c')); first by rewrite -Sc' size_Poly.
  by move=> i Hi Hn; rewrite Ac' ?Hd.
- case=> _ H [Sc Ac Uc]; case: (H (Poly c)); first by rewrite -Sc size_Poly.
  by move=> i Hi Hn; rewrite Ac ?Hd.
- by case=> -> _ [-> _].
Qed.

Theorem C33_encode (poly : seq Fr) :
  rs_encode rs poly =
  if (size poly <= 2 ^ p)%N then Ret (Ok (mkseq (fun i => (Poly poly).[w ^+ i]) (2 ^ (p + e))))
  else Ret (Err (PolynomialHasTooManyCoefficients (size poly) (2 ^ p))).
Proof. by rewrite /w rsE (rs_encode_spec fr_ok b Hpe). Qed.

(** The first out-of-range index is reported, whatever the number of indices is. *)
Theorem C33_bad_index (data : seq Fr) (pre post : seq nat) (i : nat) :
  all (fun j => (j < 2 ^ b)%N) pre -> (2 ^ b <= i)%N ->
  recover_polynomial_coefficient rs data (pre ++ i :: post) = Ret (Err (InvalidBlockIndex i (2 ^ b))).
Proof.
move=> Hpre Hi; rewrite rsE.
rewrite /recover_polynomial_coefficient /recover_polynomial_coefficient_erasure_pattern.
rewrite /construct_vanishing_poly_from_erasure_pattern filter_cat /= Hi.
have -> : [seq j <- pre | (2 ^ b <= j)%N] = [::]; last by [].
rewrite (eq_in_filter (a2 := pred0)) ?filter_pred0 // => j Hj.
by rewrite /= leqNgt (allP Hpre).
Qed.

Theorem C33_too_many (data : seq Fr) (idx : seq nat) : all (fun i => (i < 2 ^ b)%N) idx ->
  (2 ^ (p + e) - 2 ^ p < size idx * 2 ^ (p + e - b))%N ->
  exists2 max, recover_polynomial_coefficient rs data idx = Ret (Err (TooManyBlockErasures (size idx) max)) &
   (max * 2 ^ (p + e - b) <= 2 ^ (p + e) - 2 ^ p < max.+1 * 2 ^ (p + e - b))%N.
Proof.
move=> Hidx Hs; exists (rs_max p e b); last first.
  by rewrite /rs_max leq_trunc_div ltn_ceil // expn_gt0.
rewrite rsE rs_recover_too_many //.
by rewrite /rs_max ltnNge leq_divRL ?expn_gt0 // -ltnNge.
Qed.

Theorem C33_capacity : (e <= b)%N ->
  acceptable_num_block_erasures rs = Ret (2 ^ b - 2 ^ b %/ 2 ^ e)%N.
Proof. by move=> He; rewrite rsE acceptableE (@rs_max_div _ fr_params _ _ _ Hpe Hb mulgen_neq0 gN). Qed.
End RS.

Print Assumptions C32_domain.
Print Assumptions C32_recover.
Print Assumptions C32_erased_ignored.
Print Assumptions C33_encode.
Print Assumptions C33_bad_index.
Print Assumptions C33_too_many.
Print Assumptions C33_capacity.

(** Parameters that are not powers of two are refused. *)
Theorem C33_new_checks poly_len expansion block :
  ~~ [&& is_power_of_two expansion, is_power_of_two poly_len & is_power_of_two block] ->
  rs_new fr_params poly_len expansion block = Panic.
Proof.
rewrite /rs_new; case: (is_power_of_two expansion) => //=; case: (is_power_of_two poly_len) => //=.
by case: (is_power_of_two block).
Qed.
Print Assumptions C33_new_checks.

(** A block size larger than the codeword is not refused, but every recovery with in-range
    indices then divides by zero. *)
Theorem C33_block_too_large p e b rs idx data : (p + e < b)%N -> (b <= 32)%N ->
  rs_new fr_params (2 ^ p) (2 ^ e) (2 ^ b) = Ret rs -> all (fun i => (i < 2 ^ b)%N) idx ->
  recover_polynomial_coefficient rs data idx = Panic.
Proof.
move=> Hlt Hb; rewrite /rs_new !is_power_of_two_exp /oassert -expnD.
have Hpe : (p + e <= 32)%N := leq_trans (ltnW Hlt) Hb.
rewrite (domain_new_exp fr_ok Hpe) obind_Ret (domain_new_exp fr_ok Hb) obind_Ret.
have -> : coset_fft_new (fp_mulgen fr_params) =
          Ret (MkCosetFFT (fp_mulgen fr_params) (fp_mulgen fr_params)^-1).
  by rewrite /coset_fft_new /invert_expect (negbTE mulgen_neq0).
case=> <- Hidx.
rewrite /recover_polynomial_coefficient /recover_polynomial_coefficient_erasure_pattern.
rewrite /construct_vanishing_poly_from_erasure_pattern [rs_block_size _]/=.
have -> : [seq i <- idx | (2 ^ b <= i)%N] = [::].
  rewrite (eq_in_filter (a2 := pred0)) ?filter_pred0 // => i Hi.
  by rewrite /= leqNgt (allP Hidx).
rewrite /acceptable_num_block_erasures /acceptable_num_random_erasures /=.
by rewrite leq_pmulr ?expn_gt0 //= divn_small ?ltn_exp2l.
Qed.
Print Assumptions C33_block_too_large.
