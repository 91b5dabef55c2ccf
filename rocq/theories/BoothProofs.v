(** [get_booth_index] computes the signed digits. *)

From Coq Require Import NArith ZArith Init.Byte Strings.Byte Lia.
From mathcomp Require Import ssreflect ssrfun ssrbool eqtype ssrnat seq div.
From mathcomp Require Import zify_ssreflect.
From Verif Require Import Base FixedBaseMSM SpecMSM.

Set Implicit Arguments.
Unset Strict Implicit.
Unset Printing Implicit Defensive.

Local Open Scope Z_scope.

Definition le_val (bs : seq byte) : Z := Z.of_N (le_to_N bs).

Lemma le_val_nil : le_val [::] = 0. Proof. by []. Qed.
Lemma le_val_cons b bs : le_val (b :: bs) = Z.of_N (Byte.to_N b) + 256 * le_val bs.
Proof.
rewrite /le_val -[le_to_N (b :: bs)]/(Byte.to_N b + 256 * le_to_N bs)%num.
by rewrite N2Z.inj_add N2Z.inj_mul.
Qed.
Lemma byte_lt b : 0 <= Z.of_N (Byte.to_N b) < 256.
Proof. by have := Byte.to_N_bounded b; lia. Qed.
Lemma le_val_ge0 bs : 0 <= le_val bs. Proof. exact: N2Z.is_nonneg. Qed.

Lemma le_val_drop k bs : le_val (drop k bs) = le_val bs / 2 ^ (8 * Z.of_nat k).
Proof.
elim: k bs => [|k IH] bs.
  by rewrite drop0 Z.mul_0_r Z.pow_0_r Z.div_1_r.
have E : 2 ^ (8 * Z.of_nat k.+1) = 256 * 2 ^ (8 * Z.of_nat k).
  by rewrite -[256]/(2 ^ 8) -Z.pow_add_r; [congr (2 ^ _)| |]; lia.
have Hp : 0 < 2 ^ (8 * Z.of_nat k) by apply: Z.pow_pos_nonneg; lia.
case: bs => [|b bs]; first by rewrite le_val_nil Z.div_0_l //; lia.
rewrite -[drop _ _]/(drop k bs) IH le_val_cons E -Z.div_div; [|lia|lia].
congr (_ / _); rewrite Z.add_comm Z.mul_comm Z.div_add_l; last lia.
by rewrite (Z.div_small _ _ (byte_lt b)); lia.
Qed.

Lemma le_val_take k bs : le_val (take k bs) = le_val bs mod 2 ^ (8 * Z.of_nat k).
Proof.
elim: k bs => [|k IH] bs.
  by rewrite take0 Z.mul_0_r Z.pow_0_r Z.mod_1_r.
have E : 2 ^ (8 * Z.of_nat k.+1) = 256 * 2 ^ (8 * Z.of_nat k).
  by rewrite -[256]/(2 ^ 8) -Z.pow_add_r; [congr (2 ^ _)| |]; lia.
have Hp : 0 < 2 ^ (8 * Z.of_nat k) by apply: Z.pow_pos_nonneg; lia.
case: bs => [|b bs]; first by rewrite le_val_nil Z.mod_0_l //; lia.
rewrite -[take _ _]/(b :: take k bs) !le_val_cons IH E.
have Hb := byte_lt b.
rewrite [RHS]Z.rem_mul_r; [|lia|lia].
have -> : (Z.of_N (to_N b) + 256 * le_val bs) mod 256 = Z.of_N (to_N b).
  by rewrite Z.add_comm Z.add_comm Z.mul_comm Z_mod_plus_full Z.mod_small.
have -> // : (Z.of_N (to_N b) + 256 * le_val bs) / 256 = le_val bs.
by rewrite Z.add_comm Z.mul_comm Z.div_add_l; last lia; rewrite (Z.div_small _ _ Hb); lia.
Qed.

Lemma mod_mod_mul a b c : 0 < b -> 0 < c -> (a mod (b * c)) mod b = a mod b.
Proof.
move=> Hb Hc; rewrite Z.rem_mul_r; [|lia|lia].
by rewrite (Z.mul_comm b) Z_mod_plus_full Z.mod_mod //; lia.
Qed.

Lemma mod_mul_div a b c : 0 < b -> 0 < c -> (a mod (b * c)) / b = (a / b) mod c.
Proof.
move=> Hb Hc; rewrite Z.rem_mul_r; [|lia|lia].
rewrite Z.add_comm Z.mul_comm Z.div_add_l; last lia.
by rewrite (Z.div_small (a mod b)) ?Z.add_0_r //; apply: Z.mod_pos_bound.
Qed.

(** The digit of a window of w+1 bits. *)
Definition booth (w : Z) (v : Z) : Z := (v + 1) / 2 - (if v <? 2 ^ w then 0 else 2 ^ w).

Lemma window_bits (i w : nat) (el : seq byte) : (0 < w <= 24)%N ->
  let skip_bits := ((i * w) - 1)%N in
  let skip_bytes := (skip_bits %/ 8)%N in
  let tmp := le_to_N (take 4 (drop skip_bytes el)) in
  let tmp := if i == 0%N then N.modulo (2 * tmp) (2 ^ 32) else tmp in
  let tmp := N.shiftr tmp (N.of_nat (skip_bits - skip_bytes * 8)) in
  Z.of_N (N.land tmp (2 ^ (N.of_nat w + 1) - 1)) =
  (2 * le_val el / 2 ^ Z.of_nat (i * w)) mod 2 ^ (Z.of_nat w + 1).
Proof.
move=> Hw skip_bits skip_bytes tmp0 tmp1 tmp2.
have -> : (2 ^ (N.of_nat w + 1) - 1 = N.ones (N.of_nat w + 1))%num.
  by rewrite N.ones_equiv N.sub_1_r.
rewrite N.land_ones N2Z.inj_mod N2Z.inj_pow N2Z.inj_add nat_N_Z.
rewrite /tmp2 N.shiftr_div_pow2 N2Z.inj_div N2Z.inj_pow nat_N_Z.
have E0 : Z.of_N tmp0 = (le_val el / 2 ^ (8 * Z.of_nat skip_bytes)) mod 2 ^ 32.
  by rewrite /tmp0 -/(le_val _) le_val_take le_val_drop.
have Hp k : 0 <= k -> 0 < 2 ^ k by move=> Hk; apply: Z.pow_pos_nonneg; lia.
rewrite -[Z.of_N 2]/2 -[Z.of_N 1]/1.
case: (posnP i) => [Ei|Hi].
  have Hb : skip_bytes = 0%N by rewrite /skip_bytes /skip_bits Ei mul0n sub0n div0n.
  have Hs : skip_bits = 0%N by rewrite /skip_bits Ei mul0n.
  rewrite Hb Hs /tmp1 Ei eqxx mul0n subn0 -[Z.of_nat 0]/0 Z.pow_0_r !Z.div_1_r.
  rewrite N2Z.inj_mod N2Z.inj_mul E0 Hb Z.mul_0_r Z.pow_0_r Z.div_1_r.
  rewrite -[Z.of_N 2]/2 -[Z.of_N (2 ^ 32)%num]/(2 ^ 32).
  rewrite Z.mul_mod_idemp_r; last lia.
  have -> : 2 ^ 32 = 2 ^ (Z.of_nat w + 1) * 2 ^ (31 - Z.of_nat w).
    by rewrite -Z.pow_add_r; [congr (2 ^ _)| |]; lia.
  by rewrite mod_mod_mul //; apply: Hp; lia.
have Hne : (i == 0%N) = false by lia.
have Hiw : (0 < i * w)%N by rewrite muln_gt0 Hi; lia.
rewrite /tmp1 Hne E0.
have Hsb : (skip_bytes * 8 <= skip_bits)%N by rewrite leq_trunc_div.
have Hlt : (skip_bits - skip_bytes * 8 < 8)%N by rewrite /skip_bytes; lia.
set s := (skip_bits - skip_bytes * 8)%N.
have -> : 2 ^ 32 = 2 ^ Z.of_nat s * 2 ^ (32 - Z.of_nat s).
  by rewrite -Z.pow_add_r; [congr (2 ^ _)| |]; lia.
rewrite mod_mul_div; [|apply: Hp; lia|apply: Hp; lia].
rewrite Z.div_div; [|have := Hp (8 * Z.of_nat skip_bytes); lia|apply: Hp; lia].
rewrite -Z.pow_add_r; [|lia|lia].
have -> : 8 * Z.of_nat skip_bytes + Z.of_nat s = Z.of_nat (i * w) - 1.
  by rewrite /s /skip_bits; lia.
have -> : 2 * le_val el / 2 ^ Z.of_nat (i * w) = le_val el / 2 ^ (Z.of_nat (i * w) - 1).
  have -> : 2 ^ Z.of_nat (i * w) = 2 * 2 ^ (Z.of_nat (i * w) - 1).
    by rewrite -{2}[2]Z.pow_1_r -Z.pow_add_r; [congr (2 ^ _)| |]; lia.
  by rewrite Z.div_mul_cancel_l //; have := Hp (Z.of_nat (i * w) - 1); lia.
have -> : 2 ^ (32 - Z.of_nat s) = 2 ^ (Z.of_nat w + 1) * 2 ^ (31 - Z.of_nat s - Z.of_nat w).
  by rewrite -Z.pow_add_r; [congr (2 ^ _)| |]; lia.
by rewrite mod_mod_mul //; apply: Hp; lia.
Qed.

Lemma booth_tail (w : N) (v : N) : (w < 32)%num -> (v < 2 ^ (w + 1))%num ->
  (let sign := N.eqb (N.land v (2 ^ w)) 0 in
   let tmp := N.shiftr (v + 1) 1 in
   if sign then Ret (Z.of_N tmp)
   else oassert (negb (N.eqb tmp 0))
     (Ret (- Z.of_N (N.land (2 ^ 32 - 1 - (tmp - 1)) (2 ^ w - 1)))%Z)) =
  Ret (booth (Z.of_N w) (Z.of_N v)).
Proof.
move=> Hw Hv; cbv zeta.
have Hpow : (0 < 2 ^ w)%num by have := N.pow_nonzero 2 w; lia.
have Epow : (2 ^ (w + 1) = 2 * 2 ^ w)%num by rewrite N.add_1_r N.pow_succ_r'.
have Esign : N.eqb (N.land v (2 ^ w)) 0 = (v <? 2 ^ w)%num.
  have -> : N.land v (2 ^ w) = if N.testbit v w then (2 ^ w)%num else 0%num.
    apply: N.bits_inj => k; rewrite N.land_spec N.pow2_bits_eqb.
    case: (N.eqb_spec w k) => [<-|Hk]; rewrite ?andbT ?andbF.
      by case E: (N.testbit v w); rewrite ?N.pow2_bits_true ?N.bits_0.
    by case: (N.testbit v w); rewrite ?N.bits_0 // N.pow2_bits_false //; apply/eqP; lia.
  rewrite N.testbit_eqb.
  case: (N.ltb_spec v (2 ^ w)) => H.
    by rewrite N.div_small.
  have -> : (v / 2 ^ w = 1)%num.
    by symmetry; apply: (N.div_unique _ _ _ (v - 2 ^ w)); lia.
  by rewrite /=; lia.
rewrite Esign N.shiftr_div_pow2 N.pow_1_r /booth.
have -> : (Z.of_N v <? 2 ^ Z.of_N w)%Z = (v <? 2 ^ w)%num.
  by rewrite -[2]/(Z.of_N 2) -N2Z.inj_pow /Z.ltb /N.ltb N2Z.inj_compare.
case: (N.ltb_spec v (2 ^ w)) => H.
  by rewrite N2Z.inj_div N2Z.inj_add; congr Ret; lia.
set t := ((v + 1) / 2)%num.
have Ht1 : (2 ^ w <= 2 * t)%num.
  have := N.div_mod' (v + 1) 2; have := N.mod_lt (v + 1) 2; rewrite -/t.
  by move: H; move: (2 ^ w)%num => P; lia.
have Ht2 : (t <= 2 ^ w)%num.
  have := N.div_mod' (v + 1) 2; rewrite -/t; move: Hv; rewrite Epow.
  by clearbody t; clear; move: (2 ^ w)%num ((v + 1) mod 2)%num => P m; lia.
have H32 : (2 ^ w < 2 ^ 32)%num by apply: N.pow_lt_mono_r.
have -> : (t =? 0)%num = false by lia.
rewrite /oassert.
have -> : (2 ^ w - 1 = N.ones w)%num by rewrite N.ones_equiv N.sub_1_r.
rewrite N.land_ones.
have -> : (2 ^ 32 - 1 - (t - 1) = 2 ^ 32 - t)%num by lia.
have E32 : (2 ^ 32 = 2 ^ w * 2 ^ (32 - w))%num.
  by rewrite -N.pow_add_r; congr N.pow; lia.
have Hq : (0 < 2 ^ (32 - w))%num by have := N.pow_nonzero 2 (32 - w); lia.
have -> : (Z.of_N v + 1) / 2 = Z.of_N t by rewrite /t N2Z.inj_div N2Z.inj_add.
rewrite (_ : 2 ^ Z.of_N w = Z.of_N (2 ^ w)); last by rewrite N2Z.inj_pow.
rewrite E32.
move: (2 ^ w)%num (2 ^ (32 - w))%num Hpow Hq Ht1 Ht2 {Esign Epow H32 E32 Hv H} => P Q HP HQ Ht1 Ht2.
apply: (congr1 (@Ret Z)).
case: (N.eq_dec t P) => [->|Hne].
  have -> : (P * Q - P = 0 + (Q - 1) * P)%num by nia.
  by rewrite N.mod_add; [rewrite N.mod_0_l; lia|lia].
have -> : (P * Q - t = (P - t) + (Q - 1) * P)%num by nia.
by rewrite N.mod_add; [rewrite N.mod_small; lia|lia].
Qed.

Lemma get_booth_indexE (i w : nat) (el : seq byte) : (0 < w <= 24)%N ->
  get_booth_index i w el =
  Ret (booth (Z.of_nat w) ((2 * le_val el / 2 ^ Z.of_nat (i * w)) mod 2 ^ (Z.of_nat w + 1))).
Proof.
move=> Hw; rewrite /get_booth_index.
rewrite (_ : (w.+1 < 32)%N = true); last by lia.
rewrite -(window_bits i el Hw) -(nat_N_Z w) -booth_tail //; first by lia.
have -> : (2 ^ (N.of_nat w + 1) - 1 = N.ones (N.of_nat w + 1))%num.
  by rewrite N.ones_equiv N.sub_1_r.
by rewrite N.land_ones; apply: N.mod_lt; apply: N.pow_nonzero.
Qed.

Lemma booth_nearest (w : Z) (T : Z) : 0 <= w ->
  booth w (T mod 2 ^ (w + 1)) = (T + 1) / 2 - 2 ^ w * ((T / 2 ^ w + 1) / 2).
Proof.
move=> Hw; rewrite /booth.
have HP : 0 < 2 ^ w by apply: Z.pow_pos_nonneg; lia.
rewrite Z.pow_add_r // Z.pow_1_r; move: (2 ^ w) HP => P HP.
set v := T mod (P * 2); set q := T / (P * 2).
have ET : T = (P * 2) * q + v by apply: Z.div_mod; lia.
have Hv : 0 <= v < P * 2 by apply: Z.mod_pos_bound; lia.
clearbody q v; subst T.
have -> : (P * 2 * q + v + 1) / 2 = P * q + (v + 1) / 2.
  by rewrite (_ : P * 2 * q + v + 1 = (P * q) * 2 + (v + 1)); [rewrite Z.div_add_l; lia|ring].
have -> : (P * 2 * q + v) / P = 2 * q + v / P.
  by rewrite (_ : P * 2 * q + v = (2 * q) * P + v); [rewrite Z.div_add_l; lia|ring].
case: (Z.ltb_spec v P) => H.
  rewrite (Z.div_small v P); last by lia.
  rewrite (_ : 2 * q + 0 + 1 = q * 2 + 1); last by ring.
  by rewrite Z.div_add_l // (Z.div_small 1 2) //; ring.
have -> : v / P = 1 by symmetry; apply: (Z.div_unique _ _ _ (v - P)); lia.
rewrite (_ : 2 * q + 1 + 1 = (q + 1) * 2); last by ring.
by rewrite Z.div_mul //; ring.
Qed.

Lemma get_booth_index_digit (i w : nat) (el : seq byte) : (0 < w <= 24)%N ->
  get_booth_index i w el = Ret (signed_digit w (le_val el) i).
Proof.
move=> Hw; rewrite get_booth_indexE // booth_nearest; last by lia.
rewrite /signed_digit /nearest Z.div_div; [|have := Z.pow_pos_nonneg 2 (Z.of_nat (i * w)); lia|apply: Z.pow_pos_nonneg; lia].
rewrite -Z.pow_add_r; [|lia|lia].
by rewrite (_ : Z.of_nat (i * w) + Z.of_nat w = Z.of_nat (i.+1 * w)); last by lia.
Qed.

Lemma signed_digit_bound (i w : nat) (s : Z) : (0 < w)%N -> 0 <= s ->
  Z.abs (signed_digit w s i) <= 2 ^ (Z.of_nat w - 1).
Proof.
move=> Hw Hs; rewrite /signed_digit /nearest.
have -> : 2 * s / 2 ^ Z.of_nat (i.+1 * w) = 2 * s / 2 ^ Z.of_nat (i * w) / 2 ^ Z.of_nat w.
  rewrite Z.div_div; [|have := Z.pow_pos_nonneg 2 (Z.of_nat (i * w)); lia|apply: Z.pow_pos_nonneg; lia].
  by rewrite -Z.pow_add_r; [congr (_ / 2 ^ _)| |]; lia.
rewrite -booth_nearest; last by lia.
move: (2 * s / _) => T; rewrite /booth.
have E : 2 ^ Z.of_nat w = 2 * 2 ^ (Z.of_nat w - 1).
  by rewrite -{2}[2]Z.pow_1_r -Z.pow_add_r; [congr (2 ^ _)| |]; lia.
have HP : 0 < 2 ^ (Z.of_nat w - 1) by apply: Z.pow_pos_nonneg; lia.
rewrite Z.pow_add_r; [|lia|lia]; rewrite Z.pow_1_r E; move: (2 ^ (Z.of_nat w - 1)) HP => P HP.
have Hv : 0 <= T mod (2 * P * 2) < 2 * P * 2 by apply: Z.mod_pos_bound; lia.
move: (T mod _) Hv => v Hv.
have D := Z.div_mod (v + 1) 2; have B := Z.mod_pos_bound (v + 1) 2.
by case: (Z.ltb_spec v (2 * P)) => H; lia.
Qed.

Lemma signed_digits_telescope (w n : nat) (s : Z) :
  s = foldr (fun i acc => signed_digit w s i + 2 ^ Z.of_nat w * acc) (nearest s (n * w)) (iota 0 n).
Proof.
suff H m : nearest s (m * w) = foldr (fun i acc => signed_digit w s i + 2 ^ Z.of_nat w * acc)
    (nearest s ((m + n) * w)) (iota m n).
  have {1}-> : s = nearest s (0 * w).
    by rewrite /nearest mul0n Z.pow_0_r Z.div_1_r Z.mul_comm Z.div_add_l // Z.add_0_r.
  by rewrite (H 0%N) add0n.
elim: n m => [|n IH] m; first by rewrite addn0.
rewrite [iota _ _]/= [foldr _ _ _]/= -addSnnS -IH /signed_digit; ring.
Qed.

Lemma nearest_small (s : Z) (k : nat) : 0 <= 2 * s < 2 ^ Z.of_nat k -> nearest s k = 0.
Proof. by move=> H; rewrite /nearest (Z.div_small (2 * s) _ H). Qed.
