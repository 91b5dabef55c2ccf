(** The prime field Z/p with canonical integer representatives, as a mathcomp field.

    This is the model of [blstrs::Scalar] (used throughout /repo/cryptography and
    /repo/eip7594 as [bls12_381::Scalar], cryptography/bls12_381/src/lib.rs lines 1-24)
    for p = r, and of toy fields for the computed examples. *)

From Coq Require Import ZArith Znumtheory Lia.
From mathcomp Require Import ssreflect ssrfun ssrbool eqtype ssrnat seq choice ssralg.
From mathcomp Require Import ssrZ.

Set Implicit Arguments.
Unset Strict Implicit.
Unset Printing Implicit Defensive.

(** A prime number together with its primality proof. *)
Record primeZ := PrimeZ { pz :> Z; pz_prime : prime pz }.

Section Carrier.
Variable p : primeZ.
Local Open Scope Z_scope.

Lemma pz_gt1 : 1 < p.
Proof. by case: (pz_prime p). Qed.
Lemma pz_gt0 : 0 < p.
Proof. have := pz_gt1; lia. Qed.
Lemma pz_neq0 : (p : Z) <> 0.
Proof. have := pz_gt1; lia. Qed.

Definition in_range (z : Z) : bool := Z.leb 0 z && Z.ltb z p.

Record Zp := MkZp { zval : Z; zok : in_range zval }.

Canonical Zp_subType := [subType for zval].
Definition Zp_eqMixin := [eqMixin of Zp by <:].
Canonical Zp_eqType := EqType Zp Zp_eqMixin.
Definition Zp_choiceMixin := [choiceMixin of Zp by <:].
Canonical Zp_choiceType := ChoiceType Zp Zp_choiceMixin.

Lemma zval_range (x : Zp) : 0 <= zval x < p.
Proof. case: x => z /= /andP[/Z.leb_le ? /Z.ltb_lt ?]; lia. Qed.

Lemma mod_in_range z : in_range (z mod p).
Proof.
have H := Z.mod_pos_bound z p pz_gt0.
apply/andP; split; [apply/Z.leb_le|apply/Z.ltb_lt]; lia.
Qed.

(** Reduction of an integer modulo p. *)
Definition of_Z (z : Z) : Zp := MkZp (mod_in_range z).

Lemma zval_of_Z z : zval (of_Z z) = z mod p.
Proof. by []. Qed.

Lemma zval_inj : injective zval.
Proof. exact: val_inj. Qed.

Lemma of_zval x : of_Z (zval x) = x.
Proof. by apply: zval_inj; rewrite /= Z.mod_small //; apply: zval_range. Qed.

Definition zadd (x y : Zp) := of_Z (zval x + zval y).
Definition zopp (x : Zp) := of_Z (- zval x).
Definition zmul (x y : Zp) := of_Z (zval x * zval y).

(** Extended Euclid, keeping [s * x = r (mod p)] for both remainders. *)
Fixpoint egcd (fuel : nat) (r0 s0 r1 s1 : Z) : Z :=
  match fuel with
  | O => 0
  | S f => if Z.eqb r1 0 then s0 else egcd f r1 s1 (r0 mod r1) (s0 - (r0 / r1) * s1)
  end.

Definition zinv_fuel : nat := Z.to_nat (2 * Z.log2 p + 4).
Definition zinv (x : Zp) := of_Z (egcd zinv_fuel p 0 (zval x) 1).

Lemma zaddA : associative zadd.
Proof.
move=> x y z; apply: zval_inj; rewrite /= Zplus_mod_idemp_l Zplus_mod_idemp_r; congr (_ mod _); lia.
Qed.
Lemma zaddC : commutative zadd.
Proof. by move=> x y; apply: zval_inj; rewrite /= Z.add_comm. Qed.
Lemma zadd0 : left_id (of_Z 0) zadd.
Proof. by move=> x; rewrite /zadd zval_of_Z Z.mod_0_l; [rewrite Z.add_0_l of_zval|exact: pz_neq0]. Qed.
Lemma zaddN : left_inverse (of_Z 0) zopp zadd.
Proof.
move=> x; apply: zval_inj; rewrite /= Zplus_mod_idemp_l Z.add_opp_diag_l //.
Qed.

Definition Zp_zmodMixin := ZmodMixin zaddA zaddC zadd0 zaddN.
Canonical Zp_zmodType := ZmodType Zp Zp_zmodMixin.

Lemma zmulA : associative zmul.
Proof.
move=> x y z; apply: zval_inj; rewrite /= Zmult_mod_idemp_l Zmult_mod_idemp_r Z.mul_assoc //.
Qed.
Lemma zmulC : commutative zmul.
Proof. by move=> x y; apply: zval_inj; rewrite /= Z.mul_comm. Qed.
Lemma zmul1 : left_id (of_Z 1) zmul.
Proof.
move=> x; rewrite /zmul zval_of_Z Z.mod_1_l; [by rewrite Z.mul_1_l of_zval|exact: pz_gt1].
Qed.
Lemma zmulD : left_distributive zmul zadd.
Proof.
move=> x y z; apply: zval_inj.
by rewrite /= Zmult_mod_idemp_l Zplus_mod_idemp_l Zplus_mod_idemp_r Z.mul_add_distr_r.
Qed.
Lemma z1_neq0 : of_Z 1 != of_Z 0.
Proof.
apply/eqP => H; have := congr1 zval H.
rewrite /= Z.mod_0_l; last exact: pz_neq0.
by rewrite Z.mod_1_l; last exact: pz_gt1.
Qed.

Definition Zp_ringMixin := ComRingMixin zmulA zmulC zmul1 zmulD z1_neq0.
Canonical Zp_ringType := RingType Zp Zp_ringMixin.
Canonical Zp_comRingType := ComRingType Zp zmulC.

Lemma egcd_spec fuel x r0 s0 r1 s1 :
  0 < r0 -> 0 <= r1 <= r0 ->
  (exists k, s0 * x - r0 = k * p) -> (exists k, s1 * x - r1 = k * p) ->
  r0 * r1 < 2 ^ (Z.of_nat fuel - 1) -> 0 < Z.of_nat fuel ->
  exists k, egcd fuel r0 s0 r1 s1 * x - Z.gcd r0 r1 = k * p.
Proof.
elim: fuel r0 s0 r1 s1 => [|f IH] r0 s0 r1 s1 Hr0 Hr1 [k0 E0] [k1 E1] Hf Hf0 /=; first lia.
case: Z.eqb_spec => [->|Hn].
  by rewrite Z.gcd_0_r Z.abs_eq; [exists k0|lia].
rewrite Z.gcd_comm -Z.gcd_mod; last lia.
rewrite Z.gcd_comm.
have Hm := Z.mod_pos_bound r0 r1 ltac:(lia).
have Hd := Z.div_mod r0 r1 ltac:(lia).
have Hq : 1 <= r0 / r1 by apply: Z.div_le_lower_bound; lia.
have Hf1 : 0 < Z.of_nat f.
  case: (Z.of_nat f =P 0) => [E|]; last lia.
  move: Hf; rewrite Nat2Z.inj_succ E /= => Hf; nia.
have H2 : 2 ^ (Z.of_nat f.+1 - 1) = 2 * 2 ^ (Z.of_nat f - 1).
  by rewrite -Z.pow_succ_r; [congr (_ ^ _); lia | lia].
apply: IH => //; try lia.
- by exists k1.
- exists (k0 - r0 / r1 * k1).
  have -> : (s0 - r0 / r1 * s1) * x - r0 mod r1 =
            (s0 * x - r0) - r0 / r1 * (s1 * x - r1) + (r0 - (r1 * (r0 / r1) + r0 mod r1)) by ring.
  by rewrite E0 E1 -Hd; ring.
- nia.
Qed.

Lemma zmulVx (x : Zp) : x != of_Z 0 -> zmul (zinv x) x = of_Z 1.
Proof.
move=> Hx; apply: zval_inj; rewrite /= Zmult_mod_idemp_l.
have Hr := zval_range x.
have Hx0 : zval x <> 0.
  move=> E; move/eqP: Hx; apply; apply: zval_inj.
  by rewrite /= Z.mod_0_l //; apply: pz_neq0.
have Hp1 := pz_gt1.
have Hlog := Z.log2_spec p pz_gt0.
have Hlog0 := Z.log2_nonneg p.
have Hfuel : Z.of_nat zinv_fuel = 2 * Z.log2 p + 4 by rewrite /zinv_fuel Z2Nat.id; lia.
have [||||||k Hk] := @egcd_spec zinv_fuel (zval x) p 0 (zval x) 1.
- lia.
- lia.
- by exists (-1); lia.
- by exists 0; lia.
- rewrite Hfuel.
  have -> : 2 * Z.log2 p + 4 - 1 = Z.succ (Z.log2 p) + Z.succ (Z.log2 p) + 1 by lia.
  rewrite !Z.pow_add_r; try lia.
  move: Hlog; rewrite Z.pow_succ_r //; move: (2 ^ Z.log2 p) => a Hlog.
  have := Z.mul_lt_mono_nonneg p (2 * a) (zval x) (2 * a) ltac:(lia) ltac:(lia) ltac:(lia) ltac:(lia).
  nia.
- lia.
have Hg : Z.gcd p (zval x) = 1.
  rewrite Z.gcd_comm; apply/Zgcd_1_rel_prime/rel_prime_le_prime; [exact: pz_prime|lia].
rewrite Hg in Hk.
have -> : egcd zinv_fuel p 0 (zval x) 1 * zval x = 1 + k * p by lia.
by rewrite Z_mod_plus_full.
Qed.

Lemma zinv0 : zinv (of_Z 0) = of_Z 0.
Proof.
rewrite /zinv; congr of_Z.
have -> : zval (of_Z 0) = 0 by rewrite /= Z.mod_0_l //; apply: pz_neq0.
have : Z.of_nat zinv_fuel = 2 * Z.log2 p + 4.
  by rewrite /zinv_fuel Z2Nat.id //; have := Z.log2_nonneg p; lia.
by case: zinv_fuel.
Qed.

Definition Zp_unitMixin := FieldUnitMixin zmulVx zinv0.
Canonical Zp_unitRingType := UnitRingType Zp Zp_unitMixin.
Canonical Zp_comUnitRingType := [comUnitRingType of Zp].
Lemma Zp_fieldMixin : GRing.Field.mixin_of [unitRingType of Zp].
Proof. by []. Qed.
Definition Zp_idomainMixin := FieldIdomainMixin Zp_fieldMixin.
Canonical Zp_idomainType := IdomainType Zp Zp_idomainMixin.
Canonical Zp_fieldType := FieldType Zp Zp_fieldMixin.

Local Open Scope ring_scope.
Import GRing.Theory.

Lemma zvalD (x y : Zp) : zval (x + y) = ((zval x + zval y) mod p)%Z.
Proof. by []. Qed.
Lemma zvalM (x y : Zp) : zval (x * y) = ((zval x * zval y) mod p)%Z.
Proof. by []. Qed.
Lemma zvalN (x : Zp) : zval (- x) = ((- zval x) mod p)%Z.
Proof. by []. Qed.
Lemma zval0 : zval 0 = 0%Z.
Proof. by rewrite /= Z.mod_0_l //; apply: pz_neq0. Qed.
Lemma zval1 : zval 1 = 1%Z.
Proof. by rewrite /= Z.mod_1_l //; apply: pz_gt1. Qed.

Lemma of_ZD a b : of_Z (a + b)%Z = of_Z a + of_Z b.
Proof. by apply: zval_inj; rewrite /= -Z.add_mod //; apply: pz_neq0. Qed.
Lemma of_ZM a b : of_Z (a * b)%Z = of_Z a * of_Z b.
Proof. by apply: zval_inj; rewrite /= -Z.mul_mod //; apply: pz_neq0. Qed.
Lemma of_ZN a : of_Z (- a)%Z = - of_Z a.
Proof.
apply/eqP; rewrite -subr_eq0 opprK -of_ZD Z.add_opp_diag_l; apply/eqP.
by [].
Qed.
Lemma of_Z0 : of_Z 0%Z = 0. Proof. by []. Qed.
Lemma of_Z1 : of_Z 1%Z = 1. Proof. by []. Qed.

Lemma natr_of_Z n : n%:R = of_Z (Z.of_nat n) :> Zp.
Proof.
elim: n => [|n IH] //.
by rewrite Nat2Z.inj_succ -Z.add_1_r of_ZD -IH -addn1 natrD.
Qed.

Lemma of_Z_eq0 a : (of_Z a == 0) = (a mod p =? 0)%Z.
Proof.
apply/eqP/Z.eqb_spec => [/(congr1 zval)|H]; first by rewrite zval0.
by apply: zval_inj; rewrite zval0.
Qed.

End Carrier.

Arguments of_Z {p} z.
Arguments zval {p} z.
