(** The BLS12-381 scalar modulus r is prime.
    r is the modulus of [blstrs::Scalar], re-exported as [Scalar] by
    /repo/cryptography/bls12_381/src/lib.rs lines 1-24. *)

From Coq Require Import ZArith Znumtheory Zpow_facts Lia.
From mathcomp Require Import ssreflect ssrbool.
From Verif Require Import Pocklington.

Set Implicit Arguments.

Local Open Scope Z_scope.

Definition r_modulus : Z :=
  0x73eda753299d7d483339d80809a1d80553bda402fffe5bfeffffffff00000001.

(** A divisor of r - 1 exceeding the square root of r, and an element of that order. *)
Definition r_part : Z := 2 ^ 32 * (906349 * 906349) * (254760293 * 254760293) * 11.
Definition r_elt : Z := 0x2a39170b44983171620a845f513aadfb135d85117674e1bf0744cf3b59b84253.
Definition e_base : positive := 0x69008000000080000000.

Lemma prime_2 : prime 2.
Proof. exact: Znumtheory.prime_2. Qed.
Lemma prime_11 : prime 11.
Proof. by apply: (@trial_division 20). Qed.
Lemma prime_906349 : prime 906349.
Proof. by apply: (@trial_division 1000); vm_compute. Qed.
Lemma prime_254760293 : prime 254760293.
Proof. by apply: (@trial_division (16 * 1000)); vm_compute. Qed.

Lemma gcd_mod1 (x n : Z) : n <> 0 -> Z.gcd (x mod n - 1) n = 1 -> Z.gcd (x - 1) n = 1.
Proof.
move=> Hn H.
rewrite Z.gcd_comm -Z.gcd_mod // -Zminus_mod_idemp_l Z.gcd_mod // Z.gcd_comm //.
Qed.

Lemma pow_check (N C : Z) (e1 e2 : positive) (e : Z) :
  0 < N -> e = Zpos e1 * Zpos e2 ->
  Z.gcd (powm N (powm N C e1) e2 - 1) N = 1 ->
  Z.gcd (C ^ e - 1) N = 1.
Proof.
move=> HN -> H; apply: gcd_mod1; first lia.
move: H; rewrite (@powm_spec N (powm _ _ _)) ?powm_spec; try lia.
by rewrite -Zpower_mod // -Z.pow_mul_r.
Qed.

Lemma pow_check_half (N C : Z) (e1 e2 : positive) :
  1 < N -> powm N (powm N C e1) e2 = N - 1 ->
  C ^ (Zpos e1 * Zpos e2 * 2) mod N = 1.
Proof.
move=> HN H.
rewrite Z.pow_mul_r; try lia.
rewrite Zpower_mod; last lia.
rewrite Z.pow_mul_r; try lia.
move: H; rewrite (@powm_spec N (powm _ _ _)) ?powm_spec; try lia.
rewrite -Zpower_mod; last lia.
move=> ->.
have -> : (N - 1) ^ 2 = 1 + (N - 2) * N by ring.
by rewrite Z_mod_plus_full Z.mod_1_l.
Qed.

Lemma prime_factor_cases q : prime q -> (q | r_part) ->
  q = 2 \/ q = 906349 \/ q = 254760293 \/ q = 11.
Proof.
move=> Hq; rewrite /r_part.
have pow2 k : (q | 2 ^ Z.of_nat k) -> q = 2.
  elim: k => [|k IH].
    move/Z.divide_1_r; case: Hq => ? _; lia.
  rewrite Nat2Z.inj_succ Z.pow_succ_r; last lia.
  case/(prime_mult _ Hq) => // /(prime_div_prime _ _ Hq prime_2); lia.
case/(prime_mult _ Hq); last by move/(prime_div_prime _ _ Hq prime_11); lia.
case/(prime_mult _ Hq); last first.
  by case/(prime_mult _ Hq) => /(prime_div_prime _ _ Hq prime_254760293); lia.
case/(prime_mult _ Hq); last first.
  by case/(prime_mult _ Hq) => /(prime_div_prime _ _ Hq prime_906349); lia.
by move/(pow2 32%nat); lia.
Qed.

Definition order_ok (N C : Z) (e1 x1 x2 x3 x4 : positive) : bool :=
  let d := powm N C e1 in
  (powm N d x1 =? N - 1) &&
  (Z.gcd (N - 1 - 1) N =? 1) && (Z.gcd (powm N d x2 - 1) N =? 1) &&
  (Z.gcd (powm N d x3 - 1) N =? 1) && (Z.gcd (powm N d x4 - 1) N =? 1).

Definition part_ok (N C A : Z) (e1 x1 x2 x3 x4 : positive) : bool :=
  (1 <? N) && (0 <=? C) && (0 <? A) && (N <? (A + 1) * (A + 1)) &&
  (A =? Zpos e1 * Zpos x1 * 2) && (A / 2 =? Zpos e1 * Zpos x1) &&
  (A / 906349 =? Zpos e1 * Zpos x2) && (A / 254760293 =? Zpos e1 * Zpos x3) &&
  (A / 11 =? Zpos e1 * Zpos x4).

Lemma prime_of_checks N C A e1 x1 x2 x3 x4 :
  (forall q, prime q -> (q | A) -> q = 2 \/ q = 906349 \/ q = 254760293 \/ q = 11) ->
  part_ok N C A e1 x1 x2 x3 x4 -> order_ok N C e1 x1 x2 x3 x4 -> prime N.
Proof.
move=> Hcase.
move=> /andP[/andP[/andP[/andP[/andP[/andP[/andP[/andP[/Z.ltb_spec0 N1 /Z.leb_spec0 C0] /Z.ltb_spec0 A0]
  /Z.ltb_spec0 Hbig] /Z.eqb_spec EA] /Z.eqb_spec E2] /Z.eqb_spec E906] /Z.eqb_spec E254] /Z.eqb_spec E11].
move=> /andP[/andP[/andP[/andP[/Z.eqb_spec C2 /Z.eqb_spec G2] /Z.eqb_spec G906] /Z.eqb_spec G254] /Z.eqb_spec G11].
apply: (@pocklington_Z N C A) => //.
  by rewrite EA; apply: pow_check_half.
have N0 : 0 < N by lia.
move=> q Hq /(Hcase _ Hq) [->|[->|[->|->]]].
- by apply: (@pow_check N C e1 x1 _ N0 E2); rewrite C2.
- exact: pow_check N0 E906 G906.
- exact: pow_check N0 E254 G254.
- exact: pow_check N0 E11 G11.
Qed.

Definition x_2 : positive := (906349 * 254760293 * 11)%positive.
Definition x_906349 : positive := (2 * 254760293 * 11)%positive.
Definition x_254760293 : positive := (2 * 906349 * 11)%positive.
Definition x_11 : positive := (2 * 906349 * 254760293)%positive.

Lemma r_part_ok : part_ok r_modulus r_elt r_part e_base x_2 x_906349 x_254760293 x_11.
Proof. by vm_compute. Qed.
Lemma r_order_ok : order_ok r_modulus r_elt e_base x_2 x_906349 x_254760293 x_11.
Proof. by vm_compute. Qed.

Theorem r_prime : prime r_modulus.
Proof. exact (@prime_of_checks _ _ _ _ _ _ _ _ prime_factor_cases r_part_ok r_order_ok). Qed.
