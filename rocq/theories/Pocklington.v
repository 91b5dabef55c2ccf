(** Pocklington's primality criterion, used for the BLS12-381 scalar modulus. *)

From Coq Require Import ZArith Znumtheory Lia.
From mathcomp Require Import ssreflect ssrfun ssrbool eqtype ssrnat seq div prime ssralg poly zmodp finfield.
From mathcomp Require Import fintype bigop finalg zify.

Set Implicit Arguments.
Unset Strict Implicit.
Unset Printing Implicit Defensive.

Import GRing.Theory.
Local Open Scope nat_scope.

Lemma divide_dvdn (d n : nat) : Z.divide (Z.of_nat d) (Z.of_nat n) <-> d %| n.
Proof.
split.
  case=> k Hk; apply/dvdnP; exists (Z.to_nat k).
  case: (Z.ltb_spec k 0) => Hk0; last by apply: Nat2Z.inj; rewrite Nat2Z.inj_mul Z2Nat.id.
  have : n = 0 by nia.
  have : (d = 0 \/ d <> 0) by lia.
  case=> [->|Hd] ->; first by rewrite muln0.
  nia.
by case/dvdnP=> k ->; exists (Z.of_nat k); rewrite Nat2Z.inj_mul.
Qed.

Lemma prime_nat_Z (n : nat) : prime n -> Znumtheory.prime (Z.of_nat n).
Proof.
move=> Hn; apply/prime_alt; split.
  by have := prime_gt1 Hn; move/ltP; lia.
move=> m Hm Hd.
have Em : m = Z.of_nat (Z.to_nat m) by rewrite Z2Nat.id; lia.
rewrite Em in Hd; move/divide_dvdn: Hd => Hd.
have /primeP[_ H] := Hn.
by move: (H _ Hd) => /orP[/eqP E|/eqP E]; lia.
Qed.

Lemma Z_of_nat_expn (a k : nat) : Z.of_nat (a ^ k) = (Z.of_nat a ^ Z.of_nat k)%Z.
Proof.
elim: k => [|k IH] //.
by rewrite expnS Nat2Z.inj_mul IH Nat2Z.inj_succ Z.pow_succ_r //; lia.
Qed.

(** Modular exponentiation. *)
Fixpoint powm (n a : Z) (e : positive) : Z :=
  match e with
  | xH => (a mod n)%Z
  | xO e => let b := powm n a e in (b * b mod n)%Z
  | xI e => let b := powm n a e in ((b * b mod n) * a mod n)%Z
  end.

Lemma powm_spec n a e : n <> 0%Z -> powm n a e = (a ^ Zpos e mod n)%Z.
Proof.
move=> Hn; elim: e => [e IH|e IH|].
- rewrite [powm _ _ _]/= IH.
  have -> : (Z.pos e~1 = Z.pos e + Z.pos e + 1)%Z by lia.
  rewrite !Z.pow_add_r ?Z.pow_1_r; try lia.
  by rewrite -Zmult_mod Zmult_mod_idemp_l.
- rewrite [powm _ _ _]/= IH.
  have -> : (Z.pos e~0 = Z.pos e + Z.pos e)%Z by lia.
  rewrite !Z.pow_add_r; try lia.
  by rewrite -Zmult_mod.
- by rewrite /= Z.pow_pos_fold Z.pow_1_r.
Qed.

Section Criterion.
Variables (n c a : nat).
Hypothesis n_gt1 : 1 < n.
Hypothesis a_gt0 : 0 < a.
Hypothesis ca1 : (Z.of_nat c ^ Z.of_nat a mod Z.of_nat n = 1)%Z.
Hypothesis cq : forall q : nat, prime q -> q %| a ->
  Z.gcd (Z.of_nat c ^ (Z.of_nat a / Z.of_nat q) - 1) (Z.of_nat n) = 1%Z.
Hypothesis a_big : n < a.+1 ^ 2.

Lemma Fp_eq1 (p m : nat) : prime p -> (m%:R = 1 :> 'F_p)%R <-> m = 1 %[mod p].
Proof.
move=> Hp.
have Hp1 := prime_gt1 Hp.
rewrite -[X in (_ = X :> 'F_p)%R <-> _]/(1%:R)%R.
split=> [H|H].
  by have := congr1 (@nat_of_ord _) H; rewrite !val_Fp_nat.
by apply: ord_inj; rewrite !val_Fp_nat.
Qed.

Lemma Zmod1 (m p : nat) : 0 < p -> m = 1 %[mod p] <-> Z.divide (Z.of_nat p) (Z.of_nat m - 1).
Proof.
move=> p0; split.
  move=> H; exists (Z.of_nat (m %/ p) - Z.of_nat (1 %/ p))%Z.
  have E1 := divn_eq m p; have E2 := divn_eq 1 p; rewrite -H in E2.
  nia.
case=> k Hk.
case: (posnP m) => [m0|mp].
  have : p = 1.
    subst m; have : (k * Z.of_nat p = -1)%Z by lia.
    case: (Z.ltb_spec k 0) => ?; nia.
  by move->; rewrite !modn1.
have : p %| m - 1.
  apply/divide_dvdn; exists k; move/ltP: mp; lia.
move=> Hd; have -> : m = (m - 1) + 1 by rewrite subnK.
by rewrite -modnDml; move/eqP: Hd => ->; rewrite add0n.
Qed.

Lemma order_divides (p : nat) : prime p -> p %| n -> a %| p.-1.
Proof.
move=> Hp Hpn.
have p0 := prime_gt0 Hp.
set b : 'F_p := (c%:R)%R.
have bk k : (b ^+ k = 1)%R <-> Z.divide (Z.of_nat p) (Z.of_nat c ^ Z.of_nat k - 1).
  rewrite /b -natrX -Z_of_nat_expn.
  by rewrite Fp_eq1 // Zmod1.
have ba : (b ^+ a = 1)%R.
  apply/bk.
  apply: (Z.divide_trans _ (Z.of_nat n)); first by apply/divide_dvdn.
  apply/Z.mod_divide; first by move/ltP: n_gt1; lia.
  rewrite -Zminus_mod_idemp_l ca1.
  by rewrite Z.mod_0_l //; move/ltP: n_gt1; lia.
have [m Hm Hma] := prim_order_exists a_gt0 ba.
have Ea : m = a.
  case/dvdnP: (Hma) => k Ek.
  case: (ltnP 1 k) => [k1|]; last first.
    case: k Ek => [|[|k]] // Ek _; last by rewrite Ek mul1n.
    by move: a_gt0; rewrite Ek.
  set q := pdiv k.
  have Hq : prime q by apply: pdiv_prime.
  have [k' Ek'] := dvdnP (pdiv_dvd k : q %| k).
  have Hqa : q %| a by rewrite Ek Ek' mulnAC dvdn_mull.
  have q0 := prime_gt0 Hq.
  have Eaq : a = (k' * m) * q by rewrite Ek Ek' mulnAC.
  have Hdz : (Z.of_nat a / Z.of_nat q = Z.of_nat (k' * m))%Z.
    rewrite Eaq Nat2Z.inj_mul Z.div_mul //; move/ltP: q0; lia.
  have := cq Hq Hqa; rewrite Hdz => G.
  have : Z.divide (Z.of_nat p) 1.
    rewrite -G; apply: Z.gcd_greatest; last by apply/divide_dvdn.
    by apply/bk; rewrite mulnC exprM (prim_expr_order Hm) expr1n.
  move/Z.divide_1_r_nonneg; move: (prime_gt1 Hp) => /ltP; lia.
rewrite -Ea (prim_order_dvd Hm).
have bn0 : (b != 0)%R.
  apply/eqP => b0; move: ba; rewrite b0 expr0n.
  by case: (a) a_gt0 => // ? _ /eqP; rewrite eq_sym oner_eq0.
have := expf_card b; rewrite card_Fp // => E.
apply/eqP; apply: (mulfI bn0).
by rewrite -exprS prednK // mulr1.
Qed.

Lemma pocklington : prime n.
Proof.
apply: ltn_pdiv2_prime; first exact: ltnW.
apply: leq_trans a_big _.
rewrite leq_exp2r //.
have Hp := pdiv_prime n_gt1.
have Hd := order_divides Hp (pdiv_dvd n).
have p1 := prime_gt1 Hp.
have := dvdn_leq _ Hd.
by case: (pdiv n) p1 => [|[|k]] //= _; apply.
Qed.
End Criterion.

Lemma pocklington_Z (N C A : Z) :
  (1 < N)%Z -> (0 <= C)%Z -> (0 < A)%Z ->
  (C ^ A mod N = 1)%Z ->
  (forall Q : Z, Znumtheory.prime Q -> Z.divide Q A -> Z.gcd (C ^ (A / Q) - 1) N = 1%Z) ->
  (N < (A + 1) * (A + 1))%Z ->
  Znumtheory.prime N.
Proof.
move=> N1 C0 A0 H1 Hq Hbig.
have EN : N = Z.of_nat (Z.to_nat N) by rewrite Z2Nat.id; lia.
have EC : C = Z.of_nat (Z.to_nat C) by rewrite Z2Nat.id; lia.
have EA : A = Z.of_nat (Z.to_nat A) by rewrite Z2Nat.id; lia.
rewrite EN; apply: prime_nat_Z.
rewrite EN EC EA in H1 Hq; rewrite EN EA in Hbig N1; rewrite EA in A0.
move: (Z.to_nat N) (Z.to_nat C) (Z.to_nat A) N1 A0 H1 Hq Hbig => n c a N1 A0 H1 Hq Hbig.
apply: (@pocklington n c a) => //.
- by apply/ltP; lia.
- by apply/ltP; lia.
- move=> q Hp Hd; apply: Hq; first exact: prime_nat_Z.
  by apply/divide_dvdn.
- apply/ltP; rewrite -mulnn; nia.
Qed.

(** Trial division for the small factors. *)
Fixpoint no_divisor (fuel : nat) (n d : Z) : bool :=
  match fuel with
  | O => false
  | S f => if (n <? d * d)%Z then true
           else if (n mod d =? 0)%Z then false else no_divisor f n (d + 1)
  end.

Lemma no_divisor_spec fuel n d : (1 < d)%Z -> (1 < n)%Z -> no_divisor fuel n d ->
  (forall k, 1 < k < d -> ~ (k | n))%Z -> Znumtheory.prime n.
Proof.
elim: fuel d => [|f IH] d //= Hd Hn.
case: Z.ltb_spec => [Hlt _ Hk|Hge].
  apply/prime_alt; split=> // m Hm [k Ek].
  have [Hmd|Hmd] : (m < d \/ d <= m)%Z by lia.
    by apply: (Hk m); [lia|exists k].
  apply: (Hk k); last by (exists m; lia).
  nia.
case: Z.eqb_spec => // Hm Hf Hk.
apply: (IH (d + 1)%Z) => //; first lia.
move=> k Hk2.
have [Hkd|->] : (k < d \/ k = d)%Z by lia.
  by apply: Hk; lia.
by move/Z.mod_divide => H; apply: Hm; apply: H; lia.
Qed.

Lemma trial_division fuel n : (1 < n)%Z -> no_divisor fuel n 2 -> Znumtheory.prime n.
Proof. move=> Hn H; apply: (no_divisor_spec _ Hn H); lia. Qed.
