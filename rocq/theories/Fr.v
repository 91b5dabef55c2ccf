(** The scalar field of BLS12-381 and the constants the code takes from it.
    /repo/cryptography/bls12_381/src/lib.rs line 1-25 re-exports blstrs' [Scalar]; the code uses
    [Scalar::ROOT_OF_UNITY] (polynomial/src/domain.rs lines 89-92), two-adicity 32 (lines 94-97)
    and [Scalar::MULTIPLICATIVE_GENERATOR] = 7 (erasure_codes/src/reed_solomon.rs line 94). *)

From Coq Require Import ZArith Znumtheory Lia.
From mathcomp Require Import ssreflect ssrfun ssrbool eqtype ssrnat seq div ssralg.
From Verif Require Import ZField FrPrime Domain DomainProofs.

Set Implicit Arguments.
Unset Strict Implicit.
Unset Printing Implicit Defensive.

Import GRing.Theory.
Local Open Scope ring_scope.

Definition rZ : primeZ := PrimeZ r_prime.
Definition Fr : fieldType := [fieldType of Zp rZ].

Definition root_of_unity_Z : Z :=
  0x16a2a19edfe81f20d09b681922c813b4b63683508c2280b93829971f439f0d2b%Z.

Definition fr_params : fparams Fr :=
  FParams (@of_Z rZ root_of_unity_Z : Fr) 32 (@of_Z rZ 7%Z : Fr).

(** Repeated squaring modulo [p]. *)
Fixpoint sqmod (p : Z) (k : nat) (a : Z) : Z :=
  if k is k'.+1 then sqmod p k' ((a * a) mod p)%Z else a.

Lemma sqmod_spec (p : primeZ) k (a : Z) : (@of_Z p a : Zp p) ^+ (2 ^ k) = @of_Z p (sqmod p k a).
Proof.
elim: k a => [|k IH] a; first by rewrite expn0 expr1.
rewrite /= -IH expnS exprM expr2 -of_ZM; congr (_ ^+ _).
by apply: zval_inj; rewrite !zval_of_Z Z.mod_mod //; apply: pz_neq0.
Qed.

Lemma half_check : (sqmod r_modulus 31 root_of_unity_Z =? r_modulus - 1)%Z.
Proof. by vm_compute. Qed.

Lemma gen_check : (sqmod r_modulus 32 7 mod r_modulus =? 1)%Z = false.
Proof. by vm_compute. Qed.

Lemma of_Z_minus1 (p : primeZ) : @of_Z p (p - 1)%Z = -1.
Proof.
apply: zval_inj; rewrite zval_of_Z zvalN zval1.
by rewrite -Z.add_opp_r -(Z_mod_plus_full (-1) 1 p) Z.mul_1_l Z.add_comm.
Qed.

Lemma of_Z_1_check (p : primeZ) a : (a mod p =? 1)%Z = false -> @of_Z p a != 1.
Proof.
move=> H; apply/eqP => E.
have : zval (@of_Z p a) = zval (1 : Zp p) by rewrite E.
rewrite zval_of_Z zval1 => E1.
by rewrite E1 Z.eqb_refl in H.
Qed.

Lemma two_check : (2 mod r_modulus =? 0)%Z = false.
Proof. by vm_compute. Qed.

Lemma fp_ok_check (p : primeZ) (root gen : Z) :
  (sqmod p 31 root =? p - 1)%Z -> (2 mod p =? 0)%Z = false ->
  fp_ok (FParams (@of_Z p root) 32 (@of_Z p gen)).
Proof.
move=> /Z.eqb_eq Hh H2; split; [by [] | by [] | by rewrite natr_of_Z of_Z_eq0 H2 |].
by rewrite [fp_root _]/= [fp_adicity _]/= sqmod_spec [_.-1]/= Hh of_Z_minus1.
Qed.

Theorem fr_ok : fp_ok fr_params.
Proof. exact: (@fp_ok_check rZ _ _ half_check two_check). Qed.

Lemma pow_neq1_check (p : primeZ) (g : Z) k K : (k <= K)%N ->
  (sqmod p K g mod p =? 1)%Z = false -> @of_Z p g ^+ (2 ^ k) != 1.
Proof.
move=> Hk H; apply/eqP => E.
have : @of_Z p g ^+ (2 ^ K) = 1.
  by rewrite -(subnKC Hk) expnD exprM E expr1n.
by apply/eqP; rewrite sqmod_spec; apply: of_Z_1_check.
Qed.

(** The coset generator is not a root of unity of two-power order. *)
Theorem mulgen_pow_neq1 k : (k <= 32)%N -> fp_mulgen fr_params ^+ (2 ^ k) != 1.
Proof. by move=> Hk; exact: (@pow_neq1_check rZ 7%Z k 32 Hk gen_check). Qed.

Lemma seven_check : (7 mod r_modulus =? 0)%Z = false.
Proof. by vm_compute. Qed.

Lemma of_Z_neq0_check (p : primeZ) a : (a mod p =? 0)%Z = false -> @of_Z p a != 0.
Proof. by move=> H; rewrite of_Z_eq0 H. Qed.

Theorem mulgen_neq0 : fp_mulgen fr_params != 0.
Proof. exact: (@of_Z_neq0_check rZ 7%Z seven_check). Qed.
