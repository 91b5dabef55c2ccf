(** Model of the scalar encoding of /repo/cryptography/bls12_381/src/lib.rs line 24 ([Scalar] is
    [blstrs::Scalar]), and what is assumed about the other external functions. *)

From Coq Require Import ZArith NArith Init.Byte Strings.Byte.
From mathcomp Require Import ssreflect ssrfun ssrbool eqtype ssrnat seq ssralg zify_ssreflect.
From Verif Require Import Base Bytes ZField FrPrime Fr SpecDAS SpecFr FK20Verifier Eip7594.
From Verif Require Import Eip7594Proofs.

Set Implicit Arguments.
Unset Strict Implicit.
Unset Printing Implicit Defensive.

Import GRing.Theory.

(** [Scalar::to_bytes_be] (used in serialization.rs line 100 and verifier.rs line 287). *)
Definition scalar_to_bytes_be (x : Fr) : seq byte := be_bytes 32 (Z.to_N (zval (p := rZ) x)).

(** [Scalar::from_bytes_be] (used in serialization.rs line 53): none unless below the modulus. *)
Definition scalar_from_bytes_be (bytes : seq byte) : option Fr :=
  let v := be_val bytes in
  if (v <? Z.to_N r_modulus)%num then Some (@of_Z rZ (Z.of_N v)) else None.

(** The environment: scalars are encoded as above, compressed points have 48 bytes, a string of
    48 bytes decodes to a point exactly when it is the compressed form of that point, and the
    pairing is bilinear. The hash and its reduction are arbitrary. *)
Record env_std (G1 G2 GT : lmodType Fr) (env : das_env G1 G2 GT) : Prop := EnvStd {
  es_to : te_scalar_to_bytes_be (de_te env) = scalar_to_bytes_be;
  es_from : de_scalar_from_bytes_be env = scalar_from_bytes_be;
  es_g1_size : forall P, size (te_g1_to_compressed (de_te env) P) = 48;
  es_g1_from : forall b P, size b = 48 ->
    de_g1_from_compressed env b = Some P <-> te_g1_to_compressed (de_te env) P = b;
  es_bil : bilinear (de_pair env)
}.

Lemma r_modulus_bounds : (0 < r_modulus < 2 ^ 255)%Z.
Proof. by []. Qed.

Lemma r_lt_256_32 : (Z.to_N r_modulus < 256 ^ N.of_nat 32)%num.
Proof. by []. Qed.

Lemma zval_rZ (x : Fr) : (0 <= zval (p := rZ) x < r_modulus)%Z.
Proof. exact: (zval_range (p := rZ) x). Qed.

Lemma scalar_val x : be_val (scalar_to_bytes_be x) = Z.to_N (zval (p := rZ) x).
Proof.
rewrite be_val_bytes N.mod_small //; have := zval_rZ x; have := r_lt_256_32.
move: (256 ^ _)%num r_modulus (zval _) => P r v; lia.
Qed.

Lemma scalar_from_some b x : size b = 32 ->
  scalar_from_bytes_be b = Some x <-> scalar_to_bytes_be x = b.
Proof.
move=> Sb; rewrite /scalar_from_bytes_be; split.
  case: N.ltb_spec0 => // Hlt [<-].
  rewrite /scalar_to_bytes_be zval_of_Z Z.mod_small ?N2Z.id ?be_bytes_val //.
  move: Hlt; rewrite -[pz rZ]/r_modulus; have := r_modulus_bounds.
  by move: r_modulus (be_val b) => r v; lia.
move=> <-; rewrite scalar_val.
have H1 := zval_rZ x.
have -> : (Z.to_N (zval (p := rZ) x) <? Z.to_N r_modulus)%num.
  by apply/N.ltb_spec0; move: r_modulus (zval _) H1 => r v; lia.
by rewrite Z2N.id ?of_zval //; case: H1.
Qed.

Lemma canonicalE b : isSome (scalar_from_bytes_be b) = canonical b.
Proof. by rewrite /scalar_from_bytes_be /canonical; case: ifP. Qed.

Lemma env_std_ok (G1 G2 GT : lmodType Fr) (env : das_env G1 G2 GT) : env_std env -> env_ok env.
Proof.
case=> Et Ef Sg Fg B; split=> //; first by rewrite Et => x; exact: size_be_bytes.
by move=> b x Sb; rewrite Et Ef; exact: scalar_from_some.
Qed.
