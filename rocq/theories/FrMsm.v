(** Model of the environment of the multi-scalar multiplication over the BLS12-381 scalar field:
    /repo/cryptography/bls12_381/src/fixed_base_msm_window.rs lines 50-89 use [to_bytes_le] and
    [NUM_BITS] of [blstrs::Scalar] and the batch addition of batch_addition.rs. *)

From Coq Require Import ZArith NArith Init.Byte Strings.Byte.
From mathcomp Require Import ssreflect ssrfun ssrbool eqtype ssrnat seq ssralg.
From Verif Require Import Base ZField FrPrime Fr FrEnv FixedBaseMSM BatchAddition.

Set Implicit Arguments.
Unset Strict Implicit.
Unset Printing Implicit Defensive.

Section FrMsm.
(** [Fq]: the base field of the curve.  [of_affine] and [to_affine]: the conversions between
    [G1Projective] and [G1Affine] ([to_affine] is the [g1_batch_normalize] of lib.rs lines 33-47
    that fills the tables). *)
Variables (Fq : fieldType) (V : lmodType Fr) (of_affine : Fq * Fq -> V) (to_affine : V -> Fq * Fq).

(** [Scalar::to_bytes_le] (fixed_base_msm_window.rs line 51). *)
Definition scalar_to_bytes_le (x : Fr) : seq byte := rev (scalar_to_bytes_be x).

(** [Scalar::NUM_BITS] (fixed_base_msm_window.rs line 52). *)
Definition NUM_BITS : nat := 255.

(** The tables hold affine points; the windows collected from them are handed to
    [multi_batch_addition_binary_tree_stride] (fixed_base_msm_window.rs line 75). *)
Definition fr_msm_env : msm_env V :=
  MkMsmEnv scalar_to_bytes_le NUM_BITS
    (fun windows => multi_batch_addition_binary_tree_stride of_affine (map (map to_affine) windows)).

End FrMsm.
