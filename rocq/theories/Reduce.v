(** Model of reduce_bytes_to_scalar_bias, /repo/cryptography/bls12_381/src/lib.rs lines 49-62. The two
    functions of blst that it calls are given by what they compute. *)

From Coq Require Import ZArith NArith Init.Byte Strings.Byte.
From mathcomp Require Import ssreflect ssrfun ssrbool eqtype ssrnat seq.
From mathcomp Require Import ssralg.
From Verif Require Import Bytes ZField FrPrime Fr.

Set Implicit Arguments.
Unset Strict Implicit.
Unset Printing Implicit Defensive.

(** lib.rs line 56, [blst::blst_scalar_from_bendian]: a blst_scalar holds its 32 bytes with the least
    significant first *)
Definition blst_scalar_from_bendian (bytes : seq byte) : seq byte := rev bytes.

(** lib.rs line 58, [blst::blst_fr_from_scalar]: the 256-bit number modulo r *)
Definition blst_fr_from_scalar (s : seq byte) : Fr := @of_Z rZ (Z.of_N (be_val (rev s))).

(** lib.rs lines 50-62 [reduce_bytes_to_scalar_bias] *)
Definition reduce_bytes_to_scalar_bias (bytes : seq byte) : Fr :=
  blst_fr_from_scalar (blst_scalar_from_bendian bytes).
