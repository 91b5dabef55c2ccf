(** Specification vocabulary for EIP-7594 over the BLS12-381 scalar field: blobs of 4096 field
    elements, 128 cells of 64 field elements. Nothing here refers to the model. *)

From Coq Require Import ZArith NArith Init.Byte.
From mathcomp Require Import ssreflect ssrfun ssrbool eqtype ssrnat seq fintype bigop ssralg poly.
From mathcomp Require Import polydiv.
From Verif Require Import ZField FrPrime Fr Bytes Spec SpecKZG SpecDAS.

Set Implicit Arguments.
Unset Strict Implicit.
Unset Printing Implicit Defensive.

Import GRing.Theory.
Local Open Scope ring_scope.

(** The 32-byte big-endian encoding of a field element. *)
Definition fr_be (x : Fr) : seq byte := be_bytes 32 (Z.to_N (zval (p := rZ) x)).

(** The bytes are the big-endian encoding of an integer below the modulus. *)
Definition canonical (bytes : seq byte) : bool := (be_val bytes <? Z.to_N r_modulus)%num.

(** The 8192nd root of unity 7^((r-1)/8192) (see [w8192_power] in PropProver.v). *)
Definition w8192 : Fr :=
  @of_Z rZ 0x485d512737b1da3d2ccddea2972e89ed146b58bc434906ac6fdd00bfc78c8967%Z.
Definition w4096 : Fr := w8192 ^+ 2.

(** f has degree below 4096 and its values at the 4096th roots of unity, in bit-reversed order,
    are the field elements of the blob. *)
Definition blob_polynomial (blob : seq byte) (f : {poly Fr}) : Prop :=
  (size f <= 2 ^ 12)%N /\
  forall i, (i < 2 ^ 12)%N -> fr_be f.[w4096 ^+ bitrev 12 i] = chunk blob i.

(** Cell k of the extended blob of f. *)
Definition cell_of_poly (f : {poly Fr}) (k : nat) : seq byte :=
  flatten (mkseq (fun j => fr_be f.[w8192 ^+ bitrev 13 (k * 64 + j)]) 64).

(** The representative of coset k: the points of cell k are the x with x^64 = (coset_point k)^64. *)
Definition coset_point (k : nat) : Fr := w8192 ^+ bitrev 7 k.

(** The polynomial that vanishes on the points of cell k. *)
Definition coset_vanishing (k : nat) : {poly Fr} := 'X^64 - (coset_point k ^+ 64)%:P.

(** The opening proof for cell k of f. *)
Definition proof_of_poly (V : lmodType Fr) (srs : seq V) (f : {poly Fr}) (k : nat) : V :=
  commit srs (f %/ coset_vanishing k).

(** f has degree below 4096 and takes the values of cells.[t] on the points of cell idx.[t]. *)
Definition cells_polynomial (idx : seq N) (cells : seq (seq byte)) (f : {poly Fr}) : Prop :=
  (size f <= 2 ^ 12)%N /\
  forall t j, (t < size idx)%N -> (j < 64)%N ->
    fr_be f.[w8192 ^+ bitrev 13 (N.to_nat (nth 0%num idx t) * 64 + j)] = chunk (nth [::] cells t) j.

(** I has degree below 64 and takes the values of the cell on the points of cell k. *)
Definition cell_interpolant (k : nat) (cell : seq byte) (I : {poly Fr}) : Prop :=
  (size I <= 64)%N /\
  forall j, (j < 64)%N -> fr_be I.[w8192 ^+ bitrev 13 (k * 64 + j)] = chunk cell j.
