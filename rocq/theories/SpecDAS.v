(** Specification vocabulary about cells and openings. Nothing here refers to the model. *)

From Coq Require Import Init.Byte.
From mathcomp Require Import ssreflect ssrfun ssrbool eqtype ssrnat seq fintype bigop ssralg poly.
From Verif Require Import Spec SpecKZG.

Set Implicit Arguments.
Unset Strict Implicit.
Unset Printing Implicit Defensive.

Import GRing.Theory.
Local Open Scope ring_scope.

Section Cells.
Variable F : fieldType.

(** The point at which element j of cell k is an evaluation: w is a root of unity of order 2^n,
    a cell has 2^l elements. *)
Definition cell_point (w : F) (n l k j : nat) : F := w ^+ bitrev n (k * 2 ^ l + j).

(** f takes the values of the cell at the points of cell k. *)
Definition agrees_on_cell (w : F) (n l k : nat) (cell : seq F) (f : {poly F}) : Prop :=
  forall j, (j < 2 ^ l)%N -> f.[cell_point w n l k j] = cell`_j.

(** The representative h of cell k: its points are the h u with u^(2^l) = 1. *)
Definition coset_rep (w : F) (m k : nat) : F := w ^+ bitrev m k.

End Cells.

(** A pairing. *)
Record bilinear (F : fieldType) (G1 G2 GT : lmodType F) (pair : G1 -> G2 -> GT) : Prop := Bilinear {
  pairDl : forall P Q H, pair (P + Q) H = pair P H + pair Q H;
  pairZl : forall a P H, pair (a *: P) H = a *: pair P H;
  pairDr : forall P H K, pair P (H + K) = pair P H + pair P K;
  pairZr : forall a P H, pair P (a *: H) = a *: pair P H
}.

(** What is left of the verification equation of one opening: P is the proof, C the commitment,
    E the commitment to the interpolation polynomial of the cell, a = h^L for the coset h,
    H and K the first and the L-th point of the second group's setup (K = tau^L H).
    The opening is good when this is zero: e(P, K - a H) = e(C - E, H). *)
Definition opening_defect (F : fieldType) (G1 G2 GT : lmodType F) (pair : G1 -> G2 -> GT)
  (H K : G2) (a : F) (C E P : G1) : GT :=
  pair P (K - a *: H) - pair (C - E) H.

(** ** Bytes *)

(** The i-th group of 32 bytes. *)
Definition chunk (bytes : seq byte) (i : nat) : seq byte := take 32 (drop (i * 32) bytes).
