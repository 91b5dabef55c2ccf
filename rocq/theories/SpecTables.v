(** Specification of the points and scalars of the multi-scalar multiplications that produce the
    128 opening proofs. Nothing here refers to the model. *)

From Coq Require Import ZArith.
From mathcomp Require Import ssreflect ssrfun ssrbool eqtype ssrnat seq div fintype bigop ssralg poly.
From Verif Require Import ZField FrPrime Fr SpecFr SpecMSM.

Set Implicit Arguments.
Unset Strict Implicit.
Unset Printing Implicit Defensive.

Import GRing.Theory.
Local Open Scope ring_scope.

(** The 128th root of unity. *)
Definition w128 : Fr := w8192 ^+ 64.

(** The 64 fixed points of multiplication j < 128. *)
Definition table_points (V : lmodType Fr) (g1s : seq V) (j : nat) : seq V :=
  mkseq (fun i => \sum_(b < 63) w128 ^+ (j * b) *: g1s`_(2 ^ 12 - 65 - (i + b * 64))) 64.

(** The 64 scalars of multiplication j for the polynomial f. *)
Definition table_scalars (f : {poly Fr}) (j : nat) : seq Fr :=
  mkseq (fun i => (-1) ^+ j * f`_(2 ^ 12 - 1 - i) +
    \sum_(b < 64) w128 ^+ (j * (128 - b)) * f`_(2 ^ 12 - 1 - (i + b * 64))) 64.

(** The windows of the multiplication of these points by these scalars in digits of w bits: no
    exceptional pair is met when they are summed. *)
Definition no_exceptional_pair (V : lmodType Fr) (w : nat) (points : seq V) (scalars : seq Fr)
  : Prop :=
  regular_forest 16
    [seq window_terms w points (map (zval (p := rZ)) scalars) i | i <- iota 0 (255 %/ w).+1].
