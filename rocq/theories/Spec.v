(** Specification vocabulary used in the statements of the properties.
    Nothing here refers to the model. *)

From mathcomp Require Import ssreflect ssrfun ssrbool eqtype ssrnat seq.

Set Implicit Arguments.
Unset Strict Implicit.
Unset Printing Implicit Defensive.

(** [bitrev k x]: the number whose k-bit binary expansion is that of x read backwards. *)
Fixpoint bitrev (k x : nat) : nat :=
  match k with
  | 0 => 0
  | k'.+1 => odd x * 2 ^ k' + bitrev k' x./2
  end.
