(** Specification of the texts of errors: decimal numbers and printable characters. *)

From Coq Require Import NArith Init.Byte Strings.Byte.
From mathcomp Require Import ssreflect ssrfun ssrbool eqtype ssrnat seq.
From Verif Require Import Bytes.

Set Implicit Arguments.
Unset Strict Implicit.
Unset Printing Implicit Defensive.

(** A character of ASCII from the space to the tilde *)
Definition is_printable (b : byte) : bool := (32 <=? Byte.to_N b)%num && (Byte.to_N b <=? 126)%num.
Definition is_digit (b : byte) : bool := (48 <=? Byte.to_N b)%num && (Byte.to_N b <=? 57)%num.

(** The number that a string of digits denotes *)
Definition decimal_value (s : seq byte) : N :=
  foldl (fun a b => 10 * a + (Byte.to_N b - 48))%num 0%num s.

(** [s] is how one writes the number [n]: digits only, at least one, no zero in front. *)
Definition decimal (n : N) (s : seq byte) : Prop :=
  [/\ all is_digit s, s <> [::], decimal_value s = n & forall r, s = "0"%byte :: r -> r = [::]].
