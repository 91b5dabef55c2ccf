(** Specification of well-formed point strings, independent of the model. *)

From Coq Require Import NArith Init.Byte Strings.Byte.
From mathcomp Require Import ssreflect ssrfun ssrbool eqtype ssrnat seq.
From Verif Require Import Bytes.

Set Implicit Arguments.
Unset Strict Implicit.
Unset Printing Implicit Defensive.

Definition lower_digits : seq byte :=
  [:: "0"; "1"; "2"; "3"; "4"; "5"; "6"; "7"; "8"; "9"; "a"; "b"; "c"; "d"; "e"; "f"]%byte.
Definition upper_digits : seq byte :=
  [:: "0"; "1"; "2"; "3"; "4"; "5"; "6"; "7"; "8"; "9"; "A"; "B"; "C"; "D"; "E"; "F"]%byte.

(** c is a hexadecimal digit for the number d < 16, in either case *)
Definition hex_digit (c : byte) (d : N) : bool :=
  (N.to_nat d < 16) &&
  ((c == nth "000"%byte lower_digits (N.to_nat d)) || (c == nth "000"%byte upper_digits (N.to_nat d))).

(** s is 0x followed by the digits of the bytes b, high digit first *)
Definition hex_string (s : seq byte) (b : seq byte) : Prop :=
  [/\ size s = 2 + 2 * size b,
      take 2 s = [:: "0"; "x"]%byte &
      forall i, i < size b ->
        hex_digit (nth "000"%byte s (2 + 2 * i)) (Byte.to_N (nth "000"%byte b i) / 16) /\
        hex_digit (nth "000"%byte s (3 + 2 * i)) (Byte.to_N (nth "000"%byte b i) mod 16)].

(** s is a string for the point p of n bytes *)
Definition point_string (P : Type) (n : nat) (decode : seq byte -> option P) (s : seq byte) (p : P)
  : Prop := exists b, [/\ size b = n, hex_string s b & decode b = Some p].

(** element by element *)
Definition point_strings (P : Type) (n : nat) (decode : seq byte -> option P)
  (ss : seq (seq byte)) (ps : seq P) : Prop := List.Forall2 (point_string n decode) ss ps.
