(** Bit reversal: model of the swap loops. *)

From mathcomp Require Import ssreflect ssrfun ssrbool eqtype ssrnat seq div prime.
From Verif Require Import Base.

Set Implicit Arguments.
Unset Strict Implicit.
Unset Printing Implicit Defensive.

(** kzg_multi_open/src/fk20/cosets.rs lines 10-18 [reverse_bits];
    polynomial/src/fft.rs lines 74-81 [bitreverse] has the same body.
    [(r << 1) | (n & 1)] is [r.*2 + odd n]; no bit is shifted out since r < 2^bits. *)
Definition reverse_bits (n bits : nat) : nat :=
  (foldl (fun st _ => let: (n, r) := st in (n./2, r.*2 + odd n)) (n, 0) (iota 0 bits)).2.

(** kzg_multi_open/src/fk20/cosets.rs lines 23-26 [log2] (its argument is a u32). *)
Definition log2 (x : nat) : outcome nat :=
  oassert ((0 < x) && is_power_of_two x) (Ret (trailing_zeros x)).

(** One iteration of the swap loops: cosets.rs lines 34-39, fft.rs lines 34-39. *)
Definition swap_step (T : Type) (log_n k : nat) (a : seq T) : outcome (seq T) :=
  let rk := reverse_bits k log_n in
  if k < rk then aswap a rk k else Ret a.

(** kzg_multi_open/src/fk20/cosets.rs lines 29-40 [reverse_bit_order];
    the length is truncated to u32 as in line 30. *)
Definition reverse_bit_order (T : Type) (a : seq T) : outcome (seq T) :=
  let n := as_u32 (size a) in
  oassert (is_power_of_two n) (
  olet log_n := log2 n in
  ofor (iota 0 n) (swap_step log_n) a).
