(** Model of /repo/cryptography/polynomial/src/fft.rs. *)

From mathcomp Require Import ssreflect ssrfun ssrbool eqtype ssrnat seq div prime ssralg.
From Verif Require Import Base BitRev.

Set Implicit Arguments.
Unset Strict Implicit.
Unset Printing Implicit Defensive.

Import GRing.Theory.
Local Open Scope ring_scope.

Section FFT.
(** [F]: scalars.  [V]: the FFT elements (trait [FFTElement], fft.rs lines 4-27), scalars or
    group elements; [Mul<Scalar>] is [*:], [T::zero()] is [0]. *)
Variables (F : fieldType) (V : lmodType F).

(** fft.rs lines 48-57: the shortcuts before the multiplication. *)
Definition twiddle_mul (w : F) (x : V) : V :=
  if w == 1 then x
  else if w == - 1 then - x
  else if x == 0 then 0
  else w *: x.

(** fft.rs lines 47-62: one butterfly. *)
Definition fft_inner (w_m : F) (k m j : nat) (st : F * seq V) : outcome (F * seq V) :=
  let: (w, a) := st in
  olet x := aget a (k + j + m)%N in
  let t := twiddle_mul w x in
  olet u := aget a (k + j)%N in
  olet a1 := aset a (k + j)%N (u + t) in
  olet a2 := aset a1 (k + j + m)%N (u - t) in
  Ret (w * w_m, a2).

(** fft.rs lines 45-62: one block starting at k. *)
Definition fft_block (w_m : F) (m k : nat) (a : seq V) : outcome (seq V) :=
  omap snd (ofor (iota 0 m) (fft_inner w_m k m) (1, a)).

(** fft.rs lines 43-64: one stage; the state is (m, a). *)
Definition fft_stage (twiddle_factors : seq F) (n s : nat) (st : nat * seq V)
  : outcome (nat * seq V) :=
  let: (m, a) := st in
  olet w_m := aget twiddle_factors s in
  olet a' := ofor (step_by n (2 * m)) (fft_block w_m m) a in
  Ret ((m * 2)%N, a').

(** fft.rs lines 29-64 [fft_inplace].  [trailing_zeros(0) = 64] makes [1 << log_n] overflow
    (panic in checked builds, assertion failure otherwise).  In the bit reversal loop
    (lines 34-39) k is cast to u32. *)
Definition fft_inplace (twiddle_factors : seq F) (a : seq V) : outcome (seq V) :=
  let n := size a in
  let log_n := trailing_zeros n in
  oassert ((log_n < 64) && (n == 2 ^ log_n))%N (
  olet a1 := ofor (iota 0 n) (fun k => swap_step log_n (as_u32 k)) a in
  olet st := ofor (iota 0 log_n) (fft_stage twiddle_factors n) (1%N, a1) in
  Ret st.2).

(** fft.rs lines 85-90 [precompute_twiddle_factors]. *)
Definition precompute_twiddle_factors (omega : F) (n : nat) : seq F :=
  [seq omega ^+ (n %/ 2 ^ s.+1) | s <- iota 0 (trailing_zeros n)].

End FFT.
