(** Concrete instances of the hypotheses of PropAbi.v. *)

From Coq Require Import NArith Init.Byte.
From mathcomp Require Import ssreflect ssrfun ssrbool eqtype ssrnat seq.
From Verif Require Import Base Bytes Abi PropAbi.

Set Implicit Arguments.
Unset Strict Implicit.
Unset Printing Implicit Defensive.

(** x86_64, a 32-bit machine, s390x; the place of the result holds ff before. *)
Definition x86_64 := MkMachine 8 false.
Definition arm32 := MkMachine 4 false.
Definition s390x := MkMachine 8 true.
Definition full (n : nat) : seq byte := nseq n "255"%byte.

(** The bytes of a refusal with its message at 0x1234 *)
Example refusal_bytes : rust_returns x86_64 (full 16) true 4660%num =
  [:: "001"; "000"; "000"; "000"; "255"; "255"; "255"; "255"; "052"; "018"; "000"; "000"; "000"; "000"; "000"; "000"]%byte.
Proof. by vm_compute. Qed.
Example C63_cs_applies : cs_sees x86_64 (rust_returns x86_64 (full 16) true 4660%num) = (true, 4660%num) /\
  cs_sees arm32 (rust_returns arm32 (full 8) false 0%num) = (false, 0%num) /\
  cs_sees s390x (rust_returns s390x (full 16) true 4660%num) = (true, 4660%num).
Proof. by split; [|split]; apply: C63_cs. Qed.
Example C63_nim_little_applies : nim_sees x86_64 (rust_returns x86_64 (full 16) true 4660%num) = (true, 4660%num) /\
  nim_sees arm32 (rust_returns arm32 (full 8) true 4660%num) = (true, 4660%num).
Proof. by split; apply: C63_nim_little. Qed.
Example C63_nim_big_applies : nim_sees s390x (rust_returns s390x (full 16) true 4660%num) = (false, 4660%num).
Proof. by apply: C63_nim_big. Qed.
