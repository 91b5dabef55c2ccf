(** The bytes of the results of the C interface, as Rust writes them and as the other languages read them. *)

From Coq Require Import NArith Init.Byte.
From mathcomp Require Import ssreflect ssrfun ssrbool eqtype ssrnat seq div.
From Verif Require Import Base Bytes.

Set Implicit Arguments.
Unset Strict Implicit.
Unset Printing Implicit Defensive.

(** ** Layout as in C *)

(** The size of pointers in bytes, and whether the most significant byte comes first. *)
Record machine := MkMachine { ptr_bytes : nat; big_endian : bool }.

(** Types of fields *)
Inductive ctype := TU8 | TU32 | TPtr.
Definition size_of (M : machine) (t : ctype) : nat :=
  match t with TU8 => 1 | TU32 => 4 | TPtr => ptr_bytes M end.

(** Each field is at the next multiple of its size. *)
Definition round_up (n a : nat) : nat := (n + a).-1 %/ a * a.
Fixpoint offsets (M : machine) (off : nat) (ts : seq ctype) : seq nat :=
  match ts with
  | [::] => [::]
  | t :: ts => let o := round_up off (size_of M t) in o :: offsets M (o + size_of M t) ts
  end.

(** Numbers in memory *)
Definition num_bytes (M : machine) (n : nat) (v : N) : seq byte :=
  if big_endian M then be_bytes n v else rev (be_bytes n v).
Definition num_val (M : machine) (s : seq byte) : N := be_val (if big_endian M then s else rev s).

(** Writing the fields over the bytes img; what lies between the fields stays as it was. *)
Definition put_at (img : seq byte) (off : nat) (s : seq byte) : seq byte :=
  take off img ++ s ++ drop (off + size s) img.
Definition write_struct (M : machine) (ts : seq ctype) (vs : seq N) (img : seq byte) : seq byte :=
  foldl (fun img f => put_at img f.1.1 (num_bytes M (size_of M f.1.2) f.2)) img (zip (zip (offsets M 0 ts) ts) vs).
Definition read_struct (M : machine) (ts : seq ctype) (img : seq byte) : seq N :=
  [seq num_val M (take (size_of M f.2) (drop f.1 img)) | f <- zip (offsets M 0 ts) ts].

(** ** CResult *)

(** /repo/bindings/c/src/lib.rs lines 106-121: #[repr(C)] makes the enum an int of C; the pointer follows. *)
Definition rust_result : seq ctype := [:: TU32; TPtr].
(** /repo/bindings/csharp/csharp_code/EthKZG.bindings/native_methods.g.cs lines 171-183: LayoutKind.Sequential,
    and an enum of uint *)
Definition cs_result : seq ctype := [:: TU32; TPtr].
(** /repo/bindings/nim/nim_code/nim_eth_kzg/header.nim lines 5-17: an enum without a size pragma takes the
    fewest bytes that hold its values, which is one for two values. *)
Definition nim_result : seq ctype := [:: TU8; TPtr].

(** lib.rs lines 107-111: Ok is 0 and Err is 1. *)
Definition status_number (refused : bool) : N := (if refused then 1 else 0)%num.
(** lib.rs lines 124-150: what a function leaves at the place of its result, where junk was before *)
Definition rust_returns (M : machine) (junk : seq byte) (refused : bool) (msg : N) : seq byte :=
  write_struct M rust_result [:: status_number refused; msg] junk.

(** ethkzg.cs lines 252-256 [ThrowOnError]: refused means that the status is Err, whose number is 1. *)
Definition cs_sees (M : machine) (img : seq byte) : bool * N :=
  let r := read_struct M cs_result img in (nth 0%num r 0 == 1%num, nth 0%num r 1).
(** nim_eth_kzg.nim lines 66-71 [verify_result]: refused means that the status is not Ok, whose number is 0. *)
Definition nim_sees (M : machine) (img : seq byte) : bool * N :=
  let r := read_struct M nim_result img in (nth 0%num r 0 != 0%num, nth 0%num r 1).
