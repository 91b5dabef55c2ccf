(** Specification vocabulary for batch verification. Nothing here refers to the model. *)

From Coq Require Import NArith Init.Byte Strings.Byte Strings.String.
From mathcomp Require Import ssreflect ssrfun ssrbool eqtype ssrnat seq fintype bigop ssralg poly.
From Verif Require Import ZField FrPrime Fr Bytes Spec SpecKZG SpecDAS SpecFr.

Set Implicit Arguments.
Unset Strict Implicit.
Unset Printing Implicit Defensive.

Import GRing.Theory.
Local Open Scope ring_scope.

(** The distinct elements of a list, in the order of their first occurrence. *)
Definition distinct (T : eqType) (s : seq T) : seq T := rev (undup (rev s)).

(** The bytes hashed by compute_verify_cell_kzg_proof_batch_challenge of the EIP-7594 consensus
    specification: a domain separator, the degree bound, the cell size, the number of distinct
    commitments, the number of openings, the distinct commitments and, for each opening, the
    position of its commitment, its cell index, its cell and its proof. *)
Definition batch_transcript (coms : seq (seq byte)) (idx : seq N) (cells proofs : seq (seq byte))
  : seq byte :=
  list_byte_of_string "RCKZGCBATCH__V1_"
  ++ be_bytes 8 4096 ++ be_bytes 8 64
  ++ be_bytes 8 (N.of_nat (size (distinct coms))) ++ be_bytes 8 (N.of_nat (size idx))
  ++ flatten (distinct coms)
  ++ flatten (mkseq (fun t =>
       be_bytes 8 (N.of_nat (index (nth [::] coms t) (distinct coms)))
       ++ be_bytes 8 (nth 0%num idx t) ++ nth [::] cells t ++ nth [::] proofs t) (size idx)).

(** A list of byte strings of n bytes each. *)
Definition all_size (n : nat) (s : seq (seq byte)) : bool := all (fun x => size x == n) s.
