(** Model of the texts of errors: [format!("{:?}", err)] for the enums of
    /repo/eip7594/src/errors.rs lines 5-11, 49-52, 61-81, 90-112 and 121-129,
    /repo/cryptography/erasure_codes/src/errors.rs lines 1-19 and
    /repo/cryptography/kzg_multi_open/src/fk20/errors.rs lines 1-4, which all derive Debug.
    What derive(Debug) prints is from the documentation of Rust. *)

From Coq Require Import NArith Init.Byte Strings.Byte Strings.String Decimal DecimalString.
From mathcomp Require Import ssreflect ssrfun ssrbool eqtype ssrnat seq.
From Verif Require Import Bytes ReedSolomon FK20Verifier Eip7594.

Set Implicit Arguments.
Unset Strict Implicit.
Unset Printing Implicit Defensive.

Notation lit s := (list_byte_of_string s%string).

(** Debug of the types usize, u64 and u8: decimal without leading zeros *)
Definition debug_N (n : N) : seq byte := list_byte_of_string (NilEmpty.string_of_uint (N.to_uint n)).

(** Debug of Vec<u8>: the numbers in brackets, separated by a comma and a space *)
Definition debug_bytes (l : seq byte) : seq byte :=
  lit "[" ++
  (if l is b :: r then debug_N (Byte.to_N b) ++ flatten [seq lit ", " ++ debug_N (Byte.to_N x) | x <- r] else [::]) ++
  lit "]".

(** The types of fields *)
Inductive value := VNum (n : N) | VBytes (l : seq byte).
Definition VNat (n : nat) : value := VNum (N.of_nat n).
Definition debug_value (v : value) : seq byte :=
  match v with VNum n => debug_N n | VBytes l => debug_bytes l end.

(** A variant with named fields: Name { a: 1, b: 2 } *)
Fixpoint debug_fields (sep : seq byte) (fields : seq (seq byte * value)) : seq byte :=
  if fields is (name, v) :: r then sep ++ name ++ lit ": " ++ debug_value v ++ debug_fields (lit ", ") r
  else lit " }".
Definition debug_struct (name : seq byte) (fields : seq (seq byte * value)) : seq byte :=
  name ++ debug_fields (lit " { ") fields.

(** A variant with one field without a name: Name(inner) *)
Definition debug_tuple (name inner : seq byte) : seq byte := name ++ lit "(" ++ inner ++ lit ")".

(** erasure_codes/src/errors.rs lines 1-19 *)
Definition debug_rs_error (e : rs_error) : seq byte :=
  match e with
  | PolynomialHasTooManyCoefficients a b => debug_struct (lit "PolynomialHasTooManyCoefficients")
      [:: (lit "num_coefficients", VNat a); (lit "max_num_coefficients", VNat b)]
  | PolynomialHasInvalidLength a b => debug_struct (lit "PolynomialHasInvalidLength")
      [:: (lit "num_coefficients", VNat a); (lit "expected_num_coefficients", VNat b)]
  | TooManyBlockErasures a b => debug_struct (lit "TooManyBlockErasures")
      [:: (lit "num_block_erasures", VNat a); (lit "max_num_block_erasures_accepted", VNat b)]
  | InvalidBlockIndex a b => debug_struct (lit "InvalidBlockIndex")
      [:: (lit "block_index", VNat a); (lit "block_size", VNat b)]
  end.

(** fk20/errors.rs lines 1-4 *)
Definition debug_fk20_verifier_error (e : fk20_verifier_error) : seq byte :=
  match e with InvalidProof => lit "InvalidProof" end.

(** eip7594/src/errors.rs lines 61-81 *)
Definition debug_recovery_error (e : recovery_error) : seq byte :=
  match e with
  | NotEnoughCellsToReconstruct a b => debug_struct (lit "NotEnoughCellsToReconstruct")
      [:: (lit "num_cells_received", VNat a); (lit "min_cells_needed", VNat b)]
  | NumCellIndicesNotEqualToNumCells a b => debug_struct (lit "NumCellIndicesNotEqualToNumCells")
      [:: (lit "num_cell_indices", VNat a); (lit "num_cells", VNat b)]
  | TooManyCellsReceived a b => debug_struct (lit "TooManyCellsReceived")
      [:: (lit "num_cells_received", VNat a); (lit "max_cells_needed", VNat b)]
  | RecoveryCellIndexOutOfRange a b => debug_struct (lit "CellIndexOutOfRange")
      [:: (lit "cell_index", VNum a); (lit "max_number_of_cells", VNum b)]
  | CellIndicesNotUnique => lit "CellIndicesNotUnique"
  | RecoveryReedSolomon e => debug_tuple (lit "ReedSolomon") (debug_rs_error e)
  end.

(** eip7594/src/errors.rs lines 49-52 *)
Definition debug_prover_error (e : prover_error) : seq byte :=
  match e with RecoveryFailure e => debug_tuple (lit "RecoveryFailure") (debug_recovery_error e) end.

(** eip7594/src/errors.rs lines 90-112 *)
Definition debug_verifier_error (e : verifier_error) : seq byte :=
  match e with
  | VerifierCellIndexOutOfRange a b => debug_struct (lit "CellIndexOutOfRange")
      [:: (lit "cell_index", VNum a); (lit "max_number_of_cells", VNum b)]
  | InvalidCommitmentIndex a b => debug_struct (lit "InvalidCommitmentIndex")
      [:: (lit "commitment_index", VNum a); (lit "max_number_of_commitments", VNum b)]
  | VerifierInvalidProof => lit "InvalidProof"
  | BatchVerificationInputsMustHaveSameLength a b c d =>
      debug_struct (lit "BatchVerificationInputsMustHaveSameLength")
      [:: (lit "commitment_indices_len", VNat a); (lit "cell_indices_len", VNat b);
          (lit "cells_len", VNat c); (lit "proofs_len", VNat d)]
  | VerifierFK20 e => debug_tuple (lit "FK20") (debug_fk20_verifier_error e)
  | VerifierPolynomialHasInvalidLength a b => debug_struct (lit "PolynomialHasInvalidLength")
      [:: (lit "num_coefficients", VNat a); (lit "expected_num_coefficients", VNat b)]
  end.

(** eip7594/src/errors.rs lines 121-129 *)
Definition debug_serialization_error (e : serialization_error) : seq byte :=
  match e with
  | CouldNotDeserializeScalar b => debug_struct (lit "CouldNotDeserializeScalar") [:: (lit "bytes", VBytes b)]
  | CouldNotDeserializeG1Point b => debug_struct (lit "CouldNotDeserializeG1Point") [:: (lit "bytes", VBytes b)]
  | ScalarHasInvalidLength b n => debug_struct (lit "ScalarHasInvalidLength")
      [:: (lit "bytes", VBytes b); (lit "length", VNat n)]
  | BlobHasInvalidLength b n => debug_struct (lit "BlobHasInvalidLength")
      [:: (lit "bytes", VBytes b); (lit "length", VNat n)]
  | G1PointHasInvalidLength b n => debug_struct (lit "G1PointHasInvalidLength")
      [:: (lit "bytes", VBytes b); (lit "length", VNat n)]
  end.

(** eip7594/src/errors.rs lines 5-11 *)
Definition debug_error (e : error) : seq byte :=
  match e with
  | EProver e => debug_tuple (lit "Prover") (debug_prover_error e)
  | EVerifier e => debug_tuple (lit "Verifier") (debug_verifier_error e)
  | ERecovery e => debug_tuple (lit "Recovery") (debug_recovery_error e)
  | ESerialization e => debug_tuple (lit "Serialization") (debug_serialization_error e)
  end.
