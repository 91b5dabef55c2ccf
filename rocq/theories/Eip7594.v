(** Model of /repo/eip7594/src: constants.rs, errors.rs, serialization.rs, recovery.rs,
    prover.rs, verifier.rs and the context of lib.rs.

    Simplifications: byte arrays of fixed length are lists whose length the theorems assume; u64
    indices are of type N; [with_optional_threadpool!] (macros.rs) runs its body and gives its
    value; references and values are the same. *)

From Coq Require Import NArith Init.Byte Strings.Byte.
From mathcomp Require Import ssreflect ssrfun ssrbool eqtype ssrnat seq div ssralg.
From Verif Require Import Base Bytes Domain ReedSolomon Lincomb FixedBaseMSM Cosets FK20Prover.
From Verif Require Import FK20Verifier.

Set Implicit Arguments.
Unset Strict Implicit.
Unset Printing Implicit Defensive.

Import GRing.Theory.

(** ** constants.rs: lines 17, 22, 34 are independent, the others are derived from them. *)
Record consts := MkConsts {
  FIELD_ELEMENTS_PER_CELL : nat;
  FIELD_ELEMENTS_PER_BLOB : nat;
  EXPANSION_FACTOR : nat
}.
(** constants.rs line 7. *)
Definition BYTES_PER_FIELD_ELEMENT : nat := 32.
(** constants.rs line 25. *)
Definition BYTES_PER_BLOB (K : consts) : nat := FIELD_ELEMENTS_PER_BLOB K * BYTES_PER_FIELD_ELEMENT.
(** constants.rs line 28. *)
Definition BYTES_PER_CELL (K : consts) : nat := FIELD_ELEMENTS_PER_CELL K * BYTES_PER_FIELD_ELEMENT.
(** constants.rs line 37. *)
Definition FIELD_ELEMENTS_PER_EXT_BLOB (K : consts) : nat :=
  EXPANSION_FACTOR K * FIELD_ELEMENTS_PER_BLOB K.
(** constants.rs line 42. *)
Definition CELLS_PER_EXT_BLOB (K : consts) : nat :=
  FIELD_ELEMENTS_PER_EXT_BLOB K %/ FIELD_ELEMENTS_PER_CELL K.
(** constants.rs line 50. *)
Definition BYTES_PER_G1_POINT : nat := 48.

(** The values of constants.rs. *)
Definition eip7594_consts : consts := MkConsts 64 (2 ^ 12) 2.

(** ** errors.rs *)

(** errors.rs lines 123-129. *)
Inductive serialization_error :=
| CouldNotDeserializeScalar (bytes : seq byte)
| CouldNotDeserializeG1Point (bytes : seq byte)
| ScalarHasInvalidLength (bytes : seq byte) (length : nat)
| BlobHasInvalidLength (bytes : seq byte) (length : nat)
| G1PointHasInvalidLength (bytes : seq byte) (length : nat).

(** errors.rs lines 62-81. *)
Inductive recovery_error :=
| NotEnoughCellsToReconstruct (num_cells_received min_cells_needed : nat)
| NumCellIndicesNotEqualToNumCells (num_cell_indices num_cells : nat)
| TooManyCellsReceived (num_cells_received max_cells_needed : nat)
| RecoveryCellIndexOutOfRange (cell_index max_number_of_cells : N)
| CellIndicesNotUnique
| RecoveryReedSolomon (e : rs_error).

(** errors.rs lines 48-52. *)
Inductive prover_error := RecoveryFailure (e : recovery_error).

(** errors.rs lines 91-112. *)
Inductive verifier_error :=
| VerifierCellIndexOutOfRange (cell_index max_number_of_cells : N)
| InvalidCommitmentIndex (commitment_index max_number_of_commitments : N)
| VerifierInvalidProof
| BatchVerificationInputsMustHaveSameLength
    (commitment_indices_len cell_indices_len cells_len proofs_len : nat)
| VerifierFK20 (e : fk20_verifier_error)
| VerifierPolynomialHasInvalidLength (num_coefficients expected_num_coefficients : nat).

(** errors.rs lines 6-11. *)
Inductive error :=
| EProver (e : prover_error)
| EVerifier (e : verifier_error)
| ERecovery (e : recovery_error)
| ESerialization (e : serialization_error).

(** errors.rs lines 18-24 [invalid_proof]. *)
Definition invalid_proof (e : error) : bool :=
  match e with
  | EVerifier v => match v with VerifierFK20 _ => true | _ => false end
  | _ => false
  end.

(** [x?] with a conversion of the error. *)
Definition rlift (A E E' : Type) (f : E -> E') (x : outcome (result A E)) : outcome (result A E') :=
  omap (rmap_err f) x.

(** [for x in l { v.push(f(x)?) }] and [l.map(f).collect::<Result<Vec<_>, _>>()]. *)
Fixpoint ormapM (A B E : Type) (f : A -> outcome (result B E)) (l : seq A)
  : outcome (result (seq B) E) :=
  match l with
  | [::] => Ret (Ok [::])
  | x :: xs => rlet y := f x in rlet ys := ormapM f xs in Ret (Ok (y :: ys))
  end.

(** The external functions: those of the transcript, [Scalar::from_bytes_be],
    [G1Point::from_compressed], the pairing, and what the tables need. *)
Record das_env (F : fieldType) (G1 G2 GT : lmodType F) := MkDasEnv {
  de_te : transcript_env G1;
  de_scalar_from_bytes_be : seq byte -> option F;
  de_g1_from_compressed : seq byte -> option G1;
  de_pair : G1 -> G2 -> GT;
  de_me : msm_env G1
}.

Section Api.
Variables (F : fieldType) (G1 G2 GT : lmodType F) (fp : fparams F) (env : das_env G1 G2 GT).
Variable K : consts.

Local Notation te := (de_te env).

(** ** serialization.rs *)

(** serialization.rs lines 47-60 [deserialize_bytes_to_scalar]. *)
Definition deserialize_bytes_to_scalar (scalar_bytes : seq byte)
  : outcome (result F serialization_error) :=
  oassert (size scalar_bytes == 32)
    (Ret (match de_scalar_from_bytes_be env scalar_bytes with
          | Some scalar => Ok scalar
          | None => Err (CouldNotDeserializeScalar scalar_bytes)
          end)).

(** serialization.rs lines 12-28 [deserialize_bytes_to_scalars]. *)
Definition deserialize_bytes_to_scalars (bytes : seq byte)
  : outcome (result (seq F) serialization_error) :=
  if (size bytes %% BYTES_PER_FIELD_ELEMENT != 0)
  then Ret (Err (ScalarHasInvalidLength bytes (size bytes)))
  else ormapM deserialize_bytes_to_scalar (chunks_exact BYTES_PER_FIELD_ELEMENT bytes).

(** serialization.rs lines 30-40 [deserialize_blob_to_scalars]. *)
Definition deserialize_blob_to_scalars (blob_bytes : seq byte)
  : outcome (result (seq F) serialization_error) :=
  if size blob_bytes != BYTES_PER_BLOB K
  then Ret (Err (BlobHasInvalidLength blob_bytes (size blob_bytes)))
  else deserialize_bytes_to_scalars blob_bytes.

(** serialization.rs lines 41-45 [deserialize_cell_to_scalars]. *)
Definition deserialize_cell_to_scalars := deserialize_bytes_to_scalars.

(** serialization.rs lines 62-77 [deserialize_compressed_g1]. *)
Definition deserialize_compressed_g1 (point_bytes : seq byte) : result G1 serialization_error :=
  if size point_bytes != BYTES_PER_G1_POINT
  then Err (G1PointHasInvalidLength point_bytes (size point_bytes))
  else match de_g1_from_compressed env point_bytes with
       | Some p => Ok p
       | None => Err (CouldNotDeserializeG1Point point_bytes)
       end.

(** serialization.rs lines 82-89 [deserialize_compressed_g1_points]. *)
Definition deserialize_compressed_g1_points (points : seq (seq byte))
  : result (seq G1) serialization_error := rmapM deserialize_compressed_g1 points.

(** serialization.rs lines 91-103 [serialize_scalars_to_cell]. *)
Definition serialize_scalars_to_cell (scalars : seq F) : outcome (seq byte) :=
  oassert (size scalars == FIELD_ELEMENTS_PER_CELL K)
    (Ret (foldl (fun bytes scalar => bytes ++ te_scalar_to_bytes_be te scalar) [::] scalars)).

(** serialization.rs lines 105-113 [deserialize_cells]. *)
Definition deserialize_cells (cells : seq (seq byte))
  : outcome (result (seq (seq F)) serialization_error) :=
  ormapM deserialize_cell_to_scalars cells.

(** serialization.rs lines 116-131 [coset_evaluations_to_cells]. *)
Definition coset_evaluations_to_cells (evaluations : seq (seq F)) : outcome (seq (seq byte)) :=
  olet cells := omapM (fun eval =>
    olet cell := serialize_scalars_to_cell eval in
    oassert (size cell == BYTES_PER_CELL K) (Ret cell)) evaluations in
  oassert (size cells == CELLS_PER_EXT_BLOB K) (Ret cells).

(** serialization.rs lines 133-147 [serialize_cells_and_proofs]; lines 78-80
    [serialize_g1_compressed] is the compression itself. *)
Definition serialize_cells_and_proofs (coset_evaluations : seq (seq F)) (proofs : seq G1)
  : outcome (seq (seq byte) * seq (seq byte)) :=
  olet cells := coset_evaluations_to_cells coset_evaluations in
  let proofs := [seq te_g1_to_compressed te p | p <- proofs] in
  oassert (size proofs == CELLS_PER_EXT_BLOB K) (Ret (cells, proofs)).

(** ** recovery.rs *)

(** recovery.rs lines 147-151 [are_cell_indices_unique]: the number of elements of the set. *)
Definition are_cell_indices_unique (cell_indices : seq N) : bool :=
  size (undup cell_indices) == size cell_indices.

(** recovery.rs lines 88-144 [validation::recover_polynomial_coeff]. *)
Definition validate_recover (cell_indices : seq N) (cells : seq (seq byte))
  : outcome (result unit recovery_error) :=
  if size cell_indices != size cells
  then Ret (Err (NumCellIndicesNotEqualToNumCells (size cell_indices) (size cells))) else
  let max := N.of_nat (CELLS_PER_EXT_BLOB K) in
  match [seq i <- cell_indices | N.leb max i] with
  | cell_index :: _ => Ret (Err (RecoveryCellIndexOutOfRange cell_index max))
  | [::] =>
    oassert (all (fun cell => size cell == BYTES_PER_CELL K) cells) (
    if ~~ are_cell_indices_unique cell_indices then Ret (Err CellIndicesNotUnique) else
    oassert (EXPANSION_FACTOR K != 0) (
    let min := CELLS_PER_EXT_BLOB K %/ EXPANSION_FACTOR K in
    if size cell_indices < min
    then Ret (Err (NotEnoughCellsToReconstruct (size cell_indices) min)) else
    if CELLS_PER_EXT_BLOB K < size cell_indices
    then Ret (Err (TooManyCellsReceived (size cell_indices) (CELLS_PER_EXT_BLOB K))) else
    Ret (Ok tt)))
  end.

(** recovery.rs lines 64-76 [find_missing_cell_indices]. *)
Definition find_missing_cell_indices (present_cell_indices : seq nat) : seq nat :=
  [seq i <- iota 0 (CELLS_PER_EXT_BLOB K) | i \notin present_cell_indices].

(** recovery.rs lines 14-62 [recover_polynomial_coeff]. *)
Definition recover_polynomial_coeff (rs : reed_solomon F) (cell_indices : seq N)
  (cells : seq (seq byte)) : outcome (result (seq F) error) :=
  rlet _ := rlift ERecovery (validate_recover cell_indices cells) in
  rlet coset_evaluations := rlift ESerialization (deserialize_cells cells) in
  let cell_indices := [seq N.to_nat i | i <- cell_indices] in
  olet r := recover_evaluations_in_domain_order (FIELD_ELEMENTS_PER_EXT_BLOB K) cell_indices
              coset_evaluations in
  olet (cell_indices_normal_order, flattened) := ounwrap r in
  let missing_cell_indices := find_missing_cell_indices cell_indices_normal_order in
  rlift (fun e => ERecovery (RecoveryReedSolomon e))
    (recover_polynomial_coefficient rs flattened missing_cell_indices).

(** ** The contexts *)

(** prover.rs lines 22-28 [ProverContext]. *)
Record prover_context := MkProverContext {
  pc_prover : fk20_prover G1;
  pc_rs : reed_solomon F
}.

(** prover.rs lines 39-70 [ProverContext::new], from the points of the trusted setup. *)
Definition prover_context_new (g1_monomial : seq G1) (up : use_precomp) : outcome prover_context :=
  olet commit_key := commit_key_new g1_monomial in
  olet prover := fk20_prover_new fp commit_key (FIELD_ELEMENTS_PER_BLOB K)
    (FIELD_ELEMENTS_PER_CELL K) (FIELD_ELEMENTS_PER_EXT_BLOB K) up in
  olet rs := rs_new fp (FIELD_ELEMENTS_PER_BLOB K) (EXPANSION_FACTOR K) (CELLS_PER_EXT_BLOB K) in
  Ret (MkProverContext prover rs).

(** trusted_setup.rs lines 108-121 [to_verification_key], from the points. *)
Definition to_verification_key (g1_monomial : seq G1) (g2_monomial : seq G2)
  : outcome (verification_key G1 G2) :=
  olet g1_points := aslice g1_monomial 0 (size g2_monomial) in
  verification_key_new g1_points g2_monomial (FIELD_ELEMENTS_PER_CELL K)
    (FIELD_ELEMENTS_PER_BLOB K).

(** verifier.rs lines 28-40 [VerifierContext::new]. *)
Definition verifier_context_new (g1_monomial : seq G1) (g2_monomial : seq G2)
  : outcome (fk20_verifier G1 G2) :=
  olet verification_key := to_verification_key g1_monomial g2_monomial in
  fk20_verifier_new fp verification_key (FIELD_ELEMENTS_PER_EXT_BLOB K) (CELLS_PER_EXT_BLOB K).

(** lib.rs lines 101-106 [DASContext]; the thread pool carries no data. *)
Record das_context := MkDASContext {
  dc_prover_ctx : prover_context;
  dc_verifier_ctx : fk20_verifier G1 G2
}.

(** lib.rs lines 127-146 [with_threads] and 149-161 [new]. *)
Definition das_context_new (g1_monomial : seq G1) (g2_monomial : seq G2) (up : use_precomp)
  : outcome das_context :=
  olet prover_ctx := prover_context_new g1_monomial up in
  olet verifier_ctx := verifier_context_new g1_monomial g2_monomial in
  Ret (MkDASContext prover_ctx verifier_ctx).

(** ** The four calls *)

(** prover.rs lines 77-91 [blob_to_kzg_commitment]. *)
Definition blob_to_kzg_commitment (ctx : das_context) (blob : seq byte)
  : outcome (result (seq byte) error) :=
  rlet scalars := rlift ESerialization (deserialize_blob_to_scalars blob) in
  olet commitment := fk20_commit (pc_prover (dc_prover_ctx ctx)) (InputData scalars) in
  Ret (Ok (te_g1_to_compressed te commitment)).

(** prover.rs lines 96-114 [compute_cells_and_kzg_proofs]. *)
Definition compute_cells_and_kzg_proofs (ctx : das_context) (blob : seq byte)
  : outcome (result (seq (seq byte) * seq (seq byte)) error) :=
  rlet scalars := rlift ESerialization (deserialize_blob_to_scalars blob) in
  olet (proofs, cells) := compute_multi_opening_proofs (de_me env)
    (pc_prover (dc_prover_ctx ctx)) (InputData scalars) in
  olet out := serialize_cells_and_proofs cells proofs in
  Ret (Ok out).

(** prover.rs lines 122-141 [recover_cells_and_kzg_proofs]. *)
Definition recover_cells_and_kzg_proofs (ctx : das_context) (cell_indices : seq N)
  (cells : seq (seq byte)) : outcome (result (seq (seq byte) * seq (seq byte)) error) :=
  rlet poly_coeff := recover_polynomial_coeff (pc_rs (dc_prover_ctx ctx)) cell_indices cells in
  olet (proofs, coset_evaluations) := compute_multi_opening_proofs (de_me env)
    (pc_prover (dc_prover_ctx ctx)) (InputPolyCoeff poly_coeff) in
  olet out := serialize_cells_and_proofs coset_evaluations proofs in
  Ret (Ok out).

(** verifier.rs lines 49-68 [deduplicate_with_indices]: the hash map is an association list. *)
Record dedup_state (T : Type) := MkDedup {
  dd_unique_items : seq T;
  dd_index_map : seq (T * nat);
  dd_indices : seq N
}.
Definition deduplicate_with_indices (T : eqType) (input : seq T) : seq T * seq N :=
  let st := foldl (fun (st : dedup_state T) item =>
    match [seq kv.2 | kv <- dd_index_map st & kv.1 == item] with
    | index :: _ =>
        MkDedup (dd_unique_items st) (dd_index_map st) (rcons (dd_indices st) (N.of_nat index))
    | [::] =>
        let new_index := size (dd_unique_items st) in
        MkDedup (rcons (dd_unique_items st) item) ((item, new_index) :: dd_index_map st)
                (rcons (dd_indices st) (N.of_nat new_index))
    end) (MkDedup [::] [::] [::]) input in
  (dd_unique_items st, dd_indices st).

(** verifier.rs lines 132-173 [validation::verify_cell_kzg_proof_batch]. *)
Definition validate_verify (deduplicated_commitments : seq (seq byte))
  (commitment_indices cell_indices : seq N) (cells proofs_bytes : seq (seq byte))
  : result unit verifier_error :=
  let same_length := (size commitment_indices == size cell_indices)
                     && (size commitment_indices == size cells)
                     && (size commitment_indices == size proofs_bytes) in
  if ~~ same_length
  then Err (BatchVerificationInputsMustHaveSameLength (size commitment_indices)
              (size cell_indices) (size cells) (size proofs_bytes)) else
  let max_commitments := N.of_nat (size deduplicated_commitments) in
  match [seq i <- commitment_indices | N.leb max_commitments i] with
  | commitment_index :: _ => Err (InvalidCommitmentIndex commitment_index max_commitments)
  | [::] =>
    let max_cells := N.of_nat (CELLS_PER_EXT_BLOB K) in
    match [seq i <- cell_indices | N.leb max_cells i] with
    | cell_index :: _ => Err (VerifierCellIndexOutOfRange cell_index max_cells)
    | [::] => Ok tt
    end
  end.

(** verifier.rs lines 75-121 [verify_cell_kzg_proof_batch]. *)
Definition verify_cell_kzg_proof_batch (ctx : das_context) (commitments : seq (seq byte))
  (cell_indices : seq N) (cells proofs_bytes : seq (seq byte)) : outcome (result unit error) :=
  let: (deduplicated_commitments, row_indices) := deduplicate_with_indices commitments in
  rlet _ := rlift EVerifier (Ret (validate_verify deduplicated_commitments row_indices
                                    cell_indices cells proofs_bytes)) in
  if nilp cells then Ret (Ok tt) else
  rlet row_commitments :=
    rlift ESerialization (Ret (deserialize_compressed_g1_points deduplicated_commitments)) in
  rlet proofs := rlift ESerialization (Ret (deserialize_compressed_g1_points proofs_bytes)) in
  rlet coset_evals := rlift ESerialization (deserialize_cells cells) in
  rlift (fun e => EVerifier (VerifierFK20 e))
    (verify_multi_opening (de_pair env) te (dc_verifier_ctx ctx) row_commitments row_indices
       cell_indices coset_evals proofs).

End Api.
