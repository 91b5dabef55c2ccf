(** Concrete texts of errors, and concrete instances of the hypotheses of PropDebug.v. *)

From Coq Require Import ZArith NArith Init.Byte Strings.Byte Strings.String.
From mathcomp Require Import ssreflect ssrfun ssrbool eqtype ssrnat seq ssralg.
From Verif Require Import Base Bytes Fr SpecDAS SpecFr FrEnv FixedBaseMSM FK20Verifier ReedSolomon Eip7594.
From Verif Require Import CMem CApi SpecC CProofs CCallProofs PropC Debug SpecDebug DebugProofs PropDebug.
From Verif Require Import ExApi ExMSM ExC ExCReal.

Set Implicit Arguments.
Unset Strict Implicit.
Unset Printing Implicit Defensive.

Local Opaque w8192 w4096 be_bytes be_val.

(** ** Texts *)
Example ex_text_few : debug_error (ERecovery (NotEnoughCellsToReconstruct 3 64)) =
  lit "Recovery(NotEnoughCellsToReconstruct { num_cells_received: 3, min_cells_needed: 64 })".
Proof. by []. Qed.
Example ex_text_unique : debug_error (ERecovery CellIndicesNotUnique) = lit "Recovery(CellIndicesNotUnique)".
Proof. by []. Qed.
Example ex_text_bytes : debug_error (ESerialization (CouldNotDeserializeG1Point [:: "000"; "255"; "010"]%byte)) =
  lit "Serialization(CouldNotDeserializeG1Point { bytes: [0, 255, 10] })".
Proof. by []. Qed.
Example ex_text_nested : debug_error (ERecovery (RecoveryReedSolomon (PolynomialHasInvalidLength 128 64))) =
  lit "Recovery(ReedSolomon(PolynomialHasInvalidLength { num_coefficients: 128, expected_num_coefficients: 64 }))".
Proof. by []. Qed.
Example ex_text_proof : debug_error (EVerifier (VerifierFK20 InvalidProof)) = lit "Verifier(FK20(InvalidProof))".
Proof. by []. Qed.
Example ex_text_lengths : debug_error (EVerifier (BatchVerificationInputsMustHaveSameLength 1 2 3 4)) =
  lit "Verifier(BatchVerificationInputsMustHaveSameLength { commitment_indices_len: 1, cell_indices_len: 2, cells_len: 3, proofs_len: 4 })".
Proof. by []. Qed.
(** The largest u64 *)
Example ex_text_u64 : debug_N (2 ^ 64 - 1) = lit "18446744073709551615".
Proof. by vm_compute. Qed.
(** Texts of the prover and of the verifier for the same kind of error differ. *)
Example ex_texts_differ : debug_error (EVerifier (VerifierCellIndexOutOfRange 200 128)) <>
  debug_error (ERecovery (RecoveryCellIndexOutOfRange 200 128)).
Proof. by []. Qed.

(** ** The real library *)
Section Real.
Variable ctx : das_context G G.
Hypothesis Hctx : das_context_new fr_params eip7594_consts ex_g1s ex_g2s PrecompNo = Ret ctx.
Definition dreal : rust_api (das_context G G) error := eip7594_api ex_env (fun _ _ => Ret ctx) debug_error.
Example dreal_history : good_history dreal [:: Call _ (New false 1) (VPtr (Addr 0 0))] [:: Some (BCtx ctx)].
Proof. exact: (GoodCall (m := [::]) (GoodStart _)). Qed.
Example C58_returns_applies : exists v m', c_exec dreal (FreeCtx (Addr 0 0)) [:: Some (BCtx ctx)] = CRet (v, m').
Proof.
apply: (C58_returns ex_std ex_S1 ex_S2 Hctx (fun _ _ => erefl) dreal_history).
by right.
Qed.

Example C58_blob_message_applies : let m := cmem ctx ex_bad_blob com5 (const_cell five) proof0 [::] 0 in
  eth_kzg_blob_to_kzg_commitment dreal (Addr 0 0) (Addr 1 0) (Addr 2 0) m =
  CRet (MkCResult StErr (Addr 15 0), rcons m (Some (BMsg _
    (lit "Serialization(CouldNotDeserializeScalar { bytes: " ++ debug_bytes (chunk ex_bad_blob 2) ++ lit " })")))).
Proof.
have [Sb Hi Bi Gi] := ex_rejected.
exact (@C58_blob_message _ _ _ ex_env ex_std ex_g1s ex_g2s ctx ex_S1 ex_S2 Hctx (fun _ _ => Ret ctx)
  (cmem ctx ex_bad_blob com5 (const_cell five) proof0 [::] 0) (Addr 0 0) (Addr 1 0) ex_bad_blob (Addr 2 0) 2
  (cmem_ctx _ _ _ _ _ _ _) Sb (cmem_blob _ _ _ _ _ _ _) Hi Bi Gi).
Qed.

(** One cell only *)
Lemma one_cell : all (fun x => size x == 2048) [:: const_cell five].
Proof. by rewrite /= (proj1 ex_codec_cell). Qed.
Example C58_few_message_applies : let m := cmem ctx ex_blob com5 (const_cell five) proof0 [:: 7%num] 1 in
  eth_kzg_recover_cells_and_proofs dreal (Addr 0 0) 1 (Addr 13 0) 1 (Addr 7 0) Null Null m =
  CRet (MkCResult StErr (Addr 15 0), rcons m (Some (BMsg _
    (lit "Recovery(NotEnoughCellsToReconstruct { num_cells_received: 1, min_cells_needed: 64 })")))).
Proof.
exact (@C58_few_message _ _ _ ex_env ex_std ex_g1s ex_g2s ctx ex_S1 ex_S2 Hctx (fun _ _ => Ret ctx)
  (cmem ctx ex_blob com5 (const_cell five) proof0 [:: 7%num] 1) (Addr 0 0) (Addr 13 0) [:: const_cell five]
  (Addr 7 0) [:: 7%num] Null Null
  (cmem_ctx _ _ _ _ _ _ _) one_cell (cmem_cells ctx ex_blob com5 _ proof0 [:: 7%num] 1) (cmem_ks _ _ _ _ _ _ _)
  erefl isT isT isT).
Qed.

Lemma one_point x : size x = 48 -> all (fun y : seq byte => size y == 48) [:: x].
Proof. by move=> E; rewrite /= E. Qed.
Lemma none_before (P : nat -> Prop) j : j < 0 -> P j. Proof. by []. Qed.
Local Opaque nseq rows.
Lemma cmem_bool (c : das_context G G) blob com cell proof ks n :
  bool_at (cmem c blob com cell proof ks n) (Addr 8 0) false.
Proof. exact (ex_intro2 _ _ 8 erefl (conj isT erefl)). Qed.
Example C58_index_message_applies : let m := cmem ctx ex_blob com5 (const_cell five) proof0 [:: 1000%num] 1 in
  eth_kzg_verify_cell_kzg_proof_batch dreal (Addr 0 0) 1 (Addr 12 0) 1 (Addr 7 0) 1 (Addr 13 0) 1 (Addr 14 0)
    (Addr 8 0) m =
  CRet (MkCResult StErr (Addr 15 0), rcons m (Some (BMsg _
    (lit "Verifier(CellIndexOutOfRange { cell_index: 1000, max_number_of_cells: 128 })")))).
Proof.
exact (@C58_index_message _ _ _ ex_env ex_std ex_g1s ex_g2s ctx ex_S1 ex_S2 Hctx (fun _ _ => Ret ctx)
  (cmem ctx ex_blob com5 (const_cell five) proof0 [:: 1000%num] 1) (Addr 0 0)
  (Addr 12 0) [:: com5] (Addr 7 0) [:: 1000%num] (Addr 13 0) [:: const_cell five] (Addr 14 0) [:: proof0] (Addr 8 0) false 0
  (cmem_ctx _ _ _ _ _ _ _) (one_point (size_be_bytes _ _)) (cmem_coms _ _ _ _ _ _ _) (cmem_ks _ _ _ _ _ _ _)
  one_cell (cmem_cells _ _ _ _ _ _ _) (one_point (size_be_bytes _ _)) (cmem_proofs _ _ _ _ _ _ _) (cmem_bool _ _ _ _ _ _ _)
  (And3 erefl erefl erefl) isT isT (@none_before _)).
Qed.
End Real.
