(** Concrete instances of the hypotheses of PropConsensusTables.v: tables of width 8. *)

From Coq Require Import ZArith NArith Init.Byte Strings.Byte.
From mathcomp Require Import ssreflect ssrfun ssrbool eqtype ssrnat seq.
From mathcomp Require Import ssralg poly.
From Verif Require Import Base Bytes Spec SpecKZG SpecDAS SpecFr FrEnv Fr FixedBaseMSM FK20Verifier Eip7594.
From Verif Require Import BatchAddition SpecMSM FrMsm SpecTables SpecVerify ApiEip PropProver PropRecover PropVerify.
From Verif Require Import SpecConsensus PropConsensus PropConsensusTables CMem CApi SpecC PropCReal.
From Verif Require Import ExApi ExMSM ExVerify ExC ExCReal ExConsensus.

Set Implicit Arguments.
Unset Strict Implicit.
Unset Printing Implicit Defensive.

Example C51_compute_tables_applies : exists cw, built ex_g1s ex_g2s (PrecompYes 8) cw /\
  exists2 res, compute_cells_and_kzg_proofs ex_envw eip7594_consts cw ex_blob = Ret res &
    ok_value res = ref_compute_cells_and_kzg_proofs ex_g1s (te_g1_to_compressed (de_te ex_envw)) ex_blob.
Proof.
have [c [cw [_ B]]] := ex_built; exists cw; have [Hw Hc] := B.
exact (conj B (C51_compute_tables ex_coords ex_stdw erefl ex_S1 ex_S2 Hw Hc ex_blob_size ex_tables_blob)).
Qed.
Example C51_recover_tables_applies : exists cw, built ex_g1s ex_g2s (PrecompYes 8) cw /\
  exists2 res, recover_cells_and_kzg_proofs ex_envw eip7594_consts cw ex_half ex_cells64 = Ret res &
    ok_value res =
    ssrfun.Option.bind (fun out => if has_cells out.1 ex_half ex_cells64 then Some out else None)
      (ref_recover_cells_and_kzg_proofs ex_g1s (te_g1_to_compressed (de_te ex_envw)) ex_half ex_cells64).
Proof.
have [c [cw [_ B]]] := ex_built; exists cw; have [Hw Hc] := B.
exact (conj B (C51_recover_tables ex_coords ex_stdw erefl ex_S1 ex_S2 Hw Hc ExApi.cells64_shape ex_tables_cells)).
Qed.
Example C51_commitment_tables_applies : exists cw lag, lagrange_setup ex_g1s lag /\
  exists2 res, blob_to_kzg_commitment ex_envw eip7594_consts cw ex_blob = Ret res &
    ok_value res = ref_blob_to_kzg_commitment lag (te_g1_to_compressed (de_te ex_envw)) ex_blob.
Proof.
have [c [cw [_ [Hw Hc]]]] := ex_built; have [lag Hl] := ex_lagrange; exists cw, lag.
exact (conj Hl (C51_commitment_tables ex_stdw ex_S1 ex_S2 Hc Hl ex_blob_size)).
Qed.
Example C51_verify_tables_applies : exists cw,
  exists2 res, verify_cell_kzg_proof_batch ex_envw eip7594_consts cw [:: com0 five] [:: 5%num] [:: const_cell five] [:: com0 0%R] = Ret res &
    verdict res = ref_verify_cell_kzg_proof_batch ex_g1s ex_g2s (de_g1_from_compressed ex_envw) (de_pair ex_envw)
      (fun b => te_reduce_bytes_to_scalar_bias (de_te ex_envw) (te_sha256 (de_te ex_envw) b))
      [:: com0 five] [:: 5%num] [:: const_cell five] [:: com0 0%R].
Proof.
have [c [cw [_ [Hw Hc]]]] := ex_built; exists cw.
exact (C51_verify_tables ex_stdw ex_S1 ex_S2 Hc [:: 5%num] (one_types five five 0%R)).
Qed.
