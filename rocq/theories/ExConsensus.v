(** Concrete instances of the hypotheses of PropConsensus.v, in the environment of ExApi.v. *)

From Coq Require Import ZArith NArith Init.Byte Strings.Byte.
From mathcomp Require Import ssreflect ssrfun ssrbool eqtype ssrnat seq div fintype bigop.
From mathcomp Require Import ssralg poly polydiv.
From Verif Require Import Base Bytes Spec SpecKZG SpecDAS FixedBaseMSM LincombProofs FK20ProverProofs.
From Verif Require Import FK20Verifier FK20VerifierProofs Eip7594 Eip7594Proofs ApiEip ReedSolomon.
From Verif Require Import ZField FrPrime Fr SpecFr FrEnv SpecVerify PropProver PropRecover PropVerify.
From Verif Require Import ExApi ExVerify SpecConsensus ConsensusProofs ConsensusApi PropConsensus.
From mathcomp Require Import zify_ssreflect.

Set Implicit Arguments.
Unset Strict Implicit.
Unset Printing Implicit Defensive.

Import GRing.Theory.
Local Open Scope ring_scope.
Local Opaque w8192 w4096 be_bytes be_val.

(** There is a Lagrange setup for every monomial setup. *)
Example ex_lagrange : exists lag, lagrange_setup ex_g1s lag.
Proof.
have [b Hb] := @finite_choice {poly Fr} 0 (fun i g => (size g <= 2 ^ 12)%N /\
   forall j, (j < 2 ^ 12)%N -> g.[w4096 ^+ j] = (i == j)%:R) (2 ^ 12)
   (fun i Hi => let: ex_intro2 g A B := @basis_exists Fr 12 w4096 (pow_half_one w4096_half)
      (fun=> w4096_half) two_Fr i Hi in ex_intro _ g (conj A B)).
exists (mkseq (fun i => commit ex_g1s (b i)) (2 ^ 12)); split; first exact: size_mkseq.
move=> i f Hi Sf Hf; rewrite nth_mkseq; last exact: Hi.
have [Sb Eb] := Hb i Hi; congr (commit _ _).
apply: (@values_unique Fr 12 w4096 (pow_half_one w4096_half) (fun=> w4096_half) two_Fr (b i) f Sb Sf).
by move=> j Hj; rewrite (Eb j Hj) (Hf j Hj).
Qed.

Lemma ex_pair_zero (x A B : G) : de_pair ex_env 0 A = de_pair ex_env (x - x) B.
Proof. by rewrite subrr !(pair0l (es_bil ex_std)). Qed.

Section Ex.
Variable ctx : das_context G G.
Hypothesis Hctx : das_context_new fr_params eip7594_consts ex_g1s ex_g2s PrecompNo = Ret ctx.
Local Notation ref_verify := (ref_verify_cell_kzg_proof_batch ex_g1s ex_g2s (de_g1_from_compressed ex_env)
  (de_pair ex_env) (fun b => te_reduce_bytes_to_scalar_bias (de_te ex_env) (te_sha256 (de_te ex_env) b))).

(** The reference answers for the blob with the constant 5 and fails for the blob with a value that
    is too large. *)
Example C51_compute_applies :
  (exists out, ref_compute_cells_and_kzg_proofs ex_g1s (te_g1_to_compressed (de_te ex_env)) ex_blob = Some out) /\
  ref_compute_cells_and_kzg_proofs ex_g1s (te_g1_to_compressed (de_te ex_env)) ex_bad_blob = None.
Proof.
split.
  have [cells [proofs E]] := ex_compute Hctx; exists (cells, proofs).
  have [res E2 <-] := C51_compute ex_std ex_S1 ex_S2 Hctx ex_blob_size.
  by move: E2; rewrite E => -[<-].
have [Sb Hi B Gd] := ex_rejected.
have [res E2 <-] := C51_compute ex_std ex_S1 ex_S2 Hctx Sb.
case: (compute_cases ex_std ex_S1 ex_S2 Hctx Sb) => [[f Hf _]|[i _ [E3 _]]].
  by case/negP: B; exact: (blob_polynomial_canonical Hf Hi).
by move: E2; rewrite E3 => -[<-].
Qed.

Example C51_commitment_applies : exists lag, lagrange_setup ex_g1s lag /\
  ref_blob_to_kzg_commitment lag (te_g1_to_compressed (de_te ex_env)) ex_blob = Some (g_compress (five : G)).
Proof.
have [lag Hl] := ex_lagrange; exists lag; split; first exact: Hl.
have [res E2 <-] := C51_commitment ex_std ex_S1 ex_S2 Hctx Hl ex_blob_size.
by move: E2; rewrite (ex_commitment Hctx) => -[<-].
Qed.

Example C51_recover_applies :
  ref_recover_cells_and_kzg_proofs ex_g1s (te_g1_to_compressed (de_te ex_env)) ex_half ex_cells64 =
  Some (output_of_poly ex_env ex_g1s five%:P).
Proof.
have [res E2] := C51_recover ex_std ex_S1 ex_S2 Hctx ex_half ExApi.cells64_shape.
move: E2; rewrite (ex_half_ok Hctx) => -[<-].
case: ref_recover_cells_and_kzg_proofs => [out|]; last by [].
by rewrite obind_Some; case: ifP => // _ [->].
Qed.

(** All three answers of the reference's verification. *)
Example C51_verify_applies :
  [/\ ref_verify [:: com0 five] [:: 5%num] [:: const_cell five] [:: com0 0] = Some true,
      ref_verify [:: com0 0] [:: 3%num] [:: const_cell (- five)] [:: com0 0] = Some false &
      ref_verify [:: com0 five; ff48] [:: 0; 3]%num bad_cells bad_coms = None].
Proof.
split.
- have [res E <-] := C51_verify ex_std ex_S1 ex_S2 Hctx [:: 5%num] (one_types five five 0).
  have O t : (t < 1)%N -> opening ex_env [:: com0 five] [:: 5%num] [:: const_cell five] [:: com0 0] t five 0 five%:P.
    by case: t => [|t] Ht; [split; [exact: erefl | exact: erefl | exact: const_interpolant] | discriminate Ht].
  move: E; rewrite ((@C12_single _ _ _ _ ex_std _ _ _ ex_S1 ex_S2 Hctx (com0 five) 5%num (const_cell five) (com0 0)
    five 0 five%:P (one_types five five 0) erefl (O 0%N isT)).2 _); first by case=> <-.
  rewrite commit_const; exact: ex_pair_zero.
- have [res E <-] := C51_verify ex_std ex_S1 ex_S2 Hctx [:: 3%num] (one_types 0 (- five) 0).
  by have [err [E2 Hi]] := ex_invalid Hctx; move: E; rewrite E2 => -[<-]; rewrite /verdict Hi.
have [T _ _ _] := ex_verify_commitment.
have [res E <-] := C51_verify ex_std ex_S1 ex_S2 Hctx [:: 0; 3]%num T.
by have [err [E2 Hi]] := ex_not_invalid Hctx; move: E; rewrite E2 => -[<-]; rewrite /verdict Hi.
Qed.
End Ex.
