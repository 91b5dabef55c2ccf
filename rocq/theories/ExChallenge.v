(** Concrete instances of the hypotheses of PropChallenge.v, in the environment of ExApi.v. *)

From Coq Require Import ZArith NArith Init.Byte Strings.Byte.
From mathcomp Require Import ssreflect ssrfun ssrbool eqtype ssrnat seq div fintype bigop.
From mathcomp Require Import ssralg poly polydiv zify_ssreflect.
From Verif Require Import Base Bytes Spec SpecKZG SpecDAS FixedBaseMSM LincombProofs FK20ProverProofs.
From Verif Require Import FK20Verifier FK20VerifierProofs Eip7594 Eip7594Proofs ApiEip ReedSolomon.
From Verif Require Import ZField FrPrime Fr SpecFr FrEnv SpecVerify PropProver PropRecover PropVerify Reduce.
From Verif Require Import ExApi ExVerify PropChallenge.

Set Implicit Arguments.
Unset Strict Implicit.
Unset Printing Implicit Defensive.

Import GRing.Theory.
Local Open Scope ring_scope.

(** The hash of 32 bytes 255 has the scalar of the test in lib.rs lines 124-131. *)
Example ex_reduction :
  zval (reduce_bytes_to_scalar_bias (nseq 32 "255"%byte)) =
  0x1824B159ACC5056F998C4FEFECBC4FF55884B7FA0003480200000001FFFFFFFD%Z /\
  ~~ canonical (nseq 32 "255"%byte).
Proof. by rewrite C57_reduction; split; vm_compute. Qed.

Example C57_canonical_applies : canonical (fr_be five).
Proof. exact: fr_be_canonical. Qed.

(** 0 has three preimages and -1 has two. *)
Example ex_preimages : (zval (0%R : Fr) <? 2 ^ 256 - 2 * r_modulus)%Z /\ ~~ (zval ((-1)%R : Fr) <? 2 ^ 256 - 2 * r_modulus)%Z.
Proof. by split; [rewrite zval0|rewrite zvalN zval1]. Qed.

Definition digest1 : seq byte := be_bytes 32 1.
Lemma reduce1 : reduce_bytes_to_scalar_bias digest1 = 1.
Proof. apply: zval_inj; rewrite C57_reduction; by vm_compute. Qed.
Local Opaque w8192 w4096 be_bytes be_val.

Section Ex.
Variable ctx : das_context G G.
Hypothesis Hctx : das_context_new fr_params eip7594_consts ex_g1s ex_g2s PrecompNo = Ret ctx.
Local Notation verify env := (verify_cell_kzg_proof_batch env eip7594_consts ctx).

Example C57_false_acceptance_applies : [/\ call_types bad_coms bad_cells bad_coms, uniq [:: digest1],
  all_size 32 [:: digest1],
  forall h, h \in [:: digest1] ->
    verify (with_digest ex_env h) bad_coms [:: 0; 3]%num bad_cells bad_coms = Ret (Ok tt) &
  verify ex_env [:: nth [::] bad_coms 1] [:: nth 0%num [:: 0; 3]%num 1] [:: nth [::] bad_cells 1]
    [:: nth [::] bad_coms 1] <> Ret (Ok tt)].
Proof.
apply: And5; [exact: two_types | exact: isT | exact: (all_size1 (size_be_bytes 32 1)) | | exact (bad_alone Hctx)].
move=> h; rewrite mem_seq1 => /eqP ->.
have O t : (t < 2)%N -> opening (with_digest ex_env digest1) bad_coms [:: 0; 3]%num bad_cells bad_coms t
    0 0 (nth 0 [:: five%:P; (- five)%:P] t).
  case: t => [|[|t]] Ht; last discriminate Ht.
    split; [exact: erefl | exact: erefl | exact: const_interpolant].
  split; [exact: erefl | exact: erefl | exact: const_interpolant].
have := @C11_batch _ _ _ _ (with_digest_std digest1 ex_std) _ _ _ ex_S1 ex_S2 Hctx bad_coms [:: 0; 3]%num
  bad_cells bad_coms (fun=> 0) (fun=> 0) (nth 0 [:: five%:P; (- five)%:P]) two_types
  (And4 erefl erefl erefl isT) O.
cbv zeta => ->; rewrite [size bad_coms]/= !big_ord_recl big_ord0.
rewrite -[te_reduce_bytes_to_scalar_bias _ _]/(reduce_bytes_to_scalar_bias digest1) reduce1.
rewrite !expr1n !scale1r.
rewrite -[nth 0 _ (@ord0 1)]/(five%:P) -[nth 0 _ (lift _ _)]/((- five)%:P).
rewrite -[defect _ _ _ _ _ _ five%:P]/(defect ex_env ex_g1s ex_g2s 0 0 0 five%:P).
rewrite -[defect _ _ _ _ _ _ (- five)%:P]/(defect ex_env ex_g1s ex_g2s 3 0 0 (- five)%:P).
by rewrite !zero_defect addr0 subrr eqxx.
Qed.
End Ex.
