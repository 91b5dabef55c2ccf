(** Concrete instances of the hypotheses of PropVerify.v, in the environment of ExApi.v. *)

From Coq Require Import ZArith NArith Init.Byte Strings.Byte.
From mathcomp Require Import ssreflect ssrfun ssrbool eqtype ssrnat seq div fintype bigop.
From mathcomp Require Import ssralg poly polydiv zify_ssreflect.
From Verif Require Import Base Bytes Spec SpecKZG SpecDAS FixedBaseMSM LincombProofs FK20ProverProofs.
From Verif Require Import FK20Verifier FK20VerifierProofs Eip7594 Eip7594Proofs ApiEip ReedSolomon.
From Verif Require Import ZField FrPrime Fr SpecFr FrEnv SpecVerify PropProver PropRecover PropVerify.
From Verif Require Import ExApi.

Set Implicit Arguments.
Unset Strict Implicit.
Unset Printing Implicit Defensive.

Import GRing.Theory.
Local Open Scope ring_scope.

(** Facts about a tuple with a constant cell and the proof 0. *)
Lemma commit_const (x : Fr) : commit ex_g1s x%:P = x.
Proof.
rewrite /ex_g1s commit_srs ?hornerC; last exact: leq_trans (size_polyC_leq1 _) (expn_gt0 2 12).
exact: mulr1.
Qed.
Lemma nondeg (P : G) : de_pair ex_env P (1 : G) = 0 -> P = 0.
Proof. by rewrite [de_pair _ _ _]/= mulr1. Qed.
Lemma g2s0 : ex_g2s`_0 = (1 : G).
Proof. rewrite nth_mkseq // expr0; exact: scale1r. Qed.

Lemma undecodable : ~ point_bytes ex_env (nseq 48 "255"%byte).
Proof.
move=> [P HP]; have := g_val P; rewrite -[g_compress P]/(te_g1_to_compressed (de_te ex_env) P) HP => E.
have H : (Z.to_N r_modulus <=? be_val (nseq 48 "255"%byte))%num by vm_compute.
have := zval_rZ P; move/N.leb_spec0: H; rewrite {}E; move: r_modulus (zval _) => r v; lia.
Qed.

Lemma all_size1 n x : size x = n -> all_size n [:: x].
Proof. by move=> Sx; rewrite /all_size /= Sx eqxx. Qed.
Lemma all_size2 n x y : size x = n -> size y = n -> all_size n [:: x; y].
Proof. by move=> Sx Sy; rewrite /all_size /= Sx Sy eqxx. Qed.

Section Ex.
Variable ctx : das_context G G.
Hypothesis Hctx : das_context_new fr_params eip7594_consts ex_g1s ex_g2s PrecompNo = Ret ctx.
Local Notation compute := (compute_cells_and_kzg_proofs ex_env eip7594_consts ctx).
Local Notation commitment := (blob_to_kzg_commitment ex_env eip7594_consts ctx).
Local Notation recover := (recover_cells_and_kzg_proofs ex_env eip7594_consts ctx).
Local Notation verify env := (verify_cell_kzg_proof_batch env eip7594_consts ctx).
Local Opaque w8192 w4096 be_bytes be_val.

Lemma const_interpolant k x : cell_interpolant k (const_cell x) x%:P.
Proof.
split; first exact: leq_trans (size_polyC_leq1 _) _.
by move=> j Hj; rewrite hornerC /const_cell (chunk_const _ Hj).
Qed.

(** C10: cell 5 of the blob, three times. *)
Example ex_honest : exists com cell proof,
  honest ex_env ctx com 5 cell proof /\
  forall t, (t < 3)%N -> honest ex_env ctx (nth [::] (nseq 3 com) t) (nth 0%num (nseq 3 5%num) t)
    (nth [::] (nseq 3 cell) t) (nth [::] (nseq 3 proof) t).
Proof.
have [cells [proofs E]] := ex_compute Hctx.
exists (g_compress (five : G)), (nth [::] cells 5), (nth [::] proofs 5).
suff H : honest ex_env ctx (g_compress (five : G)) 5 (nth [::] cells 5) (nth [::] proofs 5).
  by split; [exact: H | move=> t Ht; rewrite !nth_nseq Ht; exact: H].
exists ex_blob, cells, proofs; split; last by split; exact: erefl.
by split; [exact: ex_blob_size | exact: erefl | exact: (ex_commitment Hctx) | exact: E].
Qed.

(** C11, C12: the commitment 5, the cell with values 5 and the proof 0. *)
Definition com0 (x : G) := g_compress x.
Lemma size_com0 x : size (com0 x) = 48%N. Proof. exact: size_be_bytes. Qed.
Lemma size_cc x : size (const_cell x) = 2048%N. Proof. exact: (size_const 64 x). Qed.
Lemma one_types (x z y : Fr) : call_types [:: com0 x] [:: const_cell z] [:: com0 y].
Proof. by split; apply: all_size1; [exact: size_com0 | exact: size_cc | exact: size_com0]. Qed.
Example ex_single : call_types [:: com0 five] [:: const_cell five] [:: com0 0] /\
  opening ex_env [:: com0 five] [:: 5%num] [:: const_cell five] [:: com0 0] 0 (five : G) 0 five%:P.
Proof. by split; [exact: one_types | split; [exact: erefl | exact: erefl | exact: const_interpolant]]. Qed.
Lemma tau_pow : tau ^+ 64 != coset_point (N.to_nat 0) ^+ 64.
Proof.
rewrite /coset_point -[bitrev 7 _]/0%N expr0 expr1n.
exact: (@pow_neq1_check rZ 2 6 6 isT).
Qed.
Example ex_unique : [/\ forall P, de_pair ex_env P (1 : G) = 0 -> P = 0,
  tau ^+ 64 != coset_point (N.to_nat 0) ^+ 64, point_bytes ex_env (com0 five) &
  forall j, (j < 64)%N -> canonical (chunk (const_cell six) j)].
Proof.
split; [exact: nondeg | exact: tau_pow | by exists (five : G) |].
by move=> j Hj; rewrite /const_cell (chunk_const _ Hj); exact: fr_be_canonical.
Qed.

(** C13: two bad openings whose defects cancel for the challenge 1. *)
Lemma zero_defect k (x : Fr) : defect ex_env ex_g1s ex_g2s k 0 0 x%:P = x.
Proof. by rewrite /defect commit_const g2s0 /= mul0r mulr1 !sub0r opprK. Qed.
Definition bad_coms := [:: com0 0; com0 0].
Definition bad_cells := [:: const_cell five; const_cell (- five)].
Lemma two_types : call_types bad_coms bad_cells bad_coms.
Proof.
by split; [apply: all_size2; exact: size_com0 | apply: all_size2; exact: size_cc | apply: all_size2; exact: size_com0].
Qed.
Lemma five_neq0 : five != 0.
Proof. by rewrite /five of_Z_eq0; vm_compute. Qed.
Lemma bad_alone :
  verify ex_env [:: com0 0] [:: 3%num] [:: const_cell (- five)] [:: com0 0] <> Ret (Ok tt).
Proof.
have O : opening ex_env [:: com0 0] [:: 3%num] [:: const_cell (- five)] [:: com0 0] 0 0 0 (- five)%:P.
  by split; [exact: erefl | exact: erefl | exact: const_interpolant].
have H := C12_single ex_std ex_S1 ex_S2 Hctx (one_types 0 (- five) 0) (erefl : (3 < 128)%num) O.
move/(proj1 H)/eqP; rewrite -subr_eq0 -/(defect ex_env ex_g1s ex_g2s 3 0 0 (- five)%:P) zero_defect.
by rewrite oppr_eq0 (negbTE five_neq0).
Qed.
Example ex_few : [/\ call_types bad_coms bad_cells bad_coms, uniq [:: 1 : Fr],
  forall r, r \in [:: 1 : Fr] ->
    verify (with_hash ex_env (fun=> r)) bad_coms [:: 0; 3]%num bad_cells bad_coms = Ret (Ok tt) &
  verify ex_env [:: com0 0] [:: 3%num] [:: const_cell (- five)] [:: com0 0] <> Ret (Ok tt)].
Proof.
split; [exact: two_types | exact: isT | |].
  move=> r; rewrite inE => /eqP->.
  have O t : (t < 2)%N -> opening (with_hash ex_env (fun=> 1)) bad_coms [:: 0; 3]%num bad_cells bad_coms t
      0 0 (nth 0 [:: five%:P; (- five)%:P] t).
    case: t => [|[|t]] Ht; last discriminate Ht.
      split; [exact: erefl | exact: erefl | exact: const_interpolant].
    split; [exact: erefl | exact: erefl | exact: const_interpolant].
  have := @C11_batch _ _ _ _ (with_hash_std (fun=> 1) ex_std) _ _ _ ex_S1 ex_S2 Hctx bad_coms [:: 0; 3]%num
    bad_cells bad_coms (fun=> 0) (fun=> 0) (nth 0 [:: five%:P; (- five)%:P]) two_types
    (And4 erefl erefl erefl isT) O.
  cbv zeta => ->; rewrite [size bad_coms]/= !big_ord_recl big_ord0.
  rewrite !expr1n !scale1r.
  rewrite -[nth 0 _ (@ord0 1)]/(five%:P) -[nth 0 _ (lift _ _)]/((- five)%:P).
  rewrite -[defect _ _ _ _ _ _ five%:P]/(defect ex_env ex_g1s ex_g2s 0 0 0 five%:P).
  rewrite -[defect _ _ _ _ _ _ (- five)%:P]/(defect ex_env ex_g1s ex_g2s 3 0 0 (- five)%:P).
  by rewrite !zero_defect addr0 subrr eqxx.
exact: bad_alone.
Qed.

(** C14: one example for each rule. *)
Definition ff48 : seq byte := nseq 48 "255"%byte.
Lemma size_ff : size ff48 = 48%N. Proof. exact: size_nseq. Qed.
Example ex_verify_lengths : call_types [:: com0 five] [::] [::] /\
  ~ [/\ size (Nil N) = size [:: com0 five], size (Nil (seq byte)) = size [:: com0 five]
     & size (Nil (seq byte)) = size [:: com0 five]].
Proof.
by split; [split; [exact: (all_size1 (size_com0 five)) | exact: isT | exact: isT] | case].
Qed.
Example ex_verify_range : [/\ (0 < size [:: 128%num])%N, (128 <=? nth 0 [:: 128] 0)%num &
  forall j, (j < 0)%N -> (nth 0 [:: 128] j <? 128)%num].
Proof. by split. Qed.
Example ex_verify_commitment : [/\ call_types [:: com0 five; ff48] bad_cells bad_coms,
  call_shape [:: com0 five; ff48] [:: 0; 3]%num bad_cells bad_coms,
  ~ point_bytes ex_env (nth [::] [:: com0 five; ff48] 1) &
  forall j, (j < 1)%N -> point_bytes ex_env (nth [::] [:: com0 five; ff48] j)].
Proof.
have [_ T2 T3] := two_types.
split; [split; [exact: (all_size2 (size_com0 five) size_ff) | exact: T2 | exact: T3] | | exact: undecodable |].
  exact: (And4 erefl erefl erefl isT).
by case=> [|j] Hj; [exists (five : G) | discriminate Hj].
Qed.
Example ex_verify_proof : [/\ call_types bad_coms bad_cells [:: com0 five; ff48],
  call_shape bad_coms [:: 0; 3]%num bad_cells [:: com0 five; ff48],
  forall b, b \in bad_coms -> point_bytes ex_env b,
  ~ point_bytes ex_env (nth [::] [:: com0 five; ff48] 1) &
  forall j, (j < 1)%N -> point_bytes ex_env (nth [::] [:: com0 five; ff48] j)].
Proof.
have [T1 T2 _] := two_types.
split; [split; [exact: T1 | exact: T2 | exact: (all_size2 (size_com0 five) size_ff)] | | | exact: undecodable |].
- exact: (And4 erefl erefl erefl isT).
- by move=> b; rewrite !in_cons orbF orbb => /eqP->; exists (0 : G).
by case=> [|j] Hj; [exists (five : G) | discriminate Hj].
Qed.
Example ex_verify_chunk : [/\ call_types [:: com0 five] [:: pack (bad_at 7) 64] [:: com0 0],
  call_shape [:: com0 five] [:: 3]%num [:: pack (bad_at 7) 64] [:: com0 0],
  ~~ canonical (chunk (nth [::] [:: pack (bad_at 7) 64] 0) 7) &
  forall j, (j < 7)%N -> canonical (chunk (nth [::] [:: pack (bad_at 7) 64] 0) j)].
Proof.
split.
- split; [exact: (all_size1 (size_com0 five)) | exact: (all_size1 (size_pack 64 (size_bad_at 7))) |
          exact: (all_size1 (size_com0 0))].
- exact: (And4 erefl erefl erefl isT).
- exact: (@bad_at_bad 7 64 isT).
by move=> j; exact: (@bad_at_good 7 64 j isT).
Qed.

(** C17: the error of a bad opening is an invalid proof; that of an undecodable one is not. *)
Example ex_invalid : exists err,
  verify ex_env [:: com0 0] [:: 3%num] [:: const_cell (- five)] [:: com0 0] = Ret (Err err) /\
  invalid_proof err.
Proof.
have := bad_alone.
have O t : (t < 1)%N -> opening ex_env [:: com0 0] [:: 3%num] [:: const_cell (- five)] [:: com0 0] t 0 0 (- five)%:P.
  by case: t => [|t] Ht; [split; [exact: erefl | exact: erefl | exact: const_interpolant] | discriminate Ht].
have := @C11_batch _ _ _ _ ex_std _ _ _ ex_S1 ex_S2 Hctx [:: com0 0] [:: 3%num]
  [:: const_cell (- five)] [:: com0 0] (fun=> 0) (fun=> 0) (fun=> (- five)%:P) (one_types 0 (- five) 0)
  (And4 erefl erefl erefl isT) O.
cbv zeta => ->; case: (_ == 0) => [[] //|_].
exists (EVerifier (VerifierFK20 InvalidProof)); exact: (conj erefl isT).
Qed.
Example ex_not_invalid : exists err,
  verify ex_env [:: com0 five; ff48] [:: 0; 3]%num bad_cells bad_coms = Ret (Err err) /\
  invalid_proof err = false.
Proof.
have [T sh B Gd] := ex_verify_commitment.
have := @C14_commitment _ _ _ _ ex_std _ _ _ ex_S1 ex_S2 Hctx _ _ _ _ 1%N T sh isT B Gd.
move=> ->; eexists; exact: (conj erefl erefl).
Qed.

(** C16: two different calls. *)
Example ex_transcripts :
  [/\ call_types [:: com0 five] [:: const_cell five] [:: com0 0],
      call_types [:: com0 five] [:: const_cell five] [:: com0 five],
      all (fun i => i <? 2 ^ 64)%num [:: 5%num] & [:: com0 0] <> [:: com0 five]].
Proof.
split; [exact: one_types | exact: one_types | exact: isT |].
move=> /(congr1 (head [::])) E; case/eqP: five_neq0; exact: (esym (comp_inj (env_std_ok ex_std) E)).
Qed.

(** C15. *)
Example ex_dedup : deduplicate_with_indices [:: 7; 3; 7; 9; 3]%N = ([:: 7; 3; 9]%N, [:: 0; 1; 0; 2; 1]%num).
Proof. by []. Qed.

(** C19: a successful recovery. *)
Example ex_recovered : exists rcells rproofs,
  cells_shape ex_cells64 /\ recover ex_half ex_cells64 = Ret (Ok (rcells, rproofs)).
Proof. by do 2! eexists; split; [exact: cells64_shape | exact: (ex_half_ok Hctx)]. Qed.
End Ex.
