(** Concrete instances of the hypotheses of PropSound.v, in the environment of ExApi.v, whose secret
    is 2. Whoever knows the secret can prove wrong cells. *)

From Coq Require Import ZArith NArith Init.Byte Strings.Byte.
From mathcomp Require Import ssreflect ssrfun ssrbool eqtype ssrnat seq div fintype bigop.
From mathcomp Require Import ssralg poly polydiv zify_ssreflect.
From Verif Require Import Base Bytes Spec SpecKZG SpecDAS FixedBaseMSM LincombProofs FK20ProverProofs.
From Verif Require Import FK20Verifier FK20VerifierProofs Eip7594 Eip7594Proofs ApiEip ReedSolomon.
From Verif Require Import ZField FrPrime Fr SpecFr FrEnv SpecVerify PropProver PropRecover PropVerify.
From Verif Require Import ExApi ExVerify SoundnessAlg PropSound.

Set Implicit Arguments.
Unset Strict Implicit.
Unset Printing Implicit Defensive.

Import GRing.Theory.
Local Open Scope ring_scope.
Local Opaque w8192 w4096 be_bytes be_val DomainProofs.omega.

Lemma setup_of ctx : das_context_new fr_params eip7594_consts ex_g1s ex_g2s PrecompNo = Ret ctx ->
  setup tau (1 : G) (1 : G) ctx.
Proof. exact id. Qed.

Lemma pow_neq (x c : Fr) : x ^+ (2 ^ (6 + 7)) != 1 -> c ^+ (2 ^ 7) = 1 -> x ^+ 64 != c.
Proof. by move=> Hx Hc; apply/eqP => E; case/eqP: Hx; rewrite expnD exprM -[(2 ^ 6)%N]/64%N E. Qed.
Lemma tau_not_root : tau ^+ (2 ^ (6 + 7)) != 1.
Proof. exact: (@pow_neq1_check rZ 2 13 13 isT). Qed.
Lemma coset_order k : (coset_point k ^+ 64) ^+ (2 ^ 7) = 1.
Proof.
have W (x : Fr) m n : x ^+ n = 1 -> (x ^+ m) ^+ n = 1 by move=> E; rewrite exprAC E expr1n.
rewrite coset_point64; apply: W; exact (DomainProofs.omega_order fr_ok (@adicity_le 7 isT)).
Qed.
Lemma tau_pow_any k : tau ^+ 64 != coset_point k ^+ 64.
Proof. exact (pow_neq tau_not_root (coset_order k)). Qed.

Lemma cc_neq : const_cell six <> const_cell five.
Proof.
move=> E; have := congr1 (fun c => chunk c 0) E.
rewrite /const_cell (@chunk_const 64 six 0 isT) (@chunk_const 64 five 0 isT) => /fr_be_inj H.
by case/eqP: five_neq_six.
Qed.

(** The proof that passes for the cell with all values x and the commitment c. *)
Definition forged (c x : Fr) (k : N) : Fr := (c - x) / (tau ^+ 64 - coset_point (N.to_nat k) ^+ 64).

Lemma g2s64 : ex_g2s`_64 = (tau ^+ 64 : G).
Proof. rewrite nth_mkseq //; exact: mulr1. Qed.

Lemma forged_eq c x k : de_pair ex_env (forged c x k : G) (ex_g2s`_64 - coset_point (N.to_nat k) ^+ 64 *: ex_g2s`_0) =
  de_pair ex_env ((c : G) - commit ex_g1s x%:P) ex_g2s`_0.
Proof.
rewrite commit_const g2s0 g2s64.
have W : forall u v a b : Fr, u != v -> ((a - b) / (u - v)) * (u - v * 1) = (a - b) * 1.
  by move=> u v a b ne; rewrite !mulr1 divfK // subr_eq0.
exact (W _ _ c x (tau_pow_any (N.to_nat k))).
Qed.

Lemma forged_accepted ctx c x k : das_context_new fr_params eip7594_consts ex_g1s ex_g2s PrecompNo = Ret ctx ->
  (k < 128)%num ->
  verify_cell_kzg_proof_batch ex_env eip7594_consts ctx [:: com0 c] [:: k] [:: const_cell x]
    [:: com0 (forged c x k)] = Ret (Ok tt).
Proof.
move=> Hctx Hk.
have O : opening ex_env [:: com0 c] [:: k] [:: const_cell x] [:: com0 (forged c x k)] 0 (c : G) (forged c x k : G) x%:P.
  by split; [exact: erefl | exact: erefl | exact: const_interpolant].
exact ((C12_single ex_std ex_S1 ex_S2 Hctx (one_types c x _) Hk O).2 (forged_eq c x k)).
Qed.

(** Two cells for one commitment: the cell with all values 5 and the one with all values 6. *)
Example C56_binding_applies : exists ctx P P',
  [/\ size (const_cell five) = 2048%N, size (const_cell six) = 2048%N, const_cell five <> const_cell six,
      setup tau (1 : G) (1 : G) ctx & size (com0 five) = 48%N] /\
  verify_cell_kzg_proof_batch ex_env eip7594_consts ctx [:: com0 five] [:: 0%num] [:: const_cell five] [:: com0 P] = Ret (Ok tt) /\
  verify_cell_kzg_proof_batch ex_env eip7594_consts ctx [:: com0 five] [:: 0%num] [:: const_cell six] [:: com0 P'] = Ret (Ok tt).
Proof.
have [ctx Hctx] := ex_context.
exists ctx, (forged five five 0), (forged five six 0).
exact (conj (And5 (size_cc five) (size_cc six) (not_eq_sym cc_neq) (setup_of Hctx) (size_com0 five))
  (conj (forged_accepted five five Hctx (erefl : (0 < 128)%num)) (forged_accepted five six Hctx (erefl : (0 < 128)%num)))).
Qed.

Lemma size_constp (x : Fr) : (size (x%:P : {poly Fr}) <= 2 ^ 12)%N.
Proof. exact: leq_trans (size_polyC_leq1 _) (expn_gt0 2 12). Qed.
Lemma pair_one : de_pair ex_env (1 : G) (1 : G) <> 0.
Proof. move=> /nondeg/eqP; by rewrite oner_eq0. Qed.
Lemma six_not_five k : const_cell six <> cell_of_poly (five%:P : {poly Fr}) k.
Proof. rewrite cell_const; exact cc_neq. Qed.
Lemma com_of (x : Fr) : te_g1_to_compressed (de_te ex_env) (commit (srs_of tau (1 : G) (2 ^ 12)) x%:P) = com0 x.
Proof. rewrite -/ex_g1s commit_const; exact: erefl. Qed.

(** An algebraic prover who guessed the secret 2. *)
Example C56_algebraic_applies : exists f p : {poly Fr},
  [/\ de_pair ex_env (1 : G) (1 : G) <> 0, (size f <= 2 ^ 12)%N, (size p <= 2 ^ 12)%N,
      size (const_cell six) = 2048%N & const_cell six <> cell_of_poly f (N.to_nat 0)] /\ uniq [:: tau] /\
  forall tau', tau' \in [:: tau] -> exists2 ctx, setup tau' (1 : G) (1 : G) ctx &
    verify_cell_kzg_proof_batch ex_env eip7594_consts ctx
      [:: te_g1_to_compressed (de_te ex_env) (commit (srs_of tau' (1 : G) (2 ^ 12)) f)] [:: 0%num] [:: const_cell six]
      [:: te_g1_to_compressed (de_te ex_env) (commit (srs_of tau' (1 : G) (2 ^ 12)) p)] = Ret (Ok tt).
Proof.
have [ctx Hctx] := ex_context.
exists (five%:P), ((forged five six 0)%:P).
split; first exact (And5 pair_one (size_constp _) (size_constp _) (size_cc six) (@six_not_five _)).
split; first exact isT.
move=> tau'; rewrite mem_seq1 => /eqP ->; exists ctx; first exact (setup_of Hctx).
rewrite (com_of five) (com_of (forged five six 0)).
exact (forged_accepted five six Hctx (erefl : (0 < 128)%num)).
Qed.

(** A batch of a right cell and a wrong one, accepted with every challenge. *)
Lemma forged_defect c x k : defect ex_env ex_g1s ex_g2s k (c : G) (forged c x k : G) x%:P = 0.
Proof. rewrite /defect forged_eq; exact: subrr. Qed.
Definition two_coms := [:: com0 five; com0 five].
Definition two_cells := [:: const_cell five; const_cell six].
Definition two_proofs := [:: com0 (forged five five 0); com0 (forged five six 0)].
Lemma two_ok : call_types two_coms two_cells two_proofs.
Proof.
by split; [apply: all_size2; exact: size_com0 | apply: all_size2; exact: size_cc | apply: all_size2; exact: size_com0].
Qed.
Lemma two_accepted ctx r : das_context_new fr_params eip7594_consts ex_g1s ex_g2s PrecompNo = Ret ctx ->
  verify_cell_kzg_proof_batch (with_hash ex_env (fun=> r)) eip7594_consts ctx two_coms [:: 0; 0]%num two_cells
    two_proofs = Ret (Ok tt).
Proof.
move=> Hctx.
pose P := nth (0 : G) [:: forged five five 0 : G; forged five six 0 : G].
pose I := nth (0%R : {poly Fr}) [:: five%:P; six%:P].
have O t : (t < 2)%N -> opening (with_hash ex_env (fun=> r)) two_coms [:: 0; 0]%num two_cells two_proofs t
    (five : G) (P t) (I t).
  case: t => [|[|t]] Ht; last discriminate Ht.
    split; [exact: erefl | exact: erefl | exact: const_interpolant].
  split; [exact: erefl | exact: erefl | exact: const_interpolant].
have := @C11_batch _ _ _ _ (with_hash_std (fun=> r) ex_std) _ _ _ ex_S1 ex_S2 Hctx two_coms [:: 0; 0]%num
  two_cells two_proofs (fun=> five : G) P I two_ok (And4 erefl erefl erefl isT) O.
cbv zeta => ->; rewrite [size two_coms]/= !big_ord_recl big_ord0.
rewrite -[P (@ord0 1)]/(forged five five 0 : G) -[P (lift _ _)]/(forged five six 0 : G).
rewrite -[I (@ord0 1)]/(five%:P) -[I (lift _ _)]/(six%:P).
rewrite -[defect _ _ _ _ _ _ five%:P]/(defect ex_env ex_g1s ex_g2s 0 (five : G) (forged five five 0 : G) five%:P).
rewrite -[defect _ _ _ _ _ _ six%:P]/(defect ex_env ex_g1s ex_g2s 0 (five : G) (forged five six 0 : G) six%:P).
by rewrite !forged_defect !scaler0 !addr0 eqxx.
Qed.
Lemma one_neq0 : uniq [:: 0 : Fr; 1].
Proof. by rewrite cons_uniq mem_seq1 eq_sym oner_eq0. Qed.

Example C56_algebraic_batch_applies : exists fs ps : seq {poly Fr},
  [/\ all (fun f : {poly Fr} => size f <= 2 ^ 12)%N fs, all (fun p : {poly Fr} => size p <= 2 ^ 12)%N ps,
      all_size 2048 two_cells, size ps = size fs & size two_cells = size fs] /\
  [/\ (1 < size fs)%N, nth [::] two_cells 1 <> cell_of_poly fs`_1 (N.to_nat (nth 0%num [:: 0; 0]%num 1)), uniq [:: tau] &
  forall tau', tau' \in [:: tau] -> exists2 ctx, setup tau' (1 : G) (1 : G) ctx &
    exists2 rs, uniq rs && (size fs <= size rs)%N & forall r, r \in rs ->
      verify_cell_kzg_proof_batch (with_hash ex_env (fun=> r)) eip7594_consts ctx
        [seq te_g1_to_compressed (de_te ex_env) C | C <- [seq commit (srs_of tau' (1 : G) (2 ^ 12)) f | f <- fs]]
        [:: 0; 0]%num two_cells
        [seq te_g1_to_compressed (de_te ex_env) C | C <- [seq commit (srs_of tau' (1 : G) (2 ^ 12)) p | p <- ps]]
      = Ret (Ok tt)].
Proof.
have [ctx Hctx] := ex_context.
exists [:: five%:P; five%:P], [:: (forged five five 0)%:P; (forged five six 0)%:P].
split.
  apply: And5; [| | exact (all_size2 (size_cc five) (size_cc six)) | exact erefl | exact erefl].
    by rewrite /all !size_constp.
  by rewrite /all !size_constp.
apply: And4; [exact isT | exact (@six_not_five _) | exact isT |].
move=> tau'; rewrite mem_seq1 => /eqP ->; exists ctx; first exact (setup_of Hctx).
exists [:: 0; 1]; first by rewrite one_neq0.
move=> r _.
have E (x y : Fr) : [seq te_g1_to_compressed (de_te ex_env) C | C <- [seq commit (srs_of tau (1 : G) (2 ^ 12)) f | f <- [:: x%:P; y%:P]]] = [:: com0 x; com0 y].
  by rewrite !map_cons -/ex_g1s !commit_const.
rewrite (E five five) (E (forged five five 0) (forged five six 0)).
exact (two_accepted r Hctx).
Qed.

Lemma half_lt (l : seq N) t : all (fun i => (i <? 128)%num) l -> (64 <= size l)%N -> (t < 64)%N -> (nth 0%num l t < 128)%num.
Proof. by move=> A S Ht; have /N.ltb_spec0 := all_nthP 0%num A t (leq_trans Ht S). Qed.
Lemma com_neq : com0 six <> com0 five.
Proof.
have inj := comp_inj (env_std_ok ex_std); move=> /(inj six five) H.
by case/eqP: five_neq_six.
Qed.

(** The blob with all values 5, its cells 64 to 127 and the commitment 6. *)
Example C56_commitment_applies : exists ctx P rcom,
  [/\ size ex_blob = (2 ^ 17)%N, blob_polynomial ex_blob five%:P, uniq ex_half,
      all (fun i => (i <? 128)%num) ex_half & (64 <= size ex_half)%N] /\
  [/\ setup tau (1 : G) (1 : G) ctx, forall X, de_pair ex_env X (1 : G) = 0 -> X = 0,
      forall t, (t < 64)%N -> let k := nth 0%num ex_half t in
        verify_cell_kzg_proof_batch ex_env eip7594_consts ctx [:: com0 six] [:: k]
          [:: cell_of_poly (five%:P : {poly Fr}) (N.to_nat k)] [:: com0 (P t)] = Ret (Ok tt),
      blob_to_kzg_commitment ex_env eip7594_consts ctx ex_blob = Ret (Ok rcom) &
      com0 six <> rcom].
Proof.
have [ctx Hctx] := ex_context; have [U A S] := ex_any_half.
exists ctx, (fun t => forged six five (nth 0%num ex_half t)), (com0 five).
split; first exact (And5 ex_blob_size ex_blob_poly U A S).
apply: (And5 (setup_of Hctx) nondeg _ (ex_commitment Hctx)).
  move=> t Ht k; rewrite cell_const; apply: (forged_accepted six five Hctx).
  exact (half_lt A S Ht).
exact com_neq.
Qed.
