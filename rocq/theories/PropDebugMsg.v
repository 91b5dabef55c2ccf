(** The messages of all refused calls of recovery and verification through the C interface (C58). *)

From Coq Require Import ZArith NArith Init.Byte Strings.Byte Strings.String.
From mathcomp Require Import ssreflect ssrfun ssrbool eqtype ssrnat seq ssralg.
From Verif Require Import Base Bytes SpecFr FrEnv Fr FixedBaseMSM ReedSolomon FK20Verifier Eip7594 Eip7594Proofs.
From Verif Require Import SpecDAS SpecVerify ApiEip PropProver PropRecover PropVerify.
From Verif Require Import CMem CApi SpecC CProofs CCallProofs PropC Debug SpecDebug DebugProofs PropDebug.

Set Implicit Arguments.
Unset Strict Implicit.
Unset Printing Implicit Defensive.

Import GRing.Theory.

(** A number in a message *)
Notation num n := (debug_N (N.of_nat n)).

Lemma text_lengths a b : debug_error (ERecovery (NumCellIndicesNotEqualToNumCells a b)) =
  lit "Recovery(NumCellIndicesNotEqualToNumCells { num_cell_indices: " ++ num a ++
  lit ", num_cells: " ++ num b ++ lit " })".
Proof. by rewrite /debug_error /debug_tuple /= /debug_struct /= -!catA /= -!catA. Qed.
Lemma text_rrange a b : debug_error (ERecovery (RecoveryCellIndexOutOfRange a b)) =
  lit "Recovery(CellIndexOutOfRange { cell_index: " ++ debug_N a ++
  lit ", max_number_of_cells: " ++ debug_N b ++ lit " })".
Proof. by rewrite /debug_error /debug_tuple /= /debug_struct /= -!catA /= -!catA. Qed.
Lemma text_rs a b : debug_error (ERecovery (RecoveryReedSolomon (PolynomialHasInvalidLength a b))) =
  lit "Recovery(ReedSolomon(PolynomialHasInvalidLength { num_coefficients: " ++ num a ++
  lit ", expected_num_coefficients: " ++ num b ++ lit " }))".
Proof. by rewrite /debug_error /debug_tuple /= /debug_struct /= /debug_tuple /= -!catA /= -!catA. Qed.
Lemma text_point b : debug_error (ESerialization (CouldNotDeserializeG1Point b)) =
  lit "Serialization(CouldNotDeserializeG1Point { bytes: " ++ debug_bytes b ++ lit " })".
Proof. by rewrite /debug_error /debug_tuple /= /debug_struct /= -!catA. Qed.
Lemma text_vlengths a b c d : debug_error (EVerifier (BatchVerificationInputsMustHaveSameLength a b c d)) =
  lit "Verifier(BatchVerificationInputsMustHaveSameLength { commitment_indices_len: " ++ num a ++
  lit ", cell_indices_len: " ++ num b ++ lit ", cells_len: " ++ num c ++
  lit ", proofs_len: " ++ num d ++ lit " })".
Proof. by rewrite /debug_error /debug_tuple /= /debug_struct /= -!catA /= -!catA /= -!catA /= -!catA. Qed.

Lemma of_nat_pow k : N.of_nat (2 ^ k)%N = (2 ^ N.of_nat k)%num.
Proof. by elim: k => [|k IH] //; rewrite expnS Nat2N.inj_mul IH (Nat2N.inj_succ k) N.pow_succ_r'. Qed.

Section Eip.
Variables (G1 G2 GT : lmodType Fr) (env : das_env G1 G2 GT).
Hypothesis std : env_std env.
Variables (g1s : seq G1) (g2s : seq G2) (ctx : das_context G1 G2).
Hypothesis S1 : size g1s = (2 ^ 12)%N.
Hypothesis S2 : size g2s = 65%N.
Hypothesis Hctx : das_context_new fr_params eip7594_consts g1s g2s PrecompNo = Ret ctx.
Variable new : bool -> N -> outcome (das_context G1 G2).
Local Notation api := (eip7594_api env new debug_error).

(** The call returns Err with this message, in a new block, and changes nothing else. *)
Definition says (m : mem (das_context G1 G2)) (msg : seq byte) r : Prop :=
  r = CRet (MkCResult StErr (Addr (size m) 0), rcons m (Some (BMsg _ msg))).

(** ** Recovery *)
Section Recover.
Variables (m : mem (das_context G1 G2)) (p cells indices out_cells out_proofs : ptr).
Variables (cs : seq (seq byte)) (ks : seq N).
Hypothesis Hc : ctx_at m p ctx.
Hypothesis Acs : all (fun x => size x == 2048) cs.
Hypothesis Hcs : arrays_at m cells cs.
Hypothesis Hks : u64s_at m indices ks.
Local Notation call :=
  (eth_kzg_recover_cells_and_proofs api p (size cs) cells (size ks) indices out_cells out_proofs m).

Lemma recover_says e : recover_cells_and_kzg_proofs env eip7594_consts ctx ks cs = Ret (Err e) ->
  says m (debug_error e) call.
Proof. exact (@C37_recover_err _ _ api m p ctx cells cs indices ks out_cells out_proofs e Hc (debug_no_nul env new) Acs Hcs Hks). Qed.

Theorem C58_recover_lengths : size ks <> size cs ->
  says m (lit "Recovery(NumCellIndicesNotEqualToNumCells { num_cell_indices: " ++ num (size ks) ++
    lit ", num_cells: " ++ num (size cs) ++ lit " })") call.
Proof. by move=> /(C08_lengths std S1 S2 Hctx Acs)/recover_says; rewrite text_lengths. Qed.

Theorem C58_recover_range i : size ks = size cs -> (i < size ks)%N -> (128 <=? nth 0%num ks i)%num ->
  (forall j, (j < i)%N -> (nth 0%num ks j <? 128)%num) ->
  says m (lit "Recovery(CellIndexOutOfRange { cell_index: " ++ debug_N (nth 0%num ks i) ++
    lit ", max_number_of_cells: 128 })") call.
Proof.
move=> Sz Hi Bi Gi; have := recover_says (C08_range std S1 S2 Hctx Acs Sz Hi Bi Gi).
by rewrite text_rrange.
Qed.

Theorem C58_recover_duplicates : size ks = size cs -> all (fun i => (i <? 128)%num) ks -> ~~ uniq ks ->
  says m (lit "Recovery(CellIndicesNotUnique)") call.
Proof. by move=> Sz Ar Du; exact: (recover_says (C08_duplicates std S1 S2 Hctx Acs Sz Ar Du)). Qed.

(** The first chunk that is not the encoding of a field element *)
Theorem C58_recover_chunk t i : size ks = size cs -> all (fun i => (i <? 128)%num) ks -> uniq ks ->
  (64 <= size ks)%N -> (t < size cs)%N -> (i < 64)%N -> ~~ canonical (chunk (nth [::] cs t) i) ->
  (forall j, (j < i)%N -> canonical (chunk (nth [::] cs t) j)) ->
  (forall t' j, (t' < t)%N -> (j < 64)%N -> canonical (chunk (nth [::] cs t') j)) ->
  says m (lit "Serialization(CouldNotDeserializeScalar { bytes: " ++ debug_bytes (chunk (nth [::] cs t) i) ++
    lit " })") call.
Proof.
move=> Sz Ar Ui Fw Ht Hi Bi Gi Gt; rewrite -text_scalar.
exact: (recover_says (C08_bad_chunk std S1 S2 Hctx Acs Sz Ar Ui Fw Ht Hi Bi Gi Gt)).
Qed.

(** Cells that are not those of one blob *)
Theorem C58_recover_inconsistent : size ks = size cs -> uniq ks -> all (fun i => (i <? 128)%num) ks ->
  (64 <= size ks)%N -> (forall cell j, cell \in cs -> (j < 64)%N -> canonical (chunk cell j)) ->
  (forall f, ~ cells_polynomial ks cs f) ->
  says m (lit "Recovery(ReedSolomon(PolynomialHasInvalidLength { num_coefficients: 8192, expected_num_coefficients: 4096 }))")
    call.
Proof.
move=> Sz Ui Ar Fw Hcan Hno.
have := recover_says (C07_inconsistent std S1 S2 Hctx Acs Sz Ui Ar Fw Hcan Hno).
rewrite text_rs.
have -> : debug_N (N.of_nat (2 ^ 13)) = lit "8192" by rewrite of_nat_pow.
have -> : debug_N (N.of_nat (2 ^ 12)) = lit "4096" by rewrite of_nat_pow.
exact.
Qed.
End Recover.

(** ** Verification *)
Section Verify.
Variables (m : mem (das_context G1 G2)) (p commitments indices cells proofs verified : ptr) (b : bool).
Variables (coms cs ps : seq (seq byte)) (ks : seq N).
Hypothesis Hc : ctx_at m p ctx.
Hypothesis T : call_types coms cs ps.
Hypothesis H1 : arrays_at m commitments coms.
Hypothesis H2 : u64s_at m indices ks.
Hypothesis H3 : arrays_at m cells cs.
Hypothesis H4 : arrays_at m proofs ps.
Hypothesis H5 : bool_at m verified b.
Local Notation call := (eth_kzg_verify_cell_kzg_proof_batch api p (size coms) commitments (size ks) indices
  (size cs) cells (size ps) proofs verified m).

Lemma verify_says e : verify_cell_kzg_proof_batch env eip7594_consts ctx coms ks cs ps = Ret (Err e) ->
  ~~ invalid_proof e -> says m (debug_error e) call.
Proof.
have [A1 A3 A4] := T.
exact (@C37_verify_err _ _ api m p ctx commitments indices cells proofs verified coms ks cs ps b
  Hc A1 H1 H2 A3 H3 A4 H4 H5 e (debug_no_nul env new)).
Qed.

Theorem C58_verify_lengths : ~ [/\ size ks = size coms, size cs = size coms & size ps = size coms] ->
  says m (lit "Verifier(BatchVerificationInputsMustHaveSameLength { commitment_indices_len: " ++ num (size coms) ++
    lit ", cell_indices_len: " ++ num (size ks) ++ lit ", cells_len: " ++ num (size cs) ++
    lit ", proofs_len: " ++ num (size ps) ++ lit " })") call.
Proof.
by move=> ne; have := verify_says (C14_lengths std S1 S2 Hctx T ne) isT; rewrite text_vlengths.
Qed.

Theorem C58_verify_commitment i : call_shape coms ks cs ps ->
  (i < size coms)%N -> ~ point_bytes env (nth [::] coms i) ->
  (forall j, (j < i)%N -> point_bytes env (nth [::] coms j)) ->
  says m (lit "Serialization(CouldNotDeserializeG1Point { bytes: " ++ debug_bytes (nth [::] coms i) ++ lit " })") call.
Proof.
move=> sh Hi Bi Gi; rewrite -text_point; exact: (verify_says (C14_commitment std S1 S2 Hctx T sh Hi Bi Gi) isT).
Qed.

Theorem C58_verify_proof i : call_shape coms ks cs ps -> (forall b, b \in coms -> point_bytes env b) ->
  (i < size ps)%N -> ~ point_bytes env (nth [::] ps i) ->
  (forall j, (j < i)%N -> point_bytes env (nth [::] ps j)) ->
  says m (lit "Serialization(CouldNotDeserializeG1Point { bytes: " ++ debug_bytes (nth [::] ps i) ++ lit " })") call.
Proof.
move=> sh Gc Hi Bi Gi; rewrite -text_point; exact: (verify_says (C14_proof std S1 S2 Hctx T sh Gc Hi Bi Gi) isT).
Qed.

Theorem C58_verify_chunk t i : call_shape coms ks cs ps -> (forall b, b \in coms -> point_bytes env b) ->
  (forall b, b \in ps -> point_bytes env b) ->
  (t < size cs)%N -> (i < 64)%N -> ~~ canonical (chunk (nth [::] cs t) i) ->
  (forall j, (j < i)%N -> canonical (chunk (nth [::] cs t) j)) ->
  (forall t' j, (t' < t)%N -> (j < 64)%N -> canonical (chunk (nth [::] cs t') j)) ->
  says m (lit "Serialization(CouldNotDeserializeScalar { bytes: " ++ debug_bytes (chunk (nth [::] cs t) i) ++
    lit " })") call.
Proof.
move=> sh Gc Gp Ht Hi Bi Gi Gt; rewrite -text_scalar.
exact: (verify_says (C14_chunk std S1 S2 Hctx T sh Gc Gp Ht Hi Bi Gi Gt) isT).
Qed.
End Verify.
End Eip.

Print Assumptions C58_recover_lengths.
Print Assumptions C58_recover_range.
Print Assumptions C58_recover_duplicates.
Print Assumptions C58_recover_chunk.
Print Assumptions C58_recover_inconsistent.
Print Assumptions C58_verify_lengths.
Print Assumptions C58_verify_commitment.
Print Assumptions C58_verify_proof.
Print Assumptions C58_verify_chunk.
