(** Properties of the texts of errors (C58). *)

From Coq Require Import ZArith NArith Init.Byte Strings.Byte Strings.String.
From mathcomp Require Import ssreflect ssrfun ssrbool eqtype ssrnat seq ssralg.
From Verif Require Import Base Bytes SpecFr FrEnv Fr FixedBaseMSM FK20Verifier Eip7594 Eip7594Proofs.
From Verif Require Import SpecDAS SpecVerify ApiEip PropProver PropRecover PropVerify.
From Verif Require Import CMem CApi SpecC CProofs CCallProofs PropC Debug SpecDebug DebugProofs.

Set Implicit Arguments.
Unset Strict Implicit.
Unset Printing Implicit Defensive.

Import GRing.Theory.

(** Every text consists of printable characters of ASCII and is not empty. *)
Theorem C58_printable e : all is_printable (debug_error e) /\ debug_error e <> [::].
Proof. by split; [exact: printable_error|case: e => -[]]. Qed.

(** Different errors have different texts. *)
Theorem C58_distinct e e' : debug_error e = debug_error e' -> e = e'.
Proof. exact: delim_inj delim_error _ _. Qed.

(** Numbers in texts are in decimal. *)
Theorem C58_decimal n : decimal n (debug_N n).
Proof. exact: debug_N_decimal. Qed.

Lemma printable_no_nul s : all is_printable s -> "000"%byte \notin s.
Proof. by move=> /allP H; apply/negP => /H. Qed.

Section Eip.
Variables (G1 G2 GT : lmodType Fr) (env : das_env G1 G2 GT).
Hypothesis std : env_std env.
Variables (g1s : seq G1) (g2s : seq G2) (ctx : das_context G1 G2).
Hypothesis S1 : size g1s = (2 ^ 12)%N.
Hypothesis S2 : size g2s = 65%N.
Hypothesis Hctx : das_context_new fr_params eip7594_consts g1s g2s PrecompNo = Ret ctx.
Variable new : bool -> N -> outcome (das_context G1 G2).
Local Notation api := (eip7594_api env new debug_error).

Lemma debugE e : ra_debug api e = debug_error e. Proof. by []. Qed.
Lemma debug_no_nul : no_nul api.
Proof. by move=> e; apply: printable_no_nul; exact: printable_error. Qed.

(** The C calls with valid arguments always return: making the message cannot abort. *)
Theorem C58_returns h m call : (forall u n, new u n = Ret ctx) ->
  good_history api h m -> allowed h m call -> exists v m', c_exec api call m = CRet (v, m').
Proof.
exact (@C37_eip7594_returns _ _ _ env std g1s g2s ctx S1 S2 Hctx new debug_error h m call debug_no_nul).
Qed.

Lemma text_scalar b : debug_error (ESerialization (CouldNotDeserializeScalar b)) =
  lit "Serialization(CouldNotDeserializeScalar { bytes: " ++ debug_bytes b ++ lit " })".
Proof. by rewrite /debug_error /debug_tuple /= /debug_struct /= -!catA. Qed.
Lemma text_few a b : debug_error (ERecovery (NotEnoughCellsToReconstruct a b)) =
  lit "Recovery(NotEnoughCellsToReconstruct { num_cells_received: " ++ debug_N (N.of_nat a) ++
  lit ", min_cells_needed: " ++ debug_N (N.of_nat b) ++ lit " })".
Proof. by rewrite /debug_error /debug_tuple /= /debug_struct /= -!catA /= -!catA. Qed.
Lemma text_index a b : debug_error (EVerifier (VerifierCellIndexOutOfRange a b)) =
  lit "Verifier(CellIndexOutOfRange { cell_index: " ++ debug_N a ++
  lit ", max_number_of_cells: " ++ debug_N b ++ lit " })".
Proof. by rewrite /debug_error /debug_tuple /= /debug_struct /= -!catA /= -!catA. Qed.

(** A refused blob: the message shows the bytes of the first field element that is not canonical. *)
Theorem C58_blob_message m p blob data out i : ctx_at m p ctx ->
  size data = (2 ^ 17)%N -> bytes_at m blob data -> (i < 2 ^ 12)%N ->
  ~~ canonical (chunk data i) -> (forall j, (j < i)%N -> canonical (chunk data j)) ->
  eth_kzg_blob_to_kzg_commitment api p blob out m =
  CRet (MkCResult StErr (Addr (size m) 0), rcons m (Some (BMsg _
    (lit "Serialization(CouldNotDeserializeScalar { bytes: " ++ debug_bytes (chunk data i) ++ lit " })")))).
Proof.
move=> Hc Sd Hd Hi Bi Gi; have [_ E] := C05_rejected std S1 S2 Hctx Sd Hi Bi Gi.
rewrite -text_scalar.
exact (@C37_commit_err _ _ api m p ctx blob data out _ Hc debug_no_nul Sd Hd E).
Qed.

(** Too few cells: the message has the number of cells and the number 64. *)
Theorem C58_few_message m p cells cs indices ks out_cells out_proofs : ctx_at m p ctx ->
  all (fun x => size x == 2048) cs -> arrays_at m cells cs -> u64s_at m indices ks ->
  size ks = size cs -> all (fun i => (i <? 128)%num) ks -> uniq ks -> (size ks < 64)%N ->
  eth_kzg_recover_cells_and_proofs api p (size cs) cells (size ks) indices out_cells out_proofs m =
  CRet (MkCResult StErr (Addr (size m) 0), rcons m (Some (BMsg _
    (lit "Recovery(NotEnoughCellsToReconstruct { num_cells_received: " ++ debug_N (N.of_nat (size cs)) ++
     lit ", min_cells_needed: 64 })")))).
Proof.
move=> Hc Acs Hcs Hks Sz Ar Ui Fw.
have E := C08_too_few std S1 S2 Hctx Acs Sz Ar Ui Fw.
rewrite (@C37_recover_err _ _ api m p ctx cells cs indices ks out_cells out_proofs _ Hc debug_no_nul Acs Hcs Hks E).
by rewrite debugE text_few Sz.
Qed.

(** An index that is too large in a call to verify *)
Theorem C58_index_message m p commitments coms indices ks cells cs proofs ps verified b i : ctx_at m p ctx ->
  all (fun x => size x == 48) coms -> arrays_at m commitments coms -> u64s_at m indices ks ->
  all (fun x => size x == 2048) cs -> arrays_at m cells cs ->
  all (fun x => size x == 48) ps -> arrays_at m proofs ps -> bool_at m verified b ->
  [/\ size ks = size coms, size cs = size coms & size ps = size coms] -> (i < size ks)%N -> (128 <=? nth 0%num ks i)%num ->
  (forall j, (j < i)%N -> (nth 0%num ks j <? 128)%num) ->
  eth_kzg_verify_cell_kzg_proof_batch api p (size coms) commitments (size ks) indices (size cs) cells
    (size ps) proofs verified m =
  CRet (MkCResult StErr (Addr (size m) 0), rcons m (Some (BMsg _
    (lit "Verifier(CellIndexOutOfRange { cell_index: " ++ debug_N (nth 0%num ks i) ++
     lit ", max_number_of_cells: 128 })")))).
Proof.
move=> Hc A1 H1 H2 A3 H3 A4 H4 H5 sl Hi Bi Gi.
have E := @C14_range _ _ _ env std g1s g2s ctx S1 S2 Hctx coms ks cs ps i (And3 A1 A3 A4) sl Hi Bi Gi.
rewrite (@C37_verify_err _ _ api m p ctx commitments indices cells proofs verified coms ks cs ps b
  Hc A1 H1 H2 A3 H3 A4 H4 H5 _ debug_no_nul E isT).
by rewrite debugE text_index.
Qed.
End Eip.

Print Assumptions C58_printable.
Print Assumptions C58_distinct.
Print Assumptions C58_decimal.
Print Assumptions C58_returns.
Print Assumptions C58_blob_message.
Print Assumptions C58_few_message.
Print Assumptions C58_index_message.
