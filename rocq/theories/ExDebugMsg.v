(** Concrete instances of the hypotheses of PropDebugMsg.v: a memory with any given arrays. *)

From Coq Require Import ZArith NArith Init.Byte Strings.Byte Strings.String.
From mathcomp Require Import ssreflect ssrfun ssrbool eqtype ssrnat seq ssralg poly.
From Verif Require Import Base Bytes Fr SpecDAS SpecFr FrEnv FixedBaseMSM FK20Verifier ReedSolomon Eip7594.
From Verif Require Import SpecVerify PropRecover PropVerify.
From Verif Require Import CMem CApi SpecC CProofs CCallProofs PropC Debug SpecDebug DebugProofs PropDebug PropDebugMsg.
From Verif Require Import ExApi ExMSM ExC ExVerify ExDebug.
From mathcomp Require Import zify_ssreflect.

Set Implicit Arguments.
Unset Strict Implicit.
Unset Printing Implicit Defensive.

Local Opaque w8192 w4096 be_bytes be_val nseq.

(** ** A memory with a context, indices, a place for the verdict, and three lists of arrays *)
Section Gmem.
Variables (X : Type) (c : X) (ks : seq N) (l1 l2 l3 : seq (seq byte)).
Definition addrs (a n : nat) : seq ptr := mkseq (fun i => Addr (a + i) 0) n.
Definition bytes_blocks (l : seq (seq byte)) : seq (option (block X)) := [seq Some (BBytes _ s) | s <- l].
Definition ghead : mem X :=
  [:: Some (BCtx c); Some (BU64s _ ks); Some (BBool _ false); Some (BPtrs _ (addrs 6 (size l1)));
      Some (BPtrs _ (addrs (6 + size l1) (size l2))); Some (BPtrs _ (addrs (6 + size l1 + size l2) (size l3)))].
Definition gmem : mem X := ghead ++ (bytes_blocks l1 ++ bytes_blocks l2 ++ bytes_blocks l3).

Lemma block_in pre l post i : i < size l ->
  is_block (pre ++ bytes_blocks l ++ post) (size pre + i) (BBytes _ (nth [::] l i)).
Proof.
move=> Hi; split; first by rewrite !size_cat size_map; lia.
by rewrite nth_cat ifF ?addKn; [rewrite nth_cat size_map Hi (nth_map [::])|lia].
Qed.
Lemma arrays_in b a l : is_block gmem b (BPtrs _ (addrs a (size l))) ->
  (forall i, i < size l -> is_block gmem (a + i) (BBytes _ (nth [::] l i))) -> arrays_at gmem (Addr b 0) l.
Proof.
move=> Hb Hl; exists (addrs a (size l)); split; [exact: ptrs_block|exact: size_mkseq|move=> i Hi].
by rewrite nth_mkseq //; apply: bytes_block; exact: Hl.
Qed.
Lemma gmem_ctx : ctx_at gmem (Addr 0 0) c. Proof. by exists 0. Qed.
Lemma gmem_ks : u64s_at gmem (Addr 1 0) ks. Proof. by right; exists 1, 0, ks. Qed.
Lemma gmem_bool : bool_at gmem (Addr 2 0) false. Proof. by exists 2. Qed.
Lemma gmem_l1 : arrays_at gmem (Addr 3 0) l1.
Proof.
apply: (@arrays_in 3 6) => // i Hi.
exact (@block_in (ghead) l1 (bytes_blocks l2 ++ bytes_blocks l3) i Hi).
Qed.
Lemma gmem_l2 : arrays_at gmem (Addr 4 0) l2.
Proof.
apply: (@arrays_in 4 (6 + size l1)) => // i Hi; rewrite /gmem catA.
have -> : 6 + size l1 + i = size (ghead ++ bytes_blocks l1) + i by rewrite size_cat size_map.
exact (@block_in (ghead ++ bytes_blocks l1) l2 (bytes_blocks l3) i Hi).
Qed.
Lemma gmem_l3 : arrays_at gmem (Addr 5 0) l3.
Proof.
apply: (@arrays_in 5 (6 + size l1 + size l2)) => // i Hi; rewrite /gmem 2!catA -[X in is_block X](cats0 _) -(catA _ (bytes_blocks l3)).
have -> : 6 + size l1 + size l2 + i = size ((ghead ++ bytes_blocks l1) ++ bytes_blocks l2) + i.
  by rewrite !size_cat !size_map.
exact (@block_in ((ghead ++ bytes_blocks l1) ++ bytes_blocks l2) l3 [::] i Hi).
Qed.
End Gmem.

Section Real.
Variable ctx : das_context G G.
Hypothesis Hctx : das_context_new fr_params eip7594_consts ex_g1s ex_g2s PrecompNo = Ret ctx.
Local Notation api := (dreal ctx).
(** The call with these arguments in that memory *)
Definition recover_call ks cs := eth_kzg_recover_cells_and_proofs api (Addr 0 0) (size cs) (Addr 3 0) (size ks) (Addr 1 0)
  Null Null (gmem ctx ks cs [::] [::]).
Definition verify_call coms ks cs ps := eth_kzg_verify_cell_kzg_proof_batch api (Addr 0 0) (size coms) (Addr 3 0)
  (size ks) (Addr 1 0) (size cs) (Addr 4 0) (size ps) (Addr 5 0) (Addr 2 0) (gmem ctx ks coms cs ps).
Notation recover_ex thm ks cs Acs := (thm _ _ _ ex_env ex_std ex_g1s ex_g2s ctx ex_S1 ex_S2 Hctx (fun _ _ => Ret ctx)
  (gmem ctx ks cs [::] [::]) (Addr 0 0) (Addr 3 0) (Addr 1 0) Null Null cs ks (gmem_ctx _ _ _ _ _) Acs
  (gmem_l1 _ _ _ _ _) (gmem_ks _ _ _ _ _)).
Notation verify_ex thm coms ks cs ps T := (thm _ _ _ ex_env ex_std ex_g1s ex_g2s ctx ex_S1 ex_S2 Hctx (fun _ _ => Ret ctx)
  (gmem ctx ks coms cs ps) (Addr 0 0) (Addr 3 0) (Addr 1 0) (Addr 4 0) (Addr 5 0) (Addr 2 0) false coms cs ps ks
  (gmem_ctx _ _ _ _ _) T (gmem_l1 _ _ _ _ _) (gmem_ks _ _ _ _ _) (gmem_l2 _ _ _ _ _) (gmem_l3 _ _ _ _ _)
  (gmem_bool _ _ _ _ _)).

Local Notation cell5 := (const_cell five).
Lemma lt12 (T : Type) (x y : T) : 1 < size [:: x; y]. Proof. by []. Qed.
Lemma lt01 (T : Type) (x : T) : 0 < size [:: x]. Proof. by []. Qed.
Lemma ne12 : 1 <> 2. Proof. by []. Qed.
Example C58_recover_lengths_applies : says (gmem ctx [:: 7%num] [:: cell5; cell5] [::] [::])
  (lit "Recovery(NumCellIndicesNotEqualToNumCells { num_cell_indices: 1, num_cells: 2 })")
  (recover_call [:: 7%num] [:: cell5; cell5]).
Proof. exact (recover_ex (@C58_recover_lengths) [:: 7%num] [:: cell5; cell5] (two_cells_shape five) ne12). Qed.

Lemma below1 (P : nat -> Prop) : P 0 -> forall j, j < 1 -> P j.
Proof. by move=> H [|j]. Qed.
Example C58_recover_range_applies : says (gmem ctx [:: 3; 200]%num [:: cell5; cell5] [::] [::])
  (lit "Recovery(CellIndexOutOfRange { cell_index: 200, max_number_of_cells: 128 })")
  (recover_call [:: 3; 200]%num [:: cell5; cell5]).
Proof.
exact (recover_ex (@C58_recover_range) [:: 3; 200]%num [:: cell5; cell5] (two_cells_shape five) erefl (lt12 _ _) isT
  (@below1 (fun j => nth 0%num [:: 3; 200]%num j <? 128)%num isT)).
Qed.
Example C58_recover_duplicates_applies : says (gmem ctx [:: 3; 3]%num [:: cell5; cell5] [::] [::])
  (lit "Recovery(CellIndicesNotUnique)") (recover_call [:: 3; 3]%num [:: cell5; cell5]).
Proof. exact (recover_ex (@C58_recover_duplicates) [:: 3; 3]%num [:: cell5; cell5] (two_cells_shape five) erefl isT isT). Qed.

Lemma half_ok : [/\ all (fun i => (i <? 128)%num) ex_half, uniq ex_half & 64 <= size ex_half].
Proof. by split; vm_compute. Qed.
Lemma bad_cells_size : 1 < size ex_bad_cells.
Proof. by []. Qed.
Example C58_recover_chunk_applies : says (gmem ctx ex_half ex_bad_cells [::] [::])
  (lit "Serialization(CouldNotDeserializeScalar { bytes: " ++ debug_bytes (chunk (nth [::] ex_bad_cells 1) 7) ++ lit " })")
  (recover_call ex_half ex_bad_cells).
Proof.
have [Ac Sz Bi Gi Gt] := ex_bad_chunk; have [Ar Ui Fw] := half_ok.
exact (recover_ex (@C58_recover_chunk) ex_half ex_bad_cells Ac Sz Ar Ui Fw bad_cells_size (isT : 7 < 64) Bi Gi Gt).
Qed.
Example C58_recover_inconsistent_applies : says (gmem ctx ex_idx65 ex_cells65 [::] [::])
  (lit "Recovery(ReedSolomon(PolynomialHasInvalidLength { num_coefficients: 8192, expected_num_coefficients: 4096 }))")
  (recover_call ex_idx65 ex_cells65).
Proof.
have [[Ac Sz Ui Ar Fw] [Hc Hn]] := ex_inconsistent.
exact (recover_ex (@C58_recover_inconsistent) ex_idx65 ex_cells65 Ac Sz Ui Ar Fw Hc Hn).
Qed.

Example C58_verify_lengths_applies : says (gmem ctx [::] [:: com0 five] [::] [::])
  (lit "Verifier(BatchVerificationInputsMustHaveSameLength { commitment_indices_len: 1, cell_indices_len: 0, cells_len: 0, proofs_len: 0 })")
  (verify_call [:: com0 five] [::] [::] [::]).
Proof.
have [T ne] := ex_verify_lengths.
exact (verify_ex (@C58_verify_lengths) [:: com0 five] (Nil N) (Nil (seq byte)) (Nil (seq byte)) T ne).
Qed.
Example C58_verify_commitment_applies : says (gmem ctx [:: 0; 3]%num [:: com0 five; ff48] bad_cells bad_coms)
  (lit "Serialization(CouldNotDeserializeG1Point { bytes: " ++ debug_bytes ff48 ++ lit " })")
  (verify_call [:: com0 five; ff48] [:: 0; 3]%num bad_cells bad_coms).
Proof.
have [T sh Bi Gi] := ex_verify_commitment.
exact (verify_ex (@C58_verify_commitment) [:: com0 five; ff48] [:: 0; 3]%num bad_cells bad_coms T sh (lt12 _ _) Bi Gi).
Qed.
Example C58_verify_proof_applies : says (gmem ctx [:: 0; 3]%num bad_coms bad_cells [:: com0 five; ff48])
  (lit "Serialization(CouldNotDeserializeG1Point { bytes: " ++ debug_bytes ff48 ++ lit " })")
  (verify_call bad_coms [:: 0; 3]%num bad_cells [:: com0 five; ff48]).
Proof.
have [T sh Gc Bi Gi] := ex_verify_proof.
exact (verify_ex (@C58_verify_proof) bad_coms [:: 0; 3]%num bad_cells [:: com0 five; ff48] T sh Gc (lt12 _ _) Bi Gi).
Qed.
Lemma none_before2 (P : nat -> nat -> Prop) t j : t < 0 -> j < 64 -> P t j. Proof. by []. Qed.
Lemma com0_point x b : b \in [:: com0 x] -> point_bytes ex_env b.
Proof. by rewrite inE => /eqP ->; exists (x : G). Qed.
Example C58_verify_chunk_applies : says (gmem ctx [:: 3%num] [:: com0 five] [:: pack (bad_at 7) 64] [:: com0 0%R])
  (lit "Serialization(CouldNotDeserializeScalar { bytes: " ++ debug_bytes (chunk (pack (bad_at 7) 64) 7) ++ lit " })")
  (verify_call [:: com0 five] [:: 3%num] [:: pack (bad_at 7) 64] [:: com0 0%R]).
Proof.
have [T sh Bi Gi] := ex_verify_chunk.
exact (verify_ex (@C58_verify_chunk) [:: com0 five] [:: 3%num] [:: pack (bad_at 7) 64] [:: com0 0%R] T sh
  (@com0_point five) (@com0_point 0%R) (lt01 _) (isT : 7 < 64) Bi Gi
  (@none_before2 (fun t j => canonical (chunk (nth [::] [:: pack (bad_at 7) 64] t) j)))).
Qed.
End Real.
