(** Concrete instances of the hypotheses of PropAgree.v and PropAgreeReal.v. *)

From Coq Require Import ZArith NArith Init.Byte Strings.Byte Strings.String.
From mathcomp Require Import ssreflect ssrfun ssrbool eqtype ssrnat seq ssralg poly.
From Verif Require Import Base Bytes SpecFr FrEnv Fr FixedBaseMSM FK20Verifier Eip7594 SpecMSM SpecTables.
From Verif Require Import PropProver PropRecover PropVerify ExApi ExMSM ExVerify CApi Managed PropC PropCReal ExC ExCReal.
From Verif Require Import CsApi SpecCs NimApi Jni SpecJni ExJni Node SpecNode CMem SpecC.
From Verif Require Import SpecAgree PropAgree PropAgreeReal.

Set Implicit Arguments.
Unset Strict Implicit.
Unset Printing Implicit Defensive.
Local Opaque nseq rows.

(** ** A small library, and a blob, a cell and 48 bytes in C, in Java and in JavaScript *)
Definition five_contexts : contexts nat := MkContexts 5 4 3 7 6.
Definition nothing (r : c_result) : seq byte := [::].

Section Mem.
Variables (blob cell com : seq byte) (ks : seq N).
Definition amem : mem nat :=
  [:: Some (BCtx 5); Some (BBytes _ blob); Some (BBytes _ (nseq 48 "000"%byte));
      Some (BBytes _ (nseq (128 * 2048) "000"%byte)); Some (BBytes _ (nseq (128 * 48) "000"%byte));
      Some (BPtrs _ (rows 3 2048)); Some (BPtrs _ (rows 4 48)); Some (BU64s _ ks); Some (BBool _ false);
      Some (BBytes _ com); Some (BBytes _ cell); Some (BPtrs _ [:: Addr 9 0]); Some (BPtrs _ [:: Addr 10 0])].
Definition ctx_mem (c : nat) : mem nat := [:: Some (BCtx c)].
Definition aheap : seq jobj :=
  [:: OBytes blob; OBytes cell; OBytes com; OArrays [:: Some 1]; OArrays [:: Some 2]; OLongs [seq java_long k | k <- ks]].
Definition ajs : jsmem := [:: blob; cell; com].
Lemma a_c : ctx_at amem (Addr 0 0) 5. Proof. by exists 0. Qed.
Lemma a_ctx c : ctx_at (ctx_mem c) (Addr 0 0) c. Proof. by exists 0. Qed.
Lemma a_blob : bytes_at amem (Addr 1 0) blob. Proof. apply: bytes_block; block. Qed.
Lemma a_out : writable amem (Addr 2 0) 48.
Proof. apply: (@writable_block _ _ 2 (nseq 48 "000"%byte)); [block|by rewrite size_nseq]. Qed.
Lemma a_buffers : two_buffers amem (Addr 5 0) (Addr 6 0) (rows 3 2048) (rows 4 48).
Proof.
apply: And4.
- by split; apply: ptrs_block; block.
- by split; exact: size_mkseq.
- move=> i Hi; split.
    by apply: (@rows_writable _ _ 3 _ 2048 i _ (size_nseq _ _) Hi); block.
  by apply: (@rows_writable _ _ 4 _ 48 i _ (size_nseq _ _) Hi); block.
exact: rows_disjoint.
Qed.
Lemma a_u64 : u64s_at amem (Addr 7 0) ks. Proof. by right; exists 7, 0, ks; split=> //; block. Qed.
Lemma a_bool : bool_at amem (Addr 8 0) false. Proof. by exists 8 => //; block. Qed.
Lemma a_coms : arrays_at amem (Addr 11 0) [:: com].
Proof.
exists [:: Addr 9 0]; split=> //; first by apply: ptrs_block; block.
by case=> // _; apply: bytes_block; block.
Qed.
Lemma a_cells : arrays_at amem (Addr 12 0) [:: cell].
Proof.
exists [:: Addr 10 0]; split=> //; first by apply: ptrs_block; block.
by case=> // _; apply: bytes_block; block.
Qed.
Lemma j_blob : value_bytes aheap (Some 0) (Some blob). Proof. by exists 0. Qed.
Lemma j_cells : value_arrays aheap (Some 3) (no_null [:: cell]).
Proof. by exists 3, [:: Some 1]; do 2!split=> //; exists 1. Qed.
Lemma j_coms : value_arrays aheap (Some 4) (no_null [:: com]).
Proof. by exists 4, [:: Some 2]; do 2!split=> //; exists 2. Qed.
Lemma j_longs : value_longs aheap (Some 5) (Some [seq java_long k | k <- ks]). Proof. by exists 5. Qed.
Lemma whole_read n (b : seq byte) : oget ajs n = Some b -> vread ajs (MkView n 0 (size b)) = Some b.
Proof. by rewrite /vread => -> /=; rewrite leqnn drop0 take_size. Qed.
Definition w_blob := MkView 0 0 (size blob).
Definition w_cell := MkView 1 0 (size cell).
Definition w_com := MkView 2 0 (size com).
Lemma n_blob : vread ajs w_blob = Some blob. Proof. exact: whole_read. Qed.
Lemma n_cells : holds ajs [:: w_cell] [:: cell]. Proof. by rewrite /holds /= whole_read. Qed.
Lemma n_coms : holds ajs [:: w_com] [:: com]. Proof. by rewrite /holds /= whole_read. Qed.
End Mem.

Lemma alike_toy (T : Type) (x : T) : alike (fun _ => x) five_contexts. Proof. by []. Qed.
Lemma toys c : api_typed toy c. Proof. exact: toy_typed. Qed.

Definition a_blob2 : seq byte := nseq (2 ^ 17) "002"%byte.
Definition a_blob255 : seq byte := nseq (2 ^ 17) "255"%byte.
Definition a_cell (b : byte) : seq byte := nseq 2048 b.
Definition a_com : seq byte := nseq 48 "001"%byte.
(** The largest number of 64 bits: -1 in Java *)
Definition a_ks : seq N := [:: 18446744073709551615%num].
Example a_ks_java : map java_long a_ks = [:: (-1)%Z] /\ all u64 a_ks. Proof. by []. Qed.
Lemma a_blob2_size : size a_blob2 = 2 ^ 17. Proof. exact: size_nseq. Qed.
Lemma a_blob255_size : size a_blob255 = 2 ^ 17. Proof. exact: size_nseq. Qed.
Lemma a_cell_size b : all (fun x => size x == 2048) [:: a_cell b]. Proof. by rewrite /= size_nseq. Qed.
Lemma a_sizes b : right_sizes [:: a_com] [:: a_cell b] [:: a_com].
Proof. by rewrite /right_sizes /= !size_nseq. Qed.
Local Opaque a_blob2 a_blob255 a_cell a_com.

Local Notation mem1 := (amem a_blob2 (a_cell "003") a_com a_ks).
Local Notation heap1 := (aheap a_blob2 (a_cell "003") a_com a_ks).
Local Notation js1 := (ajs a_blob2 (a_cell "003") a_com).

Example C61_commit_applies := @C61_commit _ _ toy nothing dbg toy_no_nul toys five_contexts
  mem1 (ctx_mem 4) (ctx_mem 3) (Addr 0 0) (Addr 0 0) (Addr 0 0) heap1 js1
  (a_c _ _ _ _) (a_ctx 4) (a_ctx 3) a_blob2 (Addr 1 0) (Addr 2 0) (Some 0) _
  a_blob2_size (alike_toy _) (a_blob _ _ _ _) (a_out _ _ _ _) (j_blob _ _ _ _) (n_blob _ _ _).
Example C61_compute_applies := @C61_compute _ _ toy nothing dbg toy_no_nul toys five_contexts
  mem1 (ctx_mem 4) (ctx_mem 3) (Addr 0 0) (Addr 0 0) (Addr 0 0) heap1 js1
  (a_c _ _ _ _) (a_ctx 4) (a_ctx 3) a_blob2 (Addr 1 0) (Addr 5 0) (Addr 6 0) (rows 3 2048) (rows 4 48) (Some 0) _
  a_blob2_size (alike_toy _) (a_blob _ _ _ _) (a_buffers _ _ _ _) (j_blob _ _ _ _) (n_blob _ _ _).
Example C61_recover_applies := @C61_recover _ _ toy nothing dbg toy_no_nul toys five_contexts
  mem1 (ctx_mem 4) (ctx_mem 3) (Addr 0 0) (Addr 0 0) (Addr 0 0) heap1 js1
  (a_c _ _ _ _) (a_ctx 4) (a_ctx 3) a_ks [:: a_cell "003"] (Addr 7 0) (Addr 12 0) (Addr 5 0) (Addr 6 0)
  (rows 3 2048) (rows 4 48) (Some 5) (Some 3) _
  isT (a_cell_size _) (alike_toy _) (a_u64 _ _ _ _) (a_cells _ _ _ _) (a_buffers _ _ _ _)
  (j_longs _ _ _ _) (j_cells _ _ _ _) (n_cells _ _ _).
Example C61_verify_applies := @C61_verify _ _ toy nothing dbg toy_no_nul toys five_contexts
  mem1 (ctx_mem 4) (ctx_mem 3) (Addr 0 0) (Addr 0 0) (Addr 0 0) heap1 js1
  (a_c _ _ _ _) (a_ctx 4) (a_ctx 3) [:: a_com] a_ks [:: a_cell "003"] [:: a_com]
  (Addr 11 0) (Addr 7 0) (Addr 12 0) (Addr 11 0) (Addr 8 0) false (Some 4) (Some 5) (Some 3) (Some 4) _ _ _
  isT (a_sizes _) (alike_toy _) (a_coms _ _ _ _) (a_u64 _ _ _ _) (a_cells _ _ _ _) (a_coms _ _ _ _) (a_bool _ _ _ _)
  (j_coms _ _ _ _) (j_longs _ _ _ _) (j_cells _ _ _ _) (j_coms _ _ _ _)
  (n_coms _ _ _) (n_cells _ _ _) (n_coms _ _ _).

(** Two bytes as a blob; a cell of two bytes *)
Definition a_two : seq byte := [:: "007"%byte; "000"%byte].
Local Notation heap2 := (aheap a_two a_two a_com a_ks).
Local Notation js2 := (ajs a_two a_two a_com).
Lemma a_two_size : size a_two <> 2 ^ 17.
Proof. by move/eqP; rewrite -[size _]/2 two_17. Qed.
Example C61_commit_sizes_applies := @C61_commit_sizes _ _ toy dbg toy_no_nul toys five_contexts
  (ctx_mem 4) (Addr 0 0) heap2 js2 (a_ctx 4) a_two (Some 0) _ (alike_toy _) (j_blob _ _ _ _) (n_blob _ _ _).
Example C61_compute_sizes_applies := @C61_compute_sizes _ _ toy dbg toy_no_nul toys five_contexts
  (ctx_mem 4) (Addr 0 0) heap2 js2 (a_ctx 4) a_two (Some 0) _ (alike_toy _) (j_blob _ _ _ _) (n_blob _ _ _).
Example C61_recover_sizes_applies := @C61_recover_sizes _ _ toy dbg toy_no_nul toys five_contexts
  (ctx_mem 4) (Addr 0 0) heap2 js2 (a_ctx 4) a_ks [:: a_two] (Some 5) (Some 3) _ isT (alike_toy _)
  (j_longs _ _ _ _) (j_cells _ _ _ _) (n_cells _ _ _).
Example C61_verify_sizes_applies := @C61_verify_sizes _ _ toy dbg toy_no_nul toys five_contexts
  (ctx_mem 4) (Addr 0 0) heap2 js2 (a_ctx 4) [:: a_com] a_ks [:: a_two] [:: a_com] (Some 4) (Some 5) (Some 3) (Some 4)
  _ _ _ isT (alike_toy _) (j_coms _ _ _ _) (j_longs _ _ _ _) (j_cells _ _ _ _) (j_coms _ _ _ _)
  (n_coms _ _ _) (n_cells _ _ _) (n_coms _ _ _).
(** They refuse. *)
Example a_refused : exists reason h',
  java_call (native_commit toy dbg 7 (Some 0)) heap2 = ThrowsIllegalArgument (thrown "blobToKZGCommitment" reason) h'.
Proof.
have [a [_ J _ R]] := C61_commit_sizes_applies; rewrite (R a_two_size) in J.
by have [reason [h' [E _]]] := J; exists reason, h'.
Qed.

(** ** The library of Eip7594.v: two contexts without tables, three with tables *)
Definition some_ups : contexts use_precomp := MkContexts PrecompNo (PrecompYes 8) (PrecompYes 8) (PrecompYes 8) PrecompNo.
Lemma ex_some : exists cs, all_built ex_g1s ex_g2s some_ups cs.
Proof. by have [c [cw [B Bw]]] := ex_built; exists (MkContexts c cw cw cw c). Qed.
Example C61_typed_applies c : api_typed creal c.
Proof. exact (C61_typed ex_stdw creal_new real_debug c). Qed.
Example C61_options_applies : exists cs, alike (fun c => ra_blob_to_kzg_commitment creal c ex_blob) cs /\
  alike (fun c => ra_verify creal c [:: com5] [:: 3%num] [:: const_cell five] [:: proof0]) cs.
Proof.
have [cs B] := ex_some; exists cs.
exact (C61_options ex_envw creal_new real_debug ex_S1 ex_S2 ex_blob [:: com5] [:: 3%num] [:: const_cell five] [:: proof0] B).
Qed.
Lemma regular_no f : regular ex_g1s PrecompNo f. Proof. exact I. Qed.
Lemma some_regular f : (forall j, j < 128 -> no_exceptional_pair 8 (table_points ex_g1s j) (table_scalars f j)) ->
  all_regular ex_g1s some_ups f.
Proof. move=> H; exact (And5 (regular_no f) H H H (regular_no f)). Qed.
Example C61_options_tables_applies : exists cs, alike (fun c => ra_compute creal c ex_blob) cs /\
  alike (fun c => ra_recover creal c ex_half ex_cells64) cs.
Proof.
have [cs B] := ex_some; exists cs.
have [H1 H2] := C61_options_tables ex_coords ex_stdw erefl ex_S1 ex_S2 creal_new real_debug B.
have [Sh _ _] := ex_consistent.
exact (conj (H1 ex_blob ex_blob_size (fun f Hf => some_regular (ex_tables_blob Hf)))
            (H2 ex_half ex_cells64 Sh (fun f Hf => some_regular (ex_tables_cells Hf)))).
Qed.
