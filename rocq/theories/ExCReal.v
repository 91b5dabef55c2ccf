(** Concrete instances of the hypotheses of PropCReal.v: contexts with and without tables, the blob
    with all values 5, its cells and proofs, and arguments that are refused. *)

From Coq Require Import ZArith NArith Init.Byte Strings.Byte.
From mathcomp Require Import ssreflect ssrfun ssrbool eqtype ssrnat seq fintype bigop ssralg poly polydiv.
From Verif Require Import Base Bytes ZField Fr Spec SpecKZG SpecDAS SpecFr FrEnv FixedBaseMSM FK20Verifier Eip7594.
From Verif Require Import SpecMSM FrMsm SpecTables SpecVerify LincombProofs VerifierSoundness ApiEip PropProver PropRecover PropVerify.
From Verif Require Import CMem CApi SpecC CProofs CCallProofs PropC PropCReal ExApi ExMSM ExC.

Set Implicit Arguments.
Unset Strict Implicit.
Unset Printing Implicit Defensive.

Import GRing.Theory.
Local Opaque w8192 w4096 be_bytes be_val.

(** ** Memory: a context, a blob, buffers and pointers to them, indices, a verdict, and n pointers to
    each of a commitment, a cell and a proof *)
Section Mem.
Variables (c : das_context G G) (blob com cell proof : seq byte) (ks : seq N) (n : nat).
Definition cmem : mem (das_context G G) :=
  [:: Some (BCtx c); Some (BBytes _ blob); Some (BBytes _ (nseq 48 "000"%byte));
      Some (BBytes _ (nseq (128 * 2048) "000"%byte)); Some (BBytes _ (nseq (128 * 48) "000"%byte));
      Some (BPtrs _ (rows 3 2048)); Some (BPtrs _ (rows 4 48)); Some (BU64s _ ks); Some (BBool _ false);
      Some (BBytes _ com); Some (BBytes _ cell); Some (BBytes _ proof);
      Some (BPtrs _ (nseq n (Addr 9 0))); Some (BPtrs _ (nseq n (Addr 10 0))); Some (BPtrs _ (nseq n (Addr 11 0)))].
Local Opaque nseq rows.
Lemma cmem_ctx : ctx_at cmem (Addr 0 0) c. Proof. by exists 0. Qed.
Lemma cmem_blob : bytes_at cmem (Addr 1 0) blob. Proof. apply: bytes_block; block. Qed.
Lemma cmem_out : writable cmem (Addr 2 0) 48.
Proof. apply: (@writable_block _ _ 2 (nseq 48 "000"%byte)); [block|by rewrite size_nseq]. Qed.
Lemma cmem_buffers : out_buffers cmem (Addr 5 0) (Addr 6 0) (rows 3 2048) (rows 4 48).
Proof.
apply: OutBuffers.
- apply: ptrs_block; block.
- exact: size_mkseq.
- by move=> i; apply: (@rows_writable _ _ 3); [block|exact: size_nseq].
- apply: ptrs_block; block.
- exact: size_mkseq.
- by move=> i; apply: (@rows_writable _ _ 4); [block|exact: size_nseq].
exact: rows_disjoint.
Qed.
Lemma cmem_same a b s : is_block cmem a (BPtrs _ (nseq n (Addr b 0))) -> is_block cmem b (BBytes _ s) ->
  arrays_at cmem (Addr a 0) (nseq n s).
Proof.
move=> Ha Hb; exists (nseq n (Addr b 0)); split; [exact: ptrs_block|by rewrite !size_nseq|].
by move=> i; rewrite size_nseq => Hi; rewrite !nth_nseq Hi; exact: bytes_block.
Qed.
Lemma cmem_coms : arrays_at cmem (Addr 12 0) (nseq n com). Proof. apply: (@cmem_same _ 9); block. Qed.
Lemma cmem_cells : arrays_at cmem (Addr 13 0) (nseq n cell). Proof. apply: (@cmem_same _ 10); block. Qed.
Lemma cmem_proofs : arrays_at cmem (Addr 14 0) (nseq n proof). Proof. apply: (@cmem_same _ 11); block. Qed.
Lemma cmem_ks : u64s_at cmem (Addr 7 0) ks.
Proof. by right; exists 7, 0, ks; split=> //; block. Qed.
Lemma cmem_args : verify_args cmem (nseq n com) (nseq n cell) (nseq n proof) ks
  (Addr 12 0) (Addr 7 0) (Addr 13 0) (Addr 14 0) (Addr 8 0).
Proof.
apply: VerifyArgs; [exact: cmem_coms|exact: cmem_ks|exact: cmem_cells|exact: cmem_proofs|].
by exists false, 8 => //; block.
Qed.
End Mem.

Definition creal_new (u : bool) (n : N) : outcome (das_context G G) :=
  das_context_new fr_params eip7594_consts ex_g1s ex_g2s (if u then PrecompYes 8 else PrecompNo).
Definition creal : rust_api (das_context G G) error := eip7594_api ex_envw creal_new real_debug.
Example creal_no_nul : no_nul creal. Proof. by []. Qed.

Example ex_built : exists c cw, built ex_g1s ex_g2s PrecompNo c /\ built ex_g1s ex_g2s (PrecompYes 8) cw.
Proof. by have [c [cw [E Ew]]] := ex_contexts; exists c, cw; split; split. Qed.
Example ex_regular up f : up = PrecompNo \/ up = PrecompYes 8 -> blob_polynomial ex_blob f -> regular ex_g1s up f.
Proof. by case=> -> Hf //; exact: ex_tables_blob Hf. Qed.

Lemma small_div (a b : {poly Fr}) : size a < size b -> (a %/ b = 0)%R.
Proof. exact: divp_small. Qed.
Lemma const_proof (x : Fr) k : proof_of_poly ex_g1s x%:P k = 0%R.
Proof.
rewrite /proof_of_poly small_div; first by rewrite /commit big1 // => i _; rewrite coef0 scale0r.
by rewrite size_XnsubC //; exact: leq_ltn_trans (size_polyC_leq1 _) _.
Qed.
Definition com5 : seq byte := g_compress (five : G).
Definition proof0 : seq byte := g_compress (0%R : G).
Lemma commit_const (x : Fr) : commit ex_g1s x%:P = (x : G).
Proof.
rewrite (@commit_srs Fr G tau (1%R : G) (2 ^ 12)); last exact: leq_trans (size_polyC_leq1 _) (expn_gt0 2 12).
by rewrite hornerC /GRing.scale /= mulr1.
Qed.

Section Ex.
Variables (up : use_precomp) (c : das_context G G).
Hypothesis Hup : up = PrecompNo \/ up = PrecompYes 8.
Hypothesis Hb : built ex_g1s ex_g2s up c.
Local Notation m := (cmem c ex_blob com5 (const_cell five) proof0 ex_half 64).

Example ex_c_commit : exists m',
  [/\ eth_kzg_blob_to_kzg_commitment creal (Addr 0 0) (Addr 1 0) (Addr 2 0) m = CRet (MkCResult StOk Null, m'),
      bytes_at m' (Addr 2 0) com5 & unchanged_except [:: (Addr 2 0, 48)] m m'].
Proof.
have := C48_commit ex_stdw ex_S1 ex_S2 creal_new real_debug Hb (cmem_ctx _ _ _ _ _ _ _) ex_blob_size
  (cmem_blob _ _ com5 (const_cell five) proof0 ex_half 64) (cmem_out _ _ _ _ _ _ _) ex_blob_poly.
by rewrite commit_const.
Qed.
Example ex_c_commits : c_commits ex_envw ex_g1s ex_g2s creal_new real_debug ex_blob com5.
Proof.
have [m' [E B _]] := ex_c_commit.
exists up, c, m, (Addr 0 0), (Addr 1 0), (Addr 2 0), (MkCResult StOk Null), m'.
apply: And5; [exact: (conj Hb (cmem_ctx _ _ _ _ _ _ _))|exact: (conj ex_blob_size (cmem_blob _ _ _ _ _ _ _))| | |].
- exact: cmem_out.
- exact: (conj E erefl).
exact: (conj (size_be_bytes _ _) B).
Qed.

Example ex_c_compute : exists m',
  [/\ eth_kzg_compute_cells_and_kzg_proofs creal (Addr 0 0) (Addr 1 0) (Addr 5 0) (Addr 6 0) m =
        CRet (MkCResult StOk Null, m'),
      holds_outputs ex_envw ex_g1s m' (rows 3 2048) (rows 4 48) (five%:P)%R &
      unchanged_except ([seq (q, 2048) | q <- rows 3 2048] ++ [seq (q, 48) | q <- rows 4 48]) m m'].
Proof.
exact: (C48_compute ex_coords ex_stdw erefl ex_S1 ex_S2 creal_new real_debug Hb (cmem_ctx _ _ _ _ _ _ _) ex_blob_size
  (cmem_blob _ _ com5 (const_cell five) proof0 ex_half 64) (cmem_buffers _ _ _ _ _ _ _) ex_blob_poly
  (ex_regular Hup ex_blob_poly)).
Qed.
Example ex_c_computes : c_computes ex_envw ex_g1s ex_g2s creal_new real_debug ex_blob
  (fun=> const_cell five) (fun=> proof0).
Proof.
have [m' [E B _]] := ex_c_compute.
exists up, c, m, (Addr 0 0), (Addr 1 0), (Addr 5 0), (Addr 6 0), (rows 3 2048), (rows 4 48), (MkCResult StOk Null), m'.
apply: And5; [exact: (conj Hb (cmem_ctx _ _ _ _ _ _ _))|exact: (conj ex_blob_size (cmem_blob _ _ _ _ _ _ _))| | |].
- exact: (conj (cmem_buffers _ _ _ _ _ _ _) (fun f => @ex_regular up f Hup)).
- exact: (conj E erefl).
move=> k Hk; have [B1 B2] := B k Hk; rewrite cell_const const_proof in B1 B2.
by apply: And4; [exact: (proj1 ex_codec_cell)|exact: size_be_bytes|exact: B1|exact: B2].
Qed.
End Ex.

(** One side computes with tables, the other verifies and recovers without. *)
Lemma map_same (T U : Type) (x : U) (s : seq T) : [seq x | _ <- s] = nseq (size s) x.
Proof. by elim: s => //= _ s ->. Qed.

Section Two.
Variables (c cw : das_context G G).
Hypothesis Hb : built ex_g1s ex_g2s PrecompNo c.
Hypothesis Hbw : built ex_g1s ex_g2s (PrecompYes 8) cw.
Local Notation m := (cmem c ex_blob com5 (const_cell five) proof0 ex_half 64).

Lemma size_half : size ex_half = 64. Proof. by rewrite size_rev size_map size_iota. Qed.

Example ex_c_round_trip : exists m',
  [/\ eth_kzg_verify_cell_kzg_proof_batch creal (Addr 0 0) 64 (Addr 12 0) 64 (Addr 7 0) 64 (Addr 13 0) 64 (Addr 14 0)
        (Addr 8 0) m = CRet (MkCResult StOk Null, m'),
      bool_at m' (Addr 8 0) true & unchanged_except_bool (Addr 8 0) m m'].
Proof.
have [_ Ar _] := ex_any_half.
have Sn T (x : T) : size (nseq 64 x) = 64 by rewrite size_nseq.
have := @C48_round_trip _ _ _ _ ex_envw g_of g_to ex_coords ex_stdw erefl ex_g1s ex_g2s ex_S1 ex_S2 creal_new real_debug
  tau (1%R : G) (1%R : G) PrecompNo c m (Addr 0 0) (nseq 64 com5) ex_half (nseq 64 (const_cell five)) (nseq 64 proof0)
  (Addr 12 0) (Addr 7 0) (Addr 13 0) (Addr 14 0) (Addr 8 0) erefl erefl creal_no_nul Hb (cmem_ctx _ _ _ _ _ _ _).
rewrite !Sn size_half => /(_ erefl erefl erefl Ar (cmem_args _ _ _ _ _ _ _)); apply=> t Ht.
exists ex_blob, (fun=> const_cell five), (fun=> proof0); rewrite !nth_nseq Ht; split=> //.
  exact: (ex_c_commits Hbw).
exact: (ex_c_computes (or_intror erefl) Hbw).
Qed.

Example ex_c_any_half : exists m',
  [/\ eth_kzg_recover_cells_and_proofs creal (Addr 0 0) 64 (Addr 13 0) 64 (Addr 7 0) (Addr 5 0) (Addr 6 0) m =
        CRet (MkCResult StOk Null, m'),
      forall k, k < 128 -> bytes_at m' (nth Null (rows 3 2048) k) (const_cell five) /\
                           bytes_at m' (nth Null (rows 4 48) k) proof0 &
      unchanged_except ([seq (q, 2048) | q <- rows 3 2048] ++ [seq (q, 48) | q <- rows 4 48]) m m'].
Proof.
have [U Ar Mn] := ex_any_half.
have Hcs : arrays_at m (Addr 13 0) [seq const_cell five | k <- ex_half].
  by rewrite map_same size_half; exact: cmem_cells.
have := @C48_any_half _ _ _ _ ex_envw g_of g_to ex_coords ex_stdw erefl ex_g1s ex_g2s ex_S1 ex_S2 creal_new real_debug
  PrecompNo c m (Addr 0 0) (Addr 13 0) (Addr 7 0) ex_half (Addr 5 0) (Addr 6 0) (rows 3 2048) (rows 4 48)
  ex_blob (fun=> const_cell five) (fun=> proof0) creal_no_nul (ex_c_computes (or_intror erefl) Hbw)
  (fun f _ => I) Hb (cmem_ctx _ _ _ _ _ _ _) Hcs (cmem_ks _ _ _ _ _ _ _) (cmem_buffers _ _ _ _ _ _ _) U Ar Mn.
by rewrite size_half.
Qed.

(** The commitment to 6 with a cell of 5s: the call succeeds and the verdict is false. *)
Definition com6 : seq byte := g_compress (six : G).
Local Notation m6 := (cmem cw ex_blob com6 (const_cell five) proof0 [:: 3%num] 1).
Example ex_c_false : exists m',
  eth_kzg_verify_cell_kzg_proof_batch creal (Addr 0 0) 1 (Addr 12 0) 1 (Addr 7 0) 1 (Addr 13 0) 1 (Addr 14 0)
    (Addr 8 0) m6 = CRet (MkCResult StOk Null, m') /\ bool_at m' (Addr 8 0) false.
Proof.
have HI : cell_interpolant (N.to_nat 3) (const_cell five) (five%:P)%R.
  by split=> [|j Hj]; [exact: leq_trans (size_polyC_leq1 _) _|rewrite hornerC chunk_const].
have T : call_types [:: com6] [:: const_cell five] [:: proof0].
  by apply: And3; rewrite /all_size /= ?andbT; apply/eqP; [exact: size_be_bytes|exact: (proj1 ex_codec_cell)|exact: size_be_bytes].
have [m' [v [E B Hv]]] := @C48_verdict_single _ _ _ ex_envw ex_stdw ex_g1s ex_g2s ex_S1 ex_S2
  creal_new real_debug (PrecompYes 8) cw m6 (Addr 0 0) com6 3%num (const_cell five) proof0 (Addr 12 0) (Addr 7 0)
  (Addr 13 0) (Addr 14 0) (Addr 8 0) (six : G) (0%R : G) (five%:P)%R Hbw (cmem_ctx _ _ _ _ _ _ _) T erefl
  (cmem_args _ _ _ _ _ _ _) erefl erefl HI.
exists m'; split; first exact: E.
have -> : false = v; last exact: B.
apply/esym/negbTE/negP => /Hv {E B}; rewrite commit_const.
rewrite -[de_pair _ _ _]/((0 : Fr) * _)%R mul0r.
rewrite -[de_pair _ _ _]/(((six - five)%R : Fr) * (ex_g2s`_0 : Fr))%R.
have -> : (ex_g2s`_0 = (1 : Fr))%R by rewrite nth_mkseq // expr0 scale1r.
rewrite mulr1 => /(congr1 (zval (p := rZ))); by vm_compute.
Qed.

(** *** Arguments that are refused *)
Example ex_c_blob_refused : let mb := cmem cw ex_bad_blob com5 (const_cell five) proof0 [::] 0 in
  failed mb (eth_kzg_blob_to_kzg_commitment creal (Addr 0 0) (Addr 1 0) (Addr 2 0) mb) /\
  failed mb (eth_kzg_compute_cells_and_kzg_proofs creal (Addr 0 0) (Addr 1 0) (Addr 5 0) (Addr 6 0) mb).
Proof.
have [Sb L B _] := ex_rejected; move=> mb.
exact: (C48_blob_refused ex_stdw ex_S1 ex_S2 (Addr 2 0) (Addr 5 0) (Addr 6 0) creal_no_nul Hbw (cmem_ctx _ _ _ _ _ _ _) Sb
  (cmem_blob _ _ _ _ _ _ _) L B).
Qed.
(** 64 equal indices *)
Example ex_c_recover_refused : let md := cmem c ex_blob com5 (const_cell five) proof0 (nseq 64 3%num) 64 in
  failed md (eth_kzg_recover_cells_and_proofs creal (Addr 0 0) 64 (Addr 13 0) 64 (Addr 7 0) (Addr 5 0) (Addr 6 0) md).
Proof.
move=> md; have Sc : all (fun x => size x == 2048) (nseq 64 (const_cell five)).
  by rewrite all_nseq (proj1 ex_codec_cell).
have Sn T (x : T) : size (nseq 64 x) = 64 by rewrite size_nseq.
have := C48_recover_refused ex_coords ex_stdw erefl ex_S1 ex_S2 (Addr 5 0) (Addr 6 0) creal_no_nul Hb (cmem_ctx _ _ _ _ _ _ _)
  Sc (cmem_cells c ex_blob com5 _ proof0 (nseq 64 3%num) 64) (cmem_ks _ _ _ _ _ _ _) (fun f _ => I).
by rewrite !Sn; apply; case.
Qed.
(** An index out of range *)
Example ex_c_verify_refused : let mi := cmem cw ex_blob com5 (const_cell five) proof0 [:: 128%num] 1 in
  failed mi (eth_kzg_verify_cell_kzg_proof_batch creal (Addr 0 0) 1 (Addr 12 0) 1 (Addr 7 0) 1 (Addr 13 0) 1 (Addr 14 0)
    (Addr 8 0) mi).
Proof.
move=> mi; have T : call_types [:: com5] [:: const_cell five] [:: proof0].
  by apply: And3; rewrite /all_size /= ?andbT; apply/eqP; [exact: size_be_bytes|exact: (proj1 ex_codec_cell)|exact: size_be_bytes].
apply: (@C48_verify_refused _ _ _ ex_envw ex_stdw ex_g1s ex_g2s ex_S1 ex_S2
  creal_new real_debug (PrecompYes 8) cw mi (Addr 0 0) [:: com5] [:: 128%num] [:: const_cell five] [:: proof0]
  (Addr 12 0) (Addr 7 0) (Addr 13 0) (Addr 14 0) (Addr 8 0) creal_no_nul Hbw (cmem_ctx _ _ _ _ _ _ _) T
  (cmem_args _ _ _ _ _ _ _)).
by case=> -[_ _ _].
Qed.
End Two.
