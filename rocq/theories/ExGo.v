(** Concrete instances of the theorems of PropGo.v. *)

From Coq Require Import ZArith NArith Init.Byte.
From mathcomp Require Import ssreflect ssrfun ssrbool eqtype ssrnat seq ssralg.
From mathcomp Require Import zify_ssreflect.
From Verif Require Import Base Bytes FixedBaseMSM Fr FrEnv Eip7594 PropProver ExApi.
From Verif Require Import CMem CApi SpecC CProofs CCallProofs PropC ExC ExCs GoApi PropGo.

Set Implicit Arguments.
Unset Strict Implicit.
Unset Printing Implicit Defensive.

Local Opaque nseq toy_outputs.

(** ** The small library *)
Example C42_length_applies :
  go_blob_to_kzg_commitment toy false (Addr 0 0) [:: "000"%byte] cs_mem = CRet ((None, Some InvalidBlobSize), cs_mem).
Proof. exact: C42_length short_blob. Qed.
Example C42_accepted_applies : exists m',
  [/\ go_blob_to_kzg_commitment toy false (Addr 0 0) (cs_blob "002") cs_mem =
        CRet ((Some (nseq 48 "002"%byte), None), m'), ctx_at m' (Addr 0 0) 4,
      messages m' = messages cs_mem & contexts m' = contexts cs_mem].
Proof. exact: (C42_accepted cs_mem_ctx (toy_typed 4) (cs_blob_size _) (toy_commit "002")). Qed.

Lemma toy_no_panic blob : size blob = 2 ^ 17 -> ra_blob_to_kzg_commitment toy 1 blob <> Panic.
Proof. by []. Qed.
Lemma toy_accepted x : accepted toy 1 (cs_blob x) = if x == "255"%byte then None else Some (nseq 48 x).
Proof. by rewrite /accepted (toy_commit x : ra_blob_to_kzg_commitment toy 1 _ = _); case: eqP. Qed.
Definition go_blobs : seq (seq byte) := [:: cs_blob "002"; [:: "000"%byte]; cs_blob "255"].
Lemma short_blob_eq : (size [:: "000"%byte] == 2 ^ 17) = false.
Proof. exact/eqP/short_blob. Qed.
Example go_blobs_returns : [seq go_returns toy 1 x | x <- go_blobs] =
  [:: (Some (nseq 48 "002"%byte), None); (None, Some InvalidBlobSize); (Some (nseq 48 "000"%byte), None)].
Proof.
have R x : go_returns toy 1 (cs_blob x) =
    (Some (if x == "255"%byte then nseq 48 "000"%byte else nseq 48 x), None).
  by rewrite /go_returns cs_blob_size eqxx toy_accepted; case: eqP.
have R0 : go_returns toy 1 [:: "000"%byte] = (None, Some InvalidBlobSize).
  by rewrite /go_returns short_blob_eq.
by rewrite /go_blobs !map_cons !R R0.
Qed.
Example go_blobs_leaks : count (go_leaks toy 1) go_blobs = 1.
Proof.
have R x : go_leaks toy 1 (cs_blob x) = (x == "255"%byte).
  by rewrite /go_leaks cs_blob_size eqxx toy_accepted; case: eqP.
have R0 : go_leaks toy 1 [:: "000"%byte] = false by rewrite /go_leaks short_blob_eq.
by rewrite /go_blobs; do 2 rewrite -cat1s count_cat; rewrite /count !R R0.
Qed.
Lemma toy_new : ra_new toy true 1 = Ret 1. Proof. by []. Qed.
Example C47_program_applies : exists m',
  [/\ go_program toy AfterLastCall go_blobs [::] = CRet ([seq go_returns toy 1 x | x <- go_blobs], m'),
    contexts m' = 0 & messages m' = 1].
Proof.
have [[m' [E C M]] _] := C47_program toy_no_nul (toy_typed 1) toy_no_panic go_blobs [::] toy_new.
rewrite go_blobs_leaks in M; exact: (ex_intro _ m' (And3 E C M)).
Qed.
Example C47_collected_applies :
  go_program toy InLastCall (rcons [:: cs_blob "255"] (cs_blob "002")) [::] = CUB.
Proof. exact: (C47_collected_refuted toy_no_nul (toy_typed 1) toy_no_panic _ [::] toy_new (cs_blob_size _)). Qed.

(** ** The real library: a blob that it rejects, and no error in Go *)
Lemma ctx_at0 (ctx : Type) (c : ctx) : ctx_at [:: Some (BCtx c)] (Addr 0 0) c.
Proof. by exists 0. Qed.
Theorem C42_real_refuted : exists (ctx : das_context G G) e m',
  [/\ das_context_new fr_params eip7594_consts ex_g1s ex_g2s PrecompNo = Ret ctx,
      blob_to_kzg_commitment ex_env eip7594_consts ctx ex_bad_blob = Ret (Err e) &
      go_blob_to_kzg_commitment (real ctx) false (Addr 0 0) ex_bad_blob [:: Some (BCtx ctx)] =
        CRet ((Some (nseq 48 "000"%byte), None), m')].
Proof.
have [ctx Hctx] := ex_context; have [Sb Hi Bi Gi] := ex_rejected.
have [_ Er] := C05_rejected ex_std ex_S1 ex_S2 Hctx Sb Hi Bi Gi.
have Hc := ctx_at0 ctx.
have [m' [E _ _ _]] := @C42_rejected_refuted _ _ (real ctx) (real_no_nul ctx) (Addr 0 0) ctx ex_bad_blob _ _ Hc Sb Er.
exact: (ex_intro _ ctx (ex_intro _ _ (ex_intro _ m' (And3 Hctx Er E)))).
Qed.
