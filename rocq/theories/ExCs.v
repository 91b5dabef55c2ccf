(** Concrete instances of the theorems of PropCs.v, with the small library of ExC.v. *)

From Coq Require Import NArith Init.Byte.
From mathcomp Require Import ssreflect ssrfun ssrbool eqtype ssrnat seq.
From mathcomp Require Import zify_ssreflect.
From Verif Require Import Base Bytes Eip7594 CMem CApi SpecC PropC ExC CsApi SpecCs CsProofs PropCs.

Set Implicit Arguments.
Unset Strict Implicit.
Unset Printing Implicit Defensive.

Local Opaque nseq toy_outputs.

Definition cs_blob (x : byte) : seq byte := nseq (2 ^ 17) x.
Lemma cs_blob_size x : size (cs_blob x) = 2 ^ 17. Proof. exact: size_nseq. Qed.
Lemma short_blob : size [:: "000"%byte] <> 2 ^ 17.
Proof.
have H : 1 < 2 ^ 17 by rewrite -{1}(expn0 2) ltn_exp2l.
by move=> E; rewrite -E in H.
Qed.
Lemma cs_blob_first x : nth "000"%byte (cs_blob x) 0 = x.
Proof. by rewrite nth0_nseq // expn_gt0. Qed.
Lemma toy_commit x : ra_blob_to_kzg_commitment toy 4 (cs_blob x) =
  Ret (if x == "255"%byte then Err 1 else Ok (nseq 48 x)).
Proof. by rewrite /toy /= /toy_bad cs_blob_first. Qed.

Lemma right1 n (x : seq byte) : size x = n -> all_right n [:: x].
Proof. by move=> S [|i]. Qed.
Definition cs_cell : seq byte := nseq 2048 "001"%byte.
Definition cs_cell_bad : seq byte := nseq 2048 "255"%byte.
Definition cs_48 : seq byte := nseq 48 "001"%byte.
Lemma right_cell : all_right 2048 [:: cs_cell]. Proof. apply: right1; exact: size_nseq. Qed.
Lemma right_cell_bad : all_right 2048 [:: cs_cell_bad]. Proof. apply: right1; exact: size_nseq. Qed.
Lemma right_48 : all_right 48 [:: cs_48]. Proof. apply: right1; exact: size_nseq. Qed.
Lemma wrong_second : first_wrong 48 [:: cs_48; [::]] 1.
Proof. by split=> //; split=> // -[|j] //= _; exact: size_nseq. Qed.

(** A commitment, an error of the library, a wrong length, a verdict of each kind, a wrong commitment,
    Dispose twice, and a wrong length once more. *)
Definition cs_example : seq cs_method :=
  [:: BlobToKzgCommitment (cs_blob "002"); BlobToKzgCommitment (cs_blob "255");
      BlobToKzgCommitment [:: "000"%byte];
      VerifyCellKZGProofBatch [:: cs_48] [:: 1%num] [:: cs_cell] [:: cs_48];
      VerifyCellKZGProofBatch [:: cs_48] [:: 1%num] [:: cs_cell_bad] [:: cs_48];
      VerifyCellKZGProofBatch [:: cs_48; [::]] [:: 1%num] [:: cs_cell] [:: cs_48];
      RecoverCellsAndKZGProofs [::] [:: cs_cell]; Dispose; Dispose; ComputeCellsAndKZGProofs [:: "000"%byte]].
Definition cs_results : seq (cs_out cs_value) :=
  [:: CsReturn (CsBytes (nseq 48 "002"%byte)); CsThrow (FromBindings [:: "e"%byte]);
      CsThrow (InvalidLength ArBlob 0); CsReturn (CsBool true); CsReturn (CsBool false);
      CsThrow (InvalidLength ArCommitment 1); CsThrow (FromBindings [:: "e"; "e"]%byte);
      CsReturn CsVoid; CsReturn CsVoid; CsThrow (InvalidLength ArBlob 0)].

Lemma ret_if (A : Type) (b : bool) (x y : A) : b = false -> (if b then x else y) = y.
Proof. by move=> ->. Qed.
Lemma behaves_eq state x e e' : e = e' -> cs_behaves toy state x e -> cs_behaves toy state x e'.
Proof. by move=> <-. Qed.
Lemma blob_effect x : from_native toy CsBytes (ra_blob_to_kzg_commitment toy 4 (cs_blob x)) =
  if x == "255"%byte then EThrow (FromBindings [:: "e"%byte]) else EReturn (CsBytes (nseq 48 x)).
Proof. by rewrite toy_commit; case: eqP. Qed.
Lemma cell_first (x : byte) : nth "000"%byte (nseq 2048 x) 0 = x.
Proof. by rewrite nth0_nseq. Qed.
Lemma verdict_effect x : from_verdict toy
    (ra_verify toy 4 [:: cs_48] [:: 1%num] [:: nseq 2048 x] [:: cs_48]) =
  EReturn (CsBool (x != "255"%byte)).
Proof. by rewrite /toy /= /toy_bad cell_first; case: eqP. Qed.

Example cs_example_program : cs_program toy (Some 4) cs_example cs_results false.
Proof.
have B x := BBlob toy (Some 4) (cs_blob_size x).
have V x (R : all_right 2048 [:: nseq 2048 x]) := BVerify toy (Some 4) [:: 1%num] R right_48 right_48.
apply: PReturn; first exact: (behaves_eq (blob_effect "002") (B "002"%byte)).
apply: PThrow; first exact: (behaves_eq (blob_effect "255") (B "255"%byte)).
apply: PThrow; first exact: BBlobLength short_blob.
apply: PReturn; first exact: (behaves_eq (verdict_effect "001") (V _ right_cell)).
apply: PReturn; first exact: (behaves_eq (verdict_effect "255") (V _ right_cell_bad)).
apply: PThrow; first exact: BVerifyCommitment right_cell right_48 wrong_second.
apply: PThrow; first exact: (behaves_eq erefl (BRecover toy (Some 4) [::] right_cell)).
apply: PReturn; first exact: BDispose.
apply: PReturn; first exact: BDispose.
apply: PThrow; first exact: BComputeLength short_blob.
exact: PEnd.
Qed.

Example C41_program_applies : exists m,
  (clet p := cs_new toy true 4 in cs_run toy (@no_gc nat) p cs_example) [::] = CRet ((Null, cs_results), m) /\
  same_native [::] m.
Proof.
have := C41_program toy_no_nul [::] (erefl : ra_new toy true 4 = Ret 4) (toy_typed 4) cs_example_program.
have -> : has is_dispose cs_example = true by [].
move=> [p [m [E [Ep N]]]]; rewrite Ep in E; exact: (ex_intro _ m (conj E N)).
Qed.
Example C41_after_dispose_applies :
  (clet p := cs_new toy true 4 in
   cs_run toy (@no_gc nat) p [:: Dispose; BlobToKzgCommitment (cs_blob "002")]) [::] = CAbort.
Proof.
have [ms [-> H]] := C41_after_dispose_refuted toy_no_nul [::] (erefl : ra_new toy true 4 = Ret 4)
  (cs_blob_size "002").
exact: H.
Qed.

Definition cs_mem : mem nat := [:: Some (BCtx 4)].
Example cs_mem_ctx : ctx_at cs_mem (Addr 0 0) 4. Proof. by exists 0. Qed.
Example C41_call_applies : exists2 m',
  cs_exec toy (@no_gc nat) (Addr 0 0) (BlobToKzgCommitment (cs_blob "255")) cs_mem =
    CRet ((Addr 0 0, CsThrow (FromBindings [:: "e"%byte])), m') & same_native cs_mem m'.
Proof.
have T c : Some 4 = Some c -> api_typed toy c by move=> _; exact: toy_typed.
have B : cs_behaves toy (Some 4) (BlobToKzgCommitment (cs_blob "255")) (EThrow (FromBindings [:: "e"%byte])).
  exact: (behaves_eq (blob_effect "255") (BBlob toy (Some 4) (cs_blob_size "255"))).
exact (@C41_call _ _ toy toy_no_nul (Addr 0 0) (Some 4) (BlobToKzgCommitment (cs_blob "255")) _ cs_mem cs_mem_ctx T isT B).
Qed.
Example C41_dispose_applies : exists m',
  [/\ cs_exec toy (@no_gc nat) (Addr 0 0) Dispose cs_mem = CRet ((Null, CsReturn CsVoid), m'),
    size m' = 1 & nth None m' 0 = None].
Proof.
have [m' [E S N]] := @C41_dispose _ _ toy (Addr 0 0) (Some 4) cs_mem cs_mem_ctx.
by exists m'; split=> //; rewrite N.
Qed.
Lemma pinned_ok (ctx err : Type) (api : rust_api ctx err) gc p c blob m com : collector gc -> no_nul api ->
  api_typed api c -> ctx_at m p c -> size blob = 2 ^ 17 ->
  ra_blob_to_kzg_commitment api c blob = Ret (Ok com) ->
  exists2 m', cs_blob_to_kzg_commitment api gc p blob m = CRet (CsReturn com, m') & same_native m m'.
Proof. by move=> Hg N T Hc Sb E; have := C46_blob_pinned Hg N T Hc Sb; rewrite E. Qed.
Example C46_blob_pinned_applies : exists2 m',
  cs_blob_to_kzg_commitment toy (@CsMoved.mover nat) (Addr 0 0) (cs_blob "002") cs_mem =
    CRet (CsReturn (nseq 48 "002"%byte), m') & same_native cs_mem m'.
Proof.
exact: (pinned_ok (@CsMoved.mover_collector nat) toy_no_nul (toy_typed 4) cs_mem_ctx (cs_blob_size "002")
  (toy_commit "002")).
Qed.
Example C46_moved_applies : exists gc, [/\ collector gc,
  cs_compute_cells_and_kzg_proofs toy gc (Addr 0 0) (cs_blob "002") cs_mem = CUB,
  cs_recover_cells_and_kzg_proofs toy gc (Addr 0 0) [:: 1%num] [:: cs_cell] cs_mem = CUB &
  cs_verify_cell_kzg_proof_batch toy gc (Addr 0 0) [:: cs_48] [:: 1%num] [:: cs_cell] [:: cs_48] cs_mem = CUB].
Proof.
have [gc [Hg H1 H2 H3]] := C46_moved_refuted toy; exists gc; split=> //.
- apply: (H1 _ _ _ _ (toy_outputs "002") cs_mem_ctx (toy_typed 4) (cs_blob_size _)).
  by rewrite /toy /= /toy_bad cs_blob_first.
- exact: (H2 _ _ _ _ _ cs_mem_ctx right_cell).
exact: (H3 _ _ _ _ _ _ _ cs_mem_ctx right_cell right_48 right_48).
Qed.
