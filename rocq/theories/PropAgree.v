(** The bindings agree (C61). *)

From Coq Require Import ZArith NArith Init.Byte Strings.Byte Strings.String.
From mathcomp Require Import ssreflect ssrfun ssrbool eqtype ssrnat seq ssralg.
From Verif Require Import Base Bytes SpecFr FrEnv Fr FixedBaseMSM FK20Verifier Eip7594 Eip7594Proofs.
From Verif Require Import PolyCoeffProofs SpecVerify ApiEip ApiTables PropProver PropRecover PropVerify.
From Verif Require Import CMem CApi CProofs CsApi SpecCs CsProofs NimApi PropNim GoApi PropGo.
From Verif Require Import Jni SpecJni Node SpecNode SpecC SpecAgree AgreeProofs.

Set Implicit Arguments.
Unset Strict Implicit.
Unset Printing Implicit Defensive.

Section C61.
Variables (ctx err : Type) (api : rust_api ctx err) (dollar : c_result -> seq byte) (jni_debug : jni_error -> seq byte).
Hypothesis nul : no_nul api.
Hypothesis typed : forall c, api_typed api c.
Variable cs : contexts ctx.
Local Notation gc := (@no_gc ctx).
(** Three memories of processes with the C library, each with its context; a heap of Java; a memory of
    JavaScript *)
Variables (m1 m2 m3 : mem ctx) (p1 p2 p3 : ptr) (h : seq jobj) (js : jsmem).
Hypothesis H1 : ctx_at m1 p1 (of_c cs).
Hypothesis H2 : ctx_at m2 p2 (of_cs cs).
Hypothesis H3 : ctx_at m3 p3 (of_nim cs).
Local Notation node r := (node_sync (read_once api (of_node cs)) js r).

(** ** Arguments of the right sizes: the five bindings show the same answer. *)
Theorem C61_commit blob p_blob p_out r v : size blob = 2 ^ 17 ->
  alike (fun c => ra_blob_to_kzg_commitment api c blob) cs ->
  bytes_at m1 p_blob blob -> writable m1 p_out 48 -> value_bytes h r (Some blob) -> vread js v = Some blob ->
  exists a : seen (seq byte),
  [/\ c_shows (fun m' com => bytes_at m' p_out com) (eth_kzg_blob_to_kzg_commitment api p1 p_blob p_out) m1 a,
      cs_shows CsBytes (cs_exec api gc p2 (BlobToKzgCommitment blob)) m2 a,
      nim_shows NimBytes (nim_exec api dollar p3 (NimCommit blob)) m3 a,
      java_shows (fun h' r' com => value_bytes h' r' (Some com)) "blobToKZGCommitment"
        (java_call (native_commit api jni_debug (of_java cs) r) h) a &
      node_shows RBytes "blob_to_kzg_commitment" js (node (Commit v)) a].
Proof.
move=> Sb [E2 E3 E4 E5] Hb Ho Hr Hv; exists (library_seen api (ra_blob_to_kzg_commitment api (of_c cs) blob)); split.
- exact: c_commit.
- by rewrite -E2; apply: (cs_native nul H2 (typed _)) => //; exact: BBlob.
- by rewrite -E3; apply: (nim_native dollar nul H3 (typed _)).
- by have := java_commit api jni_debug (of_java cs) Hr; rewrite Sb eqxx E4.
by have := node_commit api (of_node cs) Hv; rewrite Sb eqxx E5.
Qed.

Theorem C61_compute blob p_blob p_cells p_proofs cps pps r v : size blob = 2 ^ 17 ->
  alike (fun c => ra_compute api c blob) cs ->
  bytes_at m1 p_blob blob -> two_buffers m1 p_cells p_proofs cps pps ->
  value_bytes h r (Some blob) -> vread js v = Some blob ->
  exists a : seen (seq (seq byte) * seq (seq byte)),
  [/\ c_shows (two_arrays cps pps) (eth_kzg_compute_cells_and_kzg_proofs api p1 p_blob p_cells p_proofs) m1 a,
      cs_shows (fun cp => CsArrays cp.1 cp.2) (cs_exec api gc p2 (ComputeCellsAndKZGProofs blob)) m2 a,
      nim_shows (fun cp => NimArrays cp.1 cp.2) (nim_exec api dollar p3 (NimCompute blob)) m3 a,
      java_shows cap_of "computeCellsAndKZGProofs" (java_call (native_compute api jni_debug (of_java cs) r) h) a &
      node_shows (fun cp => RCellsAndProofs cp.1 cp.2) "compute_cells_and_kzg_proofs" js (node (Compute v)) a].
Proof.
move=> Sb [E2 E3 E4 E5] Hb Ho Hr Hv; exists (library_seen api (ra_compute api (of_c cs) blob)); split.
- exact: c_compute.
- by rewrite -E2; apply: (cs_native nul H2 (typed _)) => //; exact: BCompute.
- by rewrite -E3; apply: (nim_native dollar nul H3 (typed _)).
- by have := java_compute api jni_debug (of_java cs) Hr; rewrite Sb eqxx E4.
by have := node_compute api (of_node cs) Hv; rewrite Sb eqxx E5.
Qed.

Theorem C61_recover ks cells p_ids p_in p_cells p_proofs cps pps ri rc vs : all u64 ks ->
  all (fun x => size x == 2048) cells -> alike (fun c => ra_recover api c ks cells) cs ->
  u64s_at m1 p_ids ks -> arrays_at m1 p_in cells -> two_buffers m1 p_cells p_proofs cps pps ->
  value_longs h ri (Some [seq java_long k | k <- ks]) -> value_arrays h rc (no_null cells) -> holds js vs cells ->
  exists a : seen (seq (seq byte) * seq (seq byte)),
  [/\ c_shows (two_arrays cps pps)
        (eth_kzg_recover_cells_and_proofs api p1 (size cells) p_in (size ks) p_ids p_cells p_proofs) m1 a,
      cs_shows (fun cp => CsArrays cp.1 cp.2) (cs_exec api gc p2 (RecoverCellsAndKZGProofs ks cells)) m2 a,
      nim_shows (fun cp => NimArrays cp.1 cp.2) (nim_exec api dollar p3 (NimRecover ks cells)) m3 a,
      java_shows cap_of "recoverCellsAndKZGProofs" (java_call (native_recover api jni_debug (of_java cs) ri rc) h) a &
      node_shows (fun cp => RCellsAndProofs cp.1 cp.2) "recover_cells_and_kzg_proofs" js
        (node (Recover [seq big_int k | k <- ks] vs)) a].
Proof.
move=> Hk Sc [E2 E3 E4 E5] Hi Hin Ho Hri Hrc Hv; have /all_rightP Ac := Sc.
exists (library_seen api (ra_recover api (of_c cs) ks cells)); split.
- exact: c_recover.
- by rewrite -E2; apply: (cs_native nul H2 (typed _)) => //; exact: BRecover.
- by rewrite -E3; apply: (nim_native dollar nul H3 (typed _)).
- by have := java_recover api jni_debug (of_java cs) Hk Hri Hrc; rewrite Sc E4.
by have := node_recover api (of_node cs) Hk Hv; rewrite Sc E5.
Qed.

Theorem C61_verify coms ks cells proofs p_coms p_ids p_cells p_proofs p_verdict old rm ri rc rp vc vd vp : all u64 ks ->
  right_sizes coms cells proofs -> alike (fun c => ra_verify api c coms ks cells proofs) cs ->
  arrays_at m1 p_coms coms -> u64s_at m1 p_ids ks -> arrays_at m1 p_cells cells -> arrays_at m1 p_proofs proofs ->
  bool_at m1 p_verdict old ->
  value_arrays h rm (no_null coms) -> value_longs h ri (Some [seq java_long k | k <- ks]) ->
  value_arrays h rc (no_null cells) -> value_arrays h rp (no_null proofs) ->
  holds js vc coms -> holds js vd cells -> holds js vp proofs ->
  exists a : seen bool,
  [/\ c_shows (fun m' b => bool_at m' p_verdict b)
        (eth_kzg_verify_cell_kzg_proof_batch api p1 (size coms) p_coms (size ks) p_ids (size cells) p_cells
           (size proofs) p_proofs p_verdict) m1 a,
      cs_shows CsBool (cs_exec api gc p2 (VerifyCellKZGProofBatch coms ks cells proofs)) m2 a,
      nim_shows NimBool (nim_exec api dollar p3 (NimVerify coms ks cells proofs)) m3 a,
      java_shows (fun _ b b' => b = b') "verifyCellKZGProofBatch"
        (java_call (native_verify api jni_debug (of_java cs) rm ri rc rp) h) a &
      node_shows RBool "verify_cell_kzg_proof_batch" js (node (Verify vc [seq big_int k | k <- ks] vd vp)) a].
Proof.
move=> Hk S [E2 E3 E4 E5] C1 C2 C3 C4 C5 J1 J2 J3 J4 N1 N2 N3; have /and3P[Sm Sc Sp] := S.
have /all_rightP Am := Sm; have /all_rightP Ac := Sc; have /all_rightP Ap := Sp.
exists (verdict_seen api (ra_verify api (of_c cs) coms ks cells proofs)); split.
- exact: c_verify C5.
- by rewrite -E2; apply: (cs_verdict nul H2 (typed _)) => //; exact: BVerify.
- by rewrite -E3; exact: nim_verdict.
- by have := java_verify api jni_debug (of_java cs) Hk J1 J2 J3 J4; rewrite S E4.
by have := node_verify api (of_node cs) Hk N1 N2 N3; rewrite S E5.
Qed.

(** ** Arguments of any sizes: C#, Java and Node show the same answer. *)
Theorem C61_commit_sizes blob r v : alike (fun c => ra_blob_to_kzg_commitment api c blob) cs ->
  value_bytes h r (Some blob) -> vread js v = Some blob ->
  exists a : seen (seq byte),
  [/\ cs_shows CsBytes (cs_exec api gc p2 (BlobToKzgCommitment blob)) m2 a,
      java_shows (fun h' r' com => value_bytes h' r' (Some com)) "blobToKZGCommitment"
        (java_call (native_commit api jni_debug (of_java cs) r) h) a,
      node_shows RBytes "blob_to_kzg_commitment" js (node (Commit v)) a &
      size blob <> 2 ^ 17 -> a = Refuses None].
Proof.
move=> [E2 _ E4 E5] Hr Hv; have := java_commit api jni_debug (of_java cs) Hr; have := node_commit api (of_node cs) Hv.
case: eqP => S Hn Hj; [rewrite E5 in Hn; rewrite E4 in Hj|]; eexists; split; [|exact: Hj|exact: Hn| | |exact: Hj|exact: Hn|].
- by rewrite -E2; apply: (cs_native nul H2 (typed _)) => //; exact: BBlob.
- by move=> /(_ S).
- by apply: (cs_throws nul _ H2 (typed _) _ (BBlobLength api _ S)).
by [].
Qed.

Theorem C61_compute_sizes blob r v : alike (fun c => ra_compute api c blob) cs ->
  value_bytes h r (Some blob) -> vread js v = Some blob ->
  exists a : seen (seq (seq byte) * seq (seq byte)),
  [/\ cs_shows (fun cp => CsArrays cp.1 cp.2) (cs_exec api gc p2 (ComputeCellsAndKZGProofs blob)) m2 a,
      java_shows cap_of "computeCellsAndKZGProofs" (java_call (native_compute api jni_debug (of_java cs) r) h) a,
      node_shows (fun cp => RCellsAndProofs cp.1 cp.2) "compute_cells_and_kzg_proofs" js (node (Compute v)) a &
      size blob <> 2 ^ 17 -> a = Refuses None].
Proof.
move=> [E2 _ E4 E5] Hr Hv; have := java_compute api jni_debug (of_java cs) Hr; have := node_compute api (of_node cs) Hv.
case: eqP => S Hn Hj; [rewrite E5 in Hn; rewrite E4 in Hj|]; eexists; split; [|exact: Hj|exact: Hn| | |exact: Hj|exact: Hn|].
- by rewrite -E2; apply: (cs_native nul H2 (typed _)) => //; exact: BCompute.
- by move=> /(_ S).
- by apply: (cs_throws nul _ H2 (typed _) _ (BComputeLength api _ S)).
by [].
Qed.

Lemma wrong_or_right n (l : seq (seq byte)) :
  if all (fun x => size x == n) l then all_right n l else exists i, SpecCs.first_wrong n l i.
Proof.
have := first_bad_lengthP n 0 l; case: ifP => [/all_rightP //|Ha].
case: first_bad_length => [i [j _ H]|H]; first by exists j.
by move/all_rightP: H; rewrite Ha.
Qed.

Theorem C61_recover_sizes ks cells ri rc vs : all u64 ks -> alike (fun c => ra_recover api c ks cells) cs ->
  value_longs h ri (Some [seq java_long k | k <- ks]) -> value_arrays h rc (no_null cells) -> holds js vs cells ->
  exists a : seen (seq (seq byte) * seq (seq byte)),
  [/\ cs_shows (fun cp => CsArrays cp.1 cp.2) (cs_exec api gc p2 (RecoverCellsAndKZGProofs ks cells)) m2 a,
      java_shows cap_of "recoverCellsAndKZGProofs" (java_call (native_recover api jni_debug (of_java cs) ri rc) h) a,
      node_shows (fun cp => RCellsAndProofs cp.1 cp.2) "recover_cells_and_kzg_proofs" js
        (node (Recover [seq big_int k | k <- ks] vs)) a &
      ~~ all (fun x => size x == 2048) cells -> a = Refuses None].
Proof.
move=> Hk [E2 _ E4 E5] Hri Hrc Hv; have := java_recover api jni_debug (of_java cs) Hk Hri Hrc.
have := node_recover api (of_node cs) Hk Hv; have := wrong_or_right 2048 cells.
case S: (all _ cells) => W Hn Hj; [rewrite E5 in Hn; rewrite E4 in Hj|case: W => i W]; eexists;
  split; [|exact: Hj|exact: Hn| | |exact: Hj|exact: Hn|]; try by [].
- by rewrite -E2; apply: (cs_native nul H2 (typed _)) => //; exact: BRecover.
by apply: (cs_throws nul _ H2 (typed _) _ (BRecoverCell api _ ks W)).
Qed.

Theorem C61_verify_sizes coms ks cells proofs rm ri rc rp vc vd vp : all u64 ks ->
  alike (fun c => ra_verify api c coms ks cells proofs) cs ->
  value_arrays h rm (no_null coms) -> value_longs h ri (Some [seq java_long k | k <- ks]) ->
  value_arrays h rc (no_null cells) -> value_arrays h rp (no_null proofs) ->
  holds js vc coms -> holds js vd cells -> holds js vp proofs ->
  exists a : seen bool,
  [/\ cs_shows CsBool (cs_exec api gc p2 (VerifyCellKZGProofBatch coms ks cells proofs)) m2 a,
      java_shows (fun _ b b' => b = b') "verifyCellKZGProofBatch"
        (java_call (native_verify api jni_debug (of_java cs) rm ri rc rp) h) a,
      node_shows RBool "verify_cell_kzg_proof_batch" js (node (Verify vc [seq big_int k | k <- ks] vd vp)) a &
      ~~ right_sizes coms cells proofs -> a = Refuses None].
Proof.
move=> Hk [E2 _ E4 E5] J1 J2 J3 J4 N1 N2 N3; have := java_verify api jni_debug (of_java cs) Hk J1 J2 J3 J4.
have := node_verify api (of_node cs) Hk N1 N2 N3.
case S: (right_sizes coms cells proofs) => Hn Hj.
  rewrite E5 in Hn; rewrite E4 in Hj; eexists; split; [|exact: Hj|exact: Hn|by []].
  have /and3P[/all_rightP A1 /all_rightP A2 /all_rightP A3] := S.
  by rewrite -E2; apply: (cs_verdict nul H2 (typed _)) => //; exact: BVerify.
exists (Refuses None); split=> //; move: S; rewrite /right_sizes.
have := wrong_or_right 2048 cells; case: (all _ cells) => [R1|[i W]] S; last first.
  by apply: (cs_throws nul _ H2 (typed _) _ (BVerifyCell api _ coms ks proofs W)).
have := wrong_or_right 48 proofs; case: (all _ proofs) S => [S R2|S [i W]]; last first.
  by apply: (cs_throws nul _ H2 (typed _) _ (BVerifyProof api _ coms ks R1 W)).
have := wrong_or_right 48 coms; case: (all _ coms) S => [//|S [i W]].
by apply: (cs_throws nul _ H2 (typed _) _ (BVerifyCommitment api _ ks R1 R2 W)).
Qed.
End C61.
