(** Proofs for PropAgree.v: each binding shows the answer of the library. *)

From Coq Require Import ZArith NArith Lia Init.Byte Strings.Byte Strings.String.
From mathcomp Require Import ssreflect ssrfun ssrbool eqtype ssrnat seq.
From Verif Require Import Base Bytes Eip7594 CMem CApi SpecC CProofs CCallProofs PropC.
From Verif Require Import CsApi SpecCs CsProofs PropCs NimApi NimProofs PropNim.
From Verif Require Import Managed Jni SpecJni JniProofs PropJni Node SpecNode NodeProofs PropNode.
From Verif Require Import SpecC SpecAgree.

Set Implicit Arguments.
Unset Strict Implicit.
Unset Printing Implicit Defensive.

Section Agree.
Variables (ctx err : Type) (api : rust_api ctx err) (dollar : c_result -> seq byte) (jni_debug : jni_error -> seq byte).
Hypothesis nul : no_nul api.
Implicit Types (m : mem ctx) (c : ctx).
Local Notation gc := (@no_gc ctx).

(** The answer of the library, as seen *)
Definition library_seen (A : Type) (r : outcome (result A err)) : seen A :=
  match r with Ret (Ok a) => Gives a | Ret (Err e) => Refuses (Some (ra_debug api e)) | Panic => Dies end.
Definition verdict_seen (r : outcome (result unit err)) : seen bool :=
  match r with
  | Ret (Ok _) => Gives true
  | Ret (Err e) => if ra_invalid_proof api e then Gives false else Refuses (Some (ra_debug api e))
  | Panic => Dies
  end.

Lemma ctry_panic (A : Type) (k : A -> cM ctx c_result) m : ctry api (Panic : outcome (result A err)) k m = CAbort.
Proof. by []. Qed.
Lemma new_message m msg : is_block (rcons m (Some (BMsg ctx msg))) (size m) (BMsg ctx msg).
Proof. exact: rcons_block. Qed.

(** ** C *)
Lemma c_commit m p c blob data out : ctx_at m p c -> api_typed api c ->
  size data = 2 ^ 17 -> bytes_at m blob data -> writable m out 48 ->
  c_shows (fun m' com => bytes_at m' out com) (eth_kzg_blob_to_kzg_commitment api p blob out) m
    (library_seen (ra_blob_to_kzg_commitment api c data)).
Proof.
move=> Hc T Sd Hd Ho; case E: (ra_blob_to_kzg_commitment api c data) => [[com|e]|] /=.
- by have [m' [E' B _]] := C37_commit_ok Hc T Sd Hd Ho E; exists m'.
- by rewrite (C37_commit_err _ Hc nul Sd Hd E); do 3 eexists; split; [reflexivity|exact: new_message|].
by rewrite (commit_start _ _ Hc Sd Hd) E ctry_panic.
Qed.

Lemma c_compute m p c blob data oc op cps pps : ctx_at m p c -> api_typed api c ->
  size data = 2 ^ 17 -> bytes_at m blob data -> two_buffers m oc op cps pps ->
  c_shows (two_arrays cps pps) (eth_kzg_compute_cells_and_kzg_proofs api p blob oc op) m
    (library_seen (ra_compute api c data)).
Proof.
move=> Hc T Sd Hd [[P1 P2] [S1 S2] W D]; case E: (ra_compute api c data) => [[[cells proofs]|e]|] /=.
- have [m' [E' B1 B2 _]] := C37_compute_ok Hc T Sd Hd P1 S1 (fun i Hi => (W i Hi).1) P2 S2 (fun i Hi => (W i Hi).2) D E.
  by exists m' => // i Hi; split; [exact: B1|exact: B2].
- by rewrite (C37_compute_err _ _ Hc nul Sd Hd E); do 3 eexists; split; [reflexivity|exact: new_message|].
by rewrite (compute_start _ _ _ Hc Sd Hd) E ctry_panic.
Qed.

Lemma c_recover m p c cells cs ids ks oc op cps pps : ctx_at m p c -> api_typed api c ->
  all (fun x => size x == 2048) cs -> arrays_at m cells cs -> u64s_at m ids ks -> two_buffers m oc op cps pps ->
  c_shows (two_arrays cps pps) (eth_kzg_recover_cells_and_proofs api p (size cs) cells (size ks) ids oc op) m
    (library_seen (ra_recover api c ks cs)).
Proof.
move=> Hc T Ac Hcs Hk [[P1 P2] [S1 S2] W D]; case E: (ra_recover api c ks cs) => [[[cells' proofs]|e]|] /=.
- have [m' [E' B1 B2 _]] := C37_recover_ok Hc T Ac Hcs Hk P1 S1 (fun i Hi => (W i Hi).1) P2 S2 (fun i Hi => (W i Hi).2) D E.
  by exists m' => // i Hi; split; [exact: B1|exact: B2].
- by rewrite (C37_recover_err _ _ Hc nul Ac Hcs Hk E); do 3 eexists; split; [reflexivity|exact: new_message|].
by rewrite (recover_start _ _ _ Hc Ac Hcs Hk) E ctry_panic.
Qed.

Lemma c_verify m p c pc coms pi ks pd cs pp ps pv old : ctx_at m p c ->
  all (fun x => size x == 48) coms -> arrays_at m pc coms -> u64s_at m pi ks ->
  all (fun x => size x == 2048) cs -> arrays_at m pd cs -> all (fun x => size x == 48) ps -> arrays_at m pp ps ->
  bool_at m pv old ->
  c_shows (fun m' b => bool_at m' pv b)
    (eth_kzg_verify_cell_kzg_proof_batch api p (size coms) pc (size ks) pi (size cs) pd (size ps) pp pv) m
    (verdict_seen (ra_verify api c coms ks cs ps)).
Proof.
move=> Hc S1 H1 H2 S3 H3 S4 H4 H5; case E: (ra_verify api c coms ks cs ps) => [[[]|e]|] /=.
- by have [m' [E' B _]] := C37_verify_true Hc S1 H1 H2 S3 H3 S4 H4 H5 E; exists m'.
- case He: (ra_invalid_proof api e).
    by have [m' [E' B _]] := C37_verify_false Hc S1 H1 H2 S3 H3 S4 H4 H5 E He; exists m'.
  rewrite /c_shows (C37_verify_err Hc S1 H1 H2 S3 H3 S4 H4 H5 nul E (negbT He)).
  by do 3 eexists; split; [reflexivity|exact: new_message|].
by rewrite (verify_start _ Hc S1 H1 H2 S3 H3 S4 H4 H5) E ctry_panic.
Qed.

(** ** C# *)
Lemma cs_native (A : Type) (f : A -> cs_value) p c x m (r : outcome (result A err)) : ctx_at m p c -> api_typed api c ->
  ~~ is_dispose x -> cs_behaves api (Some c) x (from_native api f r) ->
  cs_shows f (cs_exec api gc p x) m (library_seen r).
Proof.
move=> Hc T Hx B; have T' c' : Some c = Some c' -> api_typed api c' by move=> [<-].
have := C41_call nul (Hc : field_at m p (Some c)) T' Hx B; case: r {B} => [[a|e]|] //=.
- by move=> [m' -> _]; exists p, m'.
by move=> [m' -> _]; exists p, m'; eexists; split.
Qed.
Lemma cs_verdict p c x m r : ctx_at m p c -> api_typed api c ->
  ~~ is_dispose x -> cs_behaves api (Some c) x (from_verdict api r) ->
  cs_shows CsBool (cs_exec api gc p x) m (verdict_seen r).
Proof.
move=> Hc T Hx B; have T' c' : Some c = Some c' -> api_typed api c' by move=> [<-].
have := C41_call nul (Hc : field_at m p (Some c)) T' Hx B; case: r {B} => [[a|e]|] //=.
- by move=> [m' -> _]; exists p, m'.
case: (ra_invalid_proof api e) => /= -[m' -> _]; first by exists p, m'.
by exists p, m'; eexists; split.
Qed.
Lemma cs_throws (A : Type) (f : A -> cs_value) p c x m ex : ctx_at m p c -> api_typed api c ->
  ~~ is_dispose x -> cs_behaves api (Some c) x (EThrow ex) ->
  cs_shows f (cs_exec api gc p x) m (Refuses None).
Proof.
move=> Hc T Hx B; have T' c' : Some c = Some c' -> api_typed api c' by move=> [<-].
have [m' E _] := C41_call nul (Hc : field_at m p (Some c)) T' Hx B.
by exists p, m', ex.
Qed.

(** ** Nim *)
Lemma nim_native (A : Type) (f : A -> nim_value) p c x m (r : outcome (result A err)) : ctx_at m p c -> api_typed api c ->
  nim_typed x -> nim_answers api c x = answer_of f r ->
  nim_shows f (nim_exec api dollar p x) m (library_seen r).
Proof.
move=> Hc T Hx E; have := C50_call dollar nul Hc T Hx; rewrite E; case: r {E} => [[a|e]|] //=.
- by move=> [m' [-> _]]; exists m'.
by move=> [t [m' [-> _]]]; exists t, m'.
Qed.
Lemma nim_verdict p c coms ks cs ps m : ctx_at m p c -> api_typed api c ->
  nim_typed (NimVerify coms ks cs ps) ->
  nim_shows NimBool (nim_exec api dollar p (NimVerify coms ks cs ps)) m (verdict_seen (ra_verify api c coms ks cs ps)).
Proof.
move=> Hc T Hx; have := C50_call dollar nul Hc T Hx; rewrite [nim_answers _ _ _]/=.
case: (ra_verify api c coms ks cs ps) => [[[]|e]|]; rewrite /verdict_seen.
- by move=> [m' [E _]]; exists m'.
- case: (ra_invalid_proof api e) => /=.
    by move=> [m' [E _]]; exists m'.
  by move=> [t [m' [E _]]]; exists t, m'.
by [].
Qed.

(** ** Numbers *)
Lemma longE (k : N) : u64 k -> Z.to_N (java_long k mod 2 ^ 64) = k.
Proof.
rewrite /u64 /java_long => /N.ltb_lt H; have H' : (Z.of_N k < 2 ^ 64)%Z by lia.
case: Z.ltb_spec => L; first by rewrite Z.mod_small; lia.
have -> : (Z.of_N k - 2 ^ 64 = Z.of_N k + (-1) * 2 ^ 64)%Z by lia.
by rewrite Z.mod_add // Z.mod_small; lia.
Qed.
Lemma bigE (k : N) : u64 k -> Z.to_N (big_int k mod 2 ^ 64) = k.
Proof. by rewrite /u64 /big_int => /N.ltb_lt H; rewrite Z.mod_small; lia. Qed.
Lemma longsE (ks : seq N) : all u64 ks -> [seq Z.to_N (z mod 2 ^ 64) | z <- [seq java_long k | k <- ks]] = ks.
Proof. by elim: ks => [|k ks IH] // /andP[Hk /IH H]; rewrite !map_cons H longE. Qed.
Lemma bigsE (ks : seq N) : all u64 ks -> [seq Z.to_N (z mod 2 ^ 64) | z <- [seq big_int k | k <- ks]] = ks.
Proof. by elim: ks => [|k ks IH] // /andP[Hk /IH H]; rewrite !map_cons H bigE. Qed.
Lemma bigs_pos (ks : seq N) : all (fun z => (0 <=? z)%Z) [seq big_int k | k <- ks].
Proof. by elim: ks => [|k ks IH] //; rewrite map_cons /= IH andbT /big_int; lia. Qed.

(** ** Java *)
Lemma new_bytes_value h h' r b : new_bytes h h' r b -> value_bytes h' r (Some b).
Proof. by move=> [fr _ [a Ea [_ Ho]]]; exists a. Qed.

Lemma java_commit h r b c : value_bytes h r (Some b) ->
  java_shows (fun h' r' com => value_bytes h' r' (Some com)) "blobToKZGCommitment"
    (java_call (native_commit api jni_debug c r) h)
    (if size b == 2 ^ 17 then library_seen (ra_blob_to_kzg_commitment api c b) else Refuses None).
Proof.
move=> Hb; have := C52_commit api jni_debug c Hb; cbv zeta; case: ifP => _; last first.
  by move=> ->; do 2 eexists; split.
case: (ra_blob_to_kzg_commitment api c b) => [[com|e]|] //=.
- by move=> [r' [h' [-> /new_bytes_value V]]]; exists r', h'.
by move=> ->; do 2 eexists; split.
Qed.
Lemma java_compute h r b c : value_bytes h r (Some b) ->
  java_shows cap_of "computeCellsAndKZGProofs" (java_call (native_compute api jni_debug c r) h)
    (if size b == 2 ^ 17 then library_seen (ra_compute api c b) else Refuses None).
Proof.
move=> Hb; have := C52_compute api jni_debug c Hb; cbv zeta; case: ifP => _; last first.
  by move=> ->; do 2 eexists; split.
case: (ra_compute api c b) => [[[cells proofs]|e]|] //=.
- by move=> [r' [h' [-> /new_cap_value V]]]; exists r', h'.
by move=> ->; do 2 eexists; split.
Qed.
Lemma java_recover h ri rc ks cells c : all u64 ks ->
  value_longs h ri (Some [seq java_long k | k <- ks]) -> value_arrays h rc (no_null cells) ->
  java_shows cap_of "recoverCellsAndKZGProofs" (java_call (native_recover api jni_debug c ri rc) h)
    (if all (fun x => size x == 2048) cells then library_seen (ra_recover api c ks cells) else Refuses None).
Proof.
move=> Hk Hi Hc; have := C52_recover api jni_debug c Hi Hc; cbv zeta; case: ifP => _; last first.
  by move=> ->; do 2 eexists; split.
rewrite (longsE Hk); case: (ra_recover api c ks cells) => [[[cells' proofs]|e]|] //=.
- by move=> [r' [h' [-> /new_cap_value V]]]; exists r', h'.
by move=> ->; do 2 eexists; split.
Qed.
Lemma java_verify h rm ri rc rp coms ks cells proofs c : all u64 ks ->
  value_arrays h rm (no_null coms) -> value_longs h ri (Some [seq java_long k | k <- ks]) ->
  value_arrays h rc (no_null cells) -> value_arrays h rp (no_null proofs) ->
  java_shows (fun _ b b' => b = b') "verifyCellKZGProofBatch" (java_call (native_verify api jni_debug c rm ri rc rp) h)
    (if right_sizes coms cells proofs then verdict_seen (ra_verify api c coms ks cells proofs) else Refuses None).
Proof.
move=> Hk Hm Hi Hc Hp; have := C52_verify api jni_debug c Hm Hi Hc Hp; cbv zeta; rewrite /right_sizes.
rewrite (longsE Hk).
case Sc: (all (fun x => size x == 2048) cells); rewrite ?andbF /= ?andbT; last by move=> ->; do 2 eexists; split.
case Sm: (all (fun x => size x == 48) coms); rewrite /=; last by move=> ->; do 2 eexists; split.
case Sp: (all (fun x => size x == 48) proofs); rewrite /=; last by move=> ->; do 2 eexists; split.
case: (ra_verify api c coms ks cells proofs) => [[[]|e]|] //=.
- by move=> ->; do 2 eexists; split.
by case: (ra_invalid_proof api e) => ->; do 2 eexists; split.
Qed.

(** ** Node *)
Local Notation node c m r := (node_sync (read_once api c) m r).
Lemma node_library (A : Type) (f : A -> reply) func (m : jsmem) call (r : outcome (result A err)) :
  gives_library api m call func f r -> node_shows f func m call (library_seen r).
Proof. by case: r => [[a|e]|] //= H; eexists; split; first exact: H. Qed.
Lemma node_commit (m : jsmem) v b c : vread m v = Some b ->
  node_shows RBytes "blob_to_kzg_commitment" m (node c m (Commit v))
    (if size b == 2 ^ 17 then library_seen (ra_blob_to_kzg_commitment api c b) else Refuses None).
Proof.
move=> Hb; have := C54_commit api c Hb; case: ifP => _; first exact: node_library.
by move=> H; eexists; split; first exact: H.
Qed.
Lemma node_compute (m : jsmem) v b c : vread m v = Some b ->
  node_shows (fun cp => RCellsAndProofs cp.1 cp.2) "compute_cells_and_kzg_proofs" m (node c m (Compute v))
    (if size b == 2 ^ 17 then library_seen (ra_compute api c b) else Refuses None).
Proof.
move=> Hb; have := C54_compute api c Hb; case: ifP => _; first exact: node_library.
by move=> H; eexists; split; first exact: H.
Qed.
Lemma node_recover (m : jsmem) vs ks cells c : all u64 ks -> holds m vs cells ->
  node_shows (fun cp => RCellsAndProofs cp.1 cp.2) "recover_cells_and_kzg_proofs" m
    (node c m (Recover [seq big_int k | k <- ks] vs))
    (if all (fun x => size x == 2048) cells then library_seen (ra_recover api c ks cells) else Refuses None).
Proof.
move=> Hk Hc; have := C54_recover api c [seq big_int k | k <- ks] Hc; cbv zeta.
rewrite bigs_pos (bigsE Hk); case Sc: (all (fun x => size x == 2048) cells) => /=; first exact: node_library.
by move=> H; eexists; split; first exact: H.
Qed.
Lemma node_verify (m : jsmem) vc ks vd vp coms cells proofs c : all u64 ks ->
  holds m vc coms -> holds m vd cells -> holds m vp proofs ->
  node_shows RBool "verify_cell_kzg_proof_batch" m (node c m (Verify vc [seq big_int k | k <- ks] vd vp))
    (if right_sizes coms cells proofs then verdict_seen (ra_verify api c coms ks cells proofs) else Refuses None).
Proof.
move=> Hk H1 H2 H3; have := C54_verify api c [seq big_int k | k <- ks] H1 H2 H3; cbv zeta; rewrite /right_sizes.
rewrite bigs_pos (bigsE Hk).
case Sm: (all (fun x => size x == 48) coms); rewrite /=; last by move=> H; eexists; split; first exact: H.
case Sc: (all (fun x => size x == 2048) cells); rewrite /=; last by move=> H; eexists; split; first exact: H.
case Sp: (all (fun x => size x == 48) proofs); rewrite /=; last by move=> H; eexists; split; first exact: H.
case: (ra_verify api c coms ks cells proofs) => [[[]|e]|] //=.
by case: (ra_invalid_proof api e) => H //; eexists; split; first exact: H.
Qed.
End Agree.
