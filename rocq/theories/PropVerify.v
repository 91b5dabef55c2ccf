(** Properties of [verify_cell_kzg_proof_batch] (C10-C17, C19) and absence of panics (C18), at the
    constants of EIP-7594 over the BLS12-381 scalar field. *)

From Coq Require Import ZArith NArith Init.Byte Strings.Byte.
From mathcomp Require Import ssreflect ssrfun ssrbool eqtype ssrnat seq div fintype bigop.
From mathcomp Require Import ssralg poly polydiv zify_ssreflect.
From Verif Require Import Base Bytes Spec SpecKZG SpecDAS FixedBaseMSM LincombProofs FK20ProverProofs.
From Verif Require Import FK20Verifier VerifierSoundness Eip7594 Eip7594Proofs ApiVerifyProofs ApiEip.
From Verif Require Import ApiTranscript ReedSolomon.
From Verif Require Import ZField FrPrime Fr SpecFr FrEnv SpecVerify PropProver PropRecover.

Set Implicit Arguments.
Unset Strict Implicit.
Unset Printing Implicit Defensive.

Import GRing.Theory.
Local Open Scope ring_scope.
Local Opaque w8192 w4096.

(** The environment with another hash function, and with a hash that always gives r. *)
Definition with_hash (G1 G2 GT : lmodType Fr) (env : das_env G1 G2 GT) (h : seq byte -> Fr)
  : das_env G1 G2 GT :=
  MkDasEnv
    (MkTranscriptEnv (te_scalar_to_bytes_be (de_te env)) (te_g1_to_compressed (de_te env)) id h)
    (de_scalar_from_bytes_be env) (de_g1_from_compressed env) (de_pair env) (de_me env).

Lemma with_hash_std (G1 G2 GT : lmodType Fr) (env : das_env G1 G2 GT) h :
  env_std env -> env_std (with_hash env h).
Proof. by case=> A B C D E; split. Qed.

(** The point is decodable: the bytes are the compressed form of a point. *)
Definition point_bytes (G1 G2 GT : lmodType Fr) (env : das_env G1 G2 GT) (b : seq byte) : Prop :=
  exists P, te_g1_to_compressed (de_te env) P = b.

Section Verify.
Variables (G1 G2 GT : lmodType Fr) (env : das_env G1 G2 GT).
Hypothesis std : env_std env.
Variables (g1s : seq G1) (g2s : seq G2) (ctx : das_context G1 G2).
Hypothesis S1 : size g1s = (2 ^ 12)%N.
Hypothesis S2 : size g2s = 65%N.
Hypothesis Hctx : das_context_new fr_params eip7594_consts g1s g2s PrecompNo = Ret ctx.
Local Notation compute env := (compute_cells_and_kzg_proofs env eip7594_consts ctx).
Local Notation commitment env := (blob_to_kzg_commitment env eip7594_consts ctx).
Local Notation recover env := (recover_cells_and_kzg_proofs env eip7594_consts ctx).
Local Notation verify env := (verify_cell_kzg_proof_batch env eip7594_consts ctx).
Local Notation compress := (te_g1_to_compressed (de_te env)).
Local Notation challenge b := (te_reduce_bytes_to_scalar_bias (de_te env) (te_sha256 (de_te env) b)).
Local Notation invalid := (EVerifier (VerifierFK20 InvalidProof)).

(** The lists of a call are lists of byte arrays of the types of the API. *)
Definition call_types (coms cells proofs : seq (seq byte)) : Prop :=
  [/\ all_size 48 coms, all_size 2048 cells & all_size 48 proofs].

(** Equal lengths and indices below 128. *)
Definition call_shape (coms : seq (seq byte)) (idx : seq N) (cells proofs : seq (seq byte)) : Prop :=
  [/\ size idx = size coms, size cells = size coms, size proofs = size coms &
      all (fun i => (i <? 128)%num) idx].

(** Opening t of the call, with commitment C, proof P and interpolation polynomial I. *)
Definition opening (coms : seq (seq byte)) (idx : seq N) (cells proofs : seq (seq byte)) (t : nat)
  (C P : G1) (I : {poly Fr}) : Prop :=
  [/\ compress C = nth [::] coms t, compress P = nth [::] proofs t &
      cell_interpolant (N.to_nat (nth 0%num idx t)) (nth [::] cells t) I].

(** The defect of the pairing equation e(P, K - h^64 H) = e(C - [I], H) of an opening of cell k. *)
Definition defect (k : N) (C P : G1) (I : {poly Fr}) : GT :=
  de_pair env P (g2s`_64 - coset_point (N.to_nat k) ^+ 64 *: g2s`_0)
  - de_pair env (C - commit g1s I) g2s`_0.

Lemma fromcE b P : size b = 48%N -> de_g1_from_compressed env b = Some P <-> compress P = b.
Proof. exact: (es_g1_from std). Qed.

Lemma decodableP b : size b = 48%N -> reflect (point_bytes env b) (decodable env b).
Proof.
move=> Sb; apply: (iffP idP); rewrite /decodable.
  by case E: (de_g1_from_compressed env b) => [P|] // _; exists P; apply/(fromcE _ Sb).
by case=> P /(fromcE _ Sb)->.
Qed.

Lemma opening_canonical coms idx cells proofs t C P I j : opening coms idx cells proofs t C P I ->
  (j < 64)%N -> canonical (chunk (nth [::] cells t) j).
Proof.
case=> _ _ [_ H] Hj; rewrite -canonicalE -H // -/(scalar_to_bytes_be _).
by rewrite ((scalar_from_some _ _).2 erefl) // size_be_bytes.
Qed.

(** ** C11 *)
Theorem C11_batch coms idx cells proofs (C P : nat -> G1) (I : nat -> {poly Fr}) :
  call_types coms cells proofs -> call_shape coms idx cells proofs ->
  (forall t, (t < size coms)%N -> opening coms idx cells proofs t (C t) (P t) (I t)) ->
  let r := challenge (batch_transcript coms idx cells proofs) in
  verify env coms idx cells proofs =
  Ret (if \sum_(t < size coms) r ^+ t *: defect (nth 0%num idx t) (C t) (P t) (I t) == 0
       then Ok tt else Err invalid).
Proof.
move=> [T1 T2 T3] [Si Sc Sp Ar] O r.
have Sz s x : all_size 48 s -> (x < size s)%N -> size (nth [::] s x) = 48%N.
  by move=> H1 H2; apply/eqP; exact: (all_nthP [::] H1).
have DC : all (decodable env) coms.
  apply/(all_nthP [::]) => t Ht; apply/decodableP; first exact: Sz.
  by have [<- _ _] := O t Ht; exists (C t).
have DP : all (decodable env) proofs.
  apply/(all_nthP [::]) => t Ht; apply/decodableP; first exact: Sz.
  by rewrite Sp in Ht; have [_ <- _] := O t Ht; exists (P t).
case: (verify_caseP std S1 S2 Hctx idx T1 T2 T3).
- by rewrite Si Sc Sp !eqxx.
- by move=> i _ Hi Bi _; case/negP: Bi; apply: (all_nthP 0%num Ar).
- by move=> i _ [Hi Bi _]; case/negP: Bi; apply: (all_nthP [::] DC).
- by move=> i _ _ [Hi Bi _]; case/negP: Bi; apply: (all_nthP [::] DP).
- move=> t i _ _ _ Ht Hi Bi _ _; case/negP: Bi; rewrite Sc in Ht.
  exact: (opening_canonical (O t Ht)).
move=> C' P' I' evals sh D Ev.
rewrite /call_challenge (call_transcriptE std T1 T2 T3 sh DC DP Ev) -/r /batch_sum.
rewrite (eq_bigr (fun t : 'I_(size coms) => r ^+ t *: defect (nth 0%num idx t) (C t) (P t) (I t))) //.
move=> [t Ht] _ /=; congr (_ *: _); have [HC HP HI] := O t Ht.
have := dec_C D Ht => /fromcE; rewrite (Sz _ _ T1 Ht) => /(_ erefl); rewrite -HC => /(comp_inj (env_std_ok std)) ->.
have Ht' : (t < size proofs)%N by rewrite Sp.
have := dec_P D Ht => /fromcE; rewrite (Sz _ _ T3 Ht') => /(_ erefl); rewrite -HP => /(comp_inj (env_std_ok std)) ->.
by rewrite (interpolant_unique std (dec_I D Ht) HI).
Qed.

(** The openings of a call whose result is Ok or an invalid proof are decodable. *)
Lemma verify_run coms idx cells proofs : call_types coms cells proofs ->
  (exists C P I, call_shape coms idx cells proofs /\
     forall t, (t < size coms)%N -> opening coms idx cells proofs t (C t) (P t) (I t)) \/
  exists2 err, verify env coms idx cells proofs = Ret (Err err) & invalid_proof err = false.
Proof.
move=> [T1 T2 T3].
case: (verify_caseP std S1 S2 Hctx idx T1 T2 T3); try by move=> *; right; eexists.
move=> C P I evals sh D Ev; left; exists C, P, I; split=> // t Ht; have [_ _ Sp _] := sh.
split; last exact: (dec_I D Ht).
  by apply/fromcE; [apply/eqP; exact: (all_nthP [::] T1) | exact: (dec_C D Ht)].
by apply/fromcE; [apply/eqP; apply: (all_nthP [::] T3); rewrite Sp | exact: (dec_P D Ht)].
Qed.

(** ** C12 *)
Theorem C12_single com k cell proof C P I : call_types [:: com] [:: cell] [:: proof] ->
  (k < 128)%num -> opening [:: com] [:: k] [:: cell] [:: proof] 0 C P I ->
  verify env [:: com] [:: k] [:: cell] [:: proof] = Ret (Ok tt) <->
  de_pair env P (g2s`_64 - coset_point (N.to_nat k) ^+ 64 *: g2s`_0) =
  de_pair env (C - commit g1s I) g2s`_0.
Proof.
move=> T /N.ltb_spec0 Hk O.
have sh : call_shape [:: com] [:: k] [:: cell] [:: proof] by split=> //=; rewrite Hk.
rewrite (@C11_batch _ _ _ _ (fun=> C) (fun=> P) (fun=> I) T sh); last by case.
rewrite /= big_ord_recl big_ord0 addr0 expr0 scale1r /defect subr_eq0 /=.
by case: eqP => H; split=> // _.
Qed.

(** With a proper setup and a pairing that is injective in the first argument, exactly one proof
    is accepted for a commitment, a cell index and a cell. *)
Theorem C12_unique_proof (tau : Fr) (G : G1) (H : G2) com k cell :
  g1s = srs_of tau G (2 ^ 12) -> g2s = srs_of tau H 65 ->
  (forall P, de_pair env P H = 0 -> P = 0) ->
  (k < 128)%num -> tau ^+ 64 != coset_point (N.to_nat k) ^+ 64 ->
  size com = 48%N -> point_bytes env com -> size cell = 2048%N ->
  (forall j, (j < 64)%N -> canonical (chunk cell j)) ->
  exists! proof, size proof = 48%N /\ verify env [:: com] [:: k] [:: cell] [:: proof] = Ret (Ok tt).
Proof.
move=> E1 E2 nondeg Hk ne Scom [C HC] Scell Hcan.
have [I HI] := interpolant_exists std (N.to_nat k) Scell Hcan.
have [P [HP UP]] := defect_unique (es_bil std) nondeg C (commit g1s I) ne.
have E0 : g2s`_0 = H by rewrite E2 nth_mkseq // expr0 scale1r.
have E64 : g2s`_64 = tau ^+ 64 *: H by rewrite E2 nth_mkseq.
have key P' : verify env [:: com] [:: k] [:: cell] [:: compress P'] = Ret (Ok tt) <->
    opening_defect (de_pair env) H (tau ^+ 64 *: H) (coset_point (N.to_nat k) ^+ 64) C (commit g1s I) P' = 0.
  rewrite (@C12_single com k cell (compress P') C P' I) ?E0 ?E64 //.
    rewrite /opening_defect; split; first by move=> ->; rewrite subrr.
    by move/eqP; rewrite subr_eq0 => /eqP.
  by rewrite /call_types /all_size /= Scom Scell (es_g1_size std).
exists (compress P); split; first by split; [exact: (es_g1_size std) | apply/key].
move=> proof [Sp Hv].
have T : call_types [:: com] [:: cell] [:: proof] by rewrite /call_types /all_size /= Scom Scell Sp.
have [[C' [P' [I' [_ O]]]]|[err]] := verify_run [:: k] T; last by rewrite Hv.
have [_ /= EP _] := O 0%N isT; rewrite -EP in Hv *.
by rewrite (UP (P' 0%N)) //; apply/key.
Qed.

(** ** C10 *)

(** The tuple was made by the prover from some blob. *)
Definition honest (com : seq byte) (k : N) (cell proof : seq byte) : Prop :=
  exists blob cells proofs,
    [/\ size blob = (2 ^ 17)%N, (k < 128)%num, commitment env blob = Ret (Ok com) &
        compute env blob = Ret (Ok (cells, proofs))] /\
    cell = nth [::] cells (N.to_nat k) /\ proof = nth [::] proofs (N.to_nat k).

(** The tuple belongs to a polynomial. *)
Definition of_poly (com : seq byte) (k : N) (cell proof : seq byte) (f : {poly Fr}) : Prop :=
  [/\ (size f <= 2 ^ 12)%N, com = compress (commit g1s f),
      cell = cell_of_poly f (N.to_nat k) & proof = compress (proof_of_poly g1s f (N.to_nat k))].

Lemma coset_pointE k : coset_point k = coset_rep (DomainProofs.omega fr_params 13) 7 k.
Proof. by rewrite omega13. Qed.

Lemma defect_of_poly (tau : Fr) (G : G1) (H : G2) (f I : {poly Fr}) k :
  g1s = srs_of tau G (2 ^ 12) -> g2s = srs_of tau H 65 -> (size f <= 2 ^ 12)%N ->
  cell_interpolant (N.to_nat k) (cell_of_poly f (N.to_nat k)) I ->
  defect k (commit g1s f) (proof_of_poly g1s f (N.to_nat k)) I = 0.
Proof.
move=> E1 E2 Sf [SI HI].
have E0 : g2s`_0 = H by rewrite E2 nth_mkseq // expr0 scale1r.
have E64 : g2s`_64 = tau ^+ 64 *: H by rewrite E2 nth_mkseq.
have SI' : (size I <= 2 ^ 12)%N by apply: leq_trans SI _; rewrite (@leq_pexp2l 2 6 12).
rewrite /defect -/(opening_defect _ _ _ _ _ _ _) E0 E64 /proof_of_poly E1.
apply: (honest_defect (es_bil std)) => //; first exact: leq_trans (leq_divp _ _) Sf.
have W := @quotient_minus_interpolant _ fr_params 13 6 7 (N.to_nat k) f I SI.
rewrite -coset_pointE in W.
have D := @vanishing_dvdp _ _ fr_ok 13 6 7 erefl Had13 (N.to_nat k) (f - I).
rewrite -coset_pointE W in D; apply: D => j Hj.
apply/eqP; rewrite /cell_point omega13 hornerD hornerN subr_eq0; apply/eqP.
have /esym := HI j Hj; rewrite (chunk_cell_of_poly std f _ Hj); exact: (C36_injective std).
Qed.

Lemma verify_of_poly (tau : Fr) (G : G1) (H : G2) coms idx cells proofs (f : nat -> {poly Fr}) :
  g1s = srs_of tau G (2 ^ 12) -> g2s = srs_of tau H 65 -> call_shape coms idx cells proofs ->
  (forall t, (t < size coms)%N ->
     of_poly (nth [::] coms t) (nth 0%num idx t) (nth [::] cells t) (nth [::] proofs t) (f t)) ->
  verify env coms idx cells proofs = Ret (Ok tt).
Proof.
move=> E1 E2 sh Hf; have [Si Sc Sp _] := sh.
have T : call_types coms cells proofs.
  split; apply/(all_nthP [::]) => t; rewrite ?Sc ?Sp => Ht; have [_ EC Ec Ep] := Hf t Ht.
  - by rewrite EC (es_g1_size std).
  - by rewrite Ec size_cell_of_poly.
  by rewrite Ep (es_g1_size std).
have [I HI] : exists I : nat -> {poly Fr}, forall t, (t < size coms)%N ->
    cell_interpolant (N.to_nat (nth 0%num idx t)) (nth [::] cells t) (I t).
  apply: (@finite_choice {poly Fr} 0 (fun t => cell_interpolant (N.to_nat (nth 0%num idx t)) (nth [::] cells t))).
  move=> t Ht; have [_ _ Ec _] := Hf t Ht; apply: (interpolant_exists std).
    by rewrite Ec size_cell_of_poly.
  move=> j Hj; rewrite Ec (chunk_cell_of_poly std _ _ Hj) -canonicalE.
  by rewrite ((scalar_from_some _ _).2 erefl) // size_be_bytes.
rewrite (@C11_batch _ _ _ _ (fun t => commit g1s (f t))
  (fun t => proof_of_poly g1s (f t) (N.to_nat (nth 0%num idx t))) I T sh); last first.
  by move=> t Ht; have [_ EC Ec Ep] := Hf t Ht; split; rewrite ?EC ?Ep //; exact: HI.
rewrite big1 ?eqxx // => -[t Ht] _ /=; have [Sf _ Ec _] := Hf t Ht.
rewrite (defect_of_poly E1 E2 Sf) ?scaler0 //; rewrite -Ec; exact: HI.
Qed.

Lemma honest_of_poly com k cell proof : honest com k cell proof ->
  (k <? 128)%num /\ exists f, of_poly com k cell proof f.
Proof.
case=> blob [cells [proofs [[Sb Hk Hcom Hc] [Ec Ep]]]]; split; first exact/N.ltb_spec0.
have [f Hf [E1 E2]] := compute_ok std S1 S2 Hctx Sb Hc; exists f.
have Hcom' := C04_commitment std S1 S2 Hctx Sb Hc Hf; rewrite Hcom in Hcom'.
have Hk' : (N.to_nat k < 128)%N by move: Hk; lia.
split; [by case: Hf | by case: Hcom' | | ].
  by rewrite Ec E1 nth_mkseq.
by rewrite Ep E2 nth_mkseq.
Qed.

Theorem C10_honest_verifies (tau : Fr) (G : G1) (H : G2) coms idx cells proofs :
  g1s = srs_of tau G (2 ^ 12) -> g2s = srs_of tau H 65 ->
  size idx = size coms -> size cells = size coms -> size proofs = size coms ->
  (forall t, (t < size coms)%N ->
     honest (nth [::] coms t) (nth 0%num idx t) (nth [::] cells t) (nth [::] proofs t)) ->
  verify env coms idx cells proofs = Ret (Ok tt).
Proof.
move=> E1 E2 Si Sc Sp Hh.
have [f Hf] : exists f : nat -> {poly Fr}, forall t, (t < size coms)%N ->
    of_poly (nth [::] coms t) (nth 0%num idx t) (nth [::] cells t) (nth [::] proofs t) (f t).
  apply: (@finite_choice {poly Fr} 0 (fun t =>
    of_poly (nth [::] coms t) (nth 0%num idx t) (nth [::] cells t) (nth [::] proofs t))).
  by move=> t /Hh/honest_of_poly[].
apply: (verify_of_poly E1 E2) Hf; split=> //.
by apply/(all_nthP 0%num) => t; rewrite Si => /Hh/honest_of_poly[].
Qed.

(** ** C19 *)
Theorem C19_recovered_verifies (tau : Fr) (G : G1) (H : G2) idx cells rcells rproofs :
  g1s = srs_of tau G (2 ^ 12) -> g2s = srs_of tau H 65 ->
  cells_shape cells -> recover env idx cells = Ret (Ok (rcells, rproofs)) ->
  exists com, forall ks, all (fun i => (i <? 128)%num) ks ->
    verify env (nseq (size ks) com) ks [seq nth [::] rcells (N.to_nat k) | k <- ks]
      [seq nth [::] rproofs (N.to_nat k) | k <- ks] = Ret (Ok tt).
Proof.
move=> E1 E2 Sc /(recover_ok std S1 S2 Hctx Sc)[sh [f [Sf _]] [-> ->]].
exists (compress (commit g1s f)) => ks Hks.
apply: (@verify_of_poly tau G H _ _ _ _ (fun=> f) E1 E2); first by split; rewrite ?size_nseq ?size_map.
move=> t; rewrite size_nseq => Ht.
have Hk : (N.to_nat (nth 0%num ks t) < 128)%N.
  by have /N.ltb_spec0 := all_nthP 0%num Hks t Ht; lia.
by rewrite nth_nseq Ht !(nth_map 0%num) // !nth_mkseq.
Qed.

(** For cells of a blob, it is the commitment of the blob. *)
Theorem C19_blob_commitment (tau : Fr) (G : G1) (H : G2) blob cells proofs com idx :
  g1s = srs_of tau G (2 ^ 12) -> g2s = srs_of tau H 65 ->
  size blob = (2 ^ 17)%N -> compute env blob = Ret (Ok (cells, proofs)) ->
  commitment env blob = Ret (Ok com) ->
  uniq idx -> all (fun i => (i <? 128)%num) idx -> (64 <= size idx)%N ->
  exists rcells rproofs,
    recover env idx [seq nth [::] cells (N.to_nat i) | i <- idx] = Ret (Ok (rcells, rproofs)) /\
    forall ks, all (fun i => (i <? 128)%num) ks ->
      verify env (nseq (size ks) com) ks [seq nth [::] rcells (N.to_nat k) | k <- ks]
        [seq nth [::] rproofs (N.to_nat k) | k <- ks] = Ret (Ok tt).
Proof.
move=> E1 E2 Sb Hc Hcom Ui Ar Fw; exists cells, proofs; split.
  exact: (C06_recover_any_half std S1 S2 Hctx Sb Hc).
move=> ks Hks; apply: (C10_honest_verifies E1 E2); rewrite ?size_nseq ?size_map // => t Ht.
exists blob, cells, proofs; rewrite nth_nseq Ht !(nth_map 0%num) //; split; split=> //.
by apply/N.ltb_spec0; exact: (all_nthP 0%num Hks).
Qed.

End Verify.

Section Verify2.
Variables (G1 G2 GT : lmodType Fr) (env : das_env G1 G2 GT).
Hypothesis std : env_std env.
Variables (g1s : seq G1) (g2s : seq G2) (ctx : das_context G1 G2).
Hypothesis S1 : size g1s = (2 ^ 12)%N.
Hypothesis S2 : size g2s = 65%N.
Hypothesis Hctx : das_context_new fr_params eip7594_consts g1s g2s PrecompNo = Ret ctx.
Local Notation compute := (compute_cells_and_kzg_proofs env eip7594_consts ctx).
Local Notation commitment := (blob_to_kzg_commitment env eip7594_consts ctx).
Local Notation recover := (recover_cells_and_kzg_proofs env eip7594_consts ctx).
Local Notation verify env := (verify_cell_kzg_proof_batch env eip7594_consts ctx).
Local Notation compress := (te_g1_to_compressed (de_te env)).
Local Notation invalid := (EVerifier (VerifierFK20 InvalidProof)).

(** ** C13 *)

(** rs are distinct values of the challenge for which the batch is accepted; one of the tuples is
    not accepted alone. Then there are fewer such challenges than tuples. *)
Theorem C13_few_challenges coms idx cells proofs (rs : seq Fr) t :
  call_types coms cells proofs -> uniq rs ->
  (forall r, r \in rs -> verify (with_hash env (fun=> r)) coms idx cells proofs = Ret (Ok tt)) ->
  (t < size coms)%N ->
  verify env [:: nth [::] coms t] [:: nth 0%num idx t] [:: nth [::] cells t] [:: nth [::] proofs t]
    <> Ret (Ok tt) ->
  (size rs < size coms)%N.
Proof.
move=> T U Hrs Ht bad.
case: rs U Hrs => [|r0 rs] U Hrs; first exact: leq_ltn_trans Ht.
have Hstd r := @with_hash_std _ _ _ env (fun=> r) std.
have [[C [P [I [sh O]]]]|[err]] := verify_run (Hstd r0) S1 S2 Hctx idx T; last first.
  by rewrite Hrs ?mem_head.
have O' r t' : (t' < size coms)%N -> opening (with_hash env (fun=> r)) coms idx cells proofs t' (C t') (P t') (I t').
  by move=> /O.
apply: (@few_bad_challenges _ _ (fun t => defect env g1s g2s (nth 0%num idx t) (C t) (P t) (I t)) _ _ U).
  move=> r Hr; have := Hrs r Hr.
  have := @C11_batch _ _ _ _ (Hstd r) g1s g2s ctx S1 S2 Hctx coms idx cells proofs C P I T sh (O' r).
  move=> /= ->; by case: eqP.
exists t => //; apply/eqP => D; apply: bad; have [Si Sc Sp Ar] := sh; have [T1 T2 T3] := T.
have T' : call_types [:: nth [::] coms t] [:: nth [::] cells t] [:: nth [::] proofs t].
  by split; rewrite /all_size /= andbT;
     [apply: (all_nthP [::] T1) | apply: (all_nthP [::] T2) | apply: (all_nthP [::] T3)]; rewrite ?Sc ?Sp.
have Hk : (nth 0%num idx t < 128)%num by apply/N.ltb_spec0; apply: (all_nthP 0%num Ar); rewrite Si.
apply/(C12_single std S1 S2 Hctx (C := C t) (P := P t) (I := I t) T' Hk); first exact: (O t Ht).
by apply/eqP; rewrite -subr_eq0; apply/eqP; exact: D.
Qed.

(** ** C14 *)
Local Notation same_length coms idx cells proofs :=
  [/\ size idx = size coms, size cells = size coms & size proofs = size coms].

Lemma same_lengthP coms idx cells proofs :
  reflect (same_length coms idx cells proofs)
    [&& size (idx : seq N) == size (coms : seq (seq byte)), size (cells : seq (seq byte)) == size coms
      & size (proofs : seq (seq byte)) == size coms].
Proof. by apply: (iffP and3P) => -[/eqP A /eqP B /eqP C]; split=> //; apply/eqP. Qed.

Lemma point_bytes_dec b : size b = 48%N -> reflect (point_bytes env b) (decodable env b).
Proof. exact: (decodableP std). Qed.

Theorem C14_lengths coms idx cells proofs : call_types coms cells proofs ->
  ~ same_length coms idx cells proofs ->
  verify env coms idx cells proofs = Ret (Err (EVerifier
    (BatchVerificationInputsMustHaveSameLength (size coms) (size idx) (size cells) (size proofs)))).
Proof.
move=> [T1 T2 T3] ne.
have Hs : ~ eip_verify_shape coms idx cells proofs by case=> *; apply: ne; split.
case: (verify_caseP std S1 S2 Hctx idx T1 T2 T3) => //; try by move=> * //; exfalso; apply: Hs.
by move=> i /same_lengthP.
Qed.

Theorem C14_range coms idx cells proofs i : call_types coms cells proofs ->
  same_length coms idx cells proofs ->
  (i < size idx)%N -> (128 <=? nth 0%num idx i)%num ->
  (forall j, (j < i)%N -> (nth 0%num idx j <? 128)%num) ->
  verify env coms idx cells proofs =
    Ret (Err (EVerifier (VerifierCellIndexOutOfRange (nth 0%num idx i) 128%num))).
Proof.
move=> [T1 T2 T3] sl Hi /N.leb_spec0 Bi Gi.
have no : ~ all index128 idx by move=> /(all_nthP 0%num)/(_ i Hi)/N.ltb_spec0; move: Bi; lia.
case: (verify_caseP std S1 S2 Hctx idx T1 T2 T3).
- by move/same_lengthP: sl => ->.
- move=> i' _ Hi' Bi' Gi'; case: (ltngtP i i') => [H|H|-> //].
    by have /N.ltb_spec0 := Gi' i H; move: Bi; lia.
  by have := Gi i' H; rewrite -/(index128 _) (negbTE Bi').
- by move=> i' [].
- by move=> i' [].
- by move=> t j [].
by move=> C P I evals [].
Qed.

Theorem C14_empty : verify env [::] [::] [::] [::] = Ret (Ok tt).
Proof.
have := @C11_batch _ _ _ _ std g1s g2s ctx S1 S2 Hctx [::] [::] [::] [::] (fun=> 0) (fun=> 0) (fun=> 0).
by move=> /(_ (And3 isT isT isT) (And4 erefl erefl erefl isT)) ->; rewrite // big_ord0 eqxx.
Qed.

Theorem C14_commitment coms idx cells proofs i : call_types coms cells proofs ->
  call_shape coms idx cells proofs ->
  (i < size coms)%N -> ~ point_bytes env (nth [::] coms i) ->
  (forall j, (j < i)%N -> point_bytes env (nth [::] coms j)) ->
  verify env coms idx cells proofs =
    Ret (Err (ESerialization (CouldNotDeserializeG1Point (nth [::] coms i)))).
Proof.
move=> [T1 T2 T3] [Si Sc Sp Ar] Hi Bi Gi.
have Dp t : (t < size coms)%N -> reflect (point_bytes env (nth [::] coms t)) (decodable env (nth [::] coms t)).
  by move=> Ht; apply: point_bytes_dec; apply/eqP; exact: (all_nthP [::] T1).
have no : ~ all (decodable env) coms by move=> /(all_nthP [::])/(_ i Hi)/(Dp _ Hi).
case: (verify_caseP std S1 S2 Hctx idx T1 T2 T3).
- by rewrite Si Sc Sp !eqxx.
- by move=> j _ Hj Bj _; case/negP: Bj; apply: (all_nthP 0%num Ar).
- move=> i' _ [Hi' /(Dp _ Hi') Bi' Gi']; case: (ltngtP i i') => [H|H|-> //].
    by case: Bi; apply/(Dp _ Hi); exact: Gi'.
  by case: Bi'; exact: Gi.
- by move=> j _ /no.
- by move=> t j _ /no.
move=> C P I evals sh D _; case: no; apply/(all_nthP [::]) => t Ht.
by rewrite /decodable (dec_C D Ht).
Qed.

Theorem C14_proof coms idx cells proofs i : call_types coms cells proofs ->
  call_shape coms idx cells proofs -> (forall b, b \in coms -> point_bytes env b) ->
  (i < size proofs)%N -> ~ point_bytes env (nth [::] proofs i) ->
  (forall j, (j < i)%N -> point_bytes env (nth [::] proofs j)) ->
  verify env coms idx cells proofs =
    Ret (Err (ESerialization (CouldNotDeserializeG1Point (nth [::] proofs i)))).
Proof.
move=> [T1 T2 T3] [Si Sc Sp Ar] Gc Hi Bi Gi.
have Dp t : (t < size proofs)%N -> reflect (point_bytes env (nth [::] proofs t)) (decodable env (nth [::] proofs t)).
  by move=> Ht; apply: point_bytes_dec; apply/eqP; exact: (all_nthP [::] T3).
have no : ~ all (decodable env) proofs by move=> /(all_nthP [::])/(_ i Hi)/(Dp _ Hi).
case: (verify_caseP std S1 S2 Hctx idx T1 T2 T3).
- by rewrite Si Sc Sp !eqxx.
- by move=> j _ Hj Bj _; case/negP: Bj; apply: (all_nthP 0%num Ar).
- move=> i' _ [Hi' Bi' _]; case/negP: Bi'; apply/point_bytes_dec; last by apply: Gc; exact: mem_nth.
  by apply/eqP; exact: (all_nthP [::] T1).
- move=> i' _ _ [Hi' /(Dp _ Hi') Bi' Gi']; case: (ltngtP i i') => [H|H|-> //].
    by case: Bi; apply/(Dp _ Hi); exact: Gi'.
  by case: Bi'; exact: Gi.
- by move=> t j _ _ /no.
move=> C P I evals sh D _; case: no; apply/(all_nthP [::]) => t Ht; rewrite Sp in Ht.
by rewrite /decodable (dec_P D Ht).
Qed.

Theorem C14_chunk coms idx cells proofs t i : call_types coms cells proofs ->
  call_shape coms idx cells proofs -> (forall b, b \in coms -> point_bytes env b) ->
  (forall b, b \in proofs -> point_bytes env b) ->
  (t < size cells)%N -> (i < 64)%N -> ~~ canonical (chunk (nth [::] cells t) i) ->
  (forall j, (j < i)%N -> canonical (chunk (nth [::] cells t) j)) ->
  (forall t' j, (t' < t)%N -> (j < 64)%N -> canonical (chunk (nth [::] cells t') j)) ->
  verify env coms idx cells proofs =
    Ret (Err (ESerialization (CouldNotDeserializeScalar (chunk (nth [::] cells t) i)))).
Proof.
move=> T sh0 Gc Gp Ht Hi Bi Gi Gt; have [T1 T2 T3] := T; have [Si Sc Sp Ar] := sh0.
have good s j : all_size 48 s -> (forall b, b \in s -> point_bytes env b) -> (j < size s)%N ->
    decodable env (nth [::] s j).
  move=> Ts Gs Hj; apply/point_bytes_dec; last by apply: Gs; exact: mem_nth.
  by apply/eqP; exact: (all_nthP [::] Ts).
case: (verify_caseP std S1 S2 Hctx idx T1 T2 T3).
- by rewrite Si Sc Sp !eqxx.
- by move=> j _ Hj Bj _; case/negP: Bj; apply: (all_nthP 0%num Ar).
- by move=> j _ [Hj Bj _]; case/negP: Bj; exact: good.
- by move=> j _ _ [Hj Bj _]; case/negP: Bj; exact: good.
- move=> t' i' _ _ _ Ht' Hi' Bi' Gi' Gt'.
  have Et : t = t'.
    case: (ltngtP t t') => // H; first by have := Gt' t i H Hi; rewrite (negbTE Bi).
    by have := Gt t' i' H Hi'; rewrite (negbTE Bi').
  rewrite -Et in Bi' Gi' *; have -> // : i = i'.
  case: (ltngtP i i') => // H; first by have := Gi' i H; rewrite (negbTE Bi).
  by have := Gi i' H; rewrite (negbTE Bi').
move=> C P I evals sh D _; rewrite Sc in Ht; have [_ HI] := dec_I D Ht.
case/negP: Bi; rewrite -canonicalE -HI // -/(scalar_to_bytes_be _).
by rewrite ((scalar_from_some _ _).2 erefl) // size_be_bytes.
Qed.

(** Apart from the invalid proof of C11, there are no other errors; in particular not the one for
    commitment indices. *)
Theorem C14_only coms idx cells proofs err : call_types coms cells proofs ->
  verify env coms idx cells proofs = Ret (Err err) ->
  [\/ exists a b c d, err = EVerifier (BatchVerificationInputsMustHaveSameLength a b c d),
      exists i, err = EVerifier (VerifierCellIndexOutOfRange i 128%num),
      exists b, err = ESerialization (CouldNotDeserializeG1Point b) |
   [\/ exists b, err = ESerialization (CouldNotDeserializeScalar b) | err = invalid]].
Proof.
move=> [T1 T2 T3]; case: (verify_caseP std S1 S2 Hctx idx T1 T2 T3).
- by move=> _ [<-]; constructor 1; do 4! eexists.
- by move=> i _ _ _ _ [<-]; constructor 2; eexists.
- by move=> i _ _ [<-]; constructor 3; eexists.
- by move=> i _ _ _ [<-]; constructor 3; eexists.
- by move=> t i _ _ _ _ _ _ _ _ [<-]; constructor 4; left; eexists.
by move=> C P I evals _ _ _; case: eqP => // _ [<-]; constructor 4; right.
Qed.

Theorem C14_never_commitment_index coms idx cells proofs a b : call_types coms cells proofs ->
  verify env coms idx cells proofs <> Ret (Err (EVerifier (InvalidCommitmentIndex a b))).
Proof. by move=> T /(C14_only T)[[? [? [? [?]]]]|[?]|[?]|[[?]|]]. Qed.

(** ** C17 *)
Theorem C17_invalid_proof coms idx cells proofs err : call_types coms cells proofs ->
  verify env coms idx cells proofs = Ret (Err err) ->
  invalid_proof err <->
  [/\ call_shape coms idx cells proofs, forall b, b \in coms -> point_bytes env b,
      forall b, b \in proofs -> point_bytes env b &
      forall cell j, cell \in cells -> (j < 64)%N -> canonical (chunk cell j)].
Proof.
move=> T Hv; split.
  move=> Hinv; have [[C [P [I [sh O]]]]|[err']] := verify_run std S1 S2 Hctx idx T; last first.
    by rewrite Hv => -[<-]; rewrite Hinv.
  have [Si Sc Sp _] := sh; split=> //.
  - by move=> b /(nthP [::])[t Ht <-]; have [<- _ _] := O t Ht; exists (C t).
  - by move=> b /(nthP [::])[t]; rewrite Sp => Ht <-; have [_ <- _] := O t Ht; exists (P t).
  move=> cell j /(nthP [::])[t]; rewrite Sc => Ht <- Hj.
  exact: (opening_canonical (O t Ht)).
move=> [sh Gc Gp Hcan]; have [T1 T2 T3] := T; have [Si Sc Sp Ar] := sh.
have good s j : all_size 48 s -> (forall b, b \in s -> point_bytes env b) -> (j < size s)%N ->
    decodable env (nth [::] s j).
  move=> Ts Gs Hj; apply/point_bytes_dec; last by apply: Gs; exact: mem_nth.
  by apply/eqP; exact: (all_nthP [::] Ts).
move: Hv; case: (verify_caseP std S1 S2 Hctx idx T1 T2 T3).
- by rewrite Si Sc Sp !eqxx.
- by move=> j _ Hj Bj _; case/negP: Bj; apply: (all_nthP 0%num Ar).
- by move=> j _ [Hj Bj _]; case/negP: Bj; exact: good.
- by move=> j _ _ [Hj Bj _]; case/negP: Bj; exact: good.
- by move=> t i _ _ _ Ht Hi Bi _ _; case/negP: Bi; apply: Hcan => //; exact: mem_nth.
by move=> C P I evals _ _ _; case: eqP => // _ [<-].
Qed.

Theorem C17_others blob idx cells err :
  size blob = (2 ^ 17)%N -> cells_shape cells ->
  commitment blob = Ret (Err err) \/ compute blob = Ret (Err err) \/ recover idx cells = Ret (Err err) ->
  ~~ invalid_proof err.
Proof.
move=> Sb Sc [H|[H|H]].
- have := (C04_fail_together std S1 S2 Hctx err Sb).1 H => {}H.
  case: (compute_cases std S1 S2 Hctx Sb) H => [[f Hf [E _]]|[i _ [-> _]]]; last by case=> <-.
  by rewrite (E (@no_tables _ _ _ env g1s)).
- case: (compute_cases std S1 S2 Hctx Sb) H => [[f Hf [E _]]|[i _ [-> _]]]; last by case=> <-.
  by rewrite (E (@no_tables _ _ _ env g1s)).
by case: (C08_only std S1 S2 Hctx Sc H) => [E|[i E _]|E|[E|[b E _]|E]]; rewrite E.
Qed.

(** ** C18 *)
Theorem C18_no_panic blob idx rcells coms vidx vcells proofs :
  size blob = (2 ^ 17)%N -> cells_shape rcells -> call_types coms vcells proofs ->
  [/\ exists x, commitment blob = Ret x, exists x, compute blob = Ret x,
      exists x, recover idx rcells = Ret x & exists x, verify env coms vidx vcells proofs = Ret x].
Proof.
move=> Sb Sc [T1 T2 T3]; split.
- by case: (compute_cases std S1 S2 Hctx Sb) => [[f Hf [_ ->]]|[i _ [_ ->]]]; eexists.
- case: (compute_cases std S1 S2 Hctx Sb) => [[f Hf [E _]]|[i _ [-> _]]]; last by eexists.
  by rewrite (E (@no_tables _ _ _ env g1s)); eexists.
- by case: (recover_caseP std S1 S2 Hctx idx Sc (@no_tables _ _ _ env g1s)) => *; eexists.
by case: (verify_caseP std S1 S2 Hctx vidx T1 T2 T3) => *; eexists.
Qed.
End Verify2.

(** The context can always be built. *)
Theorem C18_context (G1 G2 : lmodType Fr) (g1s : seq G1) (g2s : seq G2) :
  size g1s = (2 ^ 12)%N -> size g2s = 65%N ->
  exists ctx, das_context_new fr_params eip7594_consts g1s g2s PrecompNo = Ret ctx.
Proof. by move=> S1 S2; apply: context_exists. Qed.

(** ** C15 *)
Theorem C15_deduplicate (T : eqType) (x0 : T) (s : seq T) :
  let u := (deduplicate_with_indices s).1 in
  let indices := (deduplicate_with_indices s).2 in
  [/\ uniq u, u =i s, size indices = size s &
      forall t, (t < size s)%N ->
        (nth 0 indices t < N.of_nat (size u))%num /\ nth x0 u (N.to_nat (nth 0%num indices t)) = nth x0 s t].
Proof.
rewrite deduplicateE /=; split.
- by rewrite rev_uniq undup_uniq.
- exact: mem_first_occurrences.
- by rewrite size_map.
move=> t Ht; have Hin : nth x0 s t \in first_occurrences s by rewrite mem_first_occurrences mem_nth.
rewrite (nth_map x0) // Nat2N.id nth_index //; split=> //.
by move: Hin; rewrite -index_mem; lia.
Qed.

Theorem C15_order (T : eqType) (s : seq T) x y : x \in s -> y \in s ->
  let u := (deduplicate_with_indices s).1 in
  (index x u < index y u)%N = (index x s < index y s)%N.
Proof.
rewrite deduplicateE /=; elim/last_ind: s => [|s z IH] //.
rewrite first_occurrences_rcons !mem_rcons !inE -!cats1 !index_cat.
case Ex: (x \in s); case Ey: (y \in s); rewrite /= ?orbT ?orbF => Hx Hy.
- by case: ifP => _; rewrite ?index_cat ?mem_first_occurrences ?Ex ?Ey IH.
- rewrite -(eqP Hy) Ey cats1 -cats1 !index_cat !mem_first_occurrences Ex Ey /= eqxx addn0.
  have := Ex; rewrite -mem_first_occurrences -index_mem => A; have := Ex; rewrite -index_mem => B.
  by rewrite addn0 A B.
- rewrite -(eqP Hx) Ex cats1 -cats1 !index_cat !mem_first_occurrences Ex Ey /= eqxx !addn0.
  by rewrite !ltnNge !index_size.
by rewrite (eqP Hx) (eqP Hy) !ltnn.
Qed.

(** ** C16 *)
Theorem C16_injective coms idx cells proofs coms' idx' cells' proofs' :
  [/\ size coms = size idx, size cells = size idx & size proofs = size idx] ->
  [/\ size coms' = size idx', size cells' = size idx' & size proofs' = size idx'] ->
  call_types coms cells proofs -> call_types coms' cells' proofs' ->
  (N.of_nat (size idx) < 2 ^ 64)%num -> (N.of_nat (size idx') < 2 ^ 64)%num ->
  all (fun i => i <? 2 ^ 64)%num idx -> all (fun i => i <? 2 ^ 64)%num idx' ->
  batch_transcript coms idx cells proofs = batch_transcript coms' idx' cells' proofs' ->
  [/\ coms = coms', idx = idx', cells = cells' & proofs = proofs'].
Proof. exact: batch_transcript_inj. Qed.
Print Assumptions C10_honest_verifies.
Print Assumptions C11_batch.
Print Assumptions C12_single.
Print Assumptions C12_unique_proof.
Print Assumptions C13_few_challenges.
Print Assumptions C14_lengths.
Print Assumptions C14_range.
Print Assumptions C14_empty.
Print Assumptions C14_commitment.
Print Assumptions C14_proof.
Print Assumptions C14_chunk.
Print Assumptions C14_only.
Print Assumptions C14_never_commitment_index.
Print Assumptions C15_deduplicate.
Print Assumptions C15_order.
Print Assumptions C16_injective.
Print Assumptions C17_invalid_proof.
Print Assumptions C17_others.
Print Assumptions C18_no_panic.
Print Assumptions C18_context.
Print Assumptions C19_recovered_verifies.
Print Assumptions C19_blob_commitment.
