(** The verification call in terms of polynomials and pairings. *)

From Coq Require Import NArith Init.Byte Strings.Byte.
From mathcomp Require Import ssreflect ssrfun ssrbool eqtype ssrnat seq div prime fintype bigop.
From mathcomp Require Import ssralg poly polydiv zify_ssreflect.
From Verif Require Import Base Bytes Spec SpecKZG SpecDAS BitRev BitRevProofs FFT FFTProofs.
From Verif Require Import Domain DomainProofs PolyCoeff PolyCoeffProofs ReedSolomon.
From Verif Require Import ReedSolomonProofs Lincomb LincombProofs FixedBaseMSM Cosets CosetsProofs.
From Verif Require Import Toeplitz ToeplitzProofs FK20Prover FK20ProverProofs FK20Verifier.
From Verif Require Import FK20VerifierProofs VerifierSoundness TranscriptProofs.
From Verif Require Import Eip7594 Eip7594Proofs ApiProofs ApiRecoveryProofs.

Set Implicit Arguments.
Unset Strict Implicit.
Unset Printing Implicit Defensive.

Import GRing.Theory.
Local Open Scope ring_scope.

(** ** Deduplication *)
Section Dedup.
Variable T : eqType.

Definition first_occurrences (s : seq T) : seq T := rev (undup (rev s)).

Lemma first_occurrences_rcons s x : first_occurrences (rcons s x) =
  if x \in s then first_occurrences s else rcons (first_occurrences s) x.
Proof.
rewrite /first_occurrences rev_rcons /= mem_rev; case: ifP => // _.
by rewrite rev_cons.
Qed.

Lemma first_occurrences_filter (P : pred T) s :
  [seq x <- first_occurrences s | P x] = first_occurrences [seq x <- s | P x].
Proof. by rewrite /first_occurrences filter_rev filter_undup filter_rev. Qed.

Lemma first_occurrences_cons x s : exists s', first_occurrences (x :: s) = x :: s'.
Proof. by rewrite /first_occurrences rev_cons undup_rcons rev_rcons; eexists. Qed.

Lemma mem_first_occurrences s : first_occurrences s =i s.
Proof. by move=> x; rewrite mem_rev mem_undup mem_rev. Qed.

Lemma deduplicateE (s : seq T) : deduplicate_with_indices s =
  (first_occurrences s, [seq N.of_nat (index x (first_occurrences s)) | x <- s]).
Proof.
rewrite /deduplicate_with_indices.
match goal with |- context [foldl ?f] => set step := f end.
set st := foldl _ _ _.
suff [-> [-> _]] : dd_unique_items st = first_occurrences s /\
   dd_indices st = [seq N.of_nat (index x (first_occurrences s)) | x <- s] /\
   forall x, [seq kv.2 | kv <- dd_index_map st & kv.1 == x] =
     if x \in s then [:: index x (first_occurrences s)] else [::] by [].
rewrite /st; elim/last_ind: s {st} => [|s x [IHu [IHi IHm]]] //.
rewrite foldl_rcons; move: (foldl _ _ s) IHu IHi IHm => st IHu IHi IHm.
rewrite /step IHm first_occurrences_rcons; case: (boolP (x \in s)) => Hx /=.
  rewrite IHi IHu map_rcons; split=> //; split=> // y; rewrite mem_rcons inE IHm.
  by case: eqP => // ->; rewrite Hx.
rewrite IHu IHi; split=> //.
have Hnot : x \notin first_occurrences s by rewrite mem_first_occurrences.
have Ei y : y \in s -> index y (rcons (first_occurrences s) x) = index y (first_occurrences s).
  by move=> Hy; rewrite -cats1 index_cat mem_first_occurrences Hy.
have Ex : index x (rcons (first_occurrences s) x) = size (first_occurrences s).
  by rewrite -cats1 index_cat (negbTE Hnot) /= eqxx addn0.
split.
  rewrite map_rcons Ex; congr (rcons _ _); apply/eq_in_map => y Hy; by rewrite Ei.
move=> y; rewrite mem_rcons inE eq_sym; case: (y =P x) => [->|ne] /=.
  by rewrite IHm (negbTE Hx) Ex.
by rewrite IHm; case: ifP => // Hy; rewrite Ei.
Qed.

End Dedup.

(** ** Decoding points *)
Section Points.
Variables (F : fieldType) (G1 G2 GT : lmodType F) (env : das_env G1 G2 GT).
Local Notation fromc := (de_g1_from_compressed env).

Lemma pointsE (pts : seq (seq byte)) : all (fun x => size x == 48%N) pts ->
  deserialize_compressed_g1_points env pts =
  match [seq x <- pts | ~~ isSome (fromc x)] with
  | [::] => Ok [seq odflt 0 (fromc x) | x <- pts]
  | x :: _ => Err (CouldNotDeserializeG1Point x)
  end.
Proof.
rewrite /deserialize_compressed_g1_points; elim: pts => [|x pts IH] //= /andP[Sx Sp].
rewrite {1}/deserialize_compressed_g1 Sx /=; case: (fromc x) => [P|] //=.
by rewrite IH //; case: [seq _ <- pts | _].
Qed.

(** The first element of the filter, by position. *)
Lemma filter_first (T : Type) (P : pred T) x0 (s : seq T) i : (i < size s)%N -> P (nth x0 s i) ->
  (forall j, (j < i)%N -> ~~ P (nth x0 s j)) -> exists s', [seq x <- s | P x] = nth x0 s i :: s'.
Proof.
move=> Hi Pi Hj; have := filter_head P x0 s.
case: [seq _ <- s | _] => [|x s' [i' Hi' [-> Pi' Hj']]].
  by move=> /(_ i Hi); rewrite Pi.
exists s'; congr (nth x0 s _ :: s'); case: (ltngtP i' i) => // H.
  by move: (Hj i' H); rewrite Pi'.
by move: (Hj' i H); rewrite Pi.
Qed.

Lemma filter_none (T : Type) (P : pred T) x0 (s : seq T) :
  (forall i, (i < size s)%N -> ~~ P (nth x0 s i)) -> [seq x <- s | P x] = [::].
Proof.
move=> H; have := filter_head P x0 s.
by case: [seq _ <- s | _] => // x s' [i Hi [-> Pi _]]; move: (H i Hi); rewrite Pi.
Qed.
End Points.

Lemma nleb_of_nat a b : (a < b)%N -> ~~ N.leb (N.of_nat b) (N.of_nat a).
Proof. by move=> Hab; apply/N.leb_spec0; lia. Qed.

Section VerifyCall.
Variables (F : fieldType) (G1 G2 GT : lmodType F) (fp : fparams F) (ok : fp_ok fp).
Variables (env : das_env G1 G2 GT) (eok : env_ok env).
Variables (l c e : nat).
Hypothesis Had : (l + c + e <= fp_adicity fp)%N.
Hypothesis H32 : (l + c + e < 32)%N.

Local Notation K := (MkConsts (2 ^ l) (2 ^ (l + c)) (2 ^ e)).
Local Notation L := (2 ^ l)%N.
Local Notation N := (2 ^ (l + c))%N.
Local Notation n := (l + c + e)%N.
Local Notation m := (c + e)%N.
Local Notation w := (omega fp n).
Local Notation tob := (te_scalar_to_bytes_be (de_te env)).
Local Notation ofb := (de_scalar_from_bytes_be env).
Local Notation comp := (te_g1_to_compressed (de_te env)).
Local Notation fromc := (de_g1_from_compressed env).

Variables (g1s : seq G1) (g2s : seq G2).
Hypothesis Sg1 : size g1s = N.
Hypothesis Sg2 : (L < size g2s)%N.
Hypothesis Sg2' : (size g2s <= N)%N.
Variables (bt : batch_toeplitz G1).
Local Notation ctx := (mkctx fp l c e g1s g2s bt).

Let Hn : n = (l + m)%N.
Proof. by rewrite addnA. Qed.

Variables (coms : seq (seq byte)) (idx : seq BinNums.N) (cells proofs : seq (seq byte)).
Hypothesis Scom : all (fun x => size x == 48%N) coms.
Hypothesis Scell : all (fun x => size x == (L * 32)%N) cells.
Hypothesis Sproof : all (fun x => size x == 48%N) proofs.
Local Notation V := (verify_cell_kzg_proof_batch env K ctx coms idx cells proofs).
Local Notation max := (2 ^ N.of_nat m)%num.
Local Notation in_range := (index_lt m).
Local Notation u := (first_occurrences coms).
Local Notation ri := ([seq N.of_nat (index x u) | x <- coms]).

Definition same_lengths : bool :=
  [&& size idx == size coms, size cells == size coms & size proofs == size coms].

Lemma verify_len : ~~ same_lengths ->
  V = Ret (Err (EVerifier (BatchVerificationInputsMustHaveSameLength (size coms) (size idx)
                             (size cells) (size proofs)))).
Proof.
move=> ne; rewrite /verify_cell_kzg_proof_batch deduplicateE /validate_verify size_map.
move: ne; rewrite /same_lengths ![size _ == size coms]eq_sym andbA => ne.
by rewrite ne.
Qed.

Lemma no_bad_commitment :
  [seq i <- ri | N.leb (N.of_nat (size u)) i] = [::].
Proof.
apply: (@filter_none _ _ 0%num) => t; rewrite size_map => Ht.
rewrite (nth_map [::]) //; apply: nleb_of_nat.
by rewrite index_mem mem_first_occurrences mem_nth.
Qed.

Lemma verify_range i : same_lengths -> (i < size idx)%N ->
  ~~ in_range (nth 0%num idx i) -> (forall j, (j < i)%N -> in_range (nth 0%num idx j)) ->
  V = Ret (Err (EVerifier (VerifierCellIndexOutOfRange (nth 0%num idx i) max))).
Proof.
move=> Hl Hi Bi Gi; rewrite /verify_cell_kzg_proof_batch deduplicateE /validate_verify size_map.
move: Hl; rewrite /same_lengths ![size _ == size coms]eq_sym andbA => -> /=.
rewrite no_bad_commitment CELLSE of_nat_exp2.
have [||s ->] := @filter_first _ (N.leb max) 0%num idx i Hi => //.
- by rewrite /index_lt N.ltb_antisym negbK in Bi.
by move=> j Hj; have := Gi j Hj; rewrite /index_lt N.ltb_antisym.
Qed.

(** The input passes the checks on its shape. *)
Definition verify_shape : Prop := same_lengths /\ all in_range idx.
Hypothesis shape : verify_shape.

Lemma verify_shapeE :
  V = if nilp cells then Ret (Ok tt) else
      rlet row_commitments :=
        rlift ESerialization (Ret (deserialize_compressed_g1_points env u)) in
      rlet proofs := rlift ESerialization (Ret (deserialize_compressed_g1_points env proofs)) in
      rlet coset_evals := rlift ESerialization (deserialize_cells env cells) in
      rlift (fun e => EVerifier (VerifierFK20 e))
        (verify_multi_opening (de_pair env) (de_te env) (dc_verifier_ctx ctx) row_commitments ri
          idx coset_evals proofs).
Proof.
case: shape => Hl Hr.
rewrite /verify_cell_kzg_proof_batch deduplicateE /validate_verify size_map.
move: Hl; rewrite /same_lengths ![size _ == size coms]eq_sym andbA => -> /=.
rewrite no_bad_commitment CELLSE of_nat_exp2 (@filter_none _ _ 0%num) // => i Hi.
by have := all_nthP 0%num Hr i Hi; rewrite /index_lt N.ltb_antisym.
Qed.

Lemma verify_empty : coms = [::] -> V = Ret (Ok tt).
Proof.
move=> E; rewrite verify_shapeE; case: shape => /and3P[_ Sc _] _.
by rewrite /nilp (eqP Sc) E.
Qed.

Lemma not_empty i : (i < size coms)%N -> nilp cells = false.
Proof. by case: shape => /and3P[_ /eqP Sc _] _ Hi; rewrite /nilp Sc; case: (size coms) Hi. Qed.

(** The first commitment that does not decode. *)
Lemma verify_bad_commitment i : (i < size coms)%N -> fromc (nth [::] coms i) = None ->
  (forall j, (j < i)%N -> isSome (fromc (nth [::] coms j))) ->
  V = Ret (Err (ESerialization (CouldNotDeserializeG1Point (nth [::] coms i)))).
Proof.
move=> Hi Bi Gi; rewrite verify_shapeE (not_empty Hi).
rewrite pointsE; last by apply/allP => x; rewrite mem_first_occurrences; exact: (allP Scom).
rewrite first_occurrences_filter.
have [||s ->] := @filter_first _ (fun x => ~~ isSome (fromc x)) [::] coms i Hi.
- by rewrite Bi.
- by move=> j Hj; rewrite Gi.
by have [s' ->] := first_occurrences_cons (nth [::] coms i) s.
Qed.

Hypothesis Gcom : forall t, (t < size coms)%N -> isSome (fromc (nth [::] coms t)).

Lemma row_commitmentsE : deserialize_compressed_g1_points env u = Ok [seq odflt 0 (fromc x) | x <- u].
Proof.
rewrite pointsE; last by apply/allP => x; rewrite mem_first_occurrences; exact: (allP Scom).
rewrite first_occurrences_filter (@filter_none _ _ [::]) // => t Ht.
by rewrite negbK Gcom.
Qed.

Lemma verify_bad_proof i : (i < size proofs)%N -> fromc (nth [::] proofs i) = None ->
  (forall j, (j < i)%N -> isSome (fromc (nth [::] proofs j))) ->
  V = Ret (Err (ESerialization (CouldNotDeserializeG1Point (nth [::] proofs i)))).
Proof.
move=> Hi Bi Gi; rewrite verify_shapeE.
rewrite (@not_empty i); last by case: shape => /and3P[_ _ /eqP<-].
rewrite row_commitmentsE /= pointsE //.
have [||s ->] := @filter_first _ (fun x => ~~ isSome (fromc x)) [::] proofs i Hi => //.
- by rewrite Bi.
- by move=> j Hj; rewrite Gi.
Qed.

Hypothesis Gproof : forall t, (t < size proofs)%N -> isSome (fromc (nth [::] proofs t)).

Lemma proofsE : deserialize_compressed_g1_points env proofs = Ok [seq odflt 0 (fromc x) | x <- proofs].
Proof. by rewrite pointsE // (@filter_none _ _ [::]) // => t Ht; rewrite negbK Gproof. Qed.

Lemma verify_bad_chunk t i :
  (t < size cells)%N -> (i < L)%N -> ~~ chunk_ok env (nth [::] cells t) i ->
  (forall j, (j < i)%N -> chunk_ok env (nth [::] cells t) j) ->
  (forall t' j, (t' < t)%N -> (j < L)%N -> chunk_ok env (nth [::] cells t') j) ->
  V = Ret (Err (ESerialization (CouldNotDeserializeScalar (chunk (nth [::] cells t) i)))).
Proof.
move=> Ht Hi Bi Gi Gt; rewrite verify_shapeE.
rewrite (@not_empty t); last by case: shape => /and3P[_ /eqP<-].
rewrite row_commitmentsE /= proofsE /=.
case: (cells_cases eok Scell) => [[evals _ [Se Sev He]]|[t' [i' [[Ht' Hi' Bi' Gi' Gt'] ->]]]].
  case/negP: Bi; apply: (chunk_ok_encodes eok (He t Ht)).
  by rewrite (eqP (all_nthP [::] Sev t _)) // Se.
have Et : t = t'.
  case: (ltngtP t t') => // H; first by move: (Gt' t i H Hi); rewrite (negbTE Bi).
  by move: (Gt t' i' H Hi'); rewrite (negbTE Bi').
rewrite -{}Et in Bi' Gi' Gt' Ht' *.
have -> // : i = i'.
case: (ltngtP i i') => // H; first by move: (Gi' i H); rewrite (negbTE Bi).
by move: (Gi i' H); rewrite (negbTE Bi').
Qed.

(** Everything decodes. *)
Variables (C P : nat -> G1) (I : nat -> {poly F}).
Local Notation B := (size coms).
Local Notation ki t := (N.to_nat (nth 0%num idx t)).
Hypothesis HC : forall t, (t < B)%N -> fromc (nth [::] coms t) = Some (C t).
Hypothesis HP : forall t, (t < B)%N -> fromc (nth [::] proofs t) = Some (P t).
Hypothesis SI : forall t, (t < B)%N -> (size (I t) <= L)%N.
Hypothesis HI : forall t j, (t < B)%N -> (j < L)%N ->
  tob (I t).[cell_point w n l (ki t) j] = chunk (nth [::] cells t) j.

Definition call_transcript (evals : seq (seq F)) : seq byte :=
  transcript_bytes (de_te env) l N [seq odflt 0 (fromc x) | x <- u] ri idx evals
    [seq odflt 0 (fromc x) | x <- proofs].

Lemma verify_decoded : exists evals,
  deserialize_cells env cells = Ret (Ok evals) /\
  let r := te_reduce_bytes_to_scalar_bias (de_te env) (te_sha256 (de_te env) (call_transcript evals)) in
  V = Ret (if (\sum_(t < B) r ^+ t *:
               opening_defect (de_pair env) g2s`_0 g2s`_L (coset_rep w m (ki t) ^+ L)
                 (C t) (commit g1s (I t)) (P t) == 0)
           then Ok tt else Err (EVerifier (VerifierFK20 InvalidProof))).
Proof.
case: (shape) => /and3P[/eqP Si /eqP Sc /eqP Sp] Hr.
case: (cells_cases eok Scell) => [[evals Ev [Se Sev He]]|[t [j [[Ht Hj Bj _ _] _]]]]; last first.
  by case/negP: Bj; rewrite /chunk_ok -HI -?Sc // (ofb_tob eok).
exists evals; split=> //; cbv zeta; rewrite verify_shapeE.
case: (posnP B) => HB.
  rewrite /nilp Sc HB eqxx big1 ?eqxx // => -[t Ht] _; by exfalso; move: Ht; rewrite ?HB.
rewrite (not_empty HB) row_commitmentsE /= proofsE /= Ev /=.
rewrite /call_transcript; set rc := [seq _ | x <- u]; set ps := [seq _ | x <- proofs].
have Sps : size ps = B by rewrite size_map.
have Sg : (L <= size (vk_points g1s g2s))%N by rewrite (size_vk_points Sg1 Sg2') ltnW.
have Hri : all (fun i => (N.to_nat i < size rc)%N) ri.
  apply/allP => i /mapP[x Hx ->]; rewrite Nat2N.id size_map index_mem.
  by rewrite mem_first_occurrences.
have Hid : all (fun k => (N.to_nat k < 2 ^ m)%N) idx.
  by rewrite -(eq_all (index_ltE m)).
have Sri : size ri = size ps by rewrite size_map Sps.
have Sid : size idx = size ps by rewrite Si.
have See : size evals = size ps by rewrite Se Sc.
have SI' t : (t < size ps)%N -> (size (I t) <= L)%N by rewrite Sps; exact: SI.
have HI' t : (t < size ps)%N -> agrees_on_cell w n l (ki t) (nth [::] evals t) (I t).
  rewrite Sps => Ht j Hj; apply: (tob_inj eok); rewrite HI // He ?Sc //.
  by rewrite (eqP (all_nthP [::] Sev t _)) // Se Sc.
rewrite (@verify_multi_openingE _ G1 G2 GT fp ok (de_pair env) (de_te env) (eo_bil eok) n l m Hn
   Had H32 (vk_points g1s g2s) g2s N Sg rc ri idx evals ps Sri Sid See Hri Hid Sev
   (eo_scalar_size eok) (eo_g1_size eok) I SI' HI').
rewrite /rlift /= Sps; set r := te_reduce_bytes_to_scalar_bias _ _.
set s1 := \sum_(t < B) _; set s2 := \sum_(t < B) _.
have -> : s1 = s2; last by case: eqP.
apply: eq_bigr => t _; congr (_ *: opening_defect _ _ _ _ _ _ _).
- rewrite (nth_map [::]) // Nat2N.id.
  have Hin : nth [::] coms t \in u by rewrite mem_first_occurrences mem_nth.
  by rewrite (nth_map [::]) ?index_mem // nth_index // HC.
- rewrite !(@commit_wide _ _ L) ?SI //; apply: eq_bigr => i _; congr (_ *: _).
  by rewrite nth_take // (leq_trans (ltn_ord i)) // ltnW.
by rewrite (nth_map [::]) ?Sp // HP.
Qed.

End VerifyCall.
