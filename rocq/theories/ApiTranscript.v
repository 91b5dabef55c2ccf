(** The transcript of a verification call in terms of the bytes of the call. *)

From Coq Require Import ZArith NArith Init.Byte Strings.Byte.
From mathcomp Require Import ssreflect ssrfun ssrbool eqtype ssrnat seq div fintype bigop.
From mathcomp Require Import ssralg poly zify_ssreflect.
From Verif Require Import Base Bytes Spec SpecKZG SpecDAS FixedBaseMSM.
From Verif Require Import FK20Verifier FK20VerifierProofs TranscriptProofs.
From Verif Require Import Eip7594 Eip7594Proofs ApiRecoveryProofs ApiVerifyProofs ApiEip.
From Verif Require Import ZField FrPrime Fr SpecFr FrEnv SpecVerify.

Set Implicit Arguments.
Unset Strict Implicit.
Unset Printing Implicit Defensive.

Import GRing.Theory.
Local Open Scope ring_scope.
Local Opaque w8192 w4096.

Section Transcript.
Variables (G1 G2 GT : lmodType Fr) (env : das_env G1 G2 GT).
Hypothesis std : env_std env.
Variables (coms : seq (seq byte)) (idx : seq N) (cells proofs : seq (seq byte)).
Hypothesis Scom : all_size 48 coms.
Hypothesis Scell : all_size 2048 cells.
Hypothesis Sproof : all_size 48 proofs.
Hypothesis shape : eip_verify_shape coms idx cells proofs.
Hypothesis Gc : all (decodable env) coms.
Hypothesis Gp : all (decodable env) proofs.
Local Notation fromc := (de_g1_from_compressed env).
Local Notation comp := (te_g1_to_compressed (de_te env)).

Lemma comp_fromc b : size b = 48%N -> decodable env b -> comp (odflt 0 (fromc b)) = b.
Proof.
move=> Sb; rewrite /decodable; case E: (fromc b) => [P|] // _.
by apply/(es_g1_from std).
Qed.

Lemma map_comp_fromc s : all_size 48 s -> all (decodable env) s ->
  [seq comp c | c <- [seq odflt 0 (fromc x) | x <- s]] = s.
Proof.
move=> /allP Ss /allP Ds; rewrite -map_comp -[RHS]map_id; apply/eq_in_map => x Hx /=.
by rewrite comp_fromc ?(eqP (Ss x Hx)) //; exact: Ds.
Qed.

Lemma call_transcriptE evals : deserialize_cells env cells = Ret (Ok evals) ->
  call_transcript env 6 6 coms idx proofs evals = batch_transcript coms idx cells proofs.
Proof.
have [Si Sc Sp _] := shape; have eok := env_std_ok std.
move=> Ev; have [Se He] : size evals = size cells /\ forall t, (t < size cells)%N ->
    flatten [seq te_scalar_to_bytes_be (de_te env) x | x <- nth [::] evals t] = nth [::] cells t.
  case: (@cells_cases _ _ _ _ env eok 6 cells Scell) => [[ev Ev' [Se Sev He]]|[t [i [_ E]]]]; last first.
    by rewrite E in Ev.
  rewrite Ev in Ev'; case: Ev' => E; rewrite E; split=> // t Hlt.
  apply/esym/(encodes_flatten eok); last exact: He.
  have -> : size (nth [::] ev t) = 64%N by apply/eqP; apply: (all_nthP [::] Sev); rewrite Se.
  exact: (eqP (all_nthP [::] Scell t Hlt)).
have Sd : all_size 48 (distinct coms).
  by apply/allP => x; rewrite mem_first_occurrences; exact: (allP Scom).
have Dd : all (decodable env) (distinct coms).
  by apply/allP => x; rewrite mem_first_occurrences; exact: (allP Gc).
rewrite /call_transcript /transcript_bytes /header_bytes /batch_transcript -!catA.
rewrite -/(distinct coms) (map_comp_fromc Sd Dd) !size_map Sp -Si.
do 6! congr (_ ++ _); congr flatten; apply/eq_in_map => t; rewrite mem_iota add0n => /andP[_ Hlt].
rewrite /opening_bytes He; last by rewrite Sc -Si.
rewrite (nth_map [::]); last by rewrite Sp -Si.
rewrite (nth_map [::]); last by rewrite -Si.
rewrite comp_fromc //; first by apply/eqP; apply: (all_nthP [::] Sproof); rewrite Sp -Si.
by apply: (all_nthP [::] Gp); rewrite Sp -Si.
Qed.
End Transcript.

(** Equal transcripts come from equal calls. *)
Lemma distinct_index (T : eqType) (x0 : T) (s s' : seq T) : size s = size s' -> distinct s = distinct s' ->
  (forall t, (t < size s)%N -> index (nth x0 s t) (distinct s) = index (nth x0 s' t) (distinct s')) ->
  s = s'.
Proof.
move=> S E H; apply: (@eq_from_nth _ x0) => // t Ht.
have Hin : nth x0 s t \in distinct s by rewrite mem_first_occurrences mem_nth.
have Hin' : nth x0 s' t \in distinct s' by rewrite mem_first_occurrences mem_nth -?S.
by rewrite -(nth_index x0 Hin) -(nth_index x0 Hin') -E H // E.
Qed.

Lemma size_distinct (T : eqType) (s : seq T) : (size (distinct s) <= size s)%N.
Proof. by rewrite size_rev (leq_trans (size_undup _)) ?size_rev. Qed.

Lemma flatten_all_size_inj n (s t : seq (seq byte)) : all_size n s -> all_size n t -> size s = size t ->
  flatten s = flatten t -> s = t.
Proof.
elim: s t => [|x s IH] [|y t] //= /andP[/eqP Sx Ss] /andP[/eqP Sy St] [S].
by case/cat_inj; rewrite ?Sx ?Sy // => -> /(IH _ Ss St S)->.
Qed.

Lemma lt_u64 a b : (a <= b)%N -> (N.of_nat b < 2 ^ 64)%num -> (N.of_nat a < 256 ^ N.of_nat 8)%num.
Proof. by move: (2 ^ 64)%num (256 ^ _)%num (erefl : (2 ^ 64 = 256 ^ N.of_nat 8)%num) => p q ->; lia. Qed.

Lemma batch_transcript_inj coms idx cells proofs coms' idx' cells' proofs' :
  [/\ size coms = size idx, size cells = size idx & size proofs = size idx] ->
  [/\ size coms' = size idx', size cells' = size idx' & size proofs' = size idx'] ->
  [/\ all_size 48 coms, all_size 2048 cells & all_size 48 proofs] ->
  [/\ all_size 48 coms', all_size 2048 cells' & all_size 48 proofs'] ->
  (N.of_nat (size idx) < 2 ^ 64)%num -> (N.of_nat (size idx') < 2 ^ 64)%num ->
  all (fun i => i <? 2 ^ 64)%num idx -> all (fun i => i <? 2 ^ 64)%num idx' ->
  batch_transcript coms idx cells proofs = batch_transcript coms' idx' cells' proofs' ->
  [/\ coms = coms', idx = idx', cells = cells' & proofs = proofs'].
Proof.
move=> [A1 A2 A3] [A1' A2' A3'] [B1 B2 B3] [B1' B2' B3'] Hn Hn' Hi Hi'.
have Dn : (size (distinct coms) <= size idx)%N by rewrite -A1 size_distinct.
have Dn' : (size (distinct coms') <= size idx')%N by rewrite -A1' size_distinct.
rewrite /batch_transcript.
case/cat_inj; first exact: erefl; move=> _.
case/cat_inj; first by rewrite !size_be_bytes.
move=> _; case/cat_inj; first by rewrite !size_be_bytes.
move=> _; case/cat_inj; first by rewrite !size_be_bytes.
move=> /be_bytes_inj; move=> /(_ (lt_u64 Dn Hn) (lt_u64 Dn' Hn'))/Nat2N.inj Ed.
case/cat_inj; first by rewrite !size_be_bytes.
move=> /be_bytes_inj; move=> /(_ (lt_u64 (leqnn _) Hn) (lt_u64 (leqnn _) Hn'))/Nat2N.inj Ei.
have Sd s : all_size 48 s -> all_size 48 (distinct s).
  by move=> /allP H; apply/allP => x; rewrite mem_first_occurrences; exact: H.
have Sf s : all_size 48 s -> size (flatten s) = (size s * 48)%N.
  by elim: s => [|x s IH] //= /andP[/eqP Sx /IH Ss]; rewrite size_cat Sx Ss mulSn.
case/cat_inj; first by rewrite !Sf ?Sd // Ed.
move=> /flatten_all_size_inj; move=> /(_ _ (Sd _ B1) (Sd _ B1') Ed) Edist.
rewrite Ei => /flatten_mkseq_inj H.
have {}H t : (t < size idx')%N ->
   [/\ index (nth [::] coms t) (distinct coms) = index (nth [::] coms' t) (distinct coms'),
       nth 0%num idx t = nth 0%num idx' t, nth [::] cells t = nth [::] cells' t &
       nth [::] proofs t = nth [::] proofs' t].
  have Sz n s x : all_size n s -> (x < size s)%N -> size (nth [::] s x) = n.
    by move=> H1 H2; apply/eqP; exact: (all_nthP [::] H1).
  have Su t' : (t' < size idx')%N -> size (be_bytes 8 (N.of_nat (index (nth [::] coms t') (distinct coms)))
     ++ be_bytes 8 (nth 0%num idx t') ++ nth [::] cells t' ++ nth [::] proofs t') = 2112%N.
    by move=> Hu; rewrite !size_cat !size_be_bytes (Sz 2048%N) ?(Sz 48%N) ?A2 ?A3 ?Ei.
  have Su' t' : (t' < size idx')%N -> size (be_bytes 8 (N.of_nat (index (nth [::] coms' t') (distinct coms')))
     ++ be_bytes 8 (nth 0%num idx' t') ++ nth [::] cells' t' ++ nth [::] proofs' t') = 2112%N.
    by move=> Hu; rewrite !size_cat !size_be_bytes (Sz 2048%N) ?(Sz 48%N) ?A2' ?A3'.
  move=> Ht; have E := H _ Su Su' t Ht.
  have [E1 E2] := cat_inj (etrans (size_be_bytes _ _) (esym (size_be_bytes _ _))) E.
  have [E3 E4] := cat_inj (etrans (size_be_bytes _ _) (esym (size_be_bytes _ _))) E2.
  have Ix s x : size s = size idx' -> (index (nth [::] s x) (distinct s) <= size idx')%N.
    move=> Es; rewrite -Es; apply: leq_trans (index_size _ _) _; exact: size_distinct.
  have [E5 E6] : nth [::] cells t = nth [::] cells' t /\ nth [::] proofs t = nth [::] proofs' t.
    by apply: cat_inj E4; rewrite !(Sz 2048%N) ?A2 ?A2' ?Ei.
  have U s : all (fun i => i <? 2 ^ 64)%num s -> (t < size s)%N ->
      (nth 0%num s t < 256 ^ N.of_nat 8)%num.
    by move=> H1 H2; apply/N.ltb_spec0; exact: (all_nthP 0%num H1 t H2).
  split=> //; last by apply: be_bytes_inj E3; apply: U; rewrite ?Ei.
  apply: Nat2N.inj; apply: be_bytes_inj E1; apply: lt_u64 Hn'; apply: Ix; rewrite ?A1 ?A1' ?Ei //.
split.
- by apply: (distinct_index (x0 := [::])); rewrite ?A1 ?A1' ?Ei // => t /H[].
- by apply: (@eq_from_nth _ 0%num) => // t; rewrite Ei => /H[].
- by apply: (@eq_from_nth _ [::]); rewrite ?A2 ?A2' ?Ei // => t /H[].
by apply: (@eq_from_nth _ [::]); rewrite ?A3 ?A3' ?Ei // => t /H[].
Qed.
