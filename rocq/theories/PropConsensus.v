(** C51: the four calls against the reference functions of the consensus specification
    (SpecConsensus.v), at the constants of EIP-7594 over the BLS12-381 scalar field. *)

From Coq Require Import ZArith NArith Init.Byte Strings.Byte.
From mathcomp Require Import ssreflect ssrfun ssrbool eqtype ssrnat seq div fintype bigop.
From mathcomp Require Import ssralg poly polydiv.
From Verif Require Import Base Bytes Spec SpecKZG SpecDAS FixedBaseMSM LincombProofs FK20ProverProofs.
From Verif Require Import FK20Verifier Eip7594 Eip7594Proofs ApiVerifyProofs ApiEip ReedSolomon.
From Verif Require Import ZField FrPrime Fr SpecFr FrEnv SpecVerify PropProver PropRecover PropVerify.
From Verif Require Import SpecConsensus ConsensusProofs ConsensusApi.
From mathcomp Require Import zify_ssreflect.

Set Implicit Arguments.
Unset Strict Implicit.
Unset Printing Implicit Defensive.

Import GRing.Theory.
Local Open Scope ring_scope.
Local Opaque w8192 w4096.

(** The value of a call: None for an error. *)
Definition ok_value (T E : Type) (r : result T E) : option T := if r is Ok x then Some x else None.

(** The answer of a verification: true for Ok, false for the error "invalid proof", None for any
    other error. *)
Definition verdict (r : result unit error) : option bool :=
  match r with
  | Ok _ => Some true
  | Err e => if invalid_proof e then Some false else None
  end.

(** lag is the setup in Lagrange form: point i commits to the polynomial of degree below 4096 that
    is 1 at the i-th 4096th root of unity and 0 at the others. *)
Definition lagrange_setup (V : lmodType Fr) (g1s lag : seq V) : Prop :=
  size lag = (2 ^ 12)%N /\
  forall i (f : {poly Fr}), (i < 2 ^ 12)%N -> (size f <= 2 ^ 12)%N ->
    (forall j, (j < 2 ^ 12)%N -> f.[w4096 ^+ j] = (i == j)%:R) -> lag`_i = commit g1s f.

(** The list of cells has the given cells at the given indices. *)
Definition has_cells (all_cells : seq (seq byte)) (idx : seq N) (cells : seq (seq byte)) : bool :=
  all (fun ic => nth [::] all_cells (N.to_nat ic.1) == ic.2) (zip idx cells).

Section Consensus.
Variables (G1 G2 GT : lmodType Fr) (env : das_env G1 G2 GT).
Hypothesis std : env_std env.
Variables (g1s : seq G1) (g2s : seq G2) (ctx : das_context G1 G2).
Hypothesis S1 : size g1s = (2 ^ 12)%N.
Hypothesis S2 : size g2s = 65%N.
Hypothesis Hctx : das_context_new fr_params eip7594_consts g1s g2s PrecompNo = Ret ctx.
Local Notation compute := (compute_cells_and_kzg_proofs env eip7594_consts ctx).
Local Notation commitment := (blob_to_kzg_commitment env eip7594_consts ctx).
Local Notation recover := (recover_cells_and_kzg_proofs env eip7594_consts ctx).
Local Notation verify := (verify_cell_kzg_proof_batch env eip7594_consts ctx).
Local Notation compress := (te_g1_to_compressed (de_te env)).
Local Notation decompress := (de_g1_from_compressed env).
Local Notation hash b := (te_reduce_bytes_to_scalar_bias (de_te env) (te_sha256 (de_te env) b)).

Let Ht : tables_ok env g1s PrecompNo := @no_tables _ _ _ env g1s.

Lemma omap_Some (A B : Type) (f : A -> B) x : ssrfun.Option.map f (Some x) = Some (f x). Proof. by []. Qed.
Lemma obind_Some (A B : Type) (f : A -> option B) x : ssrfun.Option.bind f (Some x) = f x. Proof. by []. Qed.

Lemma blob_elements blob f : blob_polynomial blob f ->
  bytes_to_field_elements (2 ^ 12) blob = Some (mkseq (fun i => f.[w4096 ^+ bitrev 12 i]) (2 ^ 12)).
Proof. by case=> _ H; apply: bytes_to_field_elements_some; exact: H. Qed.

Lemma blob_size (blob : seq byte) : size blob = (2 ^ 17)%N -> (size blob != (2 ^ 12 * 32)%N) = false.
Proof. by move=> ->; rewrite blob_bytesE eqxx. Qed.

Theorem C51_compute blob : size blob = (2 ^ 17)%N ->
  exists2 res, compute blob = Ret res &
    ok_value res = ref_compute_cells_and_kzg_proofs g1s compress blob.
Proof.
move=> Sb; rewrite /ref_compute_cells_and_kzg_proofs (blob_size Sb).
case: (compute_cases std S1 S2 Hctx Sb) => [[f Hf [/(_ Ht) -> _]]|[i [Hi Bi _] [-> _]]].
  eexists; first reflexivity.
  rewrite (blob_elements Hf) omap_Some; have [Sf _] := Hf.
  by rewrite (polynomial_eval_to_coeffE Sf) (ref_cells_coef env S1 Sf).
eexists; first reflexivity.
by rewrite (bytes_to_field_elements_none Hi Bi).
Qed.

Theorem C51_commitment lag blob : lagrange_setup g1s lag -> size blob = (2 ^ 17)%N ->
  exists2 res, commitment blob = Ret res &
    ok_value res = ref_blob_to_kzg_commitment lag compress blob.
Proof.
move=> [Sl Hl] Sb; rewrite /ref_blob_to_kzg_commitment (blob_size Sb).
case: (compute_cases std S1 S2 Hctx Sb) => [[f Hf [_ ->]]|[i [Hi Bi _] [_ ->]]].
  eexists; first reflexivity.
  rewrite (blob_elements Hf) omap_Some; have [Sf _] := Hf.
  by rewrite (@lagrange_commit Fr G1 12 w4096 (pow_half_one w4096_half) (fun=> w4096_half) two_Fr g1s lag f Sl Hl Sf).
eexists; first reflexivity.
by rewrite (bytes_to_field_elements_none Hi Bi).
Qed.

(** ** Recovery *)
Lemma canonical_fr_be x : canonical (fr_be x).
Proof.
rewrite -canonicalE -/(scalar_to_bytes_be x).
by rewrite ((scalar_from_some _ _).2 erefl) // size_be_bytes.
Qed.

Lemma cells_evals cells : cells_shape cells -> eip_canonical cells ->
  exists2 evals, map_assert (bytes_to_field_elements 64) cells = Some evals &
    size evals = size cells /\ forall t, (t < size cells)%N -> size (nth [::] evals t) = 64%N /\
      forall j, (j < 64)%N -> fr_be (nth [::] evals t)`_j = chunk (nth [::] cells t) j.
Proof.
move=> Sc Hcan.
have Hx t : (t < size cells)%N -> exists2 xs, bytes_to_field_elements 64 (nth [::] cells t) = Some xs &
    size xs = 64%N /\ forall i, (i < 64)%N -> fr_be xs`_i = chunk (nth [::] cells t) i.
  move=> Hlt; apply: bytes_to_field_elements_total; first exact/eqP/(all_nthP [::] Sc).
  by move=> i; exact: Hcan.
have [|evals E] := @map_assert_total _ _ [::] (bytes_to_field_elements 64) cells.
  by move=> t /Hx[xs ->].
exists evals => //; have [Se He] := @map_assert_nth _ _ [::] [::] _ _ _ E.
split=> // t Hlt; have [xs Ex Hxs] := Hx t Hlt.
by have := He t Hlt; rewrite Ex => -[<-].
Qed.

Lemma cells_evals_bad cells t i : (t < size cells)%N -> (i < 64)%N ->
  ~~ canonical (chunk (nth [::] cells t) i) -> map_assert (bytes_to_field_elements 64) cells = None.
Proof.
move=> Hlt Hi B; apply: (@map_assert_none _ _ [::] _ _ t Hlt).
exact: (bytes_to_field_elements_none Hi B).
Qed.

Lemma nth_to_nat (idx : seq N) t : nth 0%N [seq N.to_nat i | i <- idx] t = N.to_nat (nth 0%num idx t).
Proof.
by case: (ltnP t (size idx)) => H; [rewrite (nth_map 0%num) | rewrite !nth_default ?size_map].
Qed.

Lemma to_nat_lt idx : all index128 idx -> all (fun i => (i < 128)%N) [seq N.to_nat i | i <- idx].
Proof. by move=> A; rewrite all_map; apply: sub_all A => i /N.ltb_spec0 /=; lia. Qed.

Lemma idx_lt (idx : seq N) t : all index128 idx -> (t < size idx)%N -> (N.to_nat (nth 0%num idx t) < 128)%N.
Proof. by move=> Ar Hlt; have /N.ltb_spec0 := all_nthP 0%num Ar t Hlt; lia. Qed.

Lemma to_nat_uniq (idx : seq N) : uniq [seq N.to_nat i | i <- idx] = uniq idx.
Proof. by apply: map_inj_uniq => a b; exact: N2Nat.inj. Qed.

Lemma ref_recover_guard idx cells : cells_shape cells -> eip_recover_shape idx cells ->
  [&& size idx == size cells, (64 <= size idx <= 128)%N, uniq idx,
      all (fun i => (i <? 128)%num) idx & all_size 2048 cells].
Proof.
move=> Sc [Sz Ar U Mn]; rewrite Sz eqxx U Ar -Sz Mn /=.
have -> : all_size 2048 cells by exact: Sc.
have U' := to_nat_uniq idx; rewrite U in U'.
by have [_] := size_missing U' (to_nat_lt Ar); rewrite size_map andbT.
Qed.

Lemma recovered_agree (idx : seq N) cells evals (f : {poly Fr}) : cells_polynomial idx cells f ->
  size idx = size cells ->
  (forall t, (t < size cells)%N -> size (nth [::] evals t) = 64%N /\
      forall j, (j < 64)%N -> fr_be (nth [::] evals t)`_j = chunk (nth [::] cells t) j) ->
  forall t j, (t < size [seq N.to_nat i | i <- idx])%N -> (j < 64)%N ->
    f.[w8192 ^+ bitrev 13 (nth 0%N [seq N.to_nat i | i <- idx] t * 64 + j)] = (nth [::] evals t)`_j.
Proof.
move=> [_ Hf] Sz He t j; rewrite size_map => Hlt Hj; rewrite nth_to_nat.
have [_ E] := He t (leq_trans Hlt (eq_leq Sz)).
exact (C36_injective std (etrans (Hf t j Hlt Hj) (esym (E j Hj)))).
Qed.

Lemma nth_output f t : (t < 128)%N -> nth [::] (output_of_poly env g1s f).1 t = cell_of_poly f t.
Proof. by move=> H; rewrite nth_mkseq. Qed.

Lemma has_cells_poly idx cells (f : {poly Fr}) : eip_recover_shape idx cells -> (size f <= 2 ^ 12)%N ->
  has_cells (output_of_poly env g1s f).1 idx cells -> cells_polynomial idx cells f.
Proof.
move=> [Sz Ar _ _] Sf /(all_nthP (0%num, [::])) H; split; first exact: Sf.
move=> t j Hlt Hj; have := H t; rewrite size_zip -Sz minnn => /(_ Hlt).
rewrite nth_zip // [(_, nth _ _ _).2]/= nth_output; last exact: idx_lt.
by move/eqP=> <-; rewrite (chunk_cell_of_poly std).
Qed.

Lemma poly_has_cells idx cells f : cells_shape cells -> eip_recover_shape idx cells ->
  cells_polynomial idx cells f -> has_cells (output_of_poly env g1s f).1 idx cells.
Proof.
move=> Sc sh Hf; have [Sz Ar _ _] := sh; apply/(all_nthP (0%num, [::])) => t.
rewrite size_zip -Sz minnn => Hlt; rewrite nth_zip // [(_, nth _ _ _).2]/= nth_output; last exact: idx_lt.
by rewrite (cells_polynomial_output std Sc sh Hf).
Qed.

(** The library's answer is that of the reference, except that an answer that does not contain the
    given cells is withheld. *)
Theorem C51_recover idx cells : cells_shape cells ->
  exists2 res, recover idx cells = Ret res &
    ok_value res =
    ssrfun.Option.bind (fun out => if has_cells out.1 idx cells then Some out else None)
      (ref_recover_cells_and_kzg_proofs g1s compress idx cells).
Proof.
move=> Sc; rewrite /ref_recover_cells_and_kzg_proofs.
case: (recover_caseP std S1 S2 Hctx idx Sc Ht); try by
  (move=> *; eexists; first reflexivity; case: ifP => //; case/and5P => /eqP ? *; exfalso;
   match goal with
   | H : ?a <> ?b, E : ?a = ?b |- _ => exact (H E)
   end).
- move=> i Sz Hi Bi _; eexists; first reflexivity.
  case: ifP => // /and5P[_ _ _ Ar _]; case/negP: Bi; exact: (all_nthP 0%num Ar).
- move=> _ _ D; eexists; first reflexivity; by rewrite (negbTE D) !andbF.
- move=> _ _ _ Fw; eexists; first reflexivity; by rewrite leqNgt Fw !andbF.
- move=> t i sh Hlt Hi Bi _ _; eexists; first reflexivity.
  by rewrite (ref_recover_guard Sc sh) (cells_evals_bad Hlt Hi Bi).
- move=> sh Hcan Hno; eexists; first reflexivity.
  rewrite (ref_recover_guard Sc sh); have [evals -> _] := cells_evals Sc Hcan.
  rewrite omap_Some obind_Some; set p := recover_polynomialcoeff _ _ _ _ _ _ _ _.
  have Sp : (size p <= 2 ^ 12)%N by exact: size_recover.
  rewrite (ref_cells_and_proofsE env S1 Sp); case: ifP => // Hh.
  exfalso; apply: (Hno (Poly p)); apply: (has_cells_poly sh _ Hh).
  exact: leq_trans (size_Poly _) Sp.
move=> f sh Hf; eexists; first reflexivity.
rewrite (ref_recover_guard Sc sh); have Hcan := cells_polynomial_canonical std sh Hf.
have [evals -> [Se He]] := cells_evals Sc Hcan; have [Sz Ar U Mn] := sh.
rewrite omap_Some obind_Some; have [Sf _] := Hf.
have U' := to_nat_uniq idx; rewrite U in U'.
rewrite (@recover_polynomialcoeffE [seq N.to_nat i | i <- idx] evals f _ U' (to_nat_lt Ar) _ Sf
   (recovered_agree Hf Sz He)) ?size_map ?Se //.
by rewrite (ref_cells_coef env S1 Sf) (poly_has_cells Sc sh Hf).
Qed.

Lemma cell_of_poly_canonical f k j : (j < 64)%N -> canonical (chunk (cell_of_poly f k) j).
Proof. by move=> Hj; rewrite (chunk_cell_of_poly std _ _ Hj); exact: canonical_fr_be. Qed.

Lemma const_cell_value (x : Fr) k j : (j < 64)%N -> chunk (cell_of_poly x%:P k) j = fr_be x.
Proof. by move=> Hj; rewrite (chunk_cell_of_poly std _ _ Hj) hornerC. Qed.

Local Opaque cell_of_poly fr_be.

(** 65 cells of which 64 are constantly 0 and the last is constantly 1. *)
Section Inconsistent.
Variables c0 c1 : seq byte.
Hypothesis z0 : size c0 = 2048%N.
Hypothesis z1 : size c1 = 2048%N.
Hypothesis h0 : forall j, (j < 64)%N -> chunk c0 j = fr_be 0.
Hypothesis h1 : forall j, (j < 64)%N -> chunk c1 j = fr_be 1.

Definition idx64 := [seq N.of_nat i | i <- iota 0 64].
Definition idx65 := [seq N.of_nat i | i <- iota 0 65].
Definition cells64 := nseq 64 c0.
Definition cells65 := rcons cells64 c1.

Lemma nth_idx64 t : (t < 64)%N -> nth 0%num idx64 t = N.of_nat t.
Proof. by move=> H; rewrite (nth_map 0%N) ?size_iota // nth_iota. Qed.
Lemma nth_idx65 t : (t < 65)%N -> nth 0%num idx65 t = N.of_nat t.
Proof. by move=> H; rewrite (nth_map 0%N) ?size_iota // nth_iota. Qed.
Lemma size_cells65 : size cells65 = 65%N.
Proof. by rewrite size_rcons size_nseq. Qed.
Lemma nth_cells65 t : (t < 65)%N -> nth [::] cells65 t = if t == 64%N then c1 else c0.
Proof.
move=> H; rewrite nth_rcons size_nseq; case: eqP => [->|ne]; first by rewrite ltnn.
have -> : (t < 64)%N by move: H ne; clear; lia.
by rewrite nth_nseq; case: ifP => //; move: H ne; clear; lia.
Qed.
Lemma cells65_shape : cells_shape cells65.
Proof. by rewrite /cells_shape all_rcons all_nseq z0 z1. Qed.
Lemma cells64_shape : cells_shape cells64.
Proof. by rewrite /cells_shape all_nseq z0. Qed.
Lemma sh64 : eip_recover_shape idx64 cells64.
Proof. by split; rewrite ?size_nseq. Qed.
Lemma sh65 : eip_recover_shape idx65 cells65.
Proof. by split; rewrite ?size_cells65. Qed.
Lemma can65 : eip_canonical cells65.
Proof.
move=> t j; rewrite size_cells65 => Hlt Hj; rewrite (nth_cells65 Hlt).
by case: (t == 64%N); rewrite ?(h0 Hj) ?(h1 Hj); exact: canonical_fr_be.
Qed.

Lemma none65 f : ~ cells_polynomial idx65 cells65 f.
Proof.
move=> [Sf Hf].
have H1 : cells_polynomial idx64 cells64 f.
  split; first exact: Sf.
  move=> t j; rewrite size_map size_iota => Hlt Hj.
  have Hlt' : (t < 65)%N by exact: ltnW.
  have Hlt2 : (t < size idx65)%N by rewrite size_map size_iota.
  have := Hf t j Hlt2 Hj; rewrite (nth_idx65 Hlt') (nth_idx64 Hlt) (nth_cells65 Hlt') => ->.
  by rewrite ltn_eqF // nth_nseq Hlt.
have H0 : cells_polynomial idx64 cells64 0.
  split; first by rewrite size_poly0.
  by move=> t j; rewrite size_map size_iota => Hlt Hj; rewrite nth_nseq Hlt (h0 Hj) horner0.
have E0 := cells_polynomial_unique std cells64_shape sh64 H1 H0.
have H64 : (64 < size idx65)%N by rewrite size_map size_iota.
have := Hf 64%N 0%N H64 isT; rewrite (nth_cells65 (ltnSn 64)) eqxx (@h1 0%N isT) E0 horner0.
by move/(C36_injective std)/eqP; rewrite eq_sym oner_eq0.
Qed.
End Inconsistent.

(** The reference never withholds an answer for canonical cells of the right number: it cuts off the
    upper coefficients of what it has interpolated. So it gives an answer for cells that lie on no
    polynomial of degree below 4096, where the library gives an error. *)
Theorem C51_recover_same_refuted :
  exists idx cells out err, [/\ cells_shape cells,
    ref_recover_cells_and_kzg_proofs g1s compress idx cells = Some out &
    recover idx cells = Ret (Err err)].
Proof.
have z0 := size_cell_of_poly 0%:P 0; have z1 := size_cell_of_poly 1%:P 0.
have h0 j (Hj : (j < 64)%N) := const_cell_value 0 0 Hj; have h1 j (Hj : (j < 64)%N) := const_cell_value 1 0 Hj.
move: (cell_of_poly 0%:P 0) (cell_of_poly 1%:P 0) z0 z1 h0 h1 => c0 c1 z0 z1 h0 h1.
have [evals Ee _] := cells_evals (cells65_shape z0 z1) (can65 h0 h1).
exists idx65, (cells65 c0 c1).
case: (recover_caseP std S1 S2 Hctx idx65 (cells65_shape z0 z1) Ht);
  try by (move=> *; eexists _, _; split; [exact: (cells65_shape z0 z1) |
    by rewrite /ref_recover_cells_and_kzg_proofs (ref_recover_guard (cells65_shape z0 z1) (sh65 c0 c1)) Ee; reflexivity
    | reflexivity]).
by move=> f _ /(none65 z0 h0 h1).
Qed.

(** ** Verification *)
Lemma all_decoded (bs : seq (seq byte)) : all (decodable env) bs ->
  map_assert decompress bs = Some [seq odflt 0 (decompress b) | b <- bs].
Proof.
move=> A; apply: (@map_assert_some _ _ _ _ _ (fun b => decodable env b : Prop)).
  by move=> b; rewrite /decodable; case: (decompress b).
by move=> i x0 Hi; exact: (all_nthP x0 A).
Qed.

Lemma not_decoded (bs : seq (seq byte)) b : b \in bs -> ~~ decodable env b -> map_assert decompress bs = None.
Proof.
move=> /(nthP [::])[i Hi <-]; rewrite /decodable; case E: (decompress _) => [//|] _.
exact: (map_assert_none Hi E).
Qed.

Lemma challenge_inputE coms idx cells proofs evals :
  size idx = size coms -> size cells = size coms ->
  (forall t, (t < size cells)%N -> flatten [seq fr_be y | y <- nth [::] evals t] = nth [::] cells t) ->
  challenge_input (distinct coms) [seq index b (distinct coms) | b <- coms] idx evals proofs =
  batch_transcript coms idx cells proofs.
Proof.
move=> Si Sc H; rewrite /challenge_input /batch_transcript; do 6 congr (_ ++ _).
congr flatten; apply: (@eq_from_nth _ [::]); rewrite !size_mkseq // => t Hlt; rewrite !nth_mkseq //.
by rewrite (nth_map [::]) -?Si // H // Sc -Si.
Qed.

Lemma cell_of_evals (cell : seq byte) (xs : seq Fr) : size cell = 2048%N -> size xs = 64%N ->
  (forall j, (j < 64)%N -> fr_be xs`_j = chunk cell j) -> flatten [seq fr_be y | y <- xs] = cell.
Proof.
move=> Sc Sx H.
have eok := env_std_ok std; apply/esym.
have := @encodes_flatten _ _ _ _ env eok cell xs; rewrite Sx (es_to std) => /(_ Sc)[H1 _].
by apply: H1 => i; rewrite Sx (es_to std); exact: H.
Qed.

Theorem C51_verify coms idx cells proofs : call_types coms cells proofs ->
  exists2 res, verify coms idx cells proofs = Ret res &
    verdict res = ref_verify_cell_kzg_proof_batch g1s g2s decompress (de_pair env)
      (fun b => hash b) coms idx cells proofs.
Proof.
move=> T; have [T1 T2 T3] := T; rewrite /ref_verify_cell_kzg_proof_batch deduplicatedE; cbv zeta.
have [[C [P [I [sh O]]]]|[err E Hi]] := verify_run std S1 S2 Hctx idx T; last first.
  exists (Err err); first exact: E.
  rewrite /verdict Hi; case: ifP => // G.
  move: E; case: (verify_caseP std S1 S2 Hctx idx T1 T2 T3).
  - by case/negP; case/and5P: G => /eqP -> /eqP -> /eqP -> _ _; rewrite !eqxx.
  - by move=> i _ Hlt Bi _; case/negP: Bi; case/and5P: G => _ _ _ _ /andP[Ar _]; exact: (all_nthP 0%num Ar).
  - move=> i _ [Hlt Bi _] _; rewrite (@not_decoded _ (nth [::] coms i)) //.
    by rewrite mem_first_occurrences mem_nth.
  - move=> i _ _ [Hlt Bi _] _; rewrite (not_decoded (mem_nth [::] Hlt) Bi).
    by case: map_assert => [a|] //; case: map_assert.
  - move=> t i _ _ _ Hlt Hj Bi _ _ _; rewrite (cells_evals_bad Hlt Hj Bi).
    by case: map_assert.
  move=> C P I evals _ _ _; case: ifP => _ [E]; first by [].
  by move: Hi; rewrite -E.
have [Si Sc Sp Ar] := sh.
have Dc : all (decodable env) coms.
  apply/(all_nthP [::]) => t Hlt; have [H _ _] := O t Hlt.
  by apply/(decodableP std); [apply/eqP; exact: (all_nthP [::] T1) | exists (C t)].
have Dp : all (decodable env) proofs.
  apply/(all_nthP [::]) => t; rewrite Sp => Hlt; have [_ H _] := O t Hlt.
  apply/(decodableP std); [apply/eqP; apply: (all_nthP [::] T3) | exists (P t)] => //; by rewrite Sp.
have Dd : all (decodable env) (distinct coms).
  by apply/allP => x; rewrite mem_first_occurrences; exact: (allP Dc).
have Hcan : eip_canonical cells.
  by move=> t j; rewrite Sc => Hlt Hj; exact: (opening_canonical (O t Hlt)).
have G : [&& size coms == size cells, size cells == size proofs, size proofs == size idx, all_size 48 coms,
    all (fun i => (i <? 128)%num) idx, all_size 2048 cells & all_size 48 proofs].
  by rewrite Sc Sp Si !eqxx T1 T2 T3 Ar.
rewrite G (all_decoded Dd) (all_decoded Dp).
have [evals -> [Se He]] := cells_evals T2 Hcan.
have Hce t : (t < size cells)%N -> flatten [seq fr_be y | y <- nth [::] evals t] = nth [::] cells t.
  move=> Hlt; have [Sx Hx] := He t Hlt; apply: cell_of_evals => //.
  exact/eqP/(all_nthP [::] T2).
rewrite (challenge_inputE _ Si Sc Hce).
eexists; first exact: (C11_batch std S1 S2 Hctx T sh O).
set r := te_reduce_bytes_to_scalar_bias _ _; move: r => r.
rewrite (@verify_implE _ _ _ env std g1s g2s S1 [seq odflt 0 (decompress b) | b <- distinct coms]
  [seq index b (distinct coms) | b <- coms] [seq N.to_nat i | i <- idx] evals
  [seq odflt 0 (decompress b) | b <- proofs] r I);
  rewrite ?size_map ?Se ?Sc ?Sp ?Si //; last first.
- move=> t Hlt; have [_ _ [SI EI]] := O t Hlt; split; first exact: SI.
  move=> j Hj; rewrite nth_to_nat; have [_ Hx] := He t (leq_trans Hlt (eq_leq (esym Sc))).
  exact (C36_injective std (etrans (EI j Hj) (esym (Hx j Hj)))).
- by move=> t Hlt; have [] := He t (leq_trans Hlt (eq_leq (esym Sc))).
- exact: to_nat_lt.
- by apply/allP => x /mapP[b Hb ->]; rewrite index_mem mem_first_occurrences.
have Ht1 (t : 'I_(size coms)) : (t < size coms)%N by [].
set s1 := \sum_(t < _) _; set s2 := \sum_(t < _) _.
have -> : s1 = s2; last by case: (s2 == 0).
apply: eq_bigr => -[t Hlt] _; rewrite [nat_of_ord _]/=; congr (_ *: _).
have [HC HP _] := O t Hlt; rewrite /defect nth_to_nat.
have Sct : size (nth [::] coms t) = 48%N by apply/eqP; exact: (all_nthP [::] T1).
have Hlp : (t < size proofs)%N by rewrite Sp.
have Spt : size (nth [::] proofs t) = 48%N by apply/eqP; exact: (all_nthP [::] T3).
rewrite (nth_map [::]) // ((fromcE std _ Spt).2 HP).
have Hin : nth [::] coms t \in distinct coms by rewrite mem_first_occurrences mem_nth.
rewrite (nth_map [::] 0%N) // (nth_map [::]) ?index_mem // nth_index //.
by rewrite ((fromcE std _ Sct).2 HC).
Qed.
End Consensus.
