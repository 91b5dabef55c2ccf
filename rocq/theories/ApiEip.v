(** The four calls at the constants of EIP-7594 over the BLS12-381 scalar field: the results of
    ApiProofs.v, ApiRecoveryProofs.v and ApiVerifyProofs.v in the vocabulary of SpecFr.v. *)

From Coq Require Import ZArith NArith Init.Byte Strings.Byte.
From mathcomp Require Import ssreflect ssrfun ssrbool eqtype ssrnat seq div prime fintype bigop.
From mathcomp Require Import ssralg poly polydiv zify_ssreflect.
From Verif Require Import Base Bytes Spec SpecKZG SpecDAS BitRev BitRevProofs FFT FFTProofs.
From Verif Require Import Domain DomainProofs PolyCoeff PolyCoeffProofs ReedSolomon.
From Verif Require Import ReedSolomonProofs Lincomb LincombProofs FixedBaseMSM Cosets CosetsProofs.
From Verif Require Import Toeplitz ToeplitzProofs FK20Prover FK20ProverProofs FK20Verifier.
From Verif Require Import FK20VerifierProofs VerifierSoundness TranscriptProofs.
From Verif Require Import Eip7594 Eip7594Proofs ApiProofs ApiRecoveryProofs ApiVerifyProofs.
From Verif Require Import ZField FrPrime Pocklington Fr SpecFr FrEnv.

Set Implicit Arguments.
Unset Strict Implicit.
Unset Printing Implicit Defensive.

Import GRing.Theory.
Local Open Scope ring_scope.

(** ** Constants *)
Lemma eip_constsE : eip7594_consts = MkConsts (2 ^ 6) (2 ^ (6 + 6)) (2 ^ 1).
Proof. by []. Qed.

Lemma w8192_check : (sqmod r_modulus 19 root_of_unity_Z =?
  0x485d512737b1da3d2ccddea2972e89ed146b58bc434906ac6fdd00bfc78c8967)%Z.
Proof. by vm_compute. Qed.

Lemma omega13 : omega fr_params 13 = w8192.
Proof.
rewrite /omega [fp_root _]/= [fp_adicity _]/= [(32 - 13)%N]/= sqmod_spec /w8192.
by rewrite -((Z.eqb_eq _ _).1 w8192_check).
Qed.

Lemma adicity_le k : (k <= 32)%N -> (k <= fp_adicity fr_params)%N.
Proof. by []. Qed.

Lemma omega12 : omega fr_params 12 = w4096.
Proof. rewrite (@omega_sub _ fr_params 12 1 isT) omega13; exact: erefl. Qed.

Lemma omega7 : omega fr_params 7 = w8192 ^+ 64.
Proof. rewrite (@omega_sub _ fr_params 7 6 isT) omega13; exact: erefl. Qed.

Lemma w8192_half : w8192 ^+ (2 ^ 12) = -1.
Proof. rewrite -omega13; exact: (omega_half fr_ok (k := 13) isT). Qed.

Lemma coset_point64 k : coset_point k ^+ 64 = omega fr_params 7 ^+ bitrev 7 k.
Proof. rewrite omega7 /coset_point; exact: exprAC. Qed.

Lemma blob_bytesE : (2 ^ 12 * 32 = 2 ^ 17)%N.
Proof. by rewrite -[32%N]/(2 ^ 5)%N -expnD. Qed.

Lemma eip_blob : BYTES_PER_BLOB eip7594_consts = (2 ^ 17)%N.
Proof. exact: blob_bytesE. Qed.

Lemma mkseq_pair_eq (A B : Type) n (f f' : nat -> A) (g g' : nat -> B) : f =1 f' -> g =1 g' ->
  (mkseq f n, mkseq g n) = (mkseq f' n, mkseq g' n).
Proof. by move=> Hf Hg; rewrite (eq_mkseq Hf) (eq_mkseq Hg). Qed.

Local Opaque omega w8192 w4096.

Lemma finite_choice (T : Type) (x0 : T) (R : nat -> T -> Prop) n :
  (forall t, (t < n)%N -> exists x, R t x) -> exists f, forall t, (t < n)%N -> R t (f t).
Proof.
elim: n => [|n IH] H; first by exists (fun=> x0).
have [|f Hf] := IH; first by move=> t Ht; apply: H; exact: ltnW.
have [x Hx] := H n (ltnSn n).
exists (fun t => if t == n then x else f t) => t; rewrite ltnS leq_eqVlt.
by case: eqP => [->|_] //=; exact: Hf.
Qed.

Section Eip.
Variables (G1 G2 GT : lmodType Fr) (env : das_env G1 G2 GT) (std : env_std env).
Local Notation eok := (env_std_ok std).
Local Notation comp := (te_g1_to_compressed (de_te env)).
Local Notation fromc := (de_g1_from_compressed env).
Local Notation K := eip7594_consts.

Variables (g1s : seq G1) (g2s : seq G2) (ctx : das_context G1 G2).
Hypothesis S1 : size g1s = (2 ^ 12)%N.
Hypothesis S2 : size g2s = 65%N.

Lemma S2_gt : (2 ^ 6 < size g2s)%N.
Proof. by rewrite S2. Qed.
Lemma S2_le : (size g2s <= 2 ^ 12)%N.
Proof. by rewrite S2. Qed.
Lemma H2_6 : (2 <= 6)%N. Proof. by []. Qed.
Lemma Had13 : (6 + 6 + 1 <= fp_adicity fr_params)%N. Proof. by []. Qed.
Lemma H13_32 : (6 + 6 + 1 < 32)%N. Proof. by []. Qed.
Lemma Hcad6 : (6 < fp_adicity fr_params)%N. Proof. by []. Qed.
Lemma gN13 : fp_mulgen fr_params ^+ (2 ^ (6 + 6 + 1)) != 1.
Proof. exact: mulgen_pow_neq1. Qed.

Lemma context_exists up : precomp_width_ok up ->
  exists ctx, das_context_new fr_params K g1s g2s up = Ret ctx.
Proof.
move=> Hw; rewrite eip_constsE.
have [bt _ ->] := das_context_new_ret fr_ok H2_6 Had13 H13_32 Hcad6 mulgen_neq0 S1 S2_gt S2_le Hw.
by eexists.
Qed.

Variable up : use_precomp.
Hypothesis Hctx : das_context_new fr_params K g1s g2s up = Ret ctx.

Lemma ctxE : exists2 bt, batch_toeplitz_new fr_params (srs_vectors 6 6 g1s) up = Ret bt &
  ctx = mkctx fr_params 6 6 1 g1s g2s bt.
Proof.
move: Hctx; rewrite eip_constsE (das_context_newE fr_ok H2_6 Had13 H13_32 Hcad6 mulgen_neq0 S1 S2_gt S2_le).
by case: batch_toeplitz_new => [bt|] //; rewrite obind_Ret => -[<-]; exists bt.
Qed.

(** Every MSM gives the linear combination; always the case without tables. *)
Definition tables_ok : Prop := forall poly, fk20_msm_ok fr_params (de_me env) 6 6 up g1s poly.

(** The same for the MSMs made for one polynomial. *)
Definition tables_for (f : {poly Fr}) : Prop := fk20_msm_ok fr_params (de_me env) 6 6 up g1s f.

Lemma tables_for_seq (p : seq Fr) :
  tables_for (Poly p) -> fk20_msm_ok fr_params (de_me env) 6 6 up g1s p.
Proof.
rewrite /tables_for /fk20_msm_ok => H j Hj; have := H j Hj; congr (msm_runs _ _ _ _).
congr (column_scalars _ _ _ _); rewrite /poly_toeplitz /mkseq; apply: eq_map => i.
by rewrite coef_Poly; congr (MkToeplitz _ _); apply: eq_map => t; rewrite coef_Poly.
Qed.

Definition output_of_poly (f : {poly Fr}) : seq (seq byte) * seq (seq byte) :=
  (mkseq (cell_of_poly f) 128, mkseq (fun k => comp (proof_of_poly g1s f k)) 128).

Lemma cell_bytesE f k : cell_bytes fr_params env 6 6 1 f k = cell_of_poly f k.
Proof.
rewrite /cell_bytes /cell_of_poly /coset_evals (es_to std) [(6 + 6 + 1)%N]/= omega13.
by congr flatten; rewrite /mkseq -map_comp; apply: eq_map.
Qed.

Lemma proof_bytesE f k : proof_bytes fr_params env 6 6 1 g1s f k = comp (proof_of_poly g1s f k).
Proof.
rewrite /proof_bytes /coset_proof /proof_of_poly /proof_point /coset_vanishing coset_point64.
exact: erefl.
Qed.

Lemma poly_outputE f : poly_output fr_params env 6 6 1 g1s f = output_of_poly f.
Proof.
exact: (mkseq_pair_eq (2 ^ (6 + 1)) (cell_bytesE f) (proof_bytesE f)).
Qed.

Lemma blob_polyE blob f : blob_poly fr_params env 6 6 blob f <-> blob_polynomial blob f.
Proof.
by rewrite /blob_poly /blob_polynomial (es_to std) [(6 + 6)%N]/= omega12.
Qed.

Lemma chunk_okE blob i : chunk_ok env blob i = canonical (chunk blob i).
Proof. by rewrite /chunk_ok (es_from std) canonicalE. Qed.

Lemma blob_polynomial_unique blob f g : blob_polynomial blob f -> blob_polynomial blob g -> f = g.
Proof.
move=> /blob_polyE Hf /blob_polyE Hg.
exact: (blob_poly_unique fr_ok eok Had13 Hf Hg).
Qed.

Theorem compute_cases_for blob : size blob = (2 ^ 17)%N ->
  (exists2 f, blob_polynomial blob f &
     (tables_for f -> compute_cells_and_kzg_proofs env K ctx blob = Ret (Ok (output_of_poly f))) /\
     blob_to_kzg_commitment env K ctx blob = Ret (Ok (comp (commit g1s f)))) \/
  (exists2 i, [/\ (i < 2 ^ 12)%N, ~~ canonical (chunk blob i) &
                  forall j, (j < i)%N -> canonical (chunk blob j)] &
     compute_cells_and_kzg_proofs env K ctx blob =
       Ret (Err (ESerialization (CouldNotDeserializeScalar (chunk blob i)))) /\
     blob_to_kzg_commitment env K ctx blob =
       Ret (Err (ESerialization (CouldNotDeserializeScalar (chunk blob i))))).
Proof.
move=> Sb; rewrite eip_constsE.
have [bt Hbt ->] := ctxE.
have Sb' : size blob = BYTES_PER_BLOB (MkConsts (2 ^ 6) (2 ^ (6 + 6)) (2 ^ 1)).
  by rewrite Sb -eip_blob eip_constsE.
case: (compute_cells_cases fr_ok eok H2_6 Had13 H13_32 Hcad6 g2s S1 Hbt Sb').
  move=> [poly Sp [/blob_polyE Hp [Hcomp Hcom]]]; left; exists (Poly poly); first exact: Hp.
  split; last exact: Hcom.
  by move=> Ht; rewrite -poly_outputE; exact: (Hcomp (tables_for_seq Ht)).
move=> [i [Hi Bi Gi] H]; right; exists i; last exact: H.
split; [exact: Hi | by rewrite -chunk_okE |].
by move=> j /Gi; rewrite chunk_okE.
Qed.

Theorem compute_cases blob : size blob = (2 ^ 17)%N ->
  (exists2 f, blob_polynomial blob f &
     (tables_ok -> compute_cells_and_kzg_proofs env K ctx blob = Ret (Ok (output_of_poly f))) /\
     blob_to_kzg_commitment env K ctx blob = Ret (Ok (comp (commit g1s f)))) \/
  (exists2 i, [/\ (i < 2 ^ 12)%N, ~~ canonical (chunk blob i) &
                  forall j, (j < i)%N -> canonical (chunk blob j)] &
     compute_cells_and_kzg_proofs env K ctx blob =
       Ret (Err (ESerialization (CouldNotDeserializeScalar (chunk blob i)))) /\
     blob_to_kzg_commitment env K ctx blob =
       Ret (Err (ESerialization (CouldNotDeserializeScalar (chunk blob i))))).
Proof.
move=> Sb; case: (compute_cases_for Sb) => [[f Hf [H1 H2]]|H]; [left|right; exact: H].
by exists f; [exact: Hf|split; [move=> Ht; apply: H1; exact: Ht|exact: H2]].
Qed.

Lemma blob_polynomial_canonical blob f : blob_polynomial blob f ->
  forall i, (i < 2 ^ 12)%N -> canonical (chunk blob i).
Proof.
move=> [_ H] i Hi; rewrite -canonicalE -H // -/(scalar_to_bytes_be _).
have E : scalar_from_bytes_be (scalar_to_bytes_be f.[w4096 ^+ bitrev 12 i]) =
         Some f.[w4096 ^+ bitrev 12 i] by apply/scalar_from_some; first exact: size_be_bytes.
by rewrite E.
Qed.

Theorem blob_systematic blob f : size blob = (2 ^ 17)%N -> blob_polynomial blob f ->
  flatten (mkseq (cell_of_poly f) 64) = blob.
Proof.
move=> Sb /blob_polyE Hf.
have Sb' : size blob = BYTES_PER_BLOB (MkConsts (2 ^ 6) (2 ^ (6 + 6)) (2 ^ 1)).
  by rewrite Sb -eip_blob eip_constsE.
rewrite -[RHS](systematic eok Had13 Sb' Hf); congr flatten; apply: eq_map => k.
by rewrite cell_bytesE.
Qed.

Lemma size_fr_be x : size (fr_be x) = 32%N.
Proof. exact: size_be_bytes. Qed.

Lemma size_cell_of_poly f k : size (cell_of_poly f k) = 2048%N.
Proof.
have := size_flatten_const (iota 0 64)
  (fun j => size_fr_be f.[w8192 ^+ bitrev 13 (k * 64 + j)]).
by rewrite size_iota.
Qed.

Lemma chunk_cell_of_poly f k j : (j < 64)%N ->
  chunk (cell_of_poly f k) j = fr_be f.[w8192 ^+ bitrev 13 (k * 64 + j)].
Proof.
move=> Hj; have S : size (coset_evals fr_params 6 6 1 f k) = 64%N by exact: size_mkseq.
rewrite -cell_bytesE /cell_bytes (chunk_flatten eok) ?S // (es_to std).
rewrite nth_mkseq; last exact: Hj.
rewrite [(6 + 6 + 1)%N]/= omega13; exact: erefl.
Qed.

(** ** Recovery *)
Definition index128 (i : N) : bool := (i <? 128)%num.

Section Recover.
Variables (idx : seq N) (cells : seq (seq byte)).
Hypothesis Sc : all (fun x => size x == 2048%N) cells.
Local Notation R := (recover_cells_and_kzg_proofs env K ctx idx cells).

(** Lengths, ranges, distinctness and number of the cells are as required. *)
Definition eip_recover_shape : Prop :=
  [/\ size idx = size cells, all index128 idx, uniq idx & (64 <= size idx)%N].
Definition eip_canonical : Prop :=
  forall t j, (t < size cells)%N -> (j < 64)%N -> canonical (chunk (nth [::] cells t) j).

Inductive recover_case : outcome (result (seq (seq byte) * seq (seq byte)) error) -> Prop :=
| RcLen of size idx <> size cells : recover_case (Ret (Err (ERecovery
    (NumCellIndicesNotEqualToNumCells (size idx) (size cells)))))
| RcRange i of size idx = size cells & (i < size idx)%N & ~~ index128 (nth 0%num idx i) &
    (forall j, (j < i)%N -> index128 (nth 0%num idx j)) :
    recover_case (Ret (Err (ERecovery (RecoveryCellIndexOutOfRange (nth 0%num idx i) 128%num))))
| RcDup of size idx = size cells & all index128 idx & ~~ uniq idx :
    recover_case (Ret (Err (ERecovery CellIndicesNotUnique)))
| RcFew of size idx = size cells & all index128 idx & uniq idx & (size idx < 64)%N :
    recover_case (Ret (Err (ERecovery (NotEnoughCellsToReconstruct (size idx) 64))))
| RcChunk t i of eip_recover_shape & (t < size cells)%N & (i < 64)%N &
    ~~ canonical (chunk (nth [::] cells t) i) &
    (forall j, (j < i)%N -> canonical (chunk (nth [::] cells t) j)) &
    (forall t' j, (t' < t)%N -> (j < 64)%N -> canonical (chunk (nth [::] cells t') j)) :
    recover_case (Ret (Err (ESerialization
      (CouldNotDeserializeScalar (chunk (nth [::] cells t) i)))))
| RcInconsistent of eip_recover_shape & eip_canonical &
    (forall f, ~ cells_polynomial idx cells f) :
    recover_case (Ret (Err (ERecovery (RecoveryReedSolomon
      (PolynomialHasInvalidLength (2 ^ 13) (2 ^ 12))))))
| RcOk f of eip_recover_shape & cells_polynomial idx cells f :
    recover_case (Ret (Ok (output_of_poly f))).

Lemma cells_agreeE (f : {poly Fr}) : (size f <= 2 ^ 12)%N /\ cells_agree fr_params env 6 6 1 idx cells f <->
  cells_polynomial idx cells f.
Proof. rewrite /cells_agree /cells_polynomial (es_to std) [(6 + 6 + 1)%N]/= omega13; exact: iff_refl. Qed.

Lemma recover_case_for : (forall f, cells_polynomial idx cells f -> tables_for f) -> recover_case R.
Proof.
move=> Ht; have [bt Hbt ->] := ctxE; rewrite eip_constsE.
case: (size idx =P size cells) => Sz; last by rewrite (recover_len _ _ _ _ _ _ _ _ Sz); exact: RcLen.
case: (first_fail (fun i => index128 (nth 0%num idx i)) (size idx)) => [Hr|[i Hi [Bi Gi]]]; last first.
  rewrite (@recover_range _ _ _ _ fr_params env 6 6 1 g1s g2s bt idx cells i Sz Hi Bi Gi); exact: (RcRange Sz Hi Bi Gi).
have Ar : all index128 idx by apply/(all_nthP 0%num).
case: (boolP (uniq idx)) => U; last first.
  rewrite (recover_dup (l := 6) (c := 6) (e := 1) fr_params env _ _ _ Sc Sz Ar U); exact: RcDup.
case: (ltnP (size idx) 64) => Hs.
  rewrite (recover_few (l := 6) (c := 6) (e := 1) fr_params env _ _ _ Sc Sz Ar U Hs); exact: RcFew.
have sh : eip_recover_shape by split.
have sh' : recover_shape 6 1 idx cells by exact: sh.
case: (first_fail (fun t => all (fun j => canonical (chunk (nth [::] cells t) j)) (iota 0 64)) (size cells)).
  move=> H; have Hcan : eip_canonical.
    by move=> t j Hct Hj; have /allP := H t Hct; apply; rewrite mem_iota.
  have Hcan' : cells_canonical env 6 cells.
    by move=> t j Hct Hj; rewrite chunk_okE; exact: Hcan.
  case: (recover_canonical fr_ok eok H2_6 Had13 H13_32 Hcad6 mulgen_neq0 gN13 g2s S1 Hbt Sc sh' Hcan').
    move=> [E Hn]; rewrite E.
    have Hn' f : ~ cells_polynomial idx cells f.
      by move/cells_agreeE => [Sf]; exact: (Hn f Sf).
    exact: (RcInconsistent sh Hcan Hn').
  move=> [p Sp [Ap Hp]].
  have Hf : cells_polynomial idx cells (Poly p).
    by apply/cells_agreeE; split; [rewrite -[12%N]/(6 + 6)%N -Sp size_Poly | exact: Ap].
  rewrite (Hp (tables_for_seq (Ht _ Hf))) poly_outputE; exact: (RcOk sh Hf).
move=> [t Hct [Ba Ga]].
case: (first_fail (fun j => canonical (chunk (nth [::] cells t) j)) 64) => [H|[i Hi [Bi Gi]]].
  by case/negP: Ba; apply/allP => j; rewrite mem_iota add0n => /andP[_]; exact: H.
have Gt t' j : (t' < t)%N -> (j < 64)%N -> canonical (chunk (nth [::] cells t') j).
  by move=> Ht' Hj; have /allP := Ga t' Ht'; apply; rewrite mem_iota.
have Bi' : ~~ chunk_ok env (nth [::] cells t) i by rewrite chunk_okE.
have Gi' j : (j < i)%N -> chunk_ok env (nth [::] cells t) j by rewrite chunk_okE; exact: Gi.
have Gt' t' j : (t' < t)%N -> (j < 2 ^ 6)%N -> chunk_ok env (nth [::] cells t') j.
  by rewrite chunk_okE; exact: Gt.
rewrite (@recover_bad_chunk _ _ _ _ fr_params env eok 6 6 1 g1s g2s bt idx cells Sc sh' t i Hct Hi Bi' Gi' Gt').
exact: (RcChunk sh Hct Hi Bi Gi Gt).
Qed.

Lemma recover_caseP : tables_ok -> recover_case R.
Proof. by move=> Ht; apply: recover_case_for => f _; exact: Ht. Qed.

Lemma cells_polynomial_unique f g : eip_recover_shape ->
  cells_polynomial idx cells f -> cells_polynomial idx cells g -> f = g.
Proof.
move=> sh /cells_agreeE[Sf Af] /cells_agreeE[Sg Ag].
exact: (cells_agree_unique fr_ok eok Had13 H13_32 mulgen_neq0 gN13 Sc sh Sf Sg Af Ag).
Qed.

Lemma cells_polynomial_canonical f : eip_recover_shape -> cells_polynomial idx cells f -> eip_canonical.
Proof.
move=> sh /cells_agreeE[Sf Af] t j Ht Hj; rewrite -chunk_okE.
exact (@cells_agree_canonical _ _ _ _ fr_params env eok 6 6 1 idx cells sh f Af t j Ht Hj).
Qed.

Lemma index128_absurd i : all index128 idx -> (i < size idx)%N -> ~~ index128 (nth 0%num idx i) -> False.
Proof. by move=> Ar Hi; rewrite (all_nthP 0%num Ar i Hi). Qed.
Lemma few_absurd : (size idx < 64)%N -> (64 <= size idx)%N -> False.
Proof. by move=> H; rewrite leqNgt H. Qed.
Lemma chunk_absurd t i : eip_canonical -> (t < size cells)%N -> (i < 64)%N ->
  ~~ canonical (chunk (nth [::] cells t) i) -> False.
Proof. by move=> H Ht Hi; rewrite (H t i Ht Hi). Qed.

Lemma recover_case_fun R1 R2 : recover_case R1 -> recover_case R2 -> R1 = R2.
Proof.
move=> H1 H2; destruct H1 as [ne|i Sz Hi Bi Gi|Sz Ar Du|Sz Ar U Fw|t i sh Ht Hi Bi Gi Gt|sh Hc Hn|f sh Hf];
  destruct H2 as [ne'|i' Sz' Hi' Bi' Gi'|Sz' Ar' Du'|Sz' Ar' U' Fw'|t' i' sh' Ht' Hi' Bi' Gi' Gt'
    |sh' Hc' Hn'|f' sh' Hf'];
  try (have Hc := cells_polynomial_canonical sh Hf); try (have Hc' := cells_polynomial_canonical sh' Hf');
  try (have [Sz Ar U Mn] := sh); try (have [Sz' Ar' U' Mn'] := sh'); try exact: erefl;
  try (exfalso; match goal with
  | H : ?a <> ?b, E : ?a = ?b |- _ => exact (H E)
  | B : is_true (~~ index128 (nth _ _ ?i)), Hi : is_true (?i < size idx)%N, Ar : is_true (all _ idx) |- _ =>
      exact (index128_absurd Ar Hi B)
  | D : is_true (~~ uniq _), U : is_true (uniq _) |- _ => exact (negP D U)
  | F : is_true (size idx < 64)%N, M : is_true (63 < size idx)%N |- _ => exact (few_absurd F M)
  | C : eip_canonical, B : is_true (~~ canonical (chunk (nth _ _ ?t) ?i)),
    Ht : is_true (?t < size cells)%N, Hi : is_true (?i < 64)%N |- _ => exact (chunk_absurd C Ht Hi B)
  | N : forall f, ~ _, P : cells_polynomial _ _ ?f |- _ => exact (N f P)
  end).
- suff -> : i = i' by [].
  case: (ltngtP i i') => // H; first by move: (Gi' i H); rewrite (negbTE Bi).
  by move: (Gi i' H); rewrite (negbTE Bi').
- suff [-> ->] : t = t' /\ i = i' by [].
  have Et : t = t'.
    case: (ltngtP t t') => // H; first by move: (Gt' t i H Hi); rewrite (negbTE Bi).
    by move: (Gt t' i' H Hi'); rewrite (negbTE Bi').
  split=> //; move: Bi' Gi'; rewrite -Et => Bi' Gi'.
  case: (ltngtP i i') => // H; first by move: (Gi' i H); rewrite (negbTE Bi).
  by move: (Gi i' H); rewrite (negbTE Bi').
by rewrite (cells_polynomial_unique sh Hf Hf').
Qed.

Lemma cells_polynomial_output f : eip_recover_shape -> cells_polynomial idx cells f ->
  forall t, (t < size idx)%N -> cell_of_poly f (N.to_nat (nth 0%num idx t)) = nth [::] cells t.
Proof.
move=> sh /cells_agreeE[Sf Af] t Ht; rewrite -cell_bytesE.
exact (@cells_agree_output _ _ _ _ fr_params env eok 6 6 1 idx cells Sc sh f Af t Ht).
Qed.
End Recover.

(** ** Verification *)
Section Verify.
Variables (coms : seq (seq byte)) (idx : seq N) (cells proofs : seq (seq byte)).
Hypothesis Scom : all (fun x => size x == 48%N) coms.
Hypothesis Scell : all (fun x => size x == 2048%N) cells.
Hypothesis Sproof : all (fun x => size x == 48%N) proofs.
Local Notation V := (verify_cell_kzg_proof_batch env K ctx coms idx cells proofs).

Definition eip_verify_shape : Prop :=
  [/\ size idx = size coms, size cells = size coms, size proofs = size coms & all index128 idx].

Definition first_bad (P : pred (seq byte)) (s : seq (seq byte)) (i : nat) : Prop :=
  [/\ (i < size s)%N, ~~ P (nth [::] s i) & forall j, (j < i)%N -> P (nth [::] s j)].

Definition decodable (b : seq byte) : bool := isSome (fromc b).

(** The sum of the defects of the openings, weighted by the powers of r. *)
Definition batch_sum (C P : nat -> G1) (I : nat -> {poly Fr}) (r : Fr) : GT :=
  \sum_(t < size coms) r ^+ t *:
    opening_defect (de_pair env) g2s`_0 g2s`_64 (coset_point (N.to_nat (nth 0%num idx t)) ^+ 64)
      (C t) (commit g1s (I t)) (P t).

Definition call_challenge (evals : seq (seq Fr)) : Fr :=
  te_reduce_bytes_to_scalar_bias (de_te env)
    (te_sha256 (de_te env) (call_transcript env 6 6 coms idx proofs evals)).

Record decoded (C P : nat -> G1) (I : nat -> {poly Fr}) : Prop := Decoded {
  dec_C : forall t, (t < size coms)%N -> fromc (nth [::] coms t) = Some (C t);
  dec_P : forall t, (t < size coms)%N -> fromc (nth [::] proofs t) = Some (P t);
  dec_I : forall t, (t < size coms)%N ->
    cell_interpolant (N.to_nat (nth 0%num idx t)) (nth [::] cells t) (I t)
}.

Inductive verify_case : outcome (result unit error) -> Prop :=
| VcLen of ~~ [&& size idx == size coms, size cells == size coms & size proofs == size coms] :
    verify_case (Ret (Err (EVerifier (BatchVerificationInputsMustHaveSameLength (size coms)
      (size idx) (size cells) (size proofs)))))
| VcRange i of [&& size idx == size coms, size cells == size coms & size proofs == size coms] &
    (i < size idx)%N & ~~ index128 (nth 0%num idx i) &
    (forall j, (j < i)%N -> index128 (nth 0%num idx j)) :
    verify_case (Ret (Err (EVerifier (VerifierCellIndexOutOfRange (nth 0%num idx i) 128%num))))
| VcCommitment i of eip_verify_shape & first_bad decodable coms i :
    verify_case (Ret (Err (ESerialization (CouldNotDeserializeG1Point (nth [::] coms i)))))
| VcProof i of eip_verify_shape & all decodable coms & first_bad decodable proofs i :
    verify_case (Ret (Err (ESerialization (CouldNotDeserializeG1Point (nth [::] proofs i)))))
| VcChunk t i of eip_verify_shape & all decodable coms & all decodable proofs &
    (t < size cells)%N & (i < 64)%N & ~~ canonical (chunk (nth [::] cells t) i) &
    (forall j, (j < i)%N -> canonical (chunk (nth [::] cells t) j)) &
    (forall t' j, (t' < t)%N -> (j < 64)%N -> canonical (chunk (nth [::] cells t') j)) :
    verify_case (Ret (Err (ESerialization
      (CouldNotDeserializeScalar (chunk (nth [::] cells t) i)))))
| VcRun C P I evals of eip_verify_shape & decoded C P I &
    deserialize_cells env cells = Ret (Ok evals) :
    verify_case (Ret (if batch_sum C P I (call_challenge evals) == 0
                      then Ok tt else Err (EVerifier (VerifierFK20 InvalidProof)))).

Lemma interpolant_exists k cell : size cell = 2048%N ->
  (forall j, (j < 64)%N -> canonical (chunk cell j)) -> exists I, cell_interpolant k cell I.
Proof.
move=> Sce Hcan.
have Hok i : (i < 64)%N -> chunk_ok env cell i by rewrite chunk_okE; exact: Hcan.
have [xs _ [Sx He]] := @deserialize_scalars_ok _ _ _ _ env eok cell 64 Sce Hok.
have [f Sf Hf] := cell_interpolant_exists fr_ok (n := 13) (l := 6) (m := 7) erefl Had13 H13_32 k Sx.
exists f; split; first exact: Sf.
move=> j Hj; have := Hf j Hj; rewrite /cell_point omega13 => E.
have := He j; rewrite Sx (es_to std) -E => /(_ Hj); exact.
Qed.

Lemma interpolant_unique k cell I J : cell_interpolant k cell I -> cell_interpolant k cell J -> I = J.
Proof.
move=> [SI HI] [SJ HJ].
pose xs := mkseq (fun j => I.[w8192 ^+ bitrev 13 (k * 64 + j)]) 64.
have inj : injective fr_be.
  by move=> x y; have := tob_inj eok; rewrite (es_to std) => H; exact: H.
apply: (@agrees_on_cell_unique _ _ fr_ok 13 6 7 erefl Had13 k xs I J SI SJ) => j Hj.
  by rewrite /cell_point omega13 nth_mkseq.
by rewrite /cell_point omega13 nth_mkseq //; apply: inj; rewrite HI // HJ.
Qed.

Lemma verify_caseP : verify_case V.
Proof.
have [bt Hbt ->] := ctxE; rewrite eip_constsE.
case: (boolP [&& size idx == size coms, size cells == size coms & size proofs == size coms]); last first.
  move=> ne; rewrite (@verify_len _ _ _ _ fr_params env 6 6 1 g1s g2s bt coms idx cells proofs ne).
  exact: VcLen.
move=> Hl.
case: (first_fail (fun i => index128 (nth 0%num idx i)) (size idx)) => [Hr|[i Hi [Bi Gi]]]; last first.
  rewrite (@verify_range _ _ _ _ fr_params env 6 6 1 g1s g2s bt coms idx cells proofs i Hl Hi Bi Gi).
  exact: VcRange.
have Ar : all index128 idx by apply/(all_nthP 0%num).
have sh : eip_verify_shape by case/and3P: Hl => /eqP ? /eqP ? /eqP ?; split.
have sh' : verify_shape 6 1 coms idx cells proofs by split.
case: (first_fail (fun i => decodable (nth [::] coms i)) (size coms)) => [Gc|[i Hi [Bi Gi]]]; last first.
  have Bi' : fromc (nth [::] coms i) = None by move: Bi; rewrite /decodable; case: (fromc _).
  rewrite (@verify_bad_commitment _ _ _ _ fr_params env 6 6 1 g1s g2s bt coms idx cells proofs
    Scom sh' i Hi Bi' Gi).
  exact: (VcCommitment sh (And3 Hi Bi Gi)).
have Ac : all decodable coms by apply/(all_nthP [::]).
case: (first_fail (fun i => decodable (nth [::] proofs i)) (size proofs)) => [Gp|[i Hi [Bi Gi]]]; last first.
  have Bi' : fromc (nth [::] proofs i) = None by move: Bi; rewrite /decodable; case: (fromc _).
  rewrite (@verify_bad_proof _ _ _ _ fr_params env 6 6 1 g1s g2s bt coms idx cells proofs
    Scom Sproof sh' Gc i Hi Bi' Gi).
  exact: (VcProof sh Ac (And3 Hi Bi Gi)).
have Ap : all decodable proofs by apply/(all_nthP [::]).
case: (first_fail (fun t => all (fun j => canonical (chunk (nth [::] cells t) j)) (iota 0 64)) (size cells)); last first.
  move=> [t Hct [Ba Ga]].
  case: (first_fail (fun j => canonical (chunk (nth [::] cells t) j)) 64) => [H|[i Hi [Bi Gi]]].
    by case/negP: Ba; apply/allP => j; rewrite mem_iota add0n => /andP[_]; exact: H.
  have Gt t' j : (t' < t)%N -> (j < 64)%N -> canonical (chunk (nth [::] cells t') j).
    by move=> Ht' Hj; have /allP := Ga t' Ht'; apply; rewrite mem_iota.
  have Bi' : ~~ chunk_ok env (nth [::] cells t) i by rewrite chunk_okE.
  have Gi' j : (j < i)%N -> chunk_ok env (nth [::] cells t) j by rewrite chunk_okE; exact: Gi.
  have Gt' t' j : (t' < t)%N -> (j < 2 ^ 6)%N -> chunk_ok env (nth [::] cells t') j.
    by rewrite chunk_okE; exact: Gt.
  rewrite (@verify_bad_chunk _ _ _ _ fr_params env eok 6 6 1 g1s g2s bt coms idx cells proofs
    Scom Scell Sproof sh' Gc Gp t i Hct Hi Bi' Gi' Gt').
  exact: VcChunk.
move=> H; have Hcan t j : (t < size cells)%N -> (j < 64)%N -> canonical (chunk (nth [::] cells t) j).
  by move=> Hct Hj; have /allP := H t Hct; apply; rewrite mem_iota.
have [_ Sc Sp _] := sh.
pose C t := odflt 0 (fromc (nth [::] coms t)); pose P t := odflt 0 (fromc (nth [::] proofs t)).
have [I HI] : exists I : nat -> {poly Fr}, forall t, (t < size coms)%N ->
    cell_interpolant (N.to_nat (nth 0%num idx t)) (nth [::] cells t) (I t).
  apply: (@finite_choice {poly Fr} 0 (fun t => cell_interpolant (N.to_nat (nth 0%num idx t)) (nth [::] cells t))) => t Ht; apply: interpolant_exists.
    by apply/eqP; apply: (all_nthP [::] Scell); rewrite Sc.
  by move=> j; apply: Hcan; rewrite Sc.
have D : decoded C P I.
  split; [move=> t Ht | move=> t Ht | exact: HI].
    by have := Gc t Ht; rewrite /decodable /C; case: (fromc _).
  by have := Gp t; rewrite Sp => /(_ Ht); rewrite /decodable /P; case: (fromc _).
have HI1 t : (t < size coms)%N -> (size (I t) <= 2 ^ 6)%N by move=> /HI[].
have HI2 t j : (t < size coms)%N -> (j < 2 ^ 6)%N ->
   te_scalar_to_bytes_be (de_te env) (I t).[cell_point (omega fr_params (6 + 6 + 1)) (6 + 6 + 1) 6
     (N.to_nat (nth 0%num idx t)) j] = chunk (nth [::] cells t) j.
  by rewrite (es_to std) [(6 + 6 + 1)%N]/= omega13 => /HI[_ H2] Hj; exact: (H2 j Hj).
have [evals [Ev ->]] := @verify_decoded _ _ _ _ fr_params fr_ok env eok 6 6 1 Had13 H13_32 g1s g2s S1
   S2_gt S2_le bt coms idx cells proofs Scom Scell Sproof sh' Gc Gp C P I (dec_C D) (dec_P D) HI1 HI2.
have := VcRun sh D Ev.
rewrite /batch_sum /coset_point /coset_rep [(6 + 6 + 1)%N]/= [(6 + 1)%N]/= omega13; exact.
Qed.
End Verify.
End Eip.
