(** Contexts with and without precomputed tables. *)

From Coq Require Import ZArith NArith Init.Byte Strings.Byte.
From mathcomp Require Import ssreflect ssrfun ssrbool eqtype ssrnat seq div prime fintype bigop.
From mathcomp Require Import ssralg poly polydiv zify_ssreflect.
From Verif Require Import Base Bytes Spec SpecKZG SpecDAS BitRev BitRevProofs FFT FFTProofs.
From Verif Require Import Domain DomainProofs PolyCoeff PolyCoeffProofs ReedSolomon.
From Verif Require Import ReedSolomonProofs Lincomb LincombProofs FixedBaseMSM Cosets CosetsProofs.
From Verif Require Import Toeplitz ToeplitzProofs FK20Prover FK20ProverProofs FK20Verifier.
From Verif Require Import Eip7594 Eip7594Proofs ApiProofs ApiRecoveryProofs ApiVerifyProofs.
From Verif Require Import ZField FrPrime Pocklington Fr SpecFr FrEnv ApiEip.
From Verif Require Import SpecMSM BoothProofs BatchAddition BatchAdditionProofs MSMProofs FrMsm SpecTables.

Set Implicit Arguments.
Unset Strict Implicit.
Unset Printing Implicit Defensive.

Import GRing.Theory.
Local Open Scope ring_scope.

Local Opaque omega w8192 w4096.

(** ** One multiplication *)
Section Msm.
Variables (Fq : fieldType) (V : lmodType Fr) (of_affine : Fq * Fq -> V) (A : V -> Fq * Fq).
Hypothesis HC : curve_coords of_affine A.
Local Notation me := (fr_msm_env of_affine A).

Lemma le_to_N_rcons bs b : le_to_N (rcons bs b) = (le_to_N bs + 256 ^ N.of_nat (size bs) * Byte.to_N b)%num.
Proof.
elim: bs => [|x bs IH]; first by rewrite [rcons _ _]/= /le_to_N [size _]/= N.pow_0_r; lia.
rewrite rcons_cons -[le_to_N (x :: rcons _ _)]/(Byte.to_N x + 256 * le_to_N (rcons bs b))%num.
rewrite -[le_to_N (x :: bs)]/(Byte.to_N x + 256 * le_to_N bs)%num IH -[size (_ :: _)]/(size bs).+1.
by rewrite Nat2N.inj_succ N.pow_succ_r'; move: (256 ^ _)%num => p; nia.
Qed.

Lemma le_to_N_rev bs : le_to_N (rev bs) = be_val bs.
Proof.
elim: bs => [|b bs IH] //; rewrite rev_cons le_to_N_rcons IH size_rev.
by rewrite (be_val_cons b bs) N.add_comm N.mul_comm.
Qed.

Lemma scalar_intE (s : Fr) : scalar_int me s = zval (p := rZ) s.
Proof.
rewrite /scalar_int /le_val -[me_to_bytes_le _ _]/(rev (scalar_to_bytes_be s)) le_to_N_rev.
by rewrite scalar_val Z2N.id; last by case: (zval_rZ s).
Qed.

Lemma fr_encoding_ok : encoding_ok me.
Proof.
move=> s; rewrite -/(scalar_int me s) scalar_intE; split.
  by have := zval_rZ s; have := r_modulus_bounds; rewrite -[Z.of_nat _]/255%Z;
     move: (2 ^ 255)%Z r_modulus (zval _) => a b c; lia.
have [H0 H1] := zval_rZ s; rewrite -[RHS](of_zval s) natr_of_Z Z2Nat.id //.
Qed.

Lemma map_scalar_int (ss : seq Fr) : map (scalar_int me) ss = map (zval (p := rZ)) ss.
Proof. by apply: eq_map => s; exact: scalar_intE. Qed.

Lemma msm_runs_table w pts ss : (0 < w <= 24)%N -> size pts = size ss ->
  no_exceptional_pair w pts ss -> msm_runs me (PrecompYes w) pts ss.
Proof.
move=> Hw S; rewrite /no_exceptional_pair => Hr m.
rewrite /fixed_base_msm_new; case E: (precomp_window_new pts w) => [pw|] // [<-].
apply: (precomp_window_msmE Hw fr_encoding_ok S _ E).
rewrite map_scalar_int; exact: (multi_batch_additionE HC Hr).
Qed.

Lemma msm_table_cancel w pts ss m : (0 < w <= 24)%N -> size pts = size ss ->
  cancelling_forest 16
    [seq window_terms w pts (map (zval (p := rZ)) ss) i | i <- iota 0 (255 %/ w).+1] ->
  fixed_base_msm_new pts (PrecompYes w) = Ret m -> fixed_base_msm_run me m ss = Panic.
Proof.
move=> Hw S Hc; rewrite /fixed_base_msm_new; case E: (precomp_window_new pts w) => [pw|] // [<-].
rewrite /fixed_base_msm_run /precomp_window_msm.
have Ew : pw_wbits pw = w by move: E; rewrite /precomp_window_new; case: (omapM _ _) => // t [<-].
rewrite Ew; have -> : w != 0%N by lia.
cbv zeta; rewrite /oassert.
rewrite (omapM_Ret (g := window_terms w pts (map (scalar_int me) ss))); last first.
  by move=> i; exact: (@window_pointsE _ _ me w pts ss i Hw S pw E).
rewrite obind_Ret map_scalar_int.
by rewrite -[me_multi_batch_addition _ _]/(multi_batch_addition_binary_tree_stride of_affine _)
  (multi_batch_addition_cancel HC Hc).
Qed.

End Msm.

(** ** The multiplications of the prover *)
Lemma sum_resize (V : lmodType Fr) (c : nat -> Fr) (g : nat -> V) m n M : (m <= n)%N -> (n <= M)%N ->
  \sum_(t < M) c t *: (resize n 0 (mkseq g m))`_t = \sum_(b < m) c b *: g b.
Proof.
move=> Hm Hn; have HM : (m <= M)%N by exact: leq_trans Hm Hn.
rewrite -(big_mkord xpredT (fun t => c t *: (resize n 0 (mkseq g m))`_t)) (big_cat_nat _ _ _ (leq0n m) HM) /=.
rewrite [X in _ + X]big_nat_cond [X in _ + X]big1 ?addr0; last first.
  move=> t /andP[/andP[Ht1 Ht2] _]; case: (ltnP t n) => Ht; first rewrite nth_resize //.
    by rewrite nth_default ?scaler0 // size_mkseq.
  by rewrite nth_default ?scaler0 // size_resize.
rewrite big_mkord; apply: eq_bigr => b _; congr (_ *: _).
rewrite nth_resize; last by exact: leq_trans (ltn_ord b) Hm.
by rewrite nth_mkseq.
Qed.

Lemma nth_rev_rot (g : nat -> Fr) n u : (u < n)%N ->
  (rev (rot 1 (mkseq g n)))`_u = if u == 0%N then g 0%N else g (n - u)%N.
Proof.
case: n => // n Hu; rewrite /mkseq [iota _ _]/= map_cons rot1_cons rev_rcons.
case: u Hu => [|u] // Hu; rewrite [X in X`_ _]/= -[nth _ _ _]/(nth 0 (rev (map g (iota 1 n))) u).
rewrite nth_rev ?size_map ?size_iota //.
rewrite (nth_map 0%N) ?size_iota; last by lia.
by rewrite nth_iota; [congr g; lia|lia].
Qed.

Lemma sum_circulant (c g : nat -> Fr) n : (0 < n)%N ->
  \sum_(t < n + n) c t * ((g 0%N :: nseq n.-1 0) ++ rev (rot 1 (mkseq g n)))`_t =
  c n * g 0%N + (c 0%N * g 0%N + \sum_(1 <= b < n) c (n + n - b)%N * g b).
Proof.
move=> Hn; have Hnn : (n <= n + n)%N by exact: leq_addr.
set s := _ ++ _.
rewrite -(big_mkord xpredT (fun t => c t * s`_t)) (big_cat_nat _ _ _ (leq0n n) Hnn) /=.
have Sz : size (g 0%N :: nseq n.-1 0) = n by rewrite /= size_nseq prednK.
have -> : \sum_(0 <= t < n) c t * s`_t = c 0%N * g 0%N.
  rewrite big_ltn // [X in _ + X]big_nat_cond [X in _ + X]big1 ?addr0 ?/s ?nth_cat ?Sz ?Hn //.
  move=> t /andP[/andP[Ht1 Ht2] _]; rewrite nth_cat Sz Ht2.
  by case: t Ht1 {Ht2} => // t _; rewrite /= nth_nseq if_same mulr0.
have -> : \sum_(n <= t < n + n) c t * s`_t = c n * g 0%N + \sum_(1 <= u < n) c (n + u)%N * g (n - u)%N.
  rewrite -{1}[n]add0n big_addn addnK big_ltn //; congr (_ + _).
    by rewrite add0n /s nth_cat Sz ltnn subnn nth_rev_rot.
  rewrite big_nat_cond [RHS]big_nat_cond; apply: eq_bigr => u /andP[/andP[Hu1 Hu2] _].
  have Hf : (n + u < n)%N = false by lia.
  rewrite addnC /s nth_cat Sz Hf addKn nth_rev_rot //.
  by case: u Hu1 {Hu2 Hf}.
rewrite addrCA; congr (_ + (_ + _)).
rewrite big_nat_rev big_nat_cond [RHS]big_nat_cond; apply: eq_bigr => u /andP[/andP[Hu1 Hu2] _].
by congr (c _ * g _); lia.
Qed.

Lemma expr64_64 (z : Fr) : z ^+ 64 ^+ 64 = z ^+ (2 ^ 12).
Proof.
have E : (2 ^ 12 = 64 * 64)%N by rewrite -[64%N]/(2 ^ 6)%N -expnD.
by rewrite E exprM.
Qed.

Lemma w128_half : w128 ^+ 64 = -1.
Proof. exact: (etrans (expr64_64 w8192) w8192_half). Qed.

Lemma scalar_sum (z : Fr) (g : nat -> Fr) j : z ^+ 64 = -1 ->
  z ^+ (j * 64) * g 0%N + (z ^+ (j * 0) * g 0%N + \sum_(1 <= b < 64) z ^+ (j * (64 + 64 - b)) * g b) =
  (-1) ^+ j * g 0%N + \sum_(b < 64) z ^+ (j * (128 - b)) * g b.
Proof.
move=> Hz; rewrite [(j * 64)%N]mulnC exprM Hz; congr (_ + _).
rewrite -(big_mkord xpredT (fun b => z ^+ (j * (128 - b)) * g b)) (@big_ltn _ _ _ 0 64) //.
congr (_ * _ + _).
by rewrite muln0 expr0 subn0 [(j * _)%N]mulnC -[128%N]/(64 * 2)%N -mulnA exprM Hz exprM sqrrN !expr1n.
Qed.

Lemma omega7E : omega fr_params 7 = w128. Proof. exact: omega7. Qed.

Local Opaque w128.

Lemma column_pointsE (V : lmodType Fr) (g1s : seq V) j :
  column_points fr_params 6 (srs_vectors 6 6 g1s) j = table_points g1s j.
Proof.
rewrite /column_points /srs_vectors /table_points -map_comp; apply: eq_map => i.
by rewrite /comp omega7E (@sum_resize V (fun t => w128 ^+ (j * t)) _ (2 ^ 6).-1) //.
Qed.

Lemma column_scalarsE (f : {poly Fr}) j :
  column_scalars fr_params 6 (poly_toeplitz 6 6 f) j = table_scalars f j.
Proof.
rewrite /column_scalars /poly_toeplitz /table_scalars -map_comp; apply: eq_map => i.
rewrite /comp omega7E /circulant_row /tm_col /tm_row.
pose g b := f`_(2 ^ 12 - 1 - (i + b * 64)).
have g0 : f`_(2 ^ 12 - 1 - i) = g 0%N by rewrite /g mul0n addn0.
rewrite -[f`_(2 ^ (6 + 6) - 1 - i)]/(f`_(2 ^ 12 - 1 - i)) g0.
rewrite -[mkseq _ _]/(mkseq g 64) -[(2 ^ 6).-1]/(64.-1) -[(2 ^ 7)%N]/(64 + 64)%N.
rewrite (@sum_circulant (fun t => w128 ^+ (j * t)) g 64 isT).
exact: (scalar_sum g j w128_half).
Qed.

Lemma size_table_points (V : lmodType Fr) (g1s : seq V) f j :
  size (table_points g1s j) = size (table_scalars f j).
Proof. by rewrite !size_mkseq. Qed.

Lemma tables_for_regular (Fq : fieldType) (G1 G2 GT : lmodType Fr) (env : das_env G1 G2 GT)
  (of_affine : Fq * Fq -> G1) (A : G1 -> Fq * Fq) (g1s : seq G1) w f :
  curve_coords of_affine A -> de_me env = fr_msm_env of_affine A -> (0 < w <= 24)%N ->
  (forall j, (j < 128)%N -> no_exceptional_pair w (table_points g1s j) (table_scalars f j)) ->
  tables_for env g1s (PrecompYes w) f.
Proof.
move=> HC Eme Hw H j Hj; rewrite Eme column_pointsE column_scalarsE.
exact: (msm_runs_table HC Hw (size_table_points g1s f j) (H j Hj)).
Qed.

(** ** Two contexts for the same setup *)
Section Two.
Variables (G1 G2 GT : lmodType Fr) (env : das_env G1 G2 GT) (std : env_std env).
Local Notation eok := (env_std_ok std).
Local Notation K := eip7594_consts.
Variables (g1s : seq G1) (g2s : seq G2) (ctx ctx' : das_context G1 G2).
Hypothesis S1 : size g1s = (2 ^ 12)%N.
Hypothesis S2 : size g2s = 65%N.
Variables up up' : use_precomp.
Hypothesis Hctx : das_context_new fr_params K g1s g2s up = Ret ctx.
Hypothesis Hctx' : das_context_new fr_params K g1s g2s up' = Ret ctx'.

Lemma compute_two blob : size blob = (2 ^ 17)%N ->
  (forall f, blob_polynomial blob f -> tables_for env g1s up f) ->
  (forall f, blob_polynomial blob f -> tables_for env g1s up' f) ->
  compute_cells_and_kzg_proofs env K ctx blob = compute_cells_and_kzg_proofs env K ctx' blob.
Proof.
move=> Sb T T'.
case: (compute_cases_for std S1 S2 Hctx Sb) => [[f Hf [E _]]|[i [Hi Bi Gi] [E _]]]; last first.
  rewrite E; case: (compute_cases_for std S1 S2 Hctx' Sb) => [[f Hf _]|[i' [Hi' Bi' Gi'] [E' _]]].
    by case/negP: Bi; exact: (blob_polynomial_canonical Hf Hi).
  rewrite E'; suff -> : i = i' by exact: erefl.
  case: (ltngtP i i') => // H; first by move: (Gi' i H); rewrite (negbTE Bi).
  by move: (Gi i' H); rewrite (negbTE Bi').
rewrite (E (T f Hf)).
case: (compute_cases_for std S1 S2 Hctx' Sb) => [[f' Hf' [E' _]]|[i [Hi Bi Gi] _]]; last first.
  by case/negP: Bi; exact: (blob_polynomial_canonical Hf Hi).
by rewrite (E' (T' f' Hf')) (blob_polynomial_unique std Hf Hf').
Qed.

Lemma ctx_same : [/\ dc_verifier_ctx ctx = dc_verifier_ctx ctx' &
  forall blob, blob_to_kzg_commitment env K ctx blob = blob_to_kzg_commitment env K ctx' blob].
Proof.
have [bt _ ->] := ctxE S1 S2 Hctx; have [bt' _ ->] := ctxE S1 S2 Hctx'; split; first exact: erefl.
move=> blob; exact: erefl.
Qed.

Lemma verify_same coms idx cells proofs :
  verify_cell_kzg_proof_batch env K ctx coms idx cells proofs =
  verify_cell_kzg_proof_batch env K ctx' coms idx cells proofs.
Proof. by rewrite /verify_cell_kzg_proof_batch; case: ctx_same => -> _. Qed.

Lemma recover_two idx cells : all (fun x => size x == 2048%N) cells ->
  (forall f, cells_polynomial idx cells f -> tables_for env g1s up f) ->
  (forall f, cells_polynomial idx cells f -> tables_for env g1s up' f) ->
  recover_cells_and_kzg_proofs env K ctx idx cells = recover_cells_and_kzg_proofs env K ctx' idx cells.
Proof.
move=> Sc T T'.
have H1 := recover_case_for std S1 S2 Hctx Sc T.
have H2 := recover_case_for std S1 S2 Hctx' Sc T'.
exact: (recover_case_fun std Sc H1 H2).
Qed.

End Two.
