(** Properties of the signed-digit recoding (C22), of the batch addition (C23) and of the
    multi-scalar multiplication with precomputed tables (C21). *)

From Coq Require Import ZArith NArith Init.Byte Strings.Byte.
From mathcomp Require Import ssreflect ssrfun ssrbool eqtype ssrnat seq div fintype bigop.
From mathcomp Require Import ssralg poly polydiv zify_ssreflect.
From Verif Require Import Base Bytes Spec SpecKZG SpecDAS PolyCoeff PolyCoeffProofs FixedBaseMSM.
From Verif Require Import LincombProofs ToeplitzProofs FK20Prover FK20ProverProofs FK20Verifier Eip7594 ApiEip.
From Verif Require Import ZField FrPrime Fr SpecFr FrEnv.
From Verif Require Import SpecMSM BoothProofs BatchAddition BatchAdditionProofs MSMProofs FrMsm SpecTables.
From Verif Require Import ApiTables.

Set Implicit Arguments.
Unset Strict Implicit.
Unset Printing Implicit Defensive.

Import GRing.Theory.
Local Open Scope ring_scope.

(** ** C22 *)

(** The value of digits in base 2^w, lowest first. *)
Definition digits_value (w : nat) (ds : seq Z) : Z :=
  foldr (fun d acc => d + 2 ^ Z.of_nat w * acc)%Z 0%Z ds.

Theorem C22_booth (w : nat) (el : seq byte) :
  (0 < w <= 24)%N -> (be_val (rev el) < 2 ^ 255)%num ->
  exists ds : seq Z,
  [/\ size ds = (255 %/ w).+1,
      forall i, (i < size ds)%N -> get_booth_index i w el = Ret (nth 0%Z ds i),
      forall i, (i < size ds)%N -> (Z.abs (nth 0%Z ds i) <= 2 ^ (Z.of_nat w - 1))%Z &
      digits_value w ds = Z.of_N (be_val (rev el))].
Proof.
move=> Hw Hv; exists (mkseq (signed_digit w (le_val el)) (255 %/ w).+1); split.
- exact: size_mkseq.
- by move=> i; rewrite size_mkseq => Hi; rewrite nth_mkseq // get_booth_index_digit.
- move=> i; rewrite size_mkseq => Hi; rewrite nth_mkseq //.
  by apply: signed_digit_bound; [lia|exact: le_val_ge0].
have Ev : le_val el = Z.of_N (be_val (rev el)) by rewrite -le_to_N_rev revK.
rewrite -Ev {2}(signed_digits_telescope w (255 %/ w).+1 (le_val el)) /digits_value.
rewrite nearest_small; last first.
  have Hn : (256 <= (255 %/ w).+1 * w)%N.
    have H0w : (0 < w)%N by lia.
    exact: (ltn_ceil 255 H0w).
  have Hp : (2 * 2 ^ 255 <= 2 ^ Z.of_nat ((255 %/ w).+1 * w))%Z.
    by rewrite -Z.pow_succ_r; [apply: Z.pow_le_mono_r; lia|lia].
  have H0 := @le_val_ge0 el; have H1 : (le_val el < 2 ^ 255)%Z.
    by rewrite Ev; have := proj1 (N2Z.inj_lt _ _) Hv; rewrite N2Z.inj_pow.
  by move: H0 H1 Hp; clear; move: (2 ^ 255)%Z (2 ^ Z.of_nat _)%Z (le_val el); lia.
rewrite /mkseq; move: (iota 0 _) => r; elim: r => [|i r IH] //.
by rewrite [map _ _]/= [foldr _ _ (_ :: _)]/= [in RHS]/= IH.
Qed.

(** For windows of 25 bits the digits can miss a bit of the scalar. *)
Theorem C22_wide_refuted : exists (el : seq byte) (ds : seq Z),
  [/\ size el = 32%N, (be_val (rev el) < 2 ^ 255)%num, size ds = (255 %/ 25).+1,
      forall i, (i < size ds)%N -> get_booth_index i 25 el = Ret (nth 0%Z ds i) &
      digits_value 25 ds <> Z.of_N (be_val (rev el))].
Proof.
exists (nseq 28 "000"%byte ++ "001"%byte :: nseq 3 "000"%byte), (nseq 9 0%Z ++ [:: 1%Z; 0%Z]); split.
- exact: erefl.
- by vm_compute.
- exact: erefl.
- rewrite size_cat size_nseq; do 11 (case=> [_|]; first by vm_compute).
  by move=> i; rewrite !ltnS ltn0.
by vm_compute.
Qed.

(** ** C23 *)
Section C23.
Variables (Fq : fieldType) (V : zmodType) (of_affine : Fq * Fq -> V) (A : V -> Fq * Fq).
Hypothesis HC : curve_coords of_affine A.

Theorem C23_batch (points : seq V) : regular_tree 16 points ->
  batch_addition_binary_tree_stride of_affine (map A points) = Ret (\sum_(P <- points) P).
Proof. exact: batch_additionE. Qed.

Theorem C23_multi (lists : seq (seq V)) : regular_forest 16 lists ->
  multi_batch_addition_binary_tree_stride of_affine (map (map A) lists) =
  Ret [seq \sum_(P <- points) P | points <- lists].
Proof. exact: multi_batch_additionE. Qed.

(** Two opposite points in a pair: division by zero. *)
Theorem C23_batch_cancel_panics (points : seq V) : cancelling_tree 16 points ->
  batch_addition_binary_tree_stride of_affine (map A points) = Panic.
Proof. exact: batch_addition_cancel. Qed.

Theorem C23_multi_cancel_panics (lists : seq (seq V)) : cancelling_forest 16 lists ->
  multi_batch_addition_binary_tree_stride of_affine (map (map A) lists) = Panic.
Proof. exact: multi_batch_addition_cancel. Qed.

(** The identity in a pair with a point P of the curve y^2 = x^3 + b: the coordinates computed are
    those of another pair of coordinates than P. *)
Theorem C23_identity_pair (b : Fq) (P : V) :
  P + P != 0 -> (A P).1 != 0 -> (A P).2 ^+ 2 = (A P).1 ^+ 3 + b ->
  point_add_double (A 0) (A P) (choose_add_or_double (A 0) (A P))^-1 =
    (b / (A P).1 ^+ 2, - (b * (A P).2 / (A P).1 ^+ 3)) /\
  point_add_double (A 0) (A P) (choose_add_or_double (A 0) (A P))^-1 <> A (0 + P).
Proof.
move=> H2 x0 Eb; have P0 : P != 0 by apply: contraNneq H2 => ->; rewrite addr0.
have := cc_tangent HC P0 H2; rewrite add0r.
case E: (A P) Eb x0 => [x y] /= Eb x0 [y0 _].
have AP0 : (A 0 == (x, y)) = false.
  by apply/negP => /eqP; rewrite -E => /(A_inj HC) Z; rewrite -Z eqxx in P0.
rewrite /point_add_double /choose_add_or_double AP0 (cc_zero HC) /= !subr0 sub0r.
set x3 := y / x * (y / x) - x.
have Ex : x3 = b / x ^+ 2.
  have -> : b = y ^+ 2 - x ^+ 3 by rewrite Eb addrC addKr.
  rewrite /x3 mulrBl; congr (_ - _); last by rewrite exprS mulfK // expf_neq0.
  by rewrite mulrACA -invfM.
have Ey : y / x * - x3 = - (b * y / x ^+ 3).
  by rewrite Ex mulrN; congr (- _); rewrite mulrACA -invfM -exprS [y * b]mulrC.
split; first by rewrite Ey Ex.
case=> E1; rewrite Ey => E2.
have bE : b = x ^+ 3 by rewrite exprS -{1}E1 Ex divfK // expf_neq0.
case/negP: y0; move: E2; rewrite bE [x ^+ 3 * y]mulrC mulfK ?expf_neq0 // => E2.
by rewrite mulr2n -{1}E2 addNr.
Qed.

End C23.

(** ** C21 *)
Section C21.
Variables (Fq : fieldType) (V : lmodType Fr) (of_affine : Fq * Fq -> V) (A : V -> Fq * Fq).
Hypothesis HC : curve_coords of_affine A.
Local Notation me := (fr_msm_env of_affine A).

(** With a table of any width or without one, the result is the linear combination. *)
Theorem C21_msm (w : nat) (points : seq V) (scalars : seq Fr) :
  (0 < w <= 24)%N -> size points = size scalars -> no_exceptional_pair w points scalars ->
  exists m m0,
  [/\ fixed_base_msm_new points (PrecompYes w) = Ret m,
      fixed_base_msm_new points PrecompNo = Ret m0,
      fixed_base_msm_run me m scalars = Ret (\sum_(i < size points) scalars`_i *: points`_i) &
      fixed_base_msm_run me m0 scalars = Ret (\sum_(i < size points) scalars`_i *: points`_i)].
Proof.
move=> Hw S Hr; have Hw0 : precomp_width_ok (PrecompYes w) by rewrite /precomp_width_ok; lia.
have [m Em] := fixed_base_msm_new_ret points Hw0.
have El : \sum_(i < size points) scalars`_i *: points`_i = lincomb points scalars.
  by rewrite /lincomb -S minnn.
exists m, (FBNoPrecomp points); split=> //; rewrite El; first exact: (msm_runs_table HC Hw S Hr Em).
exact: msm_runs_no.
Qed.

(** Two opposite points in a pair make the table version panic. *)
Theorem C21_cancel_panics (w : nat) (points : seq V) (scalars : seq Fr) m :
  (0 < w <= 24)%N -> size points = size scalars ->
  cancelling_forest 16
    [seq window_terms w points (map (zval (p := rZ)) scalars) i | i <- iota 0 (255 %/ w).+1] ->
  fixed_base_msm_new points (PrecompYes w) = Ret m -> fixed_base_msm_run me m scalars = Panic.
Proof. exact: msm_table_cancel. Qed.

(** A width of 0 is refused by a panic. *)
Theorem C21_width0 (P : V) (points : seq V) :
  fixed_base_msm_new (P :: points) (PrecompYes 0) = Panic.
Proof. exact: erefl. Qed.
End C21.

(** The calls of the library with a context with tables of width w and one without tables. *)
Section C21Api.
Variables (Fq : fieldType) (G1 G2 GT : lmodType Fr) (env : das_env G1 G2 GT).
Variables (of_affine : Fq * Fq -> G1) (A : G1 -> Fq * Fq).
Hypothesis HC : curve_coords of_affine A.
Hypothesis std : env_std env.
Hypothesis Eme : de_me env = fr_msm_env of_affine A.
Variables (g1s : seq G1) (g2s : seq G2) (w : nat) (ctx ctxw : das_context G1 G2).
Hypothesis S1 : size g1s = (2 ^ 12)%N.
Hypothesis S2 : size g2s = 65%N.
Hypothesis Hw : (0 < w <= 24)%N.
Hypothesis Hctx : das_context_new fr_params eip7594_consts g1s g2s PrecompNo = Ret ctx.
Hypothesis Hctxw : das_context_new fr_params eip7594_consts g1s g2s (PrecompYes w) = Ret ctxw.

Theorem C21_compute blob :
  size blob = (2 ^ 17)%N ->
  (forall f, blob_polynomial blob f ->
   forall j, (j < 128)%N -> no_exceptional_pair w (table_points g1s j) (table_scalars f j)) ->
  compute_cells_and_kzg_proofs env eip7594_consts ctxw blob =
  compute_cells_and_kzg_proofs env eip7594_consts ctx blob.
Proof.
move=> Sb H; apply: (compute_two std S1 S2 Hctxw Hctx Sb) => f Hf.
  exact: (tables_for_regular HC Eme Hw (H f Hf)).
exact: fk20_msm_ok_no.
Qed.

Theorem C21_recover idx cells :
  all (fun x => size x == 2048%N) cells ->
  (forall f, cells_polynomial idx cells f ->
   forall j, (j < 128)%N -> no_exceptional_pair w (table_points g1s j) (table_scalars f j)) ->
  recover_cells_and_kzg_proofs env eip7594_consts ctxw idx cells =
  recover_cells_and_kzg_proofs env eip7594_consts ctx idx cells.
Proof.
move=> Sc H; apply: (recover_two std S1 S2 Hctxw Hctx Sc) => f Hf.
  exact: (tables_for_regular HC Eme Hw (H f Hf)).
exact: fk20_msm_ok_no.
Qed.

(** The other two calls do not use the tables. *)
Theorem C21_commitment_verify blob coms idx cells proofs :
  blob_to_kzg_commitment env eip7594_consts ctxw blob =
    blob_to_kzg_commitment env eip7594_consts ctx blob /\
  verify_cell_kzg_proof_batch env eip7594_consts ctxw coms idx cells proofs =
    verify_cell_kzg_proof_batch env eip7594_consts ctx coms idx cells proofs.
Proof.
split; first by case: (ctx_same env S1 S2 Hctxw Hctx) => _; exact.
exact: (verify_same env S1 S2 Hctxw Hctx).
Qed.

End C21Api.
