(** Numbers of scalars in the multi-scalar multiplications (C60). *)

From Coq Require Import NArith ZArith Init.Byte Strings.Byte.
From mathcomp Require Import ssreflect ssrfun ssrbool eqtype ssrnat seq div fintype bigop ssralg.
From Verif Require Import Base Bytes Spec SpecKZG ZField FrPrime Fr FrEnv Lincomb LincombProofs FixedBaseMSM FrMsm BlstMSM.
From Verif Require Import ToeplitzProofs FK20Prover FK20ProverProofs SpecMSM SpecTables BoothProofs MSMProofs ApiTables.
From mathcomp Require Import zify_ssreflect.

Set Implicit Arguments.
Unset Strict Implicit.
Unset Printing Implicit Defensive.

Import GRing.Theory.
Local Open Scope ring_scope.
Local Opaque be_bytes be_val.

Lemma size_bytes_le s : size (scalar_to_bytes_le s) = 32%N.
Proof. by rewrite size_rev size_be_bytes. Qed.

Lemma mread_nth (T : Type) (x0 : T) s i : (i < size s)%N -> mread s i = MOk (nth x0 s i).
Proof.
move=> Hi; rewrite /mread; have := nth_drop i x0 s 0; rewrite addn0.
by case E: (drop i s) => [|x r] <- //; move: (size_drop i s); rewrite E /=; lia.
Qed.
Lemma mread_out (T : Type) (s : seq T) i : (size s <= i)%N -> mread s i = MFault.
Proof. by move=> H; rewrite /mread drop_oversize. Qed.

Section Blst.
Variables (V : lmodType Fr) (scratch_sizeof : nat -> nat).
Implicit Types (points : seq V) (scalars : seq Fr).

Lemma scalar_mul (s : Fr) (P : V) :
  P *+ N.to_nat (N.modulo (le_to_N (scalar_to_bytes_le s)) (2 ^ N.of_nat 255)) = s *: P.
Proof.
rewrite -[scalar_to_bytes_le s]/(rev (scalar_to_bytes_be s)) le_to_N_rev scalar_val.
have [H0 H1] := zval_rZ s; rewrite N.mod_small; last first.
  have := r_modulus_bounds; rewrite -[N.of_nat 255]/255%num; move: H0 H1.
  have -> : (2 ^ 255)%num = Z.to_N (2 ^ 255) by [].
  by move: (2 ^ 255)%Z r_modulus (zval _) => a b c; lia.
by rewrite Z_N_nat -{2}[s]of_zval -(Z2Nat.id _ H0) -natr_of_Z scaler_nat Z2Nat.id.
Qed.

Lemma nth_rows (g : V -> nat -> V) (m : nat) points i : (0 < m)%N -> (i < size points)%N ->
  nth 0 (flatten [seq mkseq (g P) m | P <- points]) (i * m) = g (nth 0 points i) 0%N.
Proof.
move=> Hm; elim: points i => [|P points IH] [|i] //= Hi.
  by rewrite nth_cat size_mkseq Hm nth_mkseq.
rewrite nth_cat size_mkseq mulSn ltnNge leq_addr /= addKn; exact: IH.
Qed.
Lemma size_rows (g : V -> nat -> V) (m : nat) points :
  size (flatten [seq mkseq (g P) m | P <- points]) = (size points * m)%N.
Proof. by elim: points => [|P points IH] //=; rewrite size_cat size_mkseq IH mulSn. Qed.

(** The table *)
Definition rows (w : nat) points : seq V := flatten [seq mkseq (fun k => P *+ k.+1) (2 ^ w.-1) | P <- points].
Lemma blst_newE points w : (0 < w)%N -> blst_msm_new scratch_sizeof points w =
  MOk (MkBlstMsm (rows w points) w (size points) (scratch_sizeof (size points))).
Proof.
move=> Hw; rewrite /blst_msm_new /precompute_sizeof Hw /= -mulnA mulKn // /blst_precompute Hw !leqnn /=.
by rewrite take_size size_rows subnn cats0.
Qed.

Section Fold.
Variables (w : nat) (points : seq V) (scalars : seq Fr).
Hypothesis Hw : (0 < w)%N.
Definition body (acc : mem_result V) (i : nat) : mem_result V :=
  mlet sum := acc in
  mlet s := mread (map scalar_to_bytes_le scalars) i in
  massert ((NUM_BITS + 7) %/ 8 <= size s)%N (
  mlet P := mread (rows w points) (i * 2 ^ w.-1) in
  MOk (sum + P *+ N.to_nat (N.modulo (le_to_N (take ((NUM_BITS + 7) %/ 8) s)) (2 ^ N.of_nat NUM_BITS)))).

Lemma body_step sum k : (k < size points)%N -> (k < size scalars)%N ->
  body (MOk sum) k = MOk (sum + scalars`_k *: points`_k).
Proof.
move=> Hp Hs; have m0 : (0 < 2 ^ w.-1)%N by rewrite expn_gt0.
rewrite /body /= (mread_nth [::]) ?size_map // (nth_map 0) //=.
rewrite size_bytes_le /= (mread_nth 0); last by rewrite size_rows ltn_pmul2r.
by rewrite /= nth_rows // mulr1n take_oversize ?size_bytes_le // scalar_mul.
Qed.
Lemma body_sum k : (k <= size points)%N -> (k <= size scalars)%N ->
  foldl body (MOk 0) (iota 0 k) = MOk (\sum_(i < k) scalars`_i *: points`_i).
Proof.
elim: k => [|k IH] Hp Hs; first by rewrite big_ord0.
rewrite big_ord_recr -[in iota _ _](addn1 k) iotaD foldl_cat (IH (ltnW Hp) (ltnW Hs)) add0n.
exact: body_step.
Qed.
Lemma fold_fault l : foldl body MFault l = MFault.
Proof. by elim: l. Qed.
Lemma body_fault k : (size scalars < k)%N -> foldl body (MOk 0) (iota 0 k) = MFault.
Proof.
move=> Hk; rewrite -(subnKC Hk) iotaD foldl_cat -addn1 iotaD foldl_cat add0n.
have -> : forall r, foldl body r (iota (size scalars) 1) = MFault; last exact: fold_fault.
by case=> [sum|] //; rewrite /= /body /= mread_out // size_map.
Qed.
Lemma blst_runE : (0 < size points)%N ->
  blst_msm_run scratch_sizeof (MkBlstMsm (rows w points) w (size points) (scratch_sizeof (size points))) scalars =
  foldl body (MOk 0) (iota 0 (size points)).
Proof.
move=> Hp; rewrite /blst_msm_run /blst_mult [bm_table _]/= [bm_wbits _]/= [bm_num_points _]/= [bm_scratch_space_size _]/=.
rewrite Hw Hp size_rows leqnn leq_pmulr //.
Qed.
End Fold.

(** ** FixedBaseMSMPrecompBLST *)

(** With at least as many scalars as points the result is the linear combination of the points with the
    first scalars; with one scalar for each point, the linear combination. *)
Theorem C60_blst points scalars w : (0 < w)%N -> (0 < size points <= size scalars)%N -> exists m,
  blst_msm_new scratch_sizeof points w = MOk m /\
  blst_msm_run scratch_sizeof m scalars = MOk (\sum_(i < size points) scalars`_i *: points`_i).
Proof.
move=> Hw /andP[Hp Hs]; rewrite blst_newE //; eexists; split; first exact: erefl.
by rewrite blst_runE // body_sum.
Qed.

(** With fewer scalars than points it reads outside of the list of pointers. *)
Theorem C60_blst_fewer points scalars w : (0 < w)%N -> (size scalars < size points)%N -> exists m,
  blst_msm_new scratch_sizeof points w = MOk m /\ blst_msm_run scratch_sizeof m scalars = MFault.
Proof.
move=> Hw Hs; rewrite blst_newE //; eexists; split; first exact: erefl.
by rewrite blst_runE ?body_fault //; apply: leq_ltn_trans Hs.
Qed.

(** Without points nothing is defined, with or without scalars. *)
Theorem C60_blst_no_points scalars w m :
  blst_msm_new scratch_sizeof ([::] : seq V) w = MOk m -> blst_msm_run scratch_sizeof m scalars = MFault.
Proof.
rewrite /blst_msm_new; case: (precompute_sizeof _ _) => //= n; case: (blst_precompute _ _ _ _) => //= t [<-].
by rewrite /blst_msm_run /blst_mult /= andbF.
Qed.
End Blst.

(** ** FixedBaseMSM *)
Section Fixed.
Variables (Fq : fieldType) (V : lmodType Fr) (of_affine : Fq * Fq -> V) (A : V -> Fq * Fq).
Local Notation me := (fr_msm_env of_affine A).
Implicit Types (points : seq V) (scalars : seq Fr).

(** Without a table any numbers are accepted: what is left over is ignored. *)
Theorem C60_plain points scalars : exists m,
  fixed_base_msm_new points PrecompNo = Ret m /\
  fixed_base_msm_run me m scalars =
  Ret (\sum_(i < minn (size points) (size scalars)) scalars`_i *: points`_i).
Proof. by exists (FBNoPrecomp points); split=> //=; rewrite g1_lincombE. Qed.

Lemma ofor_panic (I : eqType) (S : Type) (l : seq I) (bd : I -> S -> outcome S) s i :
  i \in l -> (forall s, bd i s = Panic) -> ofor l bd s = Panic.
Proof.
move=> Hi Hp; elim: l s Hi => [|j l IH] s //=; rewrite in_cons => /orP[/eqP <-|/IH H]; first by rewrite Hp.
by case: (bd j s).
Qed.
Lemma size_new points w pw : precomp_window_new points w = Ret pw -> size (pw_table pw) = size points.
Proof.
rewrite /precomp_window_new; case E: (omapM _ _) => [t|] //= [<-] /=.
by elim: points t E => [|P points IH] t /=; [case=> <-|case: (precompute_points _ _) => //= x;
  case: (omapM _ _) IH => //= r IH [<-] /=; rewrite (IH r)].
Qed.

(** With a table, more scalars than points make the multiplication panic. *)
Theorem C60_table_more points scalars w m : fixed_base_msm_new points (PrecompYes w) = Ret m ->
  (size points < size scalars)%N -> fixed_base_msm_run me m scalars = Panic.
Proof.
rewrite /fixed_base_msm_new; case E: (precomp_window_new _ _) => [pw|] //= [<-] Hs.
rewrite /fixed_base_msm_run /precomp_window_msm; case: (_ != _) => //=.
rewrite {1}/window_points (@ofor_panic _ _ _ _ _ (size points, nth [::] (map (me_to_bytes_le me) scalars) (size points))) //.
  set sb := map _ _; have Hb : (size points < size sb)%N by rewrite size_map.
  have -> : (size points, nth [::] sb (size points)) = nth (0%N, [::]) (zip (iota 0 (size sb)) sb) (size points).
    by rewrite nth_zip ?size_iota // nth_iota.
  by rewrite mem_nth // size_zip size_iota minnn.
by move=> s; rewrite [_.1]/= aget_panic // (size_new E).
Qed.

Lemma eq_ofor (I : eqType) (S : Type) (l : seq I) (b1 b2 : I -> S -> outcome S) s :
  (forall i s, i \in l -> b1 i s = b2 i s) -> ofor l b1 s = ofor l b2 s.
Proof.
elim: l s => [|i l IH] s //= H; rewrite H ?mem_head //; case: (b2 i s) => //= s'.
by apply: IH => j s1 Hj; apply: H; rewrite in_cons Hj orbT.
Qed.
Lemma window_take (pw pw' : precomp_window V) sb i : pw_wbits pw = pw_wbits pw' ->
  take (size sb) (pw_table pw) = pw_table pw' -> (size sb <= size (pw_table pw))%N ->
  window_points pw sb i = window_points pw' sb i.
Proof.
move=> Ew Et Hs; apply: eq_ofor => -[k b] s Hk; rewrite [_.1]/= [_.2]/= -Et Ew.
have Hk' : (k < size sb)%N.
  by have := map_f fst Hk; rewrite -/(unzip1 _) unzip1_zip ?size_iota // mem_iota.
by rewrite !(aget_nth [::]) ?size_takel ?nth_take //; apply: leq_trans Hs.
Qed.
Lemma new_take points w pw n : precomp_window_new points w = Ret pw ->
  precomp_window_new (take n points) w = Ret (MkPrecompWindow (take n (pw_table pw)) (pw_wbits pw)).
Proof.
rewrite /precomp_window_new; case E: (omapM _ _) => [t|] //= [<-] /=.
suff -> : omapM (precompute_points w) (take n points) = Ret (take n t) by [].
elim: points t n E => [|P points IH] t n /=; first by case=> <-.
case E1: (precompute_points _ _) => [x|] //=; case E2: (omapM _ _) => [r|] //= [<-].
by case: n => [|n] //=; rewrite E1 /= (IH _ n E2).
Qed.

Hypothesis HC : curve_coords of_affine A.

(** Fewer scalars than points are accepted: the points left over are ignored. *)
Theorem C60_table_fewer points scalars w : (0 < w <= 24)%N -> (size scalars <= size points)%N ->
  no_exceptional_pair w (take (size scalars) points) scalars -> exists m,
  fixed_base_msm_new points (PrecompYes w) = Ret m /\
  fixed_base_msm_run me m scalars = Ret (\sum_(i < size scalars) scalars`_i *: points`_i).
Proof.
move=> Hw Hs Hr; have Hw0 : precomp_width_ok (PrecompYes w) by rewrite /precomp_width_ok; lia.
have [m Em] := fixed_base_msm_new_ret points Hw0; exists m; split=> //.
move: Em; rewrite /fixed_base_msm_new; case E: (precomp_window_new points w) => [pw|] //= [<-].
have Et := new_take (size scalars) E; set pw' := MkPrecompWindow _ _ in Et.
have S : size (take (size scalars) points) = size scalars by rewrite size_takel.
have := @msm_runs_table _ _ _ _ HC w _ _ Hw S Hr (FBPrecomp pw').
rewrite /fixed_base_msm_new Et => /(_ erefl); rewrite /fixed_base_msm_run.
have -> : precomp_window_msm me pw' scalars = precomp_window_msm me pw scalars.
  rewrite /precomp_window_msm -[pw_wbits pw']/(pw_wbits pw).
  suff -> : omapM (window_points pw' (map (me_to_bytes_le me) scalars)) (iota 0 (me_num_bits me %/ pw_wbits pw).+1)
    = omapM (window_points pw (map (me_to_bytes_le me) scalars)) (iota 0 (me_num_bits me %/ pw_wbits pw).+1) by [].
  elim: (iota _ _) => [|i l IH] //=.
  rewrite IH -(@window_take pw pw') // ?size_map //; by rewrite (size_new E).
move=> ->; congr Ret; rewrite /lincomb S minnn.
by apply: eq_bigr => i _; rewrite nth_take.
Qed.
End Fixed.

(** ** The claims that do not hold *)

(** "msm of FixedBaseMSMPrecompBLST accesses only its own memory": two points, one scalar *)
Theorem C60_memory_refuted : exists (points : seq Fr^o) (scalars : seq Fr) (w : nat) m,
  blst_msm_new id points w = MOk m /\ blst_msm_run id m scalars = MFault.
Proof.
have [m H] := @C60_blst_fewer [lmodType Fr of Fr^o] id [:: 1; 1] [:: 1] 8 isT isT.
by exists [:: 1; 1], [:: 1], 8%N, m.
Qed.

(** "a wrong number of scalars is reported" (the message of the expect of line 50): one point, no scalars *)
Theorem C60_reported_refuted : exists (points : seq Fr^o) (scalars : seq Fr) m r,
  [/\ size points <> size scalars, fixed_base_msm_new points PrecompNo = Ret m &
      fixed_base_msm_run (fr_msm_env (Fq := Fr) (fun=> 0) (fun=> (0, 0))) m scalars = Ret r].
Proof.
have [m [H1 H2]] := @C60_plain Fr [lmodType Fr of Fr^o] (fun=> 0) (fun=> (0, 0)) [:: 1] [::].
by exists [:: 1], [::], m; eexists; split; [|exact: H1|exact: H2].
Qed.

Print Assumptions C60_blst.
Print Assumptions C60_table_fewer.
