(** Concrete instances of the hypotheses of PropBlstMSM.v (C60). *)

From Coq Require Import ZArith NArith.
From mathcomp Require Import ssreflect ssrfun ssrbool eqtype ssrnat seq div fintype bigop ssralg.
From Verif Require Import Base ZField FrPrime Fr SpecFr FrEnv FixedBaseMSM FrMsm BlstMSM.
From Verif Require Import SpecMSM SpecTables ExApi PropBlstMSM Cusp ExMSM.

Set Implicit Arguments.
Unset Strict Implicit.
Unset Printing Implicit Defensive.

Import GRing.Theory.
Local Open Scope ring_scope.

(** Two points and two scalars in the struct made for blst, with windows of 8 bits *)
Example C60_blst_applies : exists m, blst_msm_new (fun n => 3 * n)%N ex_points 8 = MOk m /\
  blst_msm_run (fun n => 3 * n)%N m ex_scalars =
  MOk (\sum_(i < size ex_points) ex_scalars`_i *: ex_points`_i).
Proof. exact: C60_blst. Qed.

(** Three points and two scalars: a read behind the list of pointers, and a value with a table *)
Definition ex_points3 : seq G := rcons ex_points 1.
Example C60_blst_fewer_applies : exists m, blst_msm_new (fun n => 3 * n)%N ex_points3 8 = MOk m /\
  blst_msm_run (fun n => 3 * n)%N m ex_scalars = MFault.
Proof. exact: C60_blst_fewer. Qed.
Example C60_table_fewer_applies : exists m, fixed_base_msm_new ex_points3 (PrecompYes 5) = Ret m /\
  fixed_base_msm_run (fr_msm_env g_of g_to) m ex_scalars =
  Ret (\sum_(i < size ex_scalars) ex_scalars`_i *: ex_points3`_i).
Proof. by apply: (C60_table_fewer ex_coords); last by case: ex_msm_regular. Qed.

(** No points *)
Example C60_blst_no_points_applies : exists m, blst_msm_new (fun n => 3 * n)%N ([::] : seq G) 8 = MOk m.
Proof. by eexists. Qed.

(** One point and two scalars with a table of width 5 *)
Definition ex_point1 : seq G := [:: (1 : G)].
Example C60_table_more_applies : exists m, fixed_base_msm_new ex_point1 (PrecompYes 5) = Ret m /\
  (size ex_point1 < size ex_scalars)%N.
Proof. by eexists. Qed.
