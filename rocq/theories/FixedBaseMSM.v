(** Model of /repo/cryptography/bls12_381/src/booth_encoding.rs, fixed_base_msm_window.rs and
    fixed_base_msm.rs (the enum [FixedBaseMSM]; the struct [FixedBaseMSMPrecompBLST] of that
    file, which the library does not use, is in BlstMSM.v). *)

From Coq Require Import NArith ZArith Init.Byte Strings.Byte.
From mathcomp Require Import ssreflect ssrfun ssrbool eqtype ssrnat seq div ssralg.
From Verif Require Import Base Lincomb.

Set Implicit Arguments.
Unset Strict Implicit.
Unset Printing Implicit Defensive.

Import GRing.Theory.
Local Open Scope ring_scope.

(** [u32::from_le_bytes] and its generalisation to any number of bytes. *)
Fixpoint le_to_N (bs : seq byte) : N :=
  match bs with
  | [::] => 0%num
  | b :: bs' => (Byte.to_N b + 256 * le_to_N bs')%num
  end.

(** booth_encoding.rs lines 4-46 [get_booth_index].  [tmp] is a u32: the left shift of line 30
    drops the top bit, and shifting [1] by 32 or more panics. The final [as i32] conversions are
    exact since tmp < 2^31 after line 41. *)
Definition get_booth_index (window_index window_size : nat) (el : seq byte) : outcome Z :=
  let skip_bits := ((window_index * window_size) - 1)%N in
  let skip_bytes := (skip_bits %/ 8)%N in
  let tmp := le_to_N (take 4 (drop skip_bytes el)) in
  let tmp := if window_index == 0%N then N.modulo (2 * tmp) (2 ^ 32) else tmp in
  let tmp := N.shiftr tmp (N.of_nat (skip_bits - skip_bytes * 8)) in
  oassert (window_size.+1 < 32)%N (
  let w := N.of_nat window_size in
  let tmp := N.land tmp (2 ^ (w + 1) - 1) in
  let sign := N.eqb (N.land tmp (2 ^ w)) 0 in
  let tmp := N.shiftr (tmp + 1) 1 in
  if sign then Ret (Z.of_N tmp)
  else oassert (negb (N.eqb tmp 0))
    (Ret (- Z.of_N (N.land (2 ^ 32 - 1 - (tmp - 1)) (2 ^ w - 1)))%Z)).

(** fixed_base_msm.rs lines 17-21 [UsePrecomp]. *)
Inductive use_precomp := PrecompYes (width : nat) | PrecompNo.

(** What the multi-scalar multiplication needs besides the group operations: the encoding of
    scalars ([to_bytes_le], [NUM_BITS] of the ff crate) and
    [multi_batch_addition_binary_tree_stride], modelled in BatchAddition.v. *)
Record msm_env (F : fieldType) (V : lmodType F) := MkMsmEnv {
  me_to_bytes_le : F -> seq byte;
  me_num_bits : nat;
  me_multi_batch_addition : seq (seq V) -> outcome (seq V)
}.

Section MSM.
Variables (F : fieldType) (V : lmodType F) (me : msm_env V).

(** fixed_base_msm_window.rs lines 35-48 [precompute_points]; [wbits - 1] underflows for 0. *)
Definition precompute_points (wbits : nat) (point : V) : outcome (seq V) :=
  oassert (0 < wbits)%N
    (Ret (foldl (fun (st : seq V * V) _ => (rcons st.1 st.2, st.2 + point))
            ([::], point) (iota 0 (2 ^ wbits.-1))).1).

(** fixed_base_msm_window.rs lines 11-14 and 17-33 [FixedBaseMSMPrecompWindow], [new]. *)
Record precomp_window := MkPrecompWindow { pw_table : seq (seq V); pw_wbits : nat }.
Definition precomp_window_new (points : seq V) (wbits : nat) : outcome precomp_window :=
  olet precomputed_points := omapM (precompute_points wbits) points in
  Ret (MkPrecompWindow precomputed_points wbits).

(** fixed_base_msm_window.rs lines 57-72: the points of one window. *)
Definition window_points (pw : precomp_window) (scalars_bytes : seq (seq byte)) (window_idx : nat)
  : outcome (seq V) :=
  ofor (zip (iota 0 (size scalars_bytes)) scalars_bytes) (fun isb acc =>
    olet sub_table := aget (pw_table pw) isb.1 in
    olet point_idx := get_booth_index window_idx (pw_wbits pw) isb.2 in
    if Z.eqb point_idx 0 then Ret acc
    else
      olet point := aget sub_table (Z.to_nat (Z.abs point_idx) - 1) in
      Ret (rcons acc (if Z.ltb 0 point_idx then point else - point))) [::].

(** fixed_base_msm_window.rs lines 50-89 [msm]. *)
Definition precomp_window_msm (pw : precomp_window) (scalars : seq F) : outcome V :=
  let scalars_bytes := map (me_to_bytes_le me) scalars in
  oassert (pw_wbits pw != 0%N) (
  let number_of_windows := (me_num_bits me %/ pw_wbits pw).+1 in
  olet windows_of_points := omapM (window_points pw scalars_bytes) (iota 0 number_of_windows) in
  olet accumulated_points := me_multi_batch_addition me windows_of_points in
  match rev accumulated_points with
  | [::] => Panic
  | result :: rest =>
      Ret (foldl (fun result point =>
             iter (pw_wbits pw) (fun r => r + r) result + point) result rest)
  end).

(** fixed_base_msm.rs lines 28-32 and 35-42 [FixedBaseMSM], [new]. *)
Inductive fixed_base_msm := FBPrecomp (pw : precomp_window) | FBNoPrecomp (generators : seq V).
Definition fixed_base_msm_new (generators : seq V) (up : use_precomp) : outcome fixed_base_msm :=
  match up with
  | PrecompYes width => omap FBPrecomp (precomp_window_new generators width)
  | PrecompNo => Ret (FBNoPrecomp generators)
  end.

(** fixed_base_msm.rs lines 44-54 [msm]. *)
Definition fixed_base_msm_run (m : fixed_base_msm) (scalars : seq F) : outcome V :=
  match m with
  | FBPrecomp pw => precomp_window_msm pw scalars
  | FBNoPrecomp generators => ounwrap (g1_lincomb generators scalars)
  end.

End MSM.
