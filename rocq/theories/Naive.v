(** Model of /repo/cryptography/kzg_multi_open/src/naive.rs. *)

From mathcomp Require Import ssreflect ssrfun ssrbool eqtype ssrnat seq ssralg.
From Verif Require Import Base PolyCoeff Lincomb FK20Verifier.

Set Implicit Arguments.
Unset Strict Implicit.
Unset Printing Implicit Defensive.

Import GRing.Theory.
Local Open Scope ring_scope.

Section Naive.
Variables (F : fieldType) (G1 G2 GT : lmodType F).
Variable pair : G1 -> G2 -> GT.

(** naive.rs lines 70-86 [divide_by_linear]: the state is k and the values pushed so far, the
    last one first; [pop] on an empty vector does nothing. *)
Definition divide_by_linear (poly : seq F) (z : F) : seq F :=
  let: (_, pushed) :=
    foldl (fun (st : F * seq F) coeff =>
      let t := coeff + st.1 in (z * t, t :: st.2)) (0, [::]) (rev poly) in
  (* [pushed] lists the vector backwards, which is the order after [reverse] *)
  behead pushed.

(** naive.rs lines 64-122 [_compute_multi_opening_naive], called by lines 29-35
    [compute_multi_opening] with the same arguments. The points stay in the projective form. *)
Definition naive_compute (commit_key : seq G1) (polynomial points : seq F)
  : outcome (G1 * seq F) :=
  let evaluations := [seq poly_eval polynomial point | point <- points] in
  let coordinates := zip points evaluations in
  olet interp := lagrange_interpolate coordinates in
  olet i_x := ounwrap interp in
  oassert (all (fun pe => poly_eval i_x pe.1 == pe.2) (zip points evaluations)) (
  olet poly_shifted := poly_sub polynomial i_x in
  let quotient_poly := foldl divide_by_linear poly_shifted points in
  olet proof := commit_g1 commit_key quotient_poly in
  Ret (proof, evaluations)).

(** naive.rs lines 137-163 [_verify_multi_opening_naive], called by lines 38-52
    [verify_multi_opening] with the proof as the first argument. *)
Definition naive_verify (vk : verification_key G1 G2) (commitment proof : G1)
  (input_points output_points : seq F) : outcome bool :=
  let coordinates := zip input_points output_points in
  olet interp := lagrange_interpolate coordinates in
  olet i_x := ounwrap interp in
  olet vanishing := vanishing_poly input_points in
  olet comm_vanishing_poly := vk_commit_g2 vk vanishing in
  olet comm_i_x := vk_commit_g1 vk i_x in
  let comm_minus_i_x := commitment - comm_i_x in
  Ret (multi_pairings pair [:: (proof, comm_vanishing_poly); (comm_minus_i_x, - vk_g2_gen vk)]).

End Naive.
