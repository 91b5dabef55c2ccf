(** A concrete instance of [curve_coords] for every field: the smooth points of y^2 = x^3 form a
    group isomorphic to the additive group of the field, t being the point (1/t^2, 1/t^3) and 0
    the point at infinity. Used for examples only. *)

From mathcomp Require Import ssreflect ssrfun ssrbool eqtype ssrnat seq ssralg.
From Coq Require Import Ring.
From Verif Require Import SpecMSM.

Set Implicit Arguments.
Unset Strict Implicit.
Unset Printing Implicit Defensive.

Import GRing.Theory.
Local Open Scope ring_scope.

Section Identities.
Variables (R : Type) (zero one : R) (add mul sub : R -> R -> R) (opp : R -> R).
Hypothesis R_ring : ring_theory zero one add mul sub opp eq.
Add Ring R_ring : R_ring.
Local Infix "+" := add. Local Infix "*" := mul. Local Notation "x - y" := (add x (opp y)).

Lemma chord_slope (u v w : R) : w * (u + v) = u * v ->
  v * v * v - u * u * u = (u + v - w) * (v * v - u * u).
Proof.
move=> E; have -> : (u + v - w) * (v * v - u * u) = (u + v) * (v * v - u * u) - w * (u + v) * (v - u) by ring.
by rewrite E; ring.
Qed.
Lemma chord_x (u v w : R) : w * (u + v) = u * v ->
  (u + v - w) * (u + v - w) - u * u - v * v = w * w.
Proof.
move=> E; have -> : (u + v - w) * (u + v - w) - u * u - v * v =
  u * v + u * v - (w * (u + v) + w * (u + v)) + w * w by ring.
by rewrite E; ring.
Qed.
Lemma chord_y (u v w : R) : w * (u + v) = u * v ->
  (u + v - w) * (u * u - w * w) - u * u * u = w * w * w.
Proof.
move=> E; have -> : (u + v - w) * (u * u - w * w) - u * u * u =
  u * (u * v) - w * (u * u) - w * (w * (u + v)) + w * w * w by ring.
have -> : u * (u * v) - w * (u * u) - w * (w * (u + v)) + w * w * w =
  u * (u * v - w * (u + v)) + w * (u * v - w * (u + v)) + w * w * w by ring.
by rewrite E; ring.
Qed.
Lemma tangent_slope (w : R) : let u := w + w in
  u * u * (u * u) + u * u * (u * u) + u * u * (u * u) = (w + w + w) * (u * u * u + u * u * u).
Proof. by cbv zeta; ring. Qed.
Lemma tangent_x (w : R) : let u := w + w in
  (w + w + w) * (w + w + w) - (u * u + u * u) = w * w.
Proof. by cbv zeta; ring. Qed.
Lemma tangent_y (w : R) : let u := w + w in
  (w + w + w) * (u * u - w * w) - u * u * u = w * w * w.
Proof. by cbv zeta; ring. Qed.
End Identities.


Lemma F_ring (F : fieldType) : ring_theory (0 : F) 1 +%R *%R (fun a b => a - b) -%R eq.
Proof.
split=> //; [exact: add0r|exact: addrC|exact: addrA|exact: mul1r|exact: mulrC|exact: mulrA
  |exact: mulrDl|exact: subrr].
Qed.

Section Cusp.
Variable F : fieldType.
Definition cusp_to (t : F) : F * F := (t^-1 ^+ 2, t^-1 ^+ 3).
Definition cusp_of (xy : F * F) : F := xy.1 / xy.2.

Lemma expr2' (x : F) : x ^+ 2 = x * x. Proof. exact: expr2. Qed.
Lemma expr3' (x : F) : x ^+ 3 = x * x * x. Proof. by rewrite exprSr expr2. Qed.

Lemma cusp_coords : curve_coords (cusp_of : F * F -> [zmodType of F]) cusp_to.
Proof.
apply: CurveCoords.
- move=> t; rewrite /cusp_of /cusp_to /=; case: (eqVneq t 0) => [->|t0].
    by rewrite invr0 expr0n mul0r.
  by rewrite [X in _ / X]exprSr invfM mulrA divff ?mul1r ?invrK // expf_neq0 // invr_neq0.
- by rewrite /cusp_to invr0 !expr0n.
- by move=> t _; rewrite /cusp_to /= invrN sqrrN exprNn -signr_odd expr1 mulN1r.
- move=> s t s0 t0 st st0; rewrite /cusp_to.
  set u := s^-1; set v := t^-1; set w := (s + t)^-1.
  have u0 : u != 0 by rewrite invr_neq0.
  have v0 : v != 0 by rewrite invr_neq0.
  have E : w * (u + v) = u * v.
    have -> : u + v = (s + t) * (u * v).
      rewrite mulrDl mulrA divff // mul1r [u * v]mulrC mulrA divff // mul1r; exact: addrC.
    by rewrite mulrA mulVf ?mul1r.
  have Hn : u ^+ 2 != v ^+ 2.
    rewrite eqf_sqr negb_or; apply/andP; split; first by rewrite (inj_eq invr_inj).
    apply: contra st0 => /eqP Eu; rewrite addr_eq0; apply/eqP/invr_inj.
    by rewrite -/u Eu invrN.
  have Hd : v ^+ 2 - u ^+ 2 != 0 by rewrite subr_eq0 eq_sym.
  have Em : (v ^+ 3 - u ^+ 3) / (v ^+ 2 - u ^+ 2) = u + v - w.
    apply: (mulIf Hd); rewrite divfK // !expr3' !expr2'; exact: (chord_slope (F_ring F)).
  split=> //; rewrite Em !expr2' !expr3' (chord_x (F_ring F)) //; congr pair.
  by rewrite (chord_y (F_ring F)).
move=> t t0 tt0; rewrite /cusp_to.
set u := t^-1; set w := (t + t)^-1.
have u0 : u != 0 by rewrite invr_neq0.
have Eu : u = w + w.
  by apply: (mulIf tt0); rewrite mulrDr mulVf // [RHS]mulrDl mulVf.
have Hd : u ^+ 3 *+ 2 != 0.
  rewrite -mulr_natr mulf_neq0 ?expf_neq0 //.
  by apply: contra tt0 => /eqP H2; rewrite -mulr2n -mulr_natr H2 mulr0.
split=> //.
have Em : u ^+ 2 ^+ 2 *+ 3 / (u ^+ 3 *+ 2) = w + w + w.
  apply: (mulIf Hd); rewrite divfK // !expr2' !expr3' mulr2n mulrSr mulr2n Eu; exact: (tangent_slope (F_ring F)).
rewrite Em mulr2n !expr2' !expr3' Eu (tangent_x (F_ring F)); congr pair; by rewrite (tangent_y (F_ring F)).
Qed.
End Cusp.
