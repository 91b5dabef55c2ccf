(** Specification of the signed-digit recoding of scalars, of the pair tree of the batch addition
    and of the curve coordinates. *)

From Coq Require Import ZArith.
From mathcomp Require Import ssreflect ssrfun ssrbool eqtype ssrnat seq.

Set Implicit Arguments.
Unset Strict Implicit.
Unset Printing Implicit Defensive.

(** s / 2^k rounded to the nearest integer, halves rounded up. *)
Definition nearest (s : Z) (k : nat) : Z := ((2 * s / 2 ^ Z.of_nat k + 1) / 2)%Z.

(** The signed digit of s in base 2^w at position i. *)
Definition signed_digit (w : nat) (s : Z) (i : nat) : Z :=
  (nearest s (i * w) - 2 ^ Z.of_nat w * nearest s (i.+1 * w))%Z.

From mathcomp Require Import ssralg.
Import GRing.Theory.
Local Open Scope ring_scope.

(** The coordinates of the points of a subgroup of a curve y^2 = x^3 + b: chord and tangent
    formulas, opposite points, and (0, 0) for the identity. *)
Record curve_coords (Fq : fieldType) (V : zmodType) (of_affine : Fq * Fq -> V)
  (to_affine : V -> Fq * Fq) : Prop := CurveCoords {
  cc_of : forall P, of_affine (to_affine P) = P;
  cc_zero : to_affine 0 = (0, 0);
  cc_opp : forall P, P != 0 -> to_affine (- P) = ((to_affine P).1, - (to_affine P).2);
  cc_chord : forall P Q, P != 0 -> Q != 0 -> P != Q -> P + Q != 0 ->
    let: (x1, y1) := to_affine P in
    let: (x2, y2) := to_affine Q in
    let m := (y2 - y1) / (x2 - x1) in
    let x3 := m ^+ 2 - x1 - x2 in
    x1 != x2 /\ to_affine (P + Q) = (x3, m * (x1 - x3) - y1);
  cc_tangent : forall P, P != 0 -> P + P != 0 ->
    let: (x1, y1) := to_affine P in
    let m := x1 ^+ 2 *+ 3 / (y1 *+ 2) in
    let x3 := m ^+ 2 - x1 *+ 2 in
    y1 *+ 2 != 0 /\ to_affine (P + P) = (x3, m * (x1 - x3) - y1)
}.

(** The pairs of a list: first with second, third with fourth, ... *)
Fixpoint pairs (T : Type) (l : seq T) : seq (T * T) :=
  match l with
  | p :: q :: l' => (p, q) :: pairs l'
  | _ => [::]
  end.

Section Tree.
Variable V : zmodType.

Definition pair_sums (l : seq V) : seq V := [seq pq.1 + pq.2 | pq <- pairs l].

(** No pair contains the identity or two opposite points. *)
Definition regular_pairs (l : seq V) : bool :=
  all (fun pq => [&& pq.1 != 0, pq.2 != 0 & pq.1 + pq.2 != 0]) (pairs l).

(** No exceptional pair is met when the list is summed in rounds of pairs until at most [limit]
    points remain. *)
Inductive regular_tree (limit : nat) : seq V -> Prop :=
| RegularLeaf l : (size l <= limit)%N -> regular_tree limit l
| RegularNode l : regular_pairs l -> regular_tree limit (pair_sums l) -> regular_tree limit l.

(** The same for several lists summed together until at most [limit] pairs remain. *)
Inductive regular_forest (limit : nat) : seq (seq V) -> Prop :=
| RegularLeaves ls : (sumn [seq size (pairs l) | l <- ls] <= limit)%N -> regular_forest limit ls
| RegularNodes ls : all regular_pairs ls -> regular_forest limit (map pair_sums ls) ->
    regular_forest limit ls.

(** Some round meets two opposite points in a pair (while more than [limit] points remain), the
    earlier rounds being regular. *)
Inductive cancelling_tree (limit : nat) : seq V -> Prop :=
| CancelHere l : (limit < size l)%N -> has (fun pq => pq.1 + pq.2 == 0) (pairs l) ->
    cancelling_tree limit l
| CancelLater l : (limit < size l)%N -> regular_pairs l -> cancelling_tree limit (pair_sums l) ->
    cancelling_tree limit l.

(** The same for several lists. *)
Inductive cancelling_forest (limit : nat) : seq (seq V) -> Prop :=
| CancelsHere ls : (limit < sumn [seq size (pairs l) | l <- ls])%N ->
    has (fun l => has (fun pq => pq.1 + pq.2 == 0) (pairs l)) ls -> cancelling_forest limit ls
| CancelsLater ls : (limit < sumn [seq size (pairs l) | l <- ls])%N -> all regular_pairs ls ->
    cancelling_forest limit (map pair_sums ls) -> cancelling_forest limit ls.

End Tree.

(** An integer multiple of a group element. *)
Definition zmul (V : zmodType) (z : Z) (P : V) : V :=
  match z with
  | Z0 => 0
  | Zpos n => P *+ Pos.to_nat n
  | Zneg n => - (P *+ Pos.to_nat n)
  end.

(** The summands of position i when each point is multiplied by its scalar in signed digits of w
    bits: the nonzero digit multiples. *)
Definition window_terms (V : zmodType) (w : nat) (points : seq V) (scalars : seq Z) (i : nat)
  : seq V :=
  [seq zmul (signed_digit w ps.2 i) ps.1
  | ps <- [seq ps <- zip points scalars | negb (Z.eqb (signed_digit w ps.2 i) 0)]].
