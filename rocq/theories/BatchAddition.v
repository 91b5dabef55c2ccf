(** Model of /repo/cryptography/bls12_381/src/batch_addition.rs.

    A [G1Affine] is its pair of coordinates (the identity is (0, 0) in blst); [G1Projective] is an
    element of the group V. *)

From mathcomp Require Import ssreflect ssrfun ssrbool eqtype ssrnat seq div ssralg.
From Verif Require Import Base PolyCoeff.

Set Implicit Arguments.
Unset Strict Implicit.
Unset Printing Implicit Defensive.

Import GRing.Theory.
Local Open Scope ring_scope.

(** batch_addition.rs line 44. *)
Definition BATCH_INVERSE_THRESHOLD : nat := 16.

Section BatchAddition.
(** [Fq]: the base field.  [of_affine]: the conversion to projective coordinates that precedes the
    mixed addition [sum += point] (blst). *)
Variables (Fq : fieldType) (V : zmodType) (of_affine : Fq * Fq -> V).

(** batch_addition.rs lines 12-25 [point_add_double]. *)
Definition point_add_double (p1 p2 : Fq * Fq) (inv : Fq) : Fq * Fq :=
  let lambda := if p1 == p2 then (p1.1 * p1.1) *+ 3 * inv else (p2.2 - p1.2) * inv in
  let x := lambda * lambda - p1.1 - p2.1 in
  let y := lambda * (p1.1 - x) - p1.2 in
  (x, y).

(** batch_addition.rs lines 34-40 [choose_add_or_double]. *)
Definition choose_add_or_double (p1 p2 : Fq * Fq) : Fq :=
  if p1 == p2 then p2.2 + p2.2 else p2.1 - p1.1.

(** [(0..=len - 2).step_by(2)]; the subtraction underflows (panic, or an index out of range) for
    len < 2. *)
Definition pair_starts (len : nat) : outcome (seq nat) :=
  oassert (2 <= len)%N (Ret (step_by (len - 1) 2)).

(** batch_addition.rs lines 73-77 and 158-160: the denominators of the pairs. *)
Definition pair_denominators (points : seq (Fq * Fq)) : outcome (seq Fq) :=
  olet idx := pair_starts (size points) in
  omapM (fun i =>
    olet p1 := aget points i in
    olet p2 := aget points i.+1 in
    Ret (choose_add_or_double p1 p2)) idx.

(** batch_addition.rs lines 80-84 and 171-178: the additions, in place. *)
Definition add_pairs (points : seq (Fq * Fq)) (invs : seq Fq) : outcome (seq (Fq * Fq)) :=
  olet idx := pair_starts (size points) in
  ofor (zip idx invs) (fun ii points =>
    olet p1 := aget points ii.1 in
    olet p2 := aget points ii.1.+1 in
    aset points (ii.1 %/ 2) (point_add_double p1 p2 ii.2)) points.

(** batch_addition.rs lines 66-70 and 141-146: an odd last point goes to the sum. *)
Definition pop_odd (points : seq (Fq * Fq)) (sum : V) : outcome (seq (Fq * Fq) * V) :=
  if odd (size points) then
    olet p := aget points (size points).-1 in
    Ret (take (size points).-1 points, sum + of_affine p)
  else Ret (points, sum).

(** batch_addition.rs lines 65-89: one iteration of the while loop. *)
Definition tree_round (st : seq (Fq * Fq) * V) : outcome (seq (Fq * Fq) * V) :=
  olet (points, sum) := pop_odd st.1 st.2 in
  olet denominators := pair_denominators points in
  olet denominators := batch_inverse denominators in
  olet points := add_pairs points denominators in
  Ret (take (size denominators) points, sum).

(** [while cond(st) { body }]; [fuel] bounds the number of iterations. *)
Fixpoint owhile (S : Type) (fuel : nat) (cond : S -> bool) (body : S -> outcome S) (st : S)
  : outcome S :=
  if cond st then
    match fuel with
    | 0%N => Panic
    | f.+1 => olet st' := body st in owhile f cond body st'
    end
  else Ret st.

(** batch_addition.rs lines 53-96 [batch_addition_binary_tree_stride]. The loop halves the
    number of points, so that as many iterations as points are never reached. *)
Definition batch_addition_binary_tree_stride (points : seq (Fq * Fq)) : outcome V :=
  if nilp points then Ret 0 else
  olet (points, sum) :=
    owhile (size points) (fun st => BATCH_INVERSE_THRESHOLD < size st.1)%N tree_round (points, 0) in
  Ret (foldl (fun sum point => sum + of_affine point) sum points).

(** batch_addition.rs lines 119-130 [compute_threshold]. *)
Definition compute_threshold (multi_points : seq (seq (Fq * Fq))) : nat :=
  sumn [seq if (size p %% 2 == 0)%N then (size p %/ 2)%N else ((size p - 1) %/ 2)%N
       | p <- multi_points].

(** batch_addition.rs lines 141-146. *)
Definition multi_pop (multi_points : seq (seq (Fq * Fq))) (sums : seq V)
  : outcome (seq (seq (Fq * Fq) * V)) :=
  omapM (fun ps => pop_odd ps.1 ps.2) (zip multi_points sums).

(** batch_addition.rs lines 153-161. *)
Definition multi_denominators (multi_points : seq (seq (Fq * Fq))) : outcome (seq Fq) :=
  ofor multi_points (fun points denominators =>
    if (size points < 2)%N then Ret denominators else
    olet ds := pair_denominators points in Ret (denominators ++ ds)) [::].

(** batch_addition.rs lines 165-186: the state holds the finished lists and
    [denominators_offset]. *)
Definition multi_add (multi_points : seq (seq (Fq * Fq))) (denominators : seq Fq)
  : outcome (seq (seq (Fq * Fq)) * nat) :=
  ofor multi_points (fun points st =>
    if (size points < 2)%N then Ret (rcons st.1 points, st.2) else
    olet invs := aslice denominators st.2 (size denominators) in
    olet points := add_pairs points invs in
    let num_points := (size points %/ 2)%N in
    Ret (rcons st.1 (take num_points points), (st.2 + num_points)%N)) ([::], 0%N).

(** batch_addition.rs lines 138-189: one iteration; the state holds the lists and the sums. *)
Definition multi_round (st : seq (seq (Fq * Fq)) * seq V) : outcome (seq (seq (Fq * Fq)) * seq V) :=
  olet popped := multi_pop st.1 st.2 in
  let multi_points := unzip1 popped in
  let sums := unzip2 popped in
  olet denominators := multi_denominators multi_points in
  olet (denominators, _) := batch_inverse_scratch_pad denominators [::] in
  olet (multi_points, _) := multi_add multi_points denominators in
  Ret (multi_points, sums).

(** batch_addition.rs lines 103-200 [multi_batch_addition_binary_tree_stride]. *)
Definition multi_batch_addition_binary_tree_stride (multi_points : seq (seq (Fq * Fq)))
  : outcome (seq V) :=
  olet (multi_points, sums) :=
    owhile (sumn (map size multi_points))
      (fun st => BATCH_INVERSE_THRESHOLD < compute_threshold st.1)%N multi_round
      (multi_points, nseq (size multi_points) 0) in
  Ret [seq foldl (fun sum point => sum + of_affine point) sp.1 sp.2 | sp <- zip sums multi_points].

End BatchAddition.
