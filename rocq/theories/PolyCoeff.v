(** Model of /repo/cryptography/polynomial/src/poly_coeff.rs and
    /repo/cryptography/bls12_381/src/batch_inversion.rs. *)

From mathcomp Require Import ssreflect ssrfun ssrbool eqtype ssrnat seq div prime ssralg.
From Verif Require Import Base Domain.

Set Implicit Arguments.
Unset Strict Implicit.
Unset Printing Implicit Defensive.

Import GRing.Theory.
Local Open Scope ring_scope.

Section PolyCoeff.
Variable F : fieldType.

(** poly_coeff.rs lines 14-22 [poly_add]. *)
Definition poly_add (a b : seq F) : outcome (seq F) :=
  let: (smaller, larger) := if (size a < size b)%N then (a, b) else (b, a) in
  ofor (iota 0 (size smaller)) (fun i larger =>
    olet x := aget larger i in
    olet y := aget smaller i in
    aset larger i (x + y)) larger.

(** poly_coeff.rs lines 26-31 [poly_neg]. *)
Definition poly_neg (a : seq F) : seq F := [seq - x | x <- a].

(** poly_coeff.rs lines 37-40 [poly_sub]. *)
Definition poly_sub (a b : seq F) : outcome (seq F) := poly_add a (poly_neg b).

(** poly_coeff.rs lines 44-50 [poly_eval]. *)
Definition poly_eval (poly : seq F) (value : F) : F :=
  foldl (fun result coeff => result * value + coeff) 0 (rev poly).

(** poly_coeff.rs lines 54-62 [poly_mul]; the length [a.len() + b.len() - 1] underflows
    (panic, or an allocation failure panic) when both are empty. *)
Definition poly_mul (a b : seq F) : outcome (seq F) :=
  if (size a + size b == 0)%N then Panic else
  ofor (zip (iota 0 (size a)) a) (fun ia result =>
    ofor (zip (iota 0 (size b)) b) (fun jb result =>
      olet x := aget result (ia.1 + jb.1)%N in
      aset result (ia.1 + jb.1)%N (x + ia.2 * jb.2)) result)
  (nseq (size a + size b - 1) 0).

(** poly_coeff.rs lines 68-74 [vanishing_poly]. *)
Definition vanishing_poly (roots : seq F) : outcome (seq F) :=
  ofor roots (fun root poly => poly_mul poly [:: - root; 1]) [:: 1].

(** State of the inner loop of [lagrange_interpolate]:
    contribution, denominator, max_contribution_degree. *)
Record lagr_state := LagrState { l_contrib : seq F; l_den : F; l_deg : nat }.

(** poly_coeff.rs lines 101-139: the body of the internal iterator. *)
Definition lagrange_inner (n k : nat) (x_k : F) (jp : nat * (F * F)) (st : lagr_state)
  : outcome lagr_state :=
  let: (j, (x_j, _)) := jp in
  if j == k then Ret st else
  let den := l_den st * (x_k - x_j) in
  if l_deg st == 0%N then
    olet c0 := aget (l_contrib st) 0%N in
    olet contrib := aset (l_contrib st) 0%N (c0 - x_j) in
    olet c1 := aget contrib 1%N in
    olet contrib := aset contrib 1%N (c1 + 1) in
    Ret (LagrState contrib den 1%N)
  else
    let mul_by_minus_x_j := [seq - (el * x_j) | el <- l_contrib st] in
    let contrib := take n (0 :: l_contrib st) in
    oassert (size mul_by_minus_x_j == n) (
    olet contrib := ofor (iota 0 (size contrib)) (fun i c =>
       olet x := aget c i in
       olet other := aget mul_by_minus_x_j i in
       aset c i (x + other)) contrib in
    Ret (LagrState contrib den (l_deg st))).

(** poly_coeff.rs lines 93-153: the body of the external iterator. *)
Definition lagrange_outer (points : seq (F * F)) (kp : nat * (F * F)) (coeffs : seq F)
  : outcome (seq F) :=
  let: (k, (x_k, y_k)) := kp in
  let n := size points in
  olet st := ofor (zip (iota 0 n) points) (lagrange_inner n k x_k)
                  (LagrState (nseq n 0) 1 0%N) in
  olet den := invert_expect (l_den st) in
  ofor (zip (iota 0 (size (l_contrib st))) (l_contrib st)) (fun ic coeffs =>
    olet c := aget coeffs ic.1 in
    aset coeffs ic.1 (c + ic.2 * den * y_k)) coeffs.

(** poly_coeff.rs lines 86-156 [lagrange_interpolate]. *)
Definition lagrange_interpolate (points : seq (F * F)) : outcome (option (seq F)) :=
  let n := size points in
  oassert (2 <= n)%N (
  olet coeffs := ofor (zip (iota 0 n) points) (lagrange_outer points) (nseq n 0) in
  Ret (Some coeffs)).

(** batch_inversion.rs lines 14-50 [batch_inverse_scratch_pad].
    Returns the new values of [v] and of the scratch pad.
    First pass (lines 24-29): running products are pushed.
    Second pass (lines 37-49): [v] backwards, zipped with the scratch pad backwards without its
    last element and with 1 appended. *)
Definition batch_inverse_scratch_pad (v scratchpad0 : seq F) : outcome (seq F * seq F) :=
  let: (tmp, scratchpad) :=
    foldl (fun (st : F * seq F) f => (st.1 * f, rcons st.2 (st.1 * f))) (1, [::]) v in
  olet tmp := invert_expect tmp in
  let pairs := zip (rev v) (drop 1 (rev scratchpad) ++ [:: 1]) in
  let: (_, out) :=
    foldl (fun (st : F * seq F) fs => (st.1 * fs.1, (st.1 * fs.2) :: st.2)) (tmp, [::]) pairs in
  (* [out] is rebuilt from the end; positions not reached by the zip keep their value *)
  Ret (take (size v - size pairs) v ++ out, scratchpad).

(** batch_inversion.rs lines 4-7 [batch_inverse]. *)
Definition batch_inverse (v : seq F) : outcome (seq F) :=
  omap fst (batch_inverse_scratch_pad v [::]).

End PolyCoeff.
