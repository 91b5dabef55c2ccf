(** Model of /repo/cryptography/kzg_multi_open/src/fk20/cosets.rs
    (bit reversal itself is in BitRev.v). *)

From Coq Require Import NArith.
From mathcomp Require Import ssreflect ssrfun ssrbool eqtype ssrnat seq div ssralg.
From Verif Require Import Base BitRev Domain.

Set Implicit Arguments.
Unset Strict Implicit.
Unset Printing Implicit Defensive.

Import GRing.Theory.
Local Open Scope ring_scope.

Section Cosets.
Variable F : fieldType.
Variable fp : fparams F.

(** cosets.rs lines 51-77 [coset_gens]. *)
Definition coset_gens (num_points num_cosets : nat) (bit_reversed : bool) : outcome (seq F) :=
  olet domain := domain_new fp num_points in
  let coset_gen := d_generator domain in
  omapM (fun i =>
    if bit_reversed then
      olet log := log2 (as_u32 num_cosets) in
      Ret (pow_vartime coset_gen (N.of_nat (reverse_bits i log)))
    else Ret (pow_vartime coset_gen (N.of_nat i))) (iota 0 num_cosets).

(** cosets.rs line 149: [elements[start..end].copy_from_slice(&evals)]; the slice panics when out
    of range, the copy when the lengths differ. *)
Definition copy_into (T : Type) (a : seq T) (start : nat) (evals : seq T) (len : nat)
  : outcome (seq T) :=
  oassert ((start + len <= size a) && (size evals == len))%N
    (Ret (take start a ++ evals ++ drop (start + len) a)).

(** cosets.rs lines 105-168 [recover_evaluations_in_domain_order]. *)
Definition recover_evaluations_in_domain_order (domain_size : nat) (coset_indices : seq nat)
  (coset_evaluations : seq (seq F)) : outcome (option (seq nat * seq F)) :=
  oassert (size coset_indices == size coset_evaluations) (
  match coset_indices, coset_evaluations with
  | [::], _ | _, [::] => Ret None
  | _ :: _, evals0 :: _ =>
    let elements := nseq domain_size (0 : F) in
    let coset_len := size evals0 in
    if ~~ all (fun coset => size coset == coset_len) coset_evaluations then Ret None else
    oassert (coset_len != 0%N) (
    let index_bound := (domain_size %/ coset_len)%N in
    if ~~ all (fun i => i < index_bound)%N coset_indices then Ret None else
    olet elements := ofor (zip coset_indices coset_evaluations)
      (fun ie elements => copy_into elements (ie.1 * coset_len)%N ie.2 coset_len) elements in
    olet elements := reverse_bit_order elements in
    let cosets_per_full_domain := (domain_size %/ coset_len)%N in
    olet num_bits := log2 (as_u32 cosets_per_full_domain) in
    Ret (Some (map (fun i => reverse_bits i num_bits) coset_indices, elements)))
  end).

End Cosets.
