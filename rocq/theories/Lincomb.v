(** Model of /repo/cryptography/bls12_381/src/lincomb.rs and
    /repo/cryptography/kzg_multi_open/src/commit_key.rs.

    A group of curve points is any module over the scalar field; affine and projective
    representations of a point are the same element, so the conversions (including
    [g1_batch_normalize], bls12_381/src/lib.rs lines 33-47) are identities. *)

From mathcomp Require Import ssreflect ssrfun ssrbool eqtype ssrnat seq ssralg.
From Verif Require Import Base.

Set Implicit Arguments.
Unset Strict Implicit.
Unset Printing Implicit Defensive.

Import GRing.Theory.
Local Open Scope ring_scope.

Section Lincomb.
Variables (F : fieldType) (V : lmodType F).

(** [G1Projective::multi_exp] / [G2Projective::multi_exp] (blst, external).  As documented in
    lincomb.rs lines 6-12, blst answers the identity when some point is the identity. *)
Definition multi_exp (points : seq V) (scalars : seq F) : V :=
  if 0 \in points then 0
  else foldr (fun ps acc => ps.2 *: ps.1 + acc) 0 (zip points scalars).

(** lincomb.rs lines 13-21 [g1_lincomb_unsafe]; lines 35-43 [g2_lincomb_unsafe] are the same. *)
Definition g1_lincomb_unsafe (points : seq V) (scalars : seq F) : option V :=
  if size points != size scalars then None else Some (multi_exp points scalars).

(** lincomb.rs lines 53-64 [g1_lincomb]; lines 74-85 [g2_lincomb] are the same. *)
Definition g1_lincomb (points : seq V) (scalars : seq F) : option V :=
  let filtered := [seq ps <- zip points scalars | ps.1 != 0] in
  if nilp (unzip1 filtered) then Some 0
  else g1_lincomb_unsafe (unzip1 filtered) (unzip2 filtered).

(** commit_key.rs lines 10-12 and 15-22 [CommitKey], [CommitKey::new]: the key is its list of
    G1 points. *)
Definition commit_key_new (g1_points : seq V) : outcome (seq V) :=
  oassert (~~ nilp g1_points) (Ret g1_points).

(** commit_key.rs lines 25-31 [commit_g1]. *)
Definition commit_g1 (g1s : seq V) (poly_coeff : seq F) : outcome V :=
  olet points := aslice g1s 0 (size poly_coeff) in
  ounwrap (g1_lincomb points poly_coeff).

End Lincomb.
