(** Specification vocabulary about commitments. Nothing here refers to the model. *)

From mathcomp Require Import ssreflect ssrfun ssrbool eqtype ssrnat seq fintype bigop ssralg poly.

Set Implicit Arguments.
Unset Strict Implicit.
Unset Printing Implicit Defensive.

Import GRing.Theory.
Local Open Scope ring_scope.

(** The sum of points.[i] scaled by scalars.[i], over the common length. *)
Definition lincomb (F : fieldType) (V : lmodType F) (points : seq V) (scalars : seq F) : V :=
  \sum_(i < minn (size points) (size scalars)) scalars`_i *: points`_i.

(** The commitment to a polynomial under the setup srs = [tau^0 G, tau^1 G, ...]. *)
Definition commit (F : fieldType) (V : lmodType F) (srs : seq V) (f : {poly F}) : V :=
  \sum_(i < size f) f`_i *: srs`_i.

(** The setup with secret tau and n points. *)
Definition srs_of (F : fieldType) (V : lmodType F) (tau : F) (G : V) (n : nat) : seq V :=
  mkseq (fun i => tau ^+ i *: G) n.
