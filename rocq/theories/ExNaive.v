(** Concrete instances of the hypotheses of PropNaive.v, with the groups taken to be Fr itself and
    the product as the pairing. *)

From Coq Require Import ZArith.
From mathcomp Require Import ssreflect ssrfun ssrbool eqtype ssrnat seq div ssralg.
From Verif Require Import Base Domain DomainProofs ZField Fr SpecKZG SpecDAS Lincomb FK20Prover.
From Verif Require Import FK20Verifier Naive ExRS ExFK20.

Set Implicit Arguments.
Unset Strict Implicit.
Unset Printing Implicit Defensive.
Import GRing.Theory.

Definition ex_pair (P H : G1) : G1 := (P * H : Fr)%R.
Example ex_pair_bilinear : bilinear ex_pair.
Proof.
split=> *; rewrite /ex_pair.
- exact: mulrDl.
- by rewrite /GRing.scale /= mulrA.
- exact: mulrDr.
- by rewrite /GRing.scale /= mulrCA.
Qed.

(** Secret 5, eight points in the first group and four in the second. *)
Definition ex_vk : verification_key G1 G1 :=
  MkVK (srs_of (@of_Z rZ 5 : Fr) (1%R : G1) 8) (srs_of (@of_Z rZ 5 : Fr) (1%R : G1) 4) 1%R 3 8.

(** Opening 1 + 2 X + ... + 8 X^7 at three points. *)
Definition ex_pts : seq Fr := frs [:: 2; 3; 7]%Z.
Example ex_naive_hyps : [/\ (2 <= size ex_pts)%N, uniq ex_pts &
  (size ex_poly <= size ex_srs + size ex_pts)%N].
Proof. by split; vm_compute. Qed.
Example ex_naive :
  omap (fun r : G1 * seq Fr => (gval r.1, map (@zval rZ) r.2)) (naive_compute ex_srs ex_poly ex_pts) =
  Ret (128043, [:: 1793; 24604; 7526268])%Z.
Proof. by vm_compute. Qed.
(** Accepted; rejected with another value; a repeated point and a single point panic. *)
Example ex_naive_verify :
  let run pts ys := (olet out := naive_compute ex_srs ex_poly pts in
                     olet C := commit_g1 ex_srs ex_poly in
                     naive_verify ex_pair ex_vk C out.1 pts (if ys is [::] then out.2 else ys)) in
  [/\ run ex_pts [::] = Ret true, run ex_pts (frs [:: 1793; 24604; 7526269]%Z) = Ret false,
      run (frs [:: 2; 3; 2]%Z) [::] = Panic & run (frs [:: 2]%Z) [::] = Panic].
Proof. by split; vm_compute. Qed.
(** The pairing is injective in the first argument and the secret is not one of the points. *)
Example ex_naive_nondeg : forall Q : G1, ex_pair Q 1%R = 0%R -> Q = 0%R.
Proof. by move=> Q; rewrite /ex_pair mulr1. Qed.
Example ex_naive_secret : (@of_Z rZ 5 : Fr) \notin ex_pts.
Proof. by vm_compute. Qed.
