(** Concrete instances of the hypotheses of PropFFT.v. *)

From Coq Require Import ZArith.
From mathcomp Require Import ssreflect ssrfun ssrbool eqtype ssrnat seq div ssralg.
From Verif Require Import Base Spec BitRev FFT Domain DomainProofs PolyCoeff ZField Fr.

Set Implicit Arguments.
Unset Strict Implicit.
Unset Printing Implicit Defensive.
Import GRing.Theory.

Definition fr (z : Z) : Fr := @of_Z rZ z.
Definition vals (s : outcome (seq Fr)) : outcome (seq Z) := omap (map (@zval rZ)) s.

(** C28, C26: a domain of size 4 exists, the FFT of 1 + 2x + 3x^2 + 4x^3 starts with its value 10
    at 1, and the IFFT undoes it. *)
Example ex_domain : exists d, domain_new fr_params (2 ^ 2) = Ret d.
Proof. by exists (mkdom fr_params 2); apply: (domain_new_exp fr_ok). Qed.

Example ex_fft :
  (olet d := domain_new fr_params 3 in
   olet a := fft_scalars d [:: fr 1; fr 2; fr 3; fr 4] in
   olet p := ifft_scalars d a in
   Ret (zval (nth (fr 0) a 0), zval (nth (fr 0) a 2), map (@zval rZ) p))
  = Ret (10%Z, (FrPrime.r_modulus - 2)%Z, [:: 1%Z; 2%Z; 3%Z; 4%Z]).
Proof. by vm_compute. Qed.

(** C27: evaluation on the coset 7 * <w>, and back. *)
Example ex_coset :
  (olet d := domain_new fr_params 2 in
   olet c := coset_fft_new (fr 7) in
   olet a := coset_fft_scalars d [:: fr 1; fr 2] c in
   olet p := coset_ifft_scalars d a c in
   Ret (map (@zval rZ) a, map (@zval rZ) p))
  = Ret ([:: 15%Z; (FrPrime.r_modulus - 13)%Z], [:: 1%Z; 2%Z]).
Proof. by vm_compute. Qed.

(** C29. *)
Example ex_rbo : reverse_bit_order [:: 0; 1; 2; 3; 4; 5; 6; 7] = Ret [:: 0; 4; 2; 6; 1; 5; 3; 7].
Proof. by vm_compute. Qed.
Example ex_rbo_panic : reverse_bit_order [:: 0; 1; 2] = Panic.
Proof. by vm_compute. Qed.

(** C30. *)
Example ex_mul : vals (poly_mul [:: fr 1; fr 2; fr 3] [:: fr 4; fr 5]) =
  Ret [:: 4%Z; 13%Z; 22%Z; 15%Z].
Proof. by vm_compute. Qed.
Example ex_add : vals (poly_add [:: fr 2; fr 3] [:: fr 4; fr 5; fr 6]) = Ret [:: 6%Z; 8%Z; 6%Z].
Proof. by vm_compute. Qed.
Example ex_vanishing : vals (vanishing_poly [:: fr 1; fr 2; fr 3]) =
  Ret [:: (FrPrime.r_modulus - 6)%Z; 11%Z; (FrPrime.r_modulus - 6)%Z; 1%Z].
Proof. by vm_compute. Qed.
Example ex_eval : zval (poly_eval [:: fr 1; fr 2; fr 3] (fr 2)) = 17%Z.
Proof. by vm_compute. Qed.

(** C31. *)
Example ex_lagrange :
  omap (fun o => if o is Some c then Some (map (@zval rZ) c) else None)
    (lagrange_interpolate [:: (fr 0, fr 1); (fr 1, fr 6); (fr 2, fr 17)]) =
  Ret (Some [:: 1%Z; 2%Z; 3%Z]).
Proof. by vm_compute. Qed.
Example ex_lagrange_dup : lagrange_interpolate [:: (fr 1, fr 1); (fr 1, fr 6)] = Panic.
Proof. by vm_compute. Qed.

(** C24. *)
Example ex_batch_inverse :
  omap (fun r => map (@zval rZ) [seq (x.1 * x.2)%R | x <- zip r [:: fr 2; fr 5; fr 9]])
    (batch_inverse [:: fr 2; fr 5; fr 9]) = Ret [:: 1%Z; 1%Z; 1%Z].
Proof. by vm_compute. Qed.
Example ex_batch_inverse_panic : batch_inverse [:: fr 2; fr 0] = Panic.
Proof. by vm_compute. Qed.
