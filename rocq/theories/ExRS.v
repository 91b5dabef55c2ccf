(** Concrete instances of the hypotheses of PropRS.v. *)

From Coq Require Import ZArith.
From mathcomp Require Import ssreflect ssrfun ssrbool eqtype ssrnat seq div ssralg.
From Verif Require Import Base Domain DomainProofs ZField Fr ReedSolomon ReedSolomonProofs.

Set Implicit Arguments.
Unset Strict Implicit.
Unset Printing Implicit Defensive.
Import GRing.Theory.

Definition frs (s : seq Z) : seq Fr := map (@of_Z rZ) s.
Definition rvals (x : outcome (result (seq Fr) rs_error)) : outcome (result (seq Z) rs_error) :=
  omap (fun r => match r with Ok s => Ok (map (@zval rZ) s) | Err e => Err e end) x.

(** The code with poly_len = 2, expansion 2 and block size 4 exists. *)
Example ex_rs_new : exists rs, rs_new fr_params (2 ^ 1) (2 ^ 1) (2 ^ 2) = Ret rs.
Proof. by exists (mkrs fr_params 1 1 2); apply: (rs_new_exp fr_ok). Qed.

(** C32, C33: encode 3 + 5x, erase positions 0 and 3 (replacing them with garbage), recover. *)
Example ex_rs_recover :
  (olet rs := rs_new fr_params 2 2 4 in
   olet r := rs_encode rs (frs [:: 3; 5]%Z) in
   match r with
   | Ok c => rvals (recover_polynomial_coefficient rs
               (set_nth 0%R (set_nth 0%R c 0 (@of_Z rZ 77)) 3 (@of_Z rZ 78)) [:: 3; 0])
   | Err e => Ret (Err e)
   end) = Ret (Ok [:: 3; 5]%Z).
Proof. by vm_compute. Qed.

(** Inconsistent data with one erasure. *)
Example ex_rs_inconsistent :
  (olet rs := rs_new fr_params 2 2 4 in
   rvals (recover_polynomial_coefficient rs (frs [:: 1; 2; 3; 4]%Z) [:: 3])) =
  Ret (Err (PolynomialHasInvalidLength 4 2)).
Proof. by vm_compute. Qed.

(** An out-of-range index and too many erasures. *)
Example ex_rs_errors :
  (olet rs := rs_new fr_params 2 2 4 in
   olet a := rvals (recover_polynomial_coefficient rs (frs [:: 1; 2; 3; 4]%Z) [:: 3; 4; 9]) in
   olet b := rvals (recover_polynomial_coefficient rs (frs [:: 1; 2; 3; 4]%Z) [:: 3; 2; 0]) in
   Ret (a, b)) = Ret (Err (InvalidBlockIndex 4 4), Err (TooManyBlockErasures 3 2)).
Proof. by vm_compute. Qed.

(** A block size above the codeword length. *)
Example ex_rs_block_too_large :
  (olet rs := rs_new fr_params 2 1 4 in
   rvals (recover_polynomial_coefficient rs (frs [:: 1; 2]%Z) [:: 1])) = Panic.
Proof. by vm_compute. Qed.
