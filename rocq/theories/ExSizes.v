(** Concrete instances of the hypotheses of PropSizes.v, and sizes that are refused. *)

From Coq Require Import ZArith.
From mathcomp Require Import ssreflect ssrfun ssrbool eqtype ssrnat seq div ssralg.
From Verif Require Import Base Domain ZField Fr Lincomb FixedBaseMSM Toeplitz FK20Prover FK20Verifier ExRS ExFK20.

Set Implicit Arguments.
Unset Strict Implicit.
Unset Printing Implicit Defensive.

Definition returns (A : Type) (o : outcome A) : bool := if o is Ret _ then true else false.
Definition sprover bound cell points := fk20_prover_new fr_params ex_srs bound cell points PrecompNo.

(** Eight points: cells of two of sixteen points fit. One cell, three points to a cell, twelve points and a bound
    above the setup do not. *)
Example ex_sizes_prover :
  [/\ returns (sprover 8 2 16), ~~ returns (sprover 8 2 2), ~~ returns (sprover 8 3 16),
      ~~ returns (sprover 8 2 12) & ~~ returns (sprover 16 2 16)].
Proof. by split; vm_compute. Qed.

Definition sopen poly := olet pr := sprover 8 2 16 in compute_multi_opening_proofs no_env pr (InputPolyCoeff poly).
Example ex_sizes_open : [/\ returns (sopen ex_poly) & ~~ returns (sopen (take 7 ex_poly))].
Proof. by split; vm_compute. Qed.

Definition snaive poly cell points := open_multi_point fr_params ex_srs poly cell points.
Example ex_sizes_naive :
  [/\ returns (snaive ex_poly 2 16), ~~ returns (snaive ex_poly 2 2), ~~ returns (snaive (take 7 ex_poly) 2 16) &
      ~~ returns (snaive (ex_poly ++ ex_poly) 2 32)].
Proof. by split; vm_compute. Qed.

Definition smatrices rcs :=
  olet bt := batch_toeplitz_new fr_params ex_xs PrecompNo in
  olet tms := omapM (fun rc => toeplitz_new rc.1 rc.2) rcs in sum_matrix_vector_mul no_env bt tms.
Definition rc1 := (frs [:: 1; 2]%Z, frs [:: 1; 3]%Z).
Example ex_sizes_matrices :
  [/\ returns (smatrices [:: rc1; rc1]), ~~ returns (smatrices [:: rc1]), ~~ returns (smatrices [:: rc1; rc1; rc1]) &
      ~~ returns (smatrices [:: rc1; (rc1.1, [::])])].
Proof. by split; vm_compute. Qed.

Definition stake n := olet d := domain_new fr_params (2 ^ 2) in ifft_g1_take_n d (gs [:: 1; 2; 3; 4]%Z) (Some n).
Example ex_sizes_take_n : [/\ omap size (stake 3) = Ret 3, omap size (stake 0) = Ret 0 & ~~ returns (stake 4)].
Proof. by split; vm_compute. Qed.

Definition skey n := verification_key_new (gs [:: 1]%Z) (gs [:: 1; 5; 25]%Z) n 4.
Example ex_sizes_key : [/\ returns (skey 2) & ~~ returns (skey 3)].
Proof. by split; vm_compute. Qed.

Example ex_sizes_commit :
  [/\ omap gval (olet key := commit_key_new (gs [:: 7; 9]%Z) in commit_g1 key (frs [:: 6]%Z)) = Ret 42%Z &
      ~~ returns (commit_key_new (gs [::]))].
Proof. by split; vm_compute. Qed.
