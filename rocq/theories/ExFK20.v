(** Concrete instances of the hypotheses of PropFK20.v, with the groups taken to be Fr itself. *)

From Coq Require Import ZArith.
From mathcomp Require Import ssreflect ssrfun ssrbool eqtype ssrnat seq div ssralg.
From Verif Require Import Base Domain DomainProofs ZField Fr SpecKZG Lincomb FixedBaseMSM Cosets.
From Verif Require Import Toeplitz FK20Prover ExRS.

Set Implicit Arguments.
Unset Strict Implicit.
Unset Printing Implicit Defensive.
Import GRing.Theory.

Definition G1 : lmodType Fr := [lmodType Fr of Fr^o].
Definition gs (s : seq Z) : seq G1 := map (@of_Z rZ) s.
Definition gval (g : G1) : Z := zval (p := rZ) g.

(** A multi-scalar multiplication environment that is never consulted. *)
Definition no_env : msm_env G1 :=
  {| me_to_bytes_le := fun _ => [::]; me_num_bits := 255; me_multi_batch_addition := fun _ => Panic |}.

(** C25: an identity among the points, and lists of different lengths. *)
Example ex_lincomb :
  omap gval (ounwrap (g1_lincomb (gs [:: 2; 0; 3]%Z) (frs [:: 5; 7; 11; 13]%Z))) = Ret 43%Z.
Proof. by vm_compute. Qed.
Example ex_lincomb_unsafe :
  omap gval (ounwrap (g1_lincomb_unsafe (gs [:: 2; 0; 3]%Z) (frs [:: 5; 7; 11]%Z))) = Ret 0%Z.
Proof. by vm_compute. Qed.

(** C34: [[1 2][3 1]] (10, 20) + [[4 5][6 4]] (30, 40). *)
Definition ex_xs : seq (seq G1) := [:: gs [:: 10; 20]%Z; gs [:: 30; 40]%Z].
Definition ex_tms : seq (toeplitz_matrix Fr) :=
  [:: MkToeplitz (frs [:: 1; 2]%Z) (frs [:: 1; 3]%Z);
      MkToeplitz (frs [:: 4; 5]%Z) (frs [:: 4; 6]%Z)].
Example ex_toeplitz_hyps :
  [/\ (0 < size ex_xs)%N, all (fun x => size x == 2 ^ 1)%N ex_xs, size ex_tms = size ex_xs &
      forall tm, List.In tm ex_tms -> size (tm_row tm) = (2 ^ 1)%N /\ size (tm_col tm) = (2 ^ 1)%N].
Proof. by split=> // tm; case=> [<-|[<-|[]]]. Qed.
Example ex_toeplitz :
  omap (map gval) (olet bt := batch_toeplitz_new fr_params ex_xs PrecompNo in
                   sum_matrix_vector_mul no_env bt ex_tms) = Ret [:: 370; 390]%Z.
Proof. by vm_compute. Qed.
Example ex_transpose : transpose [:: [:: 1; 2; 3]; [:: 4; 5; 6]] = Ret [:: [:: 1; 4]; [:: 2; 5]; [:: 3; 6]].
Proof. by []. Qed.

(** C35: cells 2 and 1 of four, of two elements each. *)
Example ex_regroup :
  omap (Option.map (fun p : seq nat * seq Fr => (p.1, map (@zval rZ) p.2)))
    (recover_evaluations_in_domain_order (2 ^ 3) [:: 2; 1] [:: frs [:: 50; 51]%Z; frs [:: 30; 31]%Z]) =
  Ret (Some ([:: 1; 2], [:: 0; 50; 30; 0; 0; 51; 31; 0]%Z)).
Proof. by vm_compute. Qed.
Example ex_regroup_none :
  [/\ omap isSome (recover_evaluations_in_domain_order (F := Fr) 8 [::] [::]) = Ret false,
      omap isSome (recover_evaluations_in_domain_order 8 [:: 0; 1] [:: frs [:: 1; 2]%Z; frs [:: 1]%Z]) = Ret false &
      omap isSome (recover_evaluations_in_domain_order 8 [:: 4] [:: frs [:: 1; 2]%Z]) = Ret false].
Proof. by split; vm_compute. Qed.

(** C44: a polynomial with eight coefficients, cells of two elements, blow-up factor two. *)
Definition ex_srs : seq G1 := srs_of (@of_Z rZ 5 : Fr) (1%R : G1) 8.
Definition ex_poly : seq Fr := frs [:: 1; 2; 3; 4; 5; 6; 7; 8]%Z.
Example ex_fk20 :
  let vals := omap (fun r : seq G1 * seq (seq Fr) => (map gval r.1, map (map (@zval rZ)) r.2)) in
  is_ret (vals (open_multi_point fr_params ex_srs ex_poly (2 ^ 1) (2 ^ 4))) /\
  vals (olet pr := fk20_prover_new fr_params ex_srs (2 ^ 3) (2 ^ 1) (2 ^ 4) PrecompNo in
        compute_multi_opening_proofs no_env pr (InputPolyCoeff ex_poly)) =
  vals (open_multi_point fr_params ex_srs ex_poly (2 ^ 1) (2 ^ 4)).
Proof. by split; vm_compute. Qed.
(** The prover of this example says eight and returns eight. *)
Example ex_num_proofs :
  omap (@fk20_num_proofs _ _) (fk20_prover_new fr_params ex_srs (2 ^ 3) (2 ^ 1) (2 ^ 4) PrecompNo) = Ret 8%N /\
  omap (fun r => size r.1) (olet pr := fk20_prover_new fr_params ex_srs (2 ^ 3) (2 ^ 1) (2 ^ 4) PrecompNo in
        compute_multi_opening_proofs no_env pr (InputPolyCoeff ex_poly)) = Ret 8%N.
Proof. by split; vm_compute. Qed.
