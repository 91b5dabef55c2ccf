(** Model of /repo/cryptography/erasure_codes/src/reed_solomon.rs and errors.rs. *)

From mathcomp Require Import ssreflect ssrfun ssrbool eqtype ssrnat seq div prime ssralg.
From Verif Require Import Base Domain PolyCoeff.

Set Implicit Arguments.
Unset Strict Implicit.
Unset Printing Implicit Defensive.

Import GRing.Theory.
Local Open Scope ring_scope.

(** erasure_codes/src/errors.rs lines 1-19. *)
Inductive rs_error :=
| PolynomialHasTooManyCoefficients (num_coefficients max_num_coefficients : nat)
| PolynomialHasInvalidLength (num_coefficients expected_num_coefficients : nat)
| TooManyBlockErasures (num_block_erasures max_num_block_erasures_accepted : nat)
| InvalidBlockIndex (block_index block_size : nat).

Section RS.
Variable F : fieldType.
Variable fp : fparams F.

(** reed_solomon.rs lines 41-71. *)
Record reed_solomon := MkRS {
  rs_expansion_factor : nat;
  rs_poly_len : nat;
  rs_evaluation_domain : domain F;
  rs_block_size : nat;
  rs_num_blocks : nat;
  rs_block_size_domain : domain F;
  rs_fft_coset_gen : coset_fft F
}.

(** reed_solomon.rs lines 74-97 [new]. The product of the sizes is not reduced modulo 2^64. *)
Definition rs_new (poly_len expansion_factor block_size : nat) : outcome reed_solomon :=
  oassert (is_power_of_two expansion_factor) (
  oassert (is_power_of_two poly_len) (
  oassert (is_power_of_two block_size) (
  let evaluation_size := (poly_len * expansion_factor)%N in
  olet evaluation_domain := domain_new fp evaluation_size in
  let num_blocks := (evaluation_size %/ block_size)%N in
  olet block_size_domain := domain_new fp block_size in
  olet fft_coset_gen := coset_fft_new (fp_mulgen fp) in
  Ret (MkRS expansion_factor poly_len evaluation_domain block_size num_blocks
            block_size_domain fft_coset_gen)))).

(** reed_solomon.rs lines 103-107 [acceptable_num_random_erasures]
    (the subtraction would panic on underflow). *)
Definition acceptable_num_random_erasures (rs : reed_solomon) : outcome nat :=
  let total_codeword_len := (rs_poly_len rs * rs_expansion_factor rs)%N in
  let min_num_evaluations_needed := rs_poly_len rs in
  oassert (min_num_evaluations_needed <= total_codeword_len)%N
    (Ret (total_codeword_len - min_num_evaluations_needed)%N).

(** reed_solomon.rs lines 112-114 [acceptable_num_block_erasures]; division by zero panics. *)
Definition acceptable_num_block_erasures (rs : reed_solomon) : outcome nat :=
  olet n := acceptable_num_random_erasures rs in
  oassert (rs_num_blocks rs != 0%N) (Ret (n %/ rs_num_blocks rs)%N).

(** reed_solomon.rs lines 123-131 [encode]. *)
Definition rs_encode (rs : reed_solomon) (poly : seq F) : outcome (result (seq F) rs_error) :=
  if (rs_poly_len rs < size poly)%N
  then Ret (Err (PolynomialHasTooManyCoefficients (size poly) (rs_poly_len rs)))
  else omap (fun x => Ok x) (fft_scalars (rs_evaluation_domain rs) poly).

(** reed_solomon.rs lines 178-235 [construct_vanishing_poly_from_block_erasures]. *)
Definition construct_vanishing_poly_from_block_erasures (rs : reed_solomon) (block_indices : seq nat)
  : outcome (seq F) :=
  oassert (size block_indices != rs_block_size rs) (
  let evaluation_domain_size := size (d_roots (rs_evaluation_domain rs)) in
  olet roots := omapM (fun index => aget (d_roots (rs_block_size_domain rs)) index) block_indices in
  olet vanish_poly_first_block := vanishing_poly roots in
  ofor (zip (iota 0 (size vanish_poly_first_block)) vanish_poly_first_block)
    (fun ic z_x => aset z_x (ic.1 * rs_num_blocks rs)%N ic.2)
    (nseq evaluation_domain_size 0)).

(** reed_solomon.rs lines 237-281 [construct_vanishing_poly_from_erasure_pattern],
    block-synchronized case (the other case is compiled for tests only). *)
Definition construct_vanishing_poly_from_erasure_pattern (rs : reed_solomon) (indices : seq nat)
  : outcome (result (seq F) rs_error) :=
  match [seq i <- indices | (rs_block_size rs <= i)%N] with
  | block_index :: _ => Ret (Err (InvalidBlockIndex block_index (rs_block_size rs)))
  | [::] =>
      olet max := acceptable_num_block_erasures rs in
      if (max < size indices)%N then Ret (Err (TooManyBlockErasures (size indices) max))
      else omap (fun x => Ok x) (construct_vanishing_poly_from_block_erasures rs indices)
  end.

(** reed_solomon.rs lines 284-340 [recover_polynomial_coefficient_erasure_pattern]. *)
Definition recover_polynomial_coefficient_erasure_pattern (rs : reed_solomon)
  (data_eval : seq F) (erasure : seq nat) : outcome (result (seq F) rs_error) :=
  olet r := construct_vanishing_poly_from_erasure_pattern rs erasure in
  match r with
  | Err e => Ret (Err e)
  | Ok z_x =>
    let d := rs_evaluation_domain rs in
    olet z_x_eval := fft_scalars d z_x in
    let ez_eval := [seq zd.1 * zd.2 | zd <- zip z_x_eval data_eval] in
    olet dz_poly := ifft_scalars d ez_eval in
    olet coset_dz_eval := coset_fft_scalars d dz_poly (rs_fft_coset_gen rs) in
    olet coset_z_x_eval := coset_fft_scalars d z_x (rs_fft_coset_gen rs) in
    olet inv_coset_z_x_eval := batch_inverse coset_z_x_eval in
    let coset_quotient_eval := [seq dz.1 * dz.2 | dz <- zip coset_dz_eval inv_coset_z_x_eval] in
    olet coefficients := coset_ifft_scalars d coset_quotient_eval (rs_fft_coset_gen rs) in
    if has (fun c => c != 0) (drop (rs_poly_len rs) coefficients)
    then Ret (Err (PolynomialHasInvalidLength (size coefficients) (rs_poly_len rs)))
    else omap (fun x => Ok x) (aslice coefficients 0 (rs_poly_len rs))
  end.

(** reed_solomon.rs lines 138-147 [recover_polynomial_coefficient]. *)
Definition recover_polynomial_coefficient (rs : reed_solomon) (codeword_with_erasures : seq F)
  (erasures : seq nat) : outcome (result (seq F) rs_error) :=
  recover_polynomial_coefficient_erasure_pattern rs codeword_with_erasures erasures.

End RS.
