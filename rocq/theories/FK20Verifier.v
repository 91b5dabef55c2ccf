(** Model of /repo/cryptography/kzg_multi_open/src/fk20/verifier.rs, verification_key.rs,
    fk20/errors.rs and of multi_pairings in /repo/cryptography/bls12_381/src/lib.rs. *)

From Coq Require Import NArith Init.Byte Strings.Byte String.
From mathcomp Require Import ssreflect ssrfun ssrbool eqtype ssrnat seq div ssralg.
From Verif Require Import Base Bytes BitRev Domain PolyCoeff Lincomb Cosets.

Set Implicit Arguments.
Unset Strict Implicit.
Unset Printing Implicit Defensive.

Import GRing.Theory.
Local Open Scope ring_scope.

(** [u64::to_be_bytes] *)
Definition u64_be (x : N) : seq byte := be_bytes 8 x.

(** fk20/errors.rs [VerifierError]. *)
Inductive fk20_verifier_error := InvalidProof.

(** Functions of external libraries used by the verifier: scalar encoding (blstrs), point
    compression (blst), sha256, and [reduce_bytes_to_scalar_bias]
    (bls12_381/src/lib.rs lines 50-62). *)
Record transcript_env (F : fieldType) (G1 : lmodType F) := MkTranscriptEnv {
  te_scalar_to_bytes_be : F -> seq byte;
  te_g1_to_compressed : G1 -> seq byte;
  te_sha256 : seq byte -> seq byte;
  te_reduce_bytes_to_scalar_bias : seq byte -> F
}.

Section Verifier.
Variables (F : fieldType) (G1 G2 GT : lmodType F) (fp : fparams F).
Variable pair : G1 -> G2 -> GT.
Variable te : transcript_env G1.

(** bls12_381/src/lib.rs lines 26-31 [multi_pairings]: the product of the pairings is the
    identity (the target group is written additively). [G2Prepared] is the point itself. *)
Definition multi_pairings (pairs : seq (G1 * G2)) : bool :=
  foldr (fun pq acc => pair pq.1 pq.2 + acc) 0 pairs == 0.

(** verification_key.rs lines 8-33. *)
Record verification_key := MkVK {
  vk_g1s : seq G1;
  vk_g2s : seq G2;
  vk_g2_gen : G2;
  vk_coset_size : nat;
  vk_num_coefficients_in_polynomial : nat
}.

(** verification_key.rs lines 36-56 [new]. *)
Definition verification_key_new (g1s : seq G1) (g2s : seq G2) (coset_size num_coefficients : nat)
  : outcome verification_key :=
  olet g2_gen := aget g2s 0 in
  oassert (coset_size < size g2s)%N
    (Ret (MkVK g1s g2s g2_gen coset_size num_coefficients)).

(** verification_key.rs lines 59-63 [commit_g2]. *)
Definition vk_commit_g2 (vk : verification_key) (polynomial : seq F) : outcome G2 :=
  oassert (size polynomial <= size (vk_g2s vk))%N (
  olet points := aslice (vk_g2s vk) 0 (size polynomial) in
  ounwrap (g1_lincomb points polynomial)).

(** verification_key.rs lines 66-70 [commit_g1]. *)
Definition vk_commit_g1 (vk : verification_key) (polynomial : seq F) : outcome G1 :=
  oassert (size polynomial <= size (vk_g1s vk))%N (
  olet points := aslice (vk_g1s vk) 0 (size polynomial) in
  ounwrap (g1_lincomb points polynomial)).

(** verifier.rs lines 37-55: the struct. *)
Record fk20_verifier := MkFK20Verifier {
  fv_verification_key : verification_key;
  fv_coset_gens_bit_reversed : seq F;
  fv_coset_domain : domain F;
  fv_tau_pow_n : G2;
  fv_neg_g2_gen : G2;
  fv_bit_reversed_coset_gens_pow_n : seq F;
  fv_bit_reversed_coset_fft_gens : seq (coset_fft F)
}.

(** verifier.rs lines 58-95 [FK20Verifier::new]. *)
Definition fk20_verifier_new (vk : verification_key) (num_points_to_open num_cosets : nat)
  : outcome fk20_verifier :=
  olet gens := coset_gens fp num_points_to_open num_cosets true in
  oassert (num_cosets != 0%N) (
  let coset_size := (num_points_to_open %/ num_cosets)%N in
  oassert (coset_size <= size (vk_g2s vk))%N (
  olet coset_domain := domain_new fp (vk_coset_size vk) in
  let n := vk_coset_size vk in
  olet tau_pow_n := aget (vk_g2s vk) n in
  let neg_g2_gen := - vk_g2_gen vk in
  let gens_pow_n := [seq pow_vartime gen (N.of_nat n) | gen <- gens] in
  olet fft_gens := omapM (@coset_fft_new F) gens in
  Ret (MkFK20Verifier vk gens coset_domain tau_pow_n neg_g2_gen gens_pow_n fft_gens))).

(** verifier.rs line 258. *)
Definition domain_sep : seq byte := list_byte_of_string "RCKZGCBATCH__V1_".

(** verifier.rs lines 247-306 [compute_fiat_shamir_challenge]: the bytes that are hashed. *)
Definition fiat_shamir_input (vk : verification_key) (row_commitments : seq G1)
  (row_indices coset_indices : seq N) (coset_evals : seq (seq F)) (proofs : seq G1)
  : outcome (seq byte) :=
  let hash_input_size :=
    (size domain_sep + 8 + 8 + 8 + 8 + size row_commitments * 48 + size row_indices * 8
     + size coset_indices * 8 + size coset_evals * vk_coset_size vk * 32 + size proofs * 48)%N in
  let hash_input := domain_sep
    ++ u64_be (N.of_nat (vk_num_coefficients_in_polynomial vk))
    ++ u64_be (N.of_nat (vk_coset_size vk))
    ++ u64_be (N.of_nat (size row_commitments))
    ++ u64_be (N.of_nat (size coset_indices))
    ++ flatten [seq te_g1_to_compressed te c | c <- row_commitments] in
  olet hash_input := ofor (iota 0 (size coset_indices)) (fun k hash_input =>
    olet row := aget row_indices k in
    olet coset := aget coset_indices k in
    olet evals := aget coset_evals k in
    olet proof := aget proofs k in
    Ret (hash_input ++ u64_be row ++ u64_be coset
           ++ flatten [seq te_scalar_to_bytes_be te e | e <- evals]
           ++ te_g1_to_compressed te proof)) hash_input in
  oassert (size hash_input == hash_input_size) (Ret hash_input).

Definition compute_fiat_shamir_challenge (vk : verification_key) (row_commitments : seq G1)
  (row_indices coset_indices : seq N) (coset_evals : seq (seq F)) (proofs : seq G1)
  : outcome F :=
  olet hash_input :=
    fiat_shamir_input vk row_commitments row_indices coset_indices coset_evals proofs in
  Ret (te_reduce_bytes_to_scalar_bias te (te_sha256 te hash_input)).

(** verifier.rs lines 311-323 [compute_powers]. *)
Definition compute_powers (value : F) (num_elements : nat) : seq F :=
  (foldl (fun (st : seq F * F) _ => (rcons st.1 st.2, st.2 * value)) ([::], 1)
         (iota 0 num_elements)).1.

(** verifier.rs lines 328-363 [compute_sum_interpolation_poly]. *)
Definition compute_sum_interpolation_poly (coset_domain : domain F) (fft_gens : seq (coset_fft F))
  (coset_evals : seq (seq F)) (coset_indices : seq N) (r_powers : seq F) : outcome (seq F) :=
  ofor (zip (zip coset_evals coset_indices) r_powers) (fun eir sum =>
    let: ((coset_eval, coset_index), scale_factor) := eir in
    olet coset_eval := reverse_bit_order coset_eval in
    olet coset_gen := aget fft_gens (N.to_nat coset_index) in
    olet coeffs := coset_ifft_scalars coset_domain coset_eval coset_gen in
    poly_add sum [seq coeff * scale_factor | coeff <- coeffs]) [::].

(** verifier.rs lines 115-238 [verify_multi_opening]. *)
Definition verify_multi_opening (v : fk20_verifier) (deduplicated_commitments : seq G1)
  (commitment_indices coset_indices : seq N) (coset_evals : seq (seq F)) (proofs : seq G1)
  : outcome (result unit fk20_verifier_error) :=
  oassert (size commitment_indices == size proofs) (
  oassert (size coset_indices == size proofs) (
  oassert (size coset_evals == size proofs) (
  let batch_size := size coset_indices in
  olet r := compute_fiat_shamir_challenge (fv_verification_key v) deduplicated_commitments
              commitment_indices coset_indices coset_evals proofs in
  let r_powers := compute_powers r batch_size in
  let num_unique_commitments := size deduplicated_commitments in
  olet comm_random_sum_proofs := ounwrap (g1_lincomb proofs r_powers) in
  olet weighted_r_powers := omapM (fun ir =>
    olet gen := aget (fv_bit_reversed_coset_gens_pow_n v) (N.to_nat ir.1) in
    Ret (ir.2 * gen)) (zip coset_indices r_powers) in
  olet random_weighted_sum_proofs := ounwrap (g1_lincomb proofs weighted_r_powers) in
  olet weights := ofor (zip commitment_indices r_powers) (fun ir weights =>
    olet x := aget weights (N.to_nat ir.1) in
    aset weights (N.to_nat ir.1) (x + ir.2)) (nseq num_unique_commitments 0) in
  olet random_sum_commitments := ounwrap (g1_lincomb deduplicated_commitments weights) in
  olet sum_interpolation_poly := compute_sum_interpolation_poly (fv_coset_domain v)
    (fv_bit_reversed_coset_fft_gens v) coset_evals coset_indices r_powers in
  olet comm_interpolation_poly := vk_commit_g1 (fv_verification_key v) sum_interpolation_poly in
  let pairing_input_g1 :=
    (random_sum_commitments - comm_interpolation_poly) + random_weighted_sum_proofs in
  Ret (if multi_pairings [:: (comm_random_sum_proofs, fv_tau_pow_n v);
                             (pairing_input_g1, fv_neg_g2_gen v)]
       then Ok tt else Err InvalidProof)))).

End Verifier.
