(** The reference functions of the Ethereum consensus specification for EIP-7594
    (consensus-specs, "Polynomial Commitments" and "Polynomial Commitments Sampling"), written down
    as functions on lists in the same steps as the specification's Python text. The library says it
    implements these functions (README.md, and the doc comments of eip7594/src/prover.rs and
    verifier.rs). Nothing here refers to the model.

    A failed [assert] is [None]. Points are elements of the groups; [bytes48_to_g1] is [None] for
    bytes that do not pass validate_kzg_g1. The assertion of multiply_polynomialcoeff that the
    lengths add up to at most 8192 and the assertions that the precomputed lists have equal lengths
    are left out: they hold for the lengths that occur. *)

From Coq Require Import ZArith NArith Init.Byte Strings.Byte Strings.String.
From mathcomp Require Import ssreflect ssrfun ssrbool eqtype ssrnat seq div fintype bigop.
From mathcomp Require Import ssralg.
From Verif Require Import ZField FrPrime Fr Bytes Spec SpecKZG SpecFr SpecVerify.

Set Implicit Arguments.
Unset Strict Implicit.
Unset Printing Implicit Defensive.

Import GRing.Theory.
Local Open Scope ring_scope.

Section Lists.
Variable F : fieldType.
Implicit Types (a b xs ys : seq F).

(** compute_powers(x, n) *)
Definition compute_powers (x : F) (n : nat) : seq F := mkseq (fun i => x ^+ i) n.

(** bit_reversal_permutation of a list of length 2^k *)
Definition bit_reversal_permutation (T : Type) (x0 : T) (k : nat) (s : seq T) : seq T :=
  mkseq (fun i => nth x0 s (bitrev k i)) (2 ^ k).

(** s[::2] and s[1::2] *)
Definition evens (s : seq F) : seq F := mkseq (fun i => s`_(i.*2)) (size s).+1./2.
Definition odds (s : seq F) : seq F := mkseq (fun i => s`_(i.*2.+1)) (size s)./2.

(** _fft_field(vals, roots_of_unity) for 2^k values *)
Fixpoint fft_rec (k : nat) (vals roots : seq F) : seq F :=
  if k is k'.+1 then
    let L := fft_rec k' (evens vals) (evens roots) in
    let R := fft_rec k' (odds vals) (evens roots) in
    let y_times_root i := R`_i * roots`_(i %% size roots) in
    mkseq (fun i => L`_i + y_times_root i) (size L) ++ mkseq (fun i => L`_i - y_times_root i) (size L)
  else vals.

(** fft_field(vals, roots_of_unity) and fft_field(vals, roots_of_unity, inv=True), where the roots
    are roots_of_unity[0:1] + roots_of_unity[:0:-1] *)
Definition fft_field (k : nat) (vals roots : seq F) : seq F := fft_rec k vals roots.
Definition ifft_field (k : nat) (vals roots : seq F) : seq F :=
  [seq x / (size vals)%:R | x <- fft_rec k vals (take 1 roots ++ rev (drop 1 roots))].

(** shift_vals, coset_fft_field(vals, roots) and coset_fft_field(vals, roots, inv=True) with the
    shift factor PRIMITIVE_ROOT_OF_UNITY *)
Definition shift_vals (vals : seq F) (factor : F) : seq F :=
  mkseq (fun i => vals`_i * factor ^+ i) (size vals).
Definition coset_fft_field (g : F) (k : nat) (vals roots : seq F) : seq F :=
  fft_field k (shift_vals vals g) roots.
Definition coset_ifft_field (g : F) (k : nat) (vals roots : seq F) : seq F :=
  shift_vals (ifft_field k vals roots) g^-1.

(** add_polynomialcoeff, neg_polynomialcoeff, multiply_polynomialcoeff, evaluate_polynomialcoeff *)
Definition add_polynomialcoeff (a b : seq F) : seq F :=
  let: (a, b) := if (size b <= size a)%N then (a, b) else (b, a) in
  mkseq (fun i => a`_i + (if (i < size b)%N then b`_i else 0)) (size a).
Definition neg_polynomialcoeff (a : seq F) : seq F := [seq - x | x <- a].
Definition multiply_polynomialcoeff (a b : seq F) : seq F :=
  foldl (fun r pc => add_polynomialcoeff r (nseq pc.1 0 ++ [seq pc.2 * x | x <- b])) [:: 0]
    (zip (iota 0 (size a)) a).
Definition evaluate_polynomialcoeff (a : seq F) (z : F) : F :=
  foldl (fun y coef => y * z + coef) 0 (rev a).

(** divide_polynomialcoeff: long division without remainder *)
Definition divide_polynomialcoeff (a b : seq F) : seq F :=
  if (size a < size b)%N then [::] else
  let bpos := (size b).-1 in
  (foldl (fun st diff =>
     let: (a, o) := st in
     let quot := a`_(diff + bpos) / b`_bpos in
     (mkseq (fun j => if (diff <= j <= diff + bpos)%N then a`_j - b`_(j - diff) * quot else a`_j)
        (size a), quot :: o)) (a, [::]) (rev (iota 0 (size a - size b).+1))).2.

(** interpolate_polynomialcoeff and vanishing_polynomialcoeff *)
Definition interpolate_polynomialcoeff xs ys : seq F :=
  foldl (fun r i =>
    add_polynomialcoeff r
      (foldl (fun summand j =>
         if j == i then summand else
         let weight_adjustment := (xs`_i - xs`_j)^-1 in
         multiply_polynomialcoeff summand [:: - weight_adjustment * xs`_j; weight_adjustment])
       [:: ys`_i] (iota 0 (size ys)))) [:: 0] (iota 0 (size xs)).
Definition vanishing_polynomialcoeff xs : seq F :=
  foldl (fun p x => multiply_polynomialcoeff p [:: - x; 1]) [:: 1] xs.

(** compute_kzg_proof_multi_impl(polynomial_coeff, zs) *)
Definition compute_kzg_proof_multi_impl (V : lmodType F) (setup : seq V) (poly zs : seq F)
  : V * seq F :=
  let ys := [seq evaluate_polynomialcoeff poly z | z <- zs] in
  let interpolation_polynomial := interpolate_polynomialcoeff zs ys in
  let polynomial_shifted := add_polynomialcoeff poly (neg_polynomialcoeff interpolation_polynomial) in
  let denominator_poly := vanishing_polynomialcoeff zs in
  let quotient := divide_polynomialcoeff polynomial_shifted denominator_poly in
  (lincomb (take (size quotient) setup) quotient, ys).

(** l[i*n : (i+1)*n] = v *)
Definition assign_slice (n : nat) (s : seq F) (i : nat) (v : seq F) : seq F :=
  mkseq (fun q => if (i * n <= q < i.+1 * n)%N then v`_(q - i * n) else s`_q) (size s).

(** construct_vanishing_polynomial(missing_cell_indices): 2^c cells of 2^l field elements, roots are
    the 2^c-th roots of unity *)
Definition construct_vanishing_polynomial (l c : nat) (roots : seq F) (missing : seq nat) : seq F :=
  let short_zero_poly := vanishing_polynomialcoeff [seq roots`_(bitrev c i) | i <- missing] in
  foldl (fun z ic => set_nth 0 z (ic.1 * 2 ^ l) ic.2) (nseq (2 ^ (l + c)) 0)
    (zip (iota 0 (size short_zero_poly)) short_zero_poly).

(** recover_polynomialcoeff(cell_indices, cosets_evals): roots are the 2^(l+c)-th roots of unity,
    roots_reduced the 2^c-th ones; n is FIELD_ELEMENTS_PER_BLOB *)
Definition recover_polynomialcoeff (g : F) (l c n : nat) (roots roots_reduced : seq F)
  (cell_indices : seq nat) (cosets_evals : seq (seq F)) : seq F :=
  let k := (l + c)%N in
  let extended_evaluation_rbo :=
    foldl (fun e ic => assign_slice (2 ^ l) e ic.1 ic.2) (nseq (2 ^ k) 0)
      (zip cell_indices cosets_evals) in
  let extended_evaluation := bit_reversal_permutation 0 k extended_evaluation_rbo in
  let missing := [seq i <- iota 0 (2 ^ c) | i \notin cell_indices] in
  let zero_poly_coeff := construct_vanishing_polynomial l c roots_reduced missing in
  let zero_poly_eval := fft_field k zero_poly_coeff roots in
  let extended_evaluation_times_zero := [seq a.1 * a.2 | a <- zip zero_poly_eval extended_evaluation] in
  let extended_evaluation_times_zero_coeffs := ifft_field k extended_evaluation_times_zero roots in
  let extended_evaluations_over_coset := coset_fft_field g k extended_evaluation_times_zero_coeffs roots in
  let zero_poly_over_coset := coset_fft_field g k zero_poly_coeff roots in
  let reconstructed_poly_over_coset :=
    [seq a.1 / a.2 | a <- zip extended_evaluations_over_coset zero_poly_over_coset] in
  let reconstructed_poly_coeff := coset_ifft_field g k reconstructed_poly_over_coset roots in
  take n reconstructed_poly_coeff.

End Lists.

(** [[f(x) for x in l]] where f may fail. *)
Fixpoint map_assert (A B : Type) (f : A -> option B) (l : seq A) : option (seq B) :=
  match l with
  | [::] => Some [::]
  | x :: l' => if f x is Some y then omap (cons y) (map_assert f l') else None
  end.

(** PRIMITIVE_ROOT_OF_UNITY = 7 and compute_roots_of_unity(2^k): the powers of
    7^((BLS_MODULUS - 1) / 2^k). *)
Definition PRIMITIVE_ROOT_OF_UNITY : Fr := @of_Z rZ 7%Z.
Definition root_of_unity (k : nat) : Fr := @of_Z rZ (7 ^ ((r_modulus - 1) / 2 ^ Z.of_nat k))%Z.
Definition compute_roots_of_unity (k : nat) : seq Fr := compute_powers (root_of_unity k) (2 ^ k).

(** bytes_to_bls_field *)
Definition bytes_to_bls_field (b : seq byte) : option Fr :=
  if (be_val b <? Z.to_N r_modulus)%num then Some (@of_Z rZ (Z.of_N (be_val b))) else None.

(** blob_to_polynomial and cell_to_coset_evals: n field elements of 32 bytes *)
Definition bytes_to_field_elements (n : nat) (bytes : seq byte) : option (seq Fr) :=
  map_assert (fun i => bytes_to_bls_field (take 32 (drop (i * 32) bytes))) (iota 0 n).

(** coset_evals_to_cell; bls_field_to_bytes is [fr_be] *)
Definition coset_evals_to_cell (ys : seq Fr) : seq byte := flatten [seq fr_be y | y <- ys].

(** coset_shift_for_cell and coset_for_cell *)
Definition coset_shift_for_cell (i : nat) : Fr :=
  (bit_reversal_permutation 0 13 (compute_roots_of_unity 13))`_(64 * i).
Definition coset_for_cell (i : nat) : seq Fr :=
  take 64 (drop (64 * i) (bit_reversal_permutation 0 13 (compute_roots_of_unity 13))).

Section Reference.
Variables (G1 G2 GT : lmodType Fr).
(** KZG_SETUP_G1_LAGRANGE, KZG_SETUP_G1_MONOMIAL, KZG_SETUP_G2_MONOMIAL *)
Variables (setup_lagrange setup_g1 : seq G1) (setup_g2 : seq G2).
Variables (bytes48_to_g1 : seq byte -> option G1) (g1_to_bytes48 : G1 -> seq byte).
Variable pairing : G1 -> G2 -> GT.
Variable hash_to_bls_field : seq byte -> Fr.

(** blob_to_kzg_commitment(blob) *)
Definition ref_blob_to_kzg_commitment (blob : seq byte) : option (seq byte) :=
  if size blob != (2 ^ 12 * 32)%N then None else
  omap (fun polynomial =>
    g1_to_bytes48 (lincomb (bit_reversal_permutation 0 12 setup_lagrange) polynomial))
  (bytes_to_field_elements (2 ^ 12) blob).

(** polynomial_eval_to_coeff(polynomial) *)
Definition polynomial_eval_to_coeff (polynomial : seq Fr) : seq Fr :=
  ifft_field 12 (bit_reversal_permutation 0 12 polynomial) (compute_roots_of_unity 12).

(** compute_cells_and_kzg_proofs_polynomialcoeff(polynomial_coeff) *)
Definition ref_cells_and_proofs (polynomial_coeff : seq Fr) : seq (seq byte) * seq (seq byte) :=
  let openings := mkseq (fun i =>
    compute_kzg_proof_multi_impl setup_g1 polynomial_coeff (coset_for_cell i)) 128 in
  ([seq coset_evals_to_cell o.2 | o <- openings], [seq g1_to_bytes48 o.1 | o <- openings]).

(** compute_cells_and_kzg_proofs(blob) *)
Definition ref_compute_cells_and_kzg_proofs (blob : seq byte)
  : option (seq (seq byte) * seq (seq byte)) :=
  if size blob != (2 ^ 12 * 32)%N then None else
  omap (fun polynomial => ref_cells_and_proofs (polynomial_eval_to_coeff polynomial))
  (bytes_to_field_elements (2 ^ 12) blob).

(** recover_cells_and_kzg_proofs(cell_indices, cells) *)
Definition ref_recover_cells_and_kzg_proofs (cell_indices : seq N) (cells : seq (seq byte))
  : option (seq (seq byte) * seq (seq byte)) :=
  if [&& size cell_indices == size cells, (64 <= size cell_indices <= 128)%N, uniq cell_indices,
         all (fun i => (i <? 128)%num) cell_indices & all_size 2048 cells]
  then
    omap (fun cosets_evals =>
      ref_cells_and_proofs
        (recover_polynomialcoeff PRIMITIVE_ROOT_OF_UNITY 6 7 (2 ^ 12)
           (compute_roots_of_unity 13) (compute_roots_of_unity 7)
           [seq N.to_nat i | i <- cell_indices] cosets_evals))
    (map_assert (bytes_to_field_elements 64) cells)
  else None.

(** verify_cell_kzg_proof_batch_impl with the challenge r *)
Definition verify_cell_kzg_proof_batch_impl (commitments : seq G1) (commitment_indices : seq nat)
  (cell_indices : seq nat) (cosets_evals : seq (seq Fr)) (proofs : seq G1) (r : Fr) : bool :=
  let num_cells := size cell_indices in
  let n := 64%N in
  let r_powers := compute_powers r num_cells in
  let ll := lincomb proofs r_powers in
  let lr := setup_g2`_n in
  let weights := foldl (fun w k => set_nth 0 w (nth 0%N commitment_indices k)
                          (w`_(nth 0%N commitment_indices k) + r_powers`_k))
                   (nseq (size commitments) 0) (iota 0 num_cells) in
  let rlc := lincomb commitments weights in
  let sum_interp_polys_coeff :=
    foldl (fun s k =>
      let interp := interpolate_polynomialcoeff (coset_for_cell (nth 0%N cell_indices k))
                      (nth [::] cosets_evals k) in
      add_polynomialcoeff s (multiply_polynomialcoeff [:: r_powers`_k] interp))
      (nseq n 0) (iota 0 num_cells) in
  let rli := lincomb (take n setup_g1) sum_interp_polys_coeff in
  let weighted_r_powers :=
    mkseq (fun k => r_powers`_k * coset_shift_for_cell (nth 0%N cell_indices k) ^+ n) num_cells in
  let rlp := lincomb proofs weighted_r_powers in
  let rl := rlc - rli + rlp in
  pairing ll lr + pairing rl (- setup_g2`_0) == 0.

(** compute_verify_cell_kzg_proof_batch_challenge: the hashed bytes *)
Definition challenge_input (commitments : seq (seq byte)) (commitment_indices : seq nat)
  (cell_indices : seq N) (cosets_evals : seq (seq Fr)) (proofs : seq (seq byte)) : seq byte :=
  list_byte_of_string "RCKZGCBATCH__V1_"
  ++ be_bytes 8 4096 ++ be_bytes 8 64
  ++ be_bytes 8 (N.of_nat (size commitments)) ++ be_bytes 8 (N.of_nat (size cell_indices))
  ++ flatten commitments
  ++ flatten (mkseq (fun k =>
       be_bytes 8 (N.of_nat (nth 0%N commitment_indices k)) ++ be_bytes 8 (nth 0%num cell_indices k)
       ++ flatten [seq fr_be y | y <- nth [::] cosets_evals k] ++ nth [::] proofs k)
     (size cell_indices)).

(** verify_cell_kzg_proof_batch(commitments_bytes, cell_indices, cells, proofs_bytes) *)
Definition ref_verify_cell_kzg_proof_batch (commitments_bytes : seq (seq byte))
  (cell_indices : seq N) (cells proofs_bytes : seq (seq byte)) : option bool :=
  if [&& size commitments_bytes == size cells, size cells == size proofs_bytes,
         size proofs_bytes == size cell_indices, all_size 48 commitments_bytes,
         all (fun i => (i <? 128)%num) cell_indices, all_size 2048 cells & all_size 48 proofs_bytes]
  then
    let deduplicated :=
      [seq nth [::] commitments_bytes i | i <- iota 0 (size commitments_bytes) &
         index (nth [::] commitments_bytes i) commitments_bytes == i] in
    let commitment_indices := [seq index b deduplicated | b <- commitments_bytes] in
    if map_assert bytes48_to_g1 deduplicated is Some commitments then
    if map_assert (bytes_to_field_elements 64) cells is Some cosets_evals then
    if map_assert bytes48_to_g1 proofs_bytes is Some proofs then
      let r := hash_to_bls_field
        (challenge_input deduplicated commitment_indices cell_indices cosets_evals proofs_bytes) in
      Some (verify_cell_kzg_proof_batch_impl commitments commitment_indices
              [seq N.to_nat i | i <- cell_indices] cosets_evals proofs r)
    else None else None else None
  else None.

End Reference.
