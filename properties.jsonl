{"id": "C01", "title": "Cells are systematic: the first half of the extended blob is the blob", "statement": "Whenever compute_cells_and_kzg_proofs succeeds on a blob, it returns exactly 128 cells of 2048 bytes, and concatenating the first 64 cells gives back the input blob byte for byte.", "quantifier": "every 131072-byte blob that the call accepts", "why_tests_cant": "There are more than 2^1000000 blobs; a test compares a handful of vectors, and an ordering slip that only shows up for particular data positions can hide between vectors.", "anchors": ["eip7594/src/prover.rs: DASContext::compute_cells_and_kzg_proofs", "cryptography/kzg_multi_open/src/fk20/prover.rs: compute_multi_opening_proofs, compute_coset_evaluations", "eip7594/src/serialization.rs: serialize_cells_and_proofs"]}
{"id": "C02", "title": "All cells of a blob lie on one polynomial of degree below 4096", "statement": "For an accepted blob let f be the unique polynomial of degree < 4096 whose value at the i-th 4096th root of unity (in bit-reversed order) is the i-th field element of the blob. Then element j of returned cell k is the big-endian encoding of f at the 8192nd root of unity with exponent bit-reverse_13(64k+j), for every k < 128 and j < 64.", "quantifier": "every accepted blob, every cell index and every position in the cell", "why_tests_cant": "The claim is about all 8192 evaluation points of every polynomial; test vectors only fix some blobs.", "anchors": ["eip7594/src/prover.rs: compute_cells_and_kzg_proofs", "cryptography/kzg_multi_open/src/fk20/prover.rs: compute_coset_evaluations", "cryptography/polynomial/src/domain.rs: Domain::fft_scalars, ifft_scalars"]}
{"id": "C03", "title": "Every returned proof is the KZG multi-opening proof of its cell", "statement": "For an accepted blob with polynomial f, proof k returned by compute_cells_and_kzg_proofs is the compressed form of [q_k(tau)]G, where q_k is the quotient of f by the vanishing polynomial X^64 - h_k^64 of coset k. This is the same element that the textbook (one division per coset) algorithm gives.", "quantifier": "every accepted blob, every cell index, every trusted setup of the form (tau^i G)", "why_tests_cant": "FK20 computes all 128 proofs by FFTs over group elements; a test can only compare to the naive algorithm on sampled polynomials.", "anchors": ["cryptography/kzg_multi_open/src/fk20/prover.rs: FK20Prover::new, compute_multi_opening_proofs_poly_coeff", "cryptography/kzg_multi_open/src/fk20/h_poly.rs: compute_h_poly_commitments", "cryptography/kzg_multi_open/src/fk20/batch_toeplitz.rs: BatchToeplitzMatrixVecMul"]}
{"id": "C04", "title": "Commitment and cells speak about the same polynomial", "statement": "For an accepted blob, blob_to_kzg_commitment returns the compressed form of [f(tau)]G for the same polynomial f that C02 uses for the cells, and it fails exactly when compute_cells_and_kzg_proofs fails.", "quantifier": "every blob and every trusted setup of the form (tau^i G)", "why_tests_cant": "Commitment and cells are produced by different calls; that they agree on the polynomial is a statement about all blobs.", "anchors": ["eip7594/src/prover.rs: blob_to_kzg_commitment", "cryptography/kzg_multi_open/src/fk20/prover.rs: FK20Prover::commit", "cryptography/kzg_multi_open/src/commit_key.rs: CommitKey::commit_g1"]}
{"id": "C05", "title": "A blob is accepted exactly when every field element is canonical", "statement": "blob_to_kzg_commitment and compute_cells_and_kzg_proofs return Ok exactly when each of the 4096 32-byte big-endian chunks is smaller than the BLS12-381 scalar modulus; otherwise they return a Serialization error carrying the first offending chunk. Non-canonical chunks are never reduced silently.", "quantifier": "every 131072-byte string", "why_tests_cant": "The boundary is one value among 2^256 at each of 4096 positions.", "anchors": ["eip7594/src/serialization.rs: deserialize_blob_to_scalars, deserialize_bytes_to_scalars, deserialize_bytes_to_scalar", "eip7594/src/prover.rs: blob_to_kzg_commitment, compute_cells_and_kzg_proofs"]}
{"id": "C06", "title": "Recovery from any half of the cells reproduces the original output", "statement": "Take the 128 cells computed from an accepted blob and any selection of at least 64 distinct cell indices, in any order, with the matching cells. recover_cells_and_kzg_proofs on them succeeds and returns exactly the 128 cells and 128 proofs that compute_cells_and_kzg_proofs returned.", "quantifier": "every accepted blob, every subset of at least 64 of the 128 indices, every order of the subset", "why_tests_cant": "There are about 2^127 admissible subsets and each in up to 128! orders.", "anchors": ["eip7594/src/prover.rs: recover_cells_and_kzg_proofs", "eip7594/src/recovery.rs: recover_polynomial_coeff", "cryptography/erasure_codes/src/reed_solomon.rs: recover_polynomial_coefficient"]}
{"id": "C07", "title": "Recovery succeeds exactly on consistent cells", "statement": "For well-formed input (equal lengths, at least 64 distinct in-range indices, canonical cells), recover_cells_and_kzg_proofs returns Ok exactly when some polynomial of degree < 4096 agrees with all supplied cells; on success the returned cells at the supplied indices equal the supplied cells. If no such polynomial exists the result is the Reed-Solomon invalid-length error.", "quantifier": "every well-formed recovery input, consistent or not", "why_tests_cant": "Inconsistent inputs form almost the whole space; tests try a few corruptions.", "anchors": ["eip7594/src/recovery.rs: recover_polynomial_coeff", "cryptography/erasure_codes/src/reed_solomon.rs: recover_polynomial_coefficient_erasure_pattern"]}
{"id": "C08", "title": "Recovery input validation reports the first violated rule", "statement": "recover_cells_and_kzg_proofs checks, in this order: number of indices equals number of cells; every index < 128 (reporting the first bad one); indices distinct; at least 64 cells; cells canonical (reporting the first bad chunk). The error it returns is that of the first rule violated, and if none is violated, validation passes. The too-many-cells error is never returned.", "quantifier": "every pair of an index list of u64 and a list of 2048-byte cells", "why_tests_cant": "Error precedence for inputs violating several rules at once ranges over all combinations and lengths.", "anchors": ["eip7594/src/recovery.rs: validation::recover_polynomial_coeff, are_cell_indices_unique", "eip7594/src/serialization.rs: deserialize_cells"]}
{"id": "C09", "title": "Recovery does not depend on the order or the choice of cells", "statement": "Permuting the (index, cell) pairs given to recover_cells_and_kzg_proofs does not change a successful result, and two successful calls whose inputs agree on at least 64 common indices return the same cells and proofs.", "quantifier": "every pair of well-formed recovery inputs related this way", "why_tests_cant": "Factorially many orders, exponentially many overlapping selections.", "anchors": ["eip7594/src/recovery.rs: recover_polynomial_coeff, find_missing_cell_indices", "cryptography/kzg_multi_open/src/fk20/cosets.rs: recover_evaluations_in_domain_order"]}
{"id": "C10", "title": "Honest batches always verify", "statement": "Take any finite family of accepted blobs and any finite sequence of (blob, cell index) pairs, with repetitions allowed and in any order. Then verify_cell_kzg_proof_batch on the corresponding commitments, indices, cells and proofs returns Ok, whatever value the Fiat-Shamir hash takes.", "quantifier": "every sequence of honestly generated (commitment, index, cell, proof) tuples and every hash function", "why_tests_cant": "Batches are unbounded and mix blobs, repeated commitments and repeated cells arbitrarily.", "anchors": ["eip7594/src/verifier.rs: verify_cell_kzg_proof_batch, deduplicate_with_indices", "cryptography/kzg_multi_open/src/fk20/verifier.rs: verify_multi_opening"]}
{"id": "C11", "title": "Batch verification is the random linear combination of the individual checks", "statement": "For well-formed inputs, verify_cell_kzg_proof_batch returns Ok exactly when sum_k r^k * d_k = 0, where d_k is the (pairing) defect of opening k alone, i.e. e(pi_k, [tau^64 - h_k^64]) - e(C_k - [I_k(tau)], H), I_k interpolates cell k on its coset and r is the challenge derived from the transcript. Otherwise it returns the invalid-proof error.", "quantifier": "every batch of decodable commitments, indices < 128, canonical cells and decodable proofs", "why_tests_cant": "The equation is over all group elements and all challenges; a test sees one challenge per vector.", "anchors": ["cryptography/kzg_multi_open/src/fk20/verifier.rs: verify_multi_opening, compute_sum_interpolation_poly, compute_powers", "eip7594/src/verifier.rs: verify_cell_kzg_proof_batch"]}
{"id": "C12", "title": "A single opening is accepted exactly when its pairing equation holds", "statement": "On a batch with one tuple, verify_cell_kzg_proof_batch returns Ok exactly when e(pi, [tau^64 - h^64]_2) = e(C - [I(tau)]_1, [1]_2), independent of the hash. Consequently, for a fixed commitment, index and cell with tau outside the coset's 64th-power class, exactly one proof is accepted.", "quantifier": "every decodable commitment and proof, every index < 128, every canonical cell", "why_tests_cant": "Uniqueness of the accepted proof is a statement about all 2^255 group elements.", "anchors": ["cryptography/kzg_multi_open/src/fk20/verifier.rs: verify_multi_opening"]}
{"id": "C13", "title": "A batch containing a bad opening passes for fewer challenges than its size", "statement": "If at least one tuple of a batch of n well-formed tuples fails its individual pairing equation, then among all possible Fiat-Shamir challenges at most n-1 make the batch check return Ok.", "quantifier": "every batch with at least one invalid tuple", "why_tests_cant": "The claim counts over all 2^255 challenges.", "anchors": ["cryptography/kzg_multi_open/src/fk20/verifier.rs: verify_multi_opening, compute_powers"]}
{"id": "C14", "title": "Verification input validation and the empty batch", "statement": "verify_cell_kzg_proof_batch returns the same-length error exactly when the four lists do not all have the same length; otherwise the out-of-range error for the first cell index >= 128; otherwise Ok for the empty batch; otherwise a Serialization error for the first undecodable distinct commitment, then proof, then cell chunk. The invalid-commitment-index error is never returned.", "quantifier": "every quadruple of lists of 48-byte strings, u64 indices, 2048-byte strings and 48-byte strings", "why_tests_cant": "All lengths and all combinations of violated rules.", "anchors": ["eip7594/src/verifier.rs: validation::verify_cell_kzg_proof_batch, verify_cell_kzg_proof_batch"]}
{"id": "C15", "title": "Deduplicating commitments changes nothing but the representation", "statement": "deduplicate_with_indices returns a duplicate-free list, in order of first occurrence, and an index list of the same length as the input such that looking the indices up in it yields the input; every index is in range.", "quantifier": "every input list over any type with decidable equality", "why_tests_cant": "Unbounded lists with arbitrary repetition patterns.", "anchors": ["eip7594/src/verifier.rs: deduplicate_with_indices"]}
{"id": "C16", "title": "The Fiat-Shamir transcript determines the whole statement", "statement": "Two verification calls with different (deduplicated commitments, commitment indices, cell indices, cells, proofs) hash different byte strings; the string has exactly the length the code precomputes, so the internal length assertion never fires.", "quantifier": "every pair of well-formed batches of sizes below 2^64", "why_tests_cant": "Injectivity quantifies over pairs of unbounded inputs.", "anchors": ["cryptography/kzg_multi_open/src/fk20/verifier.rs: compute_fiat_shamir_challenge"]}
{"id": "C17", "title": "Only a failed pairing check is reported as an invalid proof", "statement": "Error::invalid_proof() is true for the error of a verification call exactly when the inputs were well formed and the combined pairing equation failed; every malformed input yields an error for which it is false, and no prover or recovery call ever yields an error for which it is true.", "quantifier": "every call of every API function", "why_tests_cant": "It relates all error paths of all four calls to one predicate.", "anchors": ["eip7594/src/errors.rs: Error::invalid_proof", "eip7594/src/verifier.rs: verify_cell_kzg_proof_batch", "eip7594/src/prover.rs"]}
{"id": "C18", "title": "The four API calls never panic", "statement": "With a context built from a structurally valid trusted setup (4096 G1 points, 65 G2 points) and without the precomputation table, none of blob_to_kzg_commitment, compute_cells_and_kzg_proofs, recover_cells_and_kzg_proofs, verify_cell_kzg_proof_batch can hit an assertion, unwrap, out-of-range index, division by zero or failed conversion, whatever bytes and indices the caller passes.", "quantifier": "every input of the API types", "why_tests_cant": "Absence of a panic over all inputs cannot be sampled; fuzzing covers a vanishing part.", "anchors": ["eip7594/src/prover.rs", "eip7594/src/verifier.rs", "eip7594/src/recovery.rs", "cryptography/kzg_multi_open/src/fk20/*.rs", "cryptography/erasure_codes/src/reed_solomon.rs", "cryptography/polynomial/src/domain.rs"]}
{"id": "C19", "title": "Recovered cells verify", "statement": "If recover_cells_and_kzg_proofs succeeds, there is a commitment (that of the recovered polynomial) for which every returned (index, cell, proof) tuple verifies; if the input cells came from a blob, that commitment is the blob's commitment.", "quantifier": "every successful recovery", "why_tests_cant": "It composes three calls over all inputs.", "anchors": ["eip7594/src/prover.rs: recover_cells_and_kzg_proofs", "eip7594/src/verifier.rs: verify_cell_kzg_proof_batch"]}
{"id": "C20", "title": "Results do not depend on the thread count or the schedule", "statement": "Every parallel section maps a pure function over an indexed collection and gathers the results by index, so for every number of worker threads and every interleaving of the workers the assembled result equals the sequential one.", "quantifier": "every schedule of every parallel map, every worker count", "why_tests_cant": "Schedules are exponential in the number of tasks and not controllable from a test.", "anchors": ["maybe_rayon/src/multi_threaded.rs", "maybe_rayon/src/single_threaded.rs", "cryptography/kzg_multi_open/src/fk20/batch_toeplitz.rs: new, sum_matrix_vector_mul", "eip7594/src/macros.rs"]}
{"id": "C21", "title": "The precomputation table does not change results", "statement": "For every table width 1..24, the table-based multi-scalar multiplication returns the same group element as the plain linear combination, provided no pair summed in the batch addition is an exceptional pair (a point with its own negative, or the identity).", "quantifier": "every list of base points, every list of scalars of the same length, every width", "why_tests_cant": "All scalars of 255 bits and all widths; exceptional pairs have negligible probability so tests never meet them.", "anchors": ["cryptography/bls12_381/src/fixed_base_msm.rs: FixedBaseMSM", "cryptography/bls12_381/src/fixed_base_msm_window.rs: FixedBaseMSMPrecompWindow"]}
{"id": "C22", "title": "Booth recoding represents the scalar", "statement": "For every window width w from 1 to 24 and every 32-byte little-endian scalar below 2^255, the digits get_booth_index(i, w, s) for i = 0..255/w satisfy sum_i digit_i * 2^(w i) = s, each digit has absolute value at most 2^(w-1), and no shift or subtraction in the function overflows.", "quantifier": "every scalar, every window index, every width in range", "why_tests_cant": "2^255 scalars times 24 widths.", "anchors": ["cryptography/bls12_381/src/booth_encoding.rs: get_booth_index"]}
{"id": "C23", "title": "Batch affine addition computes the sum of the points", "statement": "batch_addition_binary_tree_stride returns the sum of the points, and multi_batch_addition_binary_tree_stride the list of sums, for every list in which no pair met by the algorithm is exceptional. For lists with an exceptional pair the call panics or can return a wrong sum.", "quantifier": "every list (of lists) of curve points, any length", "why_tests_cant": "Lengths are unbounded and the pairing pattern of the tree depends on the length.", "anchors": ["cryptography/bls12_381/src/batch_addition.rs: batch_addition_binary_tree_stride, multi_batch_addition_binary_tree_stride, point_add_double, choose_add_or_double"]}
{"id": "C24", "title": "Batch inversion inverts every entry or panics", "statement": "batch_inverse replaces every entry by its multiplicative inverse when all entries are non-zero, and panics exactly when some entry is zero; the result does not depend on the previous content of the scratch pad.", "quantifier": "every list of field elements of any length", "why_tests_cant": "All lengths and all values.", "anchors": ["cryptography/bls12_381/src/batch_inversion.rs: batch_inverse, batch_inverse_scratch_pad"]}
{"id": "C25", "title": "Linear combination with identity points is exact", "statement": "g1_lincomb and g2_lincomb return sum_i s_i P_i over the common prefix even when some P_i are the identity (for which the underlying library would return the identity), and they return a value for every input. The documented None on a length mismatch never happens.", "quantifier": "every list of points and every list of scalars of any lengths", "why_tests_cant": "Which positions hold the identity and the lengths are unbounded.", "anchors": ["cryptography/bls12_381/src/lincomb.rs: g1_lincomb, g2_lincomb, g1_lincomb_unsafe"]}
{"id": "C26", "title": "The FFT evaluates and the IFFT interpolates", "statement": "For every power-of-two domain size up to 2^32: fft_scalars of a coefficient list returns its values at the powers of the domain generator in order (longer lists are truncated, shorter ones padded); ifft_scalars returns the unique coefficient list of that size with the given values; each undoes the other. The same holds for group elements with fft_g1 and ifft_g1.", "quantifier": "every domain size 2^k with k <= 32 and every input list", "why_tests_cant": "Sizes and inputs are unbounded; the shortcuts for twiddles 1 and -1 and zero entries create data-dependent paths.", "anchors": ["cryptography/polynomial/src/fft.rs: fft_inplace", "cryptography/polynomial/src/domain.rs: Domain::fft_scalars, ifft_scalars, fft_g1, ifft_g1, ifft_g1_take_n"]}
{"id": "C27", "title": "Coset FFT and IFFT evaluate and interpolate on the shifted domain", "statement": "coset_fft_scalars returns the values of the polynomial at g*w^i, and coset_ifft_scalars the coefficients of the polynomial with the given values there; each undoes the other for non-zero g.", "quantifier": "every power-of-two domain, every non-zero coset generator, every input", "why_tests_cant": "All generators and inputs.", "anchors": ["cryptography/polynomial/src/domain.rs: coset_fft_scalars, coset_ifft_scalars", "cryptography/polynomial/src/coset_fft.rs"]}
{"id": "C28", "title": "Domain construction gives a primitive root of unity", "statement": "Domain::new(n) pads n to the next power of two N, and its roots are N distinct N-th roots of unity, consecutive powers of the generator of order exactly N; it panics exactly when N > 2^32. For n = 0 it is the domain of size 1.", "quantifier": "every requested size", "why_tests_cant": "Sizes above those used by the tests.", "anchors": ["cryptography/polynomial/src/domain.rs: Domain::new, compute_generator_for_size"]}
{"id": "C29", "title": "Bit-reversal reordering is the involution by bit-reversed indices", "statement": "reverse_bit_order on a list of length 2^k < 2^32 puts at position i the element of position bit-reverse_k(i); doing it twice gives the original list; below 2^32 it panics exactly when the length is not a power of two (the length is cast to u32, so a list of 2^32 elements panics too).", "quantifier": "every list of any element type, of any length", "why_tests_cant": "All lengths; in-place swapping makes the order of swaps matter.", "anchors": ["cryptography/kzg_multi_open/src/fk20/cosets.rs: reverse_bit_order, reverse_bits, log2", "cryptography/polynomial/src/fft.rs: bitreverse"]}
{"id": "C30", "title": "Polynomial arithmetic is that of polynomials", "statement": "poly_add, poly_sub, poly_neg, poly_mul and poly_eval compute the sum, difference, negation, product and value of the represented polynomials for operands of any lengths (poly_mul panics only when both operands are empty); vanishing_poly is the monic polynomial with exactly the given roots with multiplicity.", "quantifier": "all coefficient lists", "why_tests_cant": "All lengths including different and empty ones.", "anchors": ["cryptography/polynomial/src/poly_coeff.rs"]}
{"id": "C31", "title": "Lagrange interpolation returns the unique interpolating polynomial", "statement": "For at least two points with pairwise distinct abscissae, lagrange_interpolate returns n coefficients of the unique polynomial of degree < n through them; it panics exactly when fewer than two points are given or two abscissae coincide.", "quantifier": "all point lists", "why_tests_cant": "All lengths and values.", "anchors": ["cryptography/polynomial/src/poly_coeff.rs: lagrange_interpolate"]}
{"id": "C32", "title": "Reed-Solomon decoding returns the unique codeword polynomial", "statement": "For a code with power-of-two parameters, recover_polynomial_coefficient with in-range erasure positions (repetitions allowed) not exceeding the tolerated number returns Ok(p) exactly when p is the polynomial of at most poly_len coefficients agreeing with the data outside the erasures, and the invalid-length error exactly when no such polynomial exists; values at erased positions have no influence.", "quantifier": "all code parameters, all data vectors, all erasure lists", "why_tests_cant": "Erasure patterns are exponential in number.", "anchors": ["cryptography/erasure_codes/src/reed_solomon.rs: ReedSolomon::recover_polynomial_coefficient, construct_vanishing_poly_from_block_erasures"]}
{"id": "C33", "title": "Reed-Solomon encode, parameter checks and capacity", "statement": "encode returns the evaluations on the extended domain for at most poly_len coefficients and the too-many-coefficients error otherwise; recovery reports an out-of-range erasure index first and then too many erasures; the tolerated number of block erasures is block_size - block_size/expansion_factor for blocks dividing the message.", "quantifier": "all code parameters and inputs", "why_tests_cant": "All parameter combinations, including edge cases such as a block size above the codeword length.", "anchors": ["cryptography/erasure_codes/src/reed_solomon.rs: new, encode, acceptable_num_block_erasures, construct_vanishing_poly_from_erasure_pattern"]}
{"id": "C34", "title": "Toeplitz multiplication by FFT equals the matrix product", "statement": "sum_matrix_vector_mul returns sum_i T_i x_i for Toeplitz matrices T_i given by first row and column and fixed vectors x_i of group elements, for every power-of-two dimension and batch size; transposing twice is the identity on non-empty rectangular input.", "quantifier": "all dimensions, all matrices, all vectors of group elements", "why_tests_cant": "Unbounded dimensions and entries.", "anchors": ["cryptography/kzg_multi_open/src/fk20/toeplitz.rs: CirculantMatrix::from_toeplitz", "cryptography/kzg_multi_open/src/fk20/batch_toeplitz.rs: new, sum_matrix_vector_mul, transpose"]}
{"id": "C35", "title": "Regrouping received cells into domain order is correct", "statement": "recover_evaluations_in_domain_order places element j of the cell with index k at domain position bit-reverse(64k+j), zero elsewhere, and returns for each index its bit reversal, such that the positions belonging to that cell are exactly those congruent to it modulo the number of cells; it returns None exactly on empty input, unequal cell lengths or an out-of-range index.", "quantifier": "every domain size and coset size that are powers of two, every index list and cell list", "why_tests_cant": "All subsets and orders.", "anchors": ["cryptography/kzg_multi_open/src/fk20/cosets.rs: recover_evaluations_in_domain_order", "eip7594/src/recovery.rs: find_missing_cell_indices"]}
{"id": "C36", "title": "Scalar and cell encodings are canonical and invertible", "statement": "Decoding a 32-byte big-endian string succeeds exactly when its value is below the modulus, encoding and decoding are inverse to each other, and a 2048-byte cell decodes to 64 scalars whose encoding is the same 2048 bytes.", "quantifier": "all 32-byte strings, all scalars, all 2048-byte strings", "why_tests_cant": "2^256 strings.", "anchors": ["eip7594/src/serialization.rs: deserialize_bytes_to_scalar, serialize_scalars_to_cell, deserialize_cell_to_scalars", "cryptography/bls12_381/src/lib.rs: reduce_bytes_to_scalar_bias"]}
{"id": "C37", "title": "C interface: outputs are written only on success and verdicts map correctly", "statement": "Each C entry point returns status Ok with a null message or status Err with a message; on Err no output buffer is modified; on Ok the buffers hold exactly the result of the Rust call. For verification, a failed proof gives Ok with verified=false, a good one Ok with verified=true, malformed input gives Err and leaves *verified unchanged.", "quantifier": "every call with valid pointers and every memory content", "why_tests_cant": "All memory contents and inputs; tests look at few buffers.", "anchors": ["bindings/c/src/lib.rs: CResult, verification_result_to_bool_cresult", "bindings/c/src/*.rs", "bindings/c/src/pointer_utils.rs"]}
{"id": "C38", "title": "C context and error-message lifecycle is memory safe under the documented protocol", "statement": "For every sequence of C calls in which the caller follows the documented protocol (free a context or message at most once, use only live contexts), no freed context is used and no allocation is freed twice; freeing null does nothing; after all frees nothing allocated by the library is left. Violating the protocol by freeing twice leads to a double free.", "quantifier": "every sequence of calls", "why_tests_cant": "Histories are unbounded.", "anchors": ["bindings/c/src/lib.rs: eth_kzg_das_context_new, eth_kzg_das_context_free, eth_kzg_free_error_message"]}
{"id": "C39", "title": "Java: a closed context is never used by sequential code, and this needs sequential use", "statement": "In every sequential history of calls on a LibEthKZG object, native code never receives a freed pointer: after close/destroy every call throws IllegalStateException and repeated close is a no-op. With any number of threads overlapping calls are safe, as long as a close excludes all other operations. With two threads, one calling close while another is in a call, or two calling close, a freed pointer can be used or freed twice.", "quantifier": "all sequential histories; all interleavings of two threads", "why_tests_cant": "Interleavings cannot be enumerated by a test.", "anchors": ["bindings/java/java_code/src/main/java/ethereum/cryptography/LibEthKZG.java: destroy, checkContextHasNotBeenFreed", "bindings/java/rust_code/src/lib.rs"]}
{"id": "C40", "title": "Java and Node: byte arrays of wrong size and indices out of range are rejected", "statement": "Through the Java and Node bindings, an input array whose length is not exactly the required one always yields an exception and never reaches the cryptography; Java indices (signed 64-bit, negative included) outside 0..127 are rejected. For Node, an index that is an arbitrary-precision integer is reduced modulo 2^64 first, so integers such as 2^64 + 3 are accepted as index 3.", "quantifier": "all array lengths, all signed 64-bit integers, all big integers", "why_tests_cant": "Unbounded integers.", "anchors": ["bindings/node/src/lib.rs: bigint_to_u64, slice_to_array_ref", "bindings/java/rust_code/src/lib.rs: jlongarray_to_vec_u64, slice_to_array_ref"]}
{"id": "C41", "title": "C#: disposal is idempotent, errors surface as exceptions, messages are freed once", "statement": "In every history of calls on one EthKZG object the native context is freed at most once; every native Err becomes an ArgumentException and its message is freed exactly once; wrong array lengths are rejected before the native call. A call after Dispose passes a null context and aborts the process instead of throwing.", "quantifier": "all histories of calls", "why_tests_cant": "Unbounded histories.", "anchors": ["bindings/csharp/csharp_code/EthKZG.bindings/ethkzg.cs: Dispose, ThrowOnError"]}
{"id": "C42", "title": "Go: blob commitment errors are reported", "statement": "BlobToKZGCommitment returns an error whenever the blob is not accepted by the library.", "quantifier": "every byte slice", "why_tests_cant": "All byte slices.", "anchors": ["bindings/golang/prover.go: BlobToKZGCommitment"]}
{"id": "C43", "title": "Trusted setup parsing accepts exactly well-formed point lists", "statement": "Loading keys from a trusted setup succeeds exactly when every G1 string is 0x followed by 96 hex digits decoding to a point accepted by the chosen check, every G2 string is 0x followed by 192 such digits, there are more than 64 G2 points, and at least as many G1 points as G2 points; otherwise it panics. On success the i-th key element is the decoding of the i-th string.", "quantifier": "every list of strings", "why_tests_cant": "All strings.", "anchors": ["eip7594/src/trusted_setup.rs: deserialize_g1_points, deserialize_g2_points, to_commit_key, to_verification_key"]}
{"id": "C44", "title": "Opening proofs by the naive scheme and by FK20 agree", "statement": "For every polynomial and every set of at least two distinct points, the naive multi-opening proof commits to (f - I)/Z and is accepted by the naive verifier; on each coset it equals the FK20 proof.", "quantifier": "every polynomial within the commit key's size, every point set, every coset", "why_tests_cant": "All polynomials and point sets.", "anchors": ["cryptography/kzg_multi_open/src/naive.rs", "cryptography/kzg_multi_open/src/fk20/naive.rs", "cryptography/kzg_multi_open/src/fk20/prover.rs"]}
{"id": "C45", "title": "The FK20 prover is right for commit keys of exactly the polynomial bound and wrong for longer ones", "statement": "With a commit key of exactly polynomial_bound points, compute_multi_opening_proofs returns for every coset the commitment to the quotient and the evaluations. FK20Prover::new also accepts commit keys with more points (its assertion is >=), but there are such keys (honest powers of a secret) and polynomials for which the returned proofs are not the quotient commitments, while the reference implementation stays right.", "quantifier": "every key size, every polynomial", "why_tests_cant": "Tests only use keys whose size is the bound.", "anchors": ["cryptography/kzg_multi_open/src/fk20/prover.rs: FK20Prover::new"]}
{"id": "C46", "title": "C#: arrays whose addresses are passed to native code stay in place", "statement": "During a native call every managed array whose address was handed over stays where it is: the result of a method does not depend on when the garbage collector runs or which unpinned arrays it moves. This holds for BlobToKzgCommitment. For the three methods with jagged arrays the inner arrays are pinned only while their addresses are collected, not during the native call: a collector that moves them makes every successful compute call, and every recover or verify call with at least one array, access memory that is no longer there.", "quantifier": "every collector that respects pinning, every input", "why_tests_cant": "When the collector runs and what it moves cannot be controlled by a test.", "anchors": ["bindings/csharp/csharp_code/EthKZG.bindings/ethkzg.cs: ComputeCellsAndKZGProofs, VerifyCellKZGProofBatch, RecoverCellsAndKZGProofs"]}
{"id": "C47", "title": "Go: the context outlives every call on it", "statement": "In every program that makes a context and commits to blobs, the native context is freed at most once and only when no call uses it any more. This holds when the finalizer runs after the last call; since the method does not keep the object alive during the C call, the finalizer may also run during the last call, and then the freed context is used.", "quantifier": "every sequence of blobs, every moment at which the finalizer may run", "why_tests_cant": "The moment of finalization cannot be controlled by a test.", "anchors": ["bindings/golang/prover.go: NewProverContext, BlobToKZGCommitment"]}
{"id": "C48", "title": "C: the calls write the KZG values and fit together", "statement": "Behind the C interface with the real library: blob_to_kzg_commitment writes the commitment to the polynomial whose values are the blob; compute writes for each of the 128 cosets the values and the quotient commitment; recovery from any 64 or more consistent cells writes the same cells and proofs, with or without precomputed tables (where no exceptional pair of points is met); the verdict says whether the batch pairing equation holds; what one call wrote for a blob is accepted by the verifying call and recovered from by the recovering call, whichever contexts are used. Arguments with other shapes, non-canonical field elements or invalid points give Err with a message. Nothing else in memory changes.", "quantifier": "every memory, every blob, every batch, every set of cells, contexts with and without tables", "why_tests_cant": "All inputs and memories, and the relations between calls.", "anchors": ["bindings/c/src/lib.rs", "bindings/c/src/blob_to_kzg_commitment.rs", "bindings/c/src/compute_cells_and_kzg_proofs.rs", "bindings/c/src/recover_cells_and_kzg_proofs.rs", "bindings/c/src/verify_cells_and_kzg_proofs_batch.rs", "eip7594/src/prover.rs", "eip7594/src/verifier.rs"]}
{"id": "C49", "title": "Constructors: every binding builds the context that was asked for, and all contexts give the same results", "statement": "The number of threads and the choice of tables given to a constructor in C, Node, C#, Nim, Go or Rust reach the library unchanged, 0 standing for the number chosen by rayon; without arguments there is one thread, and tables of width 8 except in Rust. The constructors panic only if the threads cannot be started. Any two contexts give the same results in all calls, whatever their numbers of threads and tables, where no exceptional pair is met. In Java this fails for longs outside 0 .. 2^32 - 1: 2^32 threads silently become rayon's choice, and -1 asks for 2^32 - 1 threads.", "quantifier": "every number of threads, every choice of tables, every pair of contexts, every input, every schedule", "why_tests_cant": "All thread counts and all pairs of contexts.", "anchors": ["eip7594/src/lib.rs: with_threads, ThreadCount", "bindings/c/src/lib.rs: eth_kzg_das_context_new", "bindings/java/rust_code/src/lib.rs: DASContextNew", "bindings/node/src/lib.rs: create", "bindings/csharp/csharp_code/EthKZG.bindings/ethkzg.cs", "bindings/golang/prover.go: NewProverContext", "bindings/nim/nim_code/nim_eth_kzg/nim_eth_kzg.nim: newKZGCtx"]}
{"id": "C50", "title": "Nim: every procedure gives the library's answer and frees what it got", "statement": "A program that makes a KZGCtx, calls the four procedures any number of times with arguments of the Nim types (and lists of any lengths), and lets go of the context returns for each call the value of the library, or an error exactly if the library gives one; verifyCellKZGProofBatch returns false exactly on an invalid proof. In the end no context and no error message of the library is left, nothing is freed twice and no memory outside the variables is read or written; the process aborts only if the library panics. What fails: the text of a Nim error is made from the result structure, whose message field is an untyped pointer, so it does not depend on which error it was.", "quantifier": "every sequence of calls, every argument, every library, every rendering of the result structure", "why_tests_cant": "All sequences of calls and list lengths, and memory that is only read or freed.", "anchors": ["bindings/nim/nim_code/nim_eth_kzg/nim_eth_kzg.nim", "bindings/nim/nim_code/nim_eth_kzg/header.nim"]}
{"id": "C51", "title": "The four calls agree with the reference functions of the consensus specification", "statement": "For every argument of the types of the API the library gives the value of the reference function of the Ethereum consensus specification (EIP-7594), and an error exactly if the reference fails an assertion: blob_to_kzg_commitment (the reference uses the setup in Lagrange form), compute_cells_and_kzg_proofs (the reference interpolates and divides polynomials for each cell), verify_cell_kzg_proof_batch (Ok is true, an invalid proof is false, every other error is a failed assertion). recover_cells_and_kzg_proofs gives the value of the reference if that value contains the given cells and an error otherwise; the reference also answers for cells that lie on no polynomial of degree below 4096. The same holds for a context with tables, for compute and recover as long as the tables meet no exceptional pair of points (C21).", "quantifier": "every blob, every batch, every list of cells and indices, every setup of the right size", "why_tests_cant": "The test vectors are finitely many inputs of the reference; the two programs share no algorithm.", "anchors": ["eip7594/src/prover.rs", "eip7594/src/verifier.rs", "eip7594/src/recovery.rs", "README.md"]}
{"id": "C52", "title": "Java: the native methods give the library's answer as new objects, or throw with the library's text", "statement": "For every heap and every argument of the Java types: if an argument or an element is null, or an array has the wrong size, an IllegalArgumentException is thrown (for a wrong size with the expected and the actual size of the first such array) and no object has changed. Otherwise the method returns the value of the library: a new CellsAndProofs whose arrays are all new and distinct objects, a new byte[], or the verdict; an error of the library is thrown with its text, except that an invalid proof is false. No existing object changes. What recoverCellsAndKZGProofs returns for half of the cells that computeCellsAndKZGProofs returned is another object that equals the first; tuples made by the library verify. What fails: JNI promises room for 16 local references, compute makes 264, and verify makes more than any given number.", "quantifier": "every heap, every argument, every library", "why_tests_cant": "All heaps, nulls at any place, sharing between arrays, local reference counts.", "anchors": ["bindings/java/rust_code/src/lib.rs: compute_cells_and_kzg_proofs, blob_to_kzg_commitment, verify_cell_kzg_proof_batch, recover_cells_and_kzg_proofs, throw_on_error, cells_and_proofs_to_jobject", "bindings/java/rust_code/src/errors.rs"]}
{"id": "C53", "title": "Java: CellsAndProofs is compared, hashed and serialised by its contents", "statement": "equals holds exactly between two objects of the class with the same cells and the same proofs (null included) and for nothing else; equal objects have equal hash codes, in any heap. toBytes returns all cells and then all proofs in order if they have less than 2^31 bytes together, and throws otherwise, also for null. For objects with the sizes that the library gives it returns 268288 bytes, which determine cells and proofs. For other objects different contents can have the same bytes, and the same hash code.", "quantifier": "every heap, every two objects, arrays of any number and size", "why_tests_cant": "All contents, null and overflow of int included.", "anchors": ["bindings/java/java_code/src/main/java/ethereum/cryptography/CellsAndProofs.java: equals, hashCode, toBytes"]}
{"id": "C54", "title": "Node: the synchronous methods give the library's answer in new arrays, or throw with the library's text", "statement": "For every memory and all Uint8Arrays, overlapping or not: a negative index panics; otherwise the first array of a wrong size gives an Error with its name, the expected and the actual size; otherwise the method returns the value of the library in new arrays, each in a buffer of its own, or throws an Error with the name of the function and the text of the library's error, except that an invalid proof is false. No existing buffer changes. Recovering from any half of the cells that computeCellsAndKzgProofs gave gives the same cells and proofs; tuples made by the library verify.", "quantifier": "every memory, every argument, every library", "why_tests_cant": "All memories, overlapping arrays, all sizes and indices.", "anchors": ["bindings/node/src/lib.rs: blob_to_kzg_commitment, compute_cells_and_kzg_proofs, compute_cells, recover_cells_and_kzg_proofs, verify_cell_kzg_proof_batch, slice_to_array_ref, bigint_to_u64"]}
{"id": "C55", "title": "Node: a promise gets the answer of the synchronous method if the arrays are left alone", "statement": "While JavaScript writes to buffers, allocates and makes further calls, and any number of workers run: if the arrays of an asynchronous call are not written to from some moment before the first read of its worker until the promise is settled, the promise is settled with what the synchronous method would give at that moment, in new arrays; unless that panics, the promise can always be settled by steps of its own worker, which change no other promise; a settled promise stays as it is. What fails otherwise: the answer need not be for the bytes at the time of the call, and verifyCellKzgProofBatch can give true although the batch was valid at no moment.", "quantifier": "every interleaving, every program of the worker that reads only the arrays of the call", "why_tests_cant": "All interleavings of the thread of JavaScript and the workers.", "anchors": ["bindings/node/src/lib.rs: async_blob_to_kzg_commitment, async_compute_cells_and_kzg_proofs, async_compute_cells, async_recover_cells_and_kzg_proofs, async_verify_cell_kzg_proof_batch"]}
{"id": "C56", "title": "To get a wrong cell accepted one must compute something that is assumed to be hard without the secret of the setup", "statement": "For a setup of the powers of a secret tau: (1) proofs of two different cells for the same commitment and cell index give e(G, H)/(tau - z) by a computation fixed by the cells alone, with z in the coset of the cell; (2) commitment and proof that are linear combinations of the points of the setup, chosen before the secret, make the verifier accept a cell that is not that of the committed polynomial for fewer than 4160 secrets; (3) the same for one wrong cell in a batch, if as many challenges as there are tuples make it accepted; (4) proofs of 64 cells of a blob for a commitment that is not the blob's give a point B other than 0 and M(tau) B, where M has degree 4096 and the setup has only the powers up to 4095.", "quantifier": "every setup, every secret, every cell, index, commitment and proof", "why_tests_cant": "Nobody can enumerate all proofs a dishonest prover may send; a test can only show that some wrong proofs are rejected.", "anchors": ["eip7594/src/verifier.rs: verify_cell_kzg_proof_batch", "cryptography/kzg_multi_open/src/fk20/verifier.rs: verify_multi_opening"]}
{"id": "C57", "title": "The challenge of a batch: every hash is reduced modulo r, and few hashes let a wrong batch pass", "statement": "reduce_bytes_to_scalar_bias gives the 32 bytes, read with the most significant first, modulo the order r of the scalar field; on canonical encodings it agrees with the decoder of scalars. Every scalar is the reduction of exactly 3 of the 2^256 hashes if it is below 2^256 - 2r, and of exactly 2 otherwise, so the bias is bounded. A batch of n tuples of which one would be rejected alone is accepted for at most 3(n - 1) of the 2^256 values of the hash of the transcript.", "quantifier": "every 32 bytes, every scalar, every batch, every set of hashes", "why_tests_cant": "There are 2^256 hashes.", "anchors": ["cryptography/bls12_381/src/lib.rs: reduce_bytes_to_scalar_bias", "cryptography/kzg_multi_open/src/fk20/verifier.rs: compute_fiat_shamir_challenge"]}
{"id": "C58", "title": "Error texts: printable, one for each error, and the C interface hands them over unchanged", "statement": "The text of every error consists of printable characters of ASCII, so it contains no NUL and making a C string of it cannot abort: every C call with valid arguments returns. Different errors have different texts. Numbers are written in decimal without leading zeros. The message of a refused blob is Serialization(CouldNotDeserializeScalar { bytes: [...] }) with the bytes of the first field element that is not canonical; that of a recovery from n < 64 cells has n and 64; that of a verification with an index above 127 has the first such index and 128. All other refusals of a recovery (different numbers of cells and indices, an index out of range, a repeated index, a field element that is not canonical, cells that are not of one blob) and of a verification (different numbers, a commitment or proof that is not a point, a field element that is not canonical) have the texts spelled out in the theorems.", "quantifier": "every error, every history of calls, every memory", "why_tests_cant": "Errors carry numbers and byte strings of any size; all of them must have a text without NUL, and no two the same.", "anchors": ["eip7594/src/errors.rs", "cryptography/erasure_codes/src/errors.rs", "cryptography/kzg_multi_open/src/fk20/errors.rs", "bindings/c/src/lib.rs: CResult::with_error"]}
{"id": "C59", "title": "Java: the native library is loaded at most once, before any native call, however many threads construct", "statement": "When any number of threads construct LibEthKZG objects at any times, at most one of them loads the native library at a time; after a success nobody loads it again; the native constructor is called only after a success; a constructor throws only if its own attempt to load failed, never because of the failure of another thread; and nobody waits for ever: at any moment every started constructor can end when only it and the thread in the monitor run.", "quantifier": "every number of threads, every schedule, every pattern of failures", "why_tests_cant": "The schedules of two threads at the flag and the monitor cannot be chosen by a test.", "anchors": ["bindings/java/java_code/src/main/java/ethereum/cryptography/LibEthKZG.java: LibEthKZG, ensureLibraryLoaded"]}
{"id": "C60", "title": "Numbers of scalars and points in fixed-base multiplications", "statement": "FixedBaseMSMPrecompBLST gives the linear combination for one scalar per point and ignores scalars left over, for every number of points above 0 and every window above 0; with fewer scalars than points, or without points, it accesses memory that is not its own (the claim that it is memory safe is refuted). FixedBaseMSM without a table accepts any numbers and ignores what is left over on either side (the claim of its expect that different numbers are reported is refuted). With a table, more scalars than points make it panic, and with fewer scalars the points left over are ignored.", "quantifier": "every number of points and scalars, every width, every value", "why_tests_cant": "The unsafe read depends on sizes and its effect on what lies behind the list; a test may pass by luck.", "anchors": ["cryptography/bls12_381/src/fixed_base_msm.rs", "cryptography/bls12_381/src/fixed_base_msm_window.rs", "cryptography/bls12_381/src/lincomb.rs: g1_lincomb"]}
{"id": "C61", "title": "The bindings agree: C, C#, Nim, Java and Node give the same answer to the same call", "statement": "For arguments of the right sizes the C function, the C#, Nim and Java methods and the synchronous Node method give the same bytes or the same verdict, and refuse the same calls, for the same reason text (the Nim binding has no text). For arguments of any sizes C#, Java and Node agree on which calls are refused and give the same bytes otherwise; indices are the unsigned 64-bit numbers that a Java long or a BigInt stands for. It does not matter with which precomputation option or how many threads each binding made its context, except for the cells and proofs of tables with an exceptional pair of points.", "quantifier": "every blob, cells, indices, commitments, proofs, every memory of the caller, every option", "why_tests_cant": "No test compares five languages on all inputs; each binding converts sizes, indices and errors on its own.", "anchors": ["bindings/c/src/lib.rs", "bindings/csharp/csharp_code/EthKZG.bindings/ethkzg.cs", "bindings/nim/nim_code/nim_eth_kzg/nim_eth_kzg.nim", "bindings/java/rust_code/src/lib.rs", "bindings/node/src/lib.rs"]}
{"id": "C62", "title": "C: calls by several threads that share a context and inputs answer as if each were alone", "statement": "When any number of threads call the C functions at any times on shared memory, and no call writes what another running call reads or writes (they may share the context and the inputs), then no call panics or accesses invalid memory, every call that ends has the answer, the output bytes and the message that it would have had alone on the memory at its start, no step changes anything but the outputs of its own call, a verification writes its verdict once, in the last step before it returns, and no call waits for another. The conditions are needed: freeing the context during a call is an access to freed memory, and two verifications with the same verdict pointer can report an invalid batch as valid (both claims without the condition are refuted).", "quantifier": "every number of threads, every interleaving of single reads and writes, every memory, every change by the callers of memory that no running call uses", "why_tests_cant": "The interleavings of the reads and writes of two calls cannot be chosen or enumerated by a test.", "anchors": ["bindings/c/src/lib.rs", "bindings/c/src/pointer_utils.rs", "bindings/c/src/blob_to_kzg_commitment.rs", "bindings/c/src/compute_cells_and_kzg_proofs.rs", "bindings/c/src/recover_cells_and_kzg_proofs.rs", "bindings/c/src/verify_cells_and_kzg_proofs_batch.rs"]}
{"id": "C63", "title": "The result struct is read by C# and Nim as Rust wrote it", "statement": "The bytes that Rust leaves for a CResult, whatever was there before, are read by C# as the same status and the same message pointer on machines with either byte order and pointers of at least 4 bytes. Nim, whose status enum has one byte while Rust's has four, reads the same on machines with the least significant byte first; on machines with the most significant byte first it takes every refusal for a success (the claim for all machines is refuted; the platforms for which the project builds have the least significant byte first).", "quantifier": "every status, every address, every earlier contents of the place of the result, every size of pointers", "why_tests_cant": "Padding bytes are unspecified, and tests run on one kind of machine.", "anchors": ["bindings/c/src/lib.rs: CResult", "bindings/csharp/csharp_code/EthKZG.bindings/native_methods.g.cs: CResult", "bindings/nim/nim_code/nim_eth_kzg/header.nim: CResult"]}
{"id": "C64", "title": "Each binding finds the compiled library for the machine that it runs on", "statement": "On Linux, Mac OS and Windows with x86-64, and on Linux and Mac OS with ARM, the published Java and C# packages hold a file with code for the machine and the loaders open that file; the C# loader opens nothing else of the package and answers for no other library, and the Java loader refuses every other processor and system. For Node the published package of the machine is loaded if it is installed (Windows on ARM included), and no other one ever, none on a Linux with musl. scripts/compile_to_native.sh puts into the directory of a target only code of that target, and what scripts/compile.sh compiles on the machine is what Go and Nim link. What fails: compile.sh refuses Linux on ARM, since uname -m is aarch64 there and the script knows only arm64; on Windows on ARM the check of the processor is passed over and Go links a library for x86-64; a universal library for Windows is code for Mac OS; the script can report success without a library; Java takes a system named Darwin for Windows.", "quantifier": "every version text of Windows, every name of a system or processor, every list of installed targets, every set of installed packages, every requested library name", "why_tests_cant": "CI runs on a handful of machines, each with names of its own; nobody runs the loaders under all names.", "anchors": ["scripts/compile_to_native.sh", "scripts/compile.sh", "bindings/java/java_code/src/main/java/ethereum/cryptography/LibEthKZG.java: loadNativeLibrary, getNormalizedArchitecture", "bindings/csharp/csharp_code/EthKZG.bindings/native_methods.loading.cs: LoadNativeLibrary", "bindings/node/index.js", "bindings/golang/prover.go", "bindings/nim/nim_code/nim_eth_kzg/build_utils.nim: getInstallDir"]}
{"id": "C65", "title": "Calls by several threads that share one context and its thread pool", "statement": "When any number of threads call blob_to_kzg_commitment, compute_cells_and_kzg_proofs, recover_cells_and_kzg_proofs and verify_cell_kzg_proof_batch on one context at any times, every call that returns has the result that it has alone without a pool, whatever the workers take, split and run, also when a worker runs the body of one call while another call of its waits; a call panics only if it panics alone, so a panic in one call does not reach the others. Each thread gets one answer for each call, in order. There is no deadlock: with at least one worker something can be done as long as a thread waits, and without new calls the pool comes to an end after a bounded number of steps, with all calls answered.", "quantifier": "every number of threads and workers, every sequence of calls, every interleaving, split and theft of jobs", "why_tests_cant": "Which worker takes which job of which call, and what it does while it waits, cannot be chosen by a test; a deadlock may need one schedule in millions.", "anchors": ["eip7594/src/lib.rs: DASContext", "eip7594/src/macros.rs: with_optional_threadpool", "eip7594/src/prover.rs", "eip7594/src/verifier.rs", "cryptography/kzg_multi_open/src/fk20/batch_toeplitz.rs", "maybe_rayon/src/multi_threaded.rs"]}
{"id": "C66", "title": "A C# EthKZG object can be shared by threads that call; Dispose is safe only when nothing else runs", "statement": "Any number of threads may call methods of one EthKZG object in any interleaving: no call faults, the object keeps its context, and every thread gets the results of its own operations in order, as if alone. On one thread Dispose frees the context exactly once however often it is called; a later call whose arguments pass the length checks aborts the process (the library asserts that the pointer is not null) and never touches freed memory, while a call refused by the checks still throws as usual. With several threads, if Dispose excludes all other methods, freed memory is never touched and nothing is freed twice; if moreover no call starts after Dispose has returned there is no fault at all. The class itself provides no exclusion: a Dispose during a call frees the context under it, and two Dispose calls of different threads can free it twice (refuted with schedules), though not if one of them reads the field again after the other has finished.", "quantifier": "for every address and set of live contexts, every number of threads and list of operations per thread, every argument, and every interleaving of reads and writes of the field and of starts and ends of native calls", "why_tests_cant": "the behaviour depends on the interleaving of several threads; a unit test sees a few schedules, and undefined behaviour may go unnoticed", "anchors": ["bindings/csharp/csharp_code/EthKZG.bindings/ethkzg.cs:27-63", "bindings/c/src/lib.rs:98-105", "bindings/c/src/blob_to_kzg_commitment.rs:11"]}
{"id": "C67", "title": "Sizes that do not fit are refused", "statement": "FK20Prover::new returns only for cells and a number of points that are powers of two, with at least two cells, a polynomial bound that is a power of two and no larger than the setup, and a setup longer than one cell; opening polynomial coefficients returns only if their number is a power of two, and the reference prover has the same conditions. A sum of Toeplitz products returns only with one matrix for each vector and no empty row or column. ifft_g1_take_n on a domain of size 2^k returns exactly n elements for n < 2^k and panics for n >= 2^k. A VerificationKey that could be made holds a G2 point for tau^n of its cells, and a CommitKey that could be made can commit to constants.", "quantifier": "every setup, polynomial, list of matrices and every size, powers of two or not", "why_tests_cant": "tests use the sizes of the protocol or one bad size per assertion; a forgotten check gives well-formed but wrong points for sizes that nobody tried", "anchors": ["cryptography/kzg_multi_open/src/fk20/prover.rs:63-123", "cryptography/kzg_multi_open/src/fk20/h_poly.rs:17-58", "cryptography/kzg_multi_open/src/fk20/naive.rs:65-95", "cryptography/kzg_multi_open/src/fk20/batch_toeplitz.rs:82-116", "cryptography/polynomial/src/domain.rs:160-185", "cryptography/kzg_multi_open/src/verification_key.rs:36-56", "cryptography/kzg_multi_open/src/commit_key.rs"]}
