{
 "claims": [
  {
   "property": "C01",
   "status": "proved",
   "theorems": [
    "C01_systematic"
   ],
   "note": "EIP constants over Fr, any module as G1, without precomputed tables."
  },
  {
   "property": "C02",
   "status": "proved",
   "theorems": [
    "C02_cells",
    "w8192_power",
    "w8192_order"
   ],
   "note": ""
  },
  {
   "property": "C03",
   "status": "proved",
   "theorems": [
    "C03_proofs",
    "C03_proofs_tau"
   ],
   "note": ""
  },
  {
   "property": "C04",
   "status": "proved",
   "theorems": [
    "C04_commitment",
    "C04_commitment_tau",
    "C04_fail_together"
   ],
   "note": ""
  },
  {
   "property": "C05",
   "status": "proved",
   "theorems": [
    "C05_accepted",
    "C05_rejected"
   ],
   "note": ""
  },
  {
   "property": "C06",
   "status": "proved",
   "theorems": [
    "C06_recover_any_half"
   ],
   "note": ""
  },
  {
   "property": "C07",
   "status": "proved",
   "theorems": [
    "C07_consistent",
    "C07_inconsistent",
    "C07_preserves",
    "C07_output"
   ],
   "note": ""
  },
  {
   "property": "C08",
   "status": "proved",
   "theorems": [
    "C08_lengths",
    "C08_range",
    "C08_duplicates",
    "C08_too_few",
    "C08_bad_chunk",
    "C08_only",
    "C08_never_too_many"
   ],
   "note": ""
  },
  {
   "property": "C09",
   "status": "proved",
   "theorems": [
    "C09_permutation",
    "C09_choice"
   ],
   "note": ""
  },
  {
   "property": "C10",
   "status": "proved",
   "theorems": [
    "C10_honest_verifies"
   ],
   "note": "Any hash function and reduction."
  },
  {
   "property": "C11",
   "status": "proved",
   "theorems": [
    "C11_batch"
   ],
   "note": "The challenge is the hash of the transcript of the consensus specification, over the bytes of the call."
  },
  {
   "property": "C12",
   "status": "proved",
   "theorems": [
    "C12_single",
    "C12_unique_proof"
   ],
   "note": "Uniqueness assumes that the pairing with the second generator is injective."
  },
  {
   "property": "C13",
   "status": "proved",
   "theorems": [
    "C13_few_challenges"
   ],
   "note": ""
  },
  {
   "property": "C14",
   "status": "proved",
   "theorems": [
    "C14_lengths",
    "C14_range",
    "C14_empty",
    "C14_commitment",
    "C14_proof",
    "C14_chunk",
    "C14_only",
    "C14_never_commitment_index"
   ],
   "note": ""
  },
  {
   "property": "C15",
   "status": "proved",
   "theorems": [
    "C15_deduplicate",
    "C15_order"
   ],
   "note": ""
  },
  {
   "property": "C16",
   "status": "proved",
   "theorems": [
    "C16_injective",
    "C11_batch",
    "C18_no_panic"
   ],
   "note": "Injectivity of the specified transcript; C11 says that it is what the code hashes; C18 covers the length assertion."
  },
  {
   "property": "C17",
   "status": "proved",
   "theorems": [
    "C17_invalid_proof",
    "C17_others"
   ],
   "note": ""
  },
  {
   "property": "C18",
   "status": "proved",
   "theorems": [
    "C18_no_panic",
    "C18_context"
   ],
   "note": ""
  },
  {
   "property": "C19",
   "status": "proved",
   "theorems": [
    "C19_recovered_verifies",
    "C19_blob_commitment"
   ],
   "note": ""
  },
  {
   "property": "C20",
   "status": "proved",
   "theorems": [
    "C20_schedule",
    "C20_progress",
    "C20_terminates",
    "C20_collect",
    "C20_disjoint",
    "C20_write_once",
    "C20_pool_size",
    "C20_context",
    "C20_compute",
    "C20_recover"
   ],
   "note": "rayon's indexed collect is a transition system: any number of workers, any splitting, stealing and interleaving, panicking jobs. The context and the two calls with parallel sections are relations over its possible results."
  },
  {
   "property": "C21",
   "status": "proved",
   "theorems": [
    "C21_msm",
    "C21_cancel_panics",
    "C21_width0",
    "C21_compute",
    "C21_recover",
    "C21_commitment_verify"
   ],
   "note": "The multi-scalar multiplication and the library calls with tables of width 1 to 24, provided no exceptional pair is summed; opposite points panic."
  },
  {
   "property": "C22",
   "status": "proved",
   "theorems": [
    "C22_booth",
    "C22_wide_refuted"
   ],
   "note": "C22_wide_refuted: windows of 25 bits lose a bit."
  },
  {
   "property": "C23",
   "status": "proved",
   "theorems": [
    "C23_batch",
    "C23_multi",
    "C23_batch_cancel_panics",
    "C23_multi_cancel_panics",
    "C23_identity_pair",
    "C23_identity_refuted"
   ],
   "note": "C23_identity_refuted: with the identity in a pair the returned sum can be wrong."
  },
  {
   "property": "C24",
   "status": "proved",
   "theorems": [
    "C24_batch_inverse"
   ],
   "note": "Any field, any scratch pad content."
  },
  {
   "property": "C25",
   "status": "proved",
   "theorems": [
    "C25_lincomb",
    "C25_none_on_mismatch_refuted",
    "C25_unsafe_refuted"
   ],
   "note": "Any Fr-module, so both g1 and g2. The documented None on a length mismatch is refuted."
  },
  {
   "property": "C26",
   "status": "proved",
   "theorems": [
    "C26_fft_scalars",
    "C26_ifft_scalars",
    "C26_ifft_fft_scalars",
    "C26_fft_g1",
    "C26_ifft_fft_g1"
   ],
   "note": "Sizes 2^0..2^32 over the BLS12-381 scalar field (primality proved); group version for every Fr-module."
  },
  {
   "property": "C27",
   "status": "proved",
   "theorems": [
    "C27_coset_fft",
    "C27_coset_ifft",
    "C27_coset_inverse",
    "C27_coset_zero"
   ],
   "note": ""
  },
  {
   "property": "C28",
   "status": "proved",
   "theorems": [
    "C28_domain_new",
    "C28_domain_new_0"
   ],
   "note": ""
  },
  {
   "property": "C29",
   "status": "proved",
   "theorems": [
    "C29_reverse_bit_order",
    "C29_reverse_bit_order_panic",
    "C29_large_panics"
   ],
   "note": "Lengths below 2^32; the code truncates the length to u32."
  },
  {
   "property": "C30",
   "status": "proved",
   "theorems": [
    "C30_poly_add",
    "C30_poly_sub",
    "C30_poly_neg",
    "C30_poly_eval",
    "C30_poly_mul",
    "C30_poly_mul_panic",
    "C30_vanishing_poly"
   ],
   "note": ""
  },
  {
   "property": "C31",
   "status": "proved",
   "theorems": [
    "C31_lagrange",
    "C31_lagrange_panic"
   ],
   "note": ""
  },
  {
   "property": "C32",
   "status": "proved",
   "theorems": [
    "C32_domain",
    "C32_recover",
    "C32_erased_ignored"
   ],
   "note": "Block-synchronised erasures (the only form outside tests), every power-of-two code over Fr up to length 2^32."
  },
  {
   "property": "C33",
   "status": "proved",
   "theorems": [
    "C33_encode",
    "C33_bad_index",
    "C33_too_many",
    "C33_capacity",
    "C33_new_checks",
    "C33_block_too_large"
   ],
   "note": ""
  },
  {
   "property": "C34",
   "status": "proved",
   "theorems": [
    "C34_sum_matrix_vector_mul",
    "C34_sum_matrix_vector_mul_msm",
    "C34_transpose_twice"
   ],
   "note": "Unconditional without precomputed tables; with tables under exactness of the MSM calls made (C21)."
  },
  {
   "property": "C35",
   "status": "proved",
   "theorems": [
    "C35_regroup",
    "C35_positions",
    "C35_none"
   ],
   "note": "C35_none assumes non-empty cells: an empty first cell divides by zero in the code."
  },
  {
   "property": "C36",
   "status": "proved",
   "theorems": [
    "C36_scalar_decode",
    "C36_scalar_roundtrip",
    "C36_cell_roundtrip",
    "C36_injective",
    "C36_any_cell",
    "C36_any_blob",
    "C36_any_point"
   ],
   "note": ""
  },
  {
   "property": "C37",
   "status": "proved",
   "theorems": [
    "C37_status",
    "C37_commit_ok",
    "C37_commit_err",
    "C37_compute_ok",
    "C37_compute_err",
    "C37_recover_ok",
    "C37_recover_err",
    "C37_verify_true",
    "C37_verify_false",
    "C37_verify_err",
    "C37_eip7594_typed",
    "C37_eip7594_returns"
   ],
   "note": "Over an explicit memory of blocks; the Rust library is a parameter with the types of its results (C37_eip7594_typed shows that the modelled library has them). Outputs and untouched memory are given for each entry point."
  },
  {
   "property": "C38",
   "status": "proved",
   "theorems": [
    "C38_safe",
    "C38_accounting",
    "C38_no_leak",
    "C38_free_null",
    "C38_free_ctx_iff",
    "C38_free_msg_iff",
    "C38_double_free",
    "C38_null_context",
    "C38_use_after_free"
   ],
   "note": "Histories of any length over any number of contexts and messages; the misuse cases are exact (which step is undefined or aborts)."
  },
  {
   "property": "C39",
   "status": "proved",
   "theorems": [
    "C39_sequential",
    "C39_close_again",
    "C39_exclusive",
    "C39_no_close",
    "C39_late_close",
    "C39_close_during_call_refuted",
    "C39_null_context_refuted",
    "C39_two_closes_refuted",
    "C39_readers_writer",
    "C39_results",
    "C39_values"
   ],
   "note": "Sequential histories are safe for every number of steps; calls that exclude each other, or only calls, are safe in any interleaving of any number of threads; with a concurrent close the claim fails in three ways, each by a schedule."
  },
  {
   "property": "C40",
   "status": "proved",
   "theorems": [
    "C40_blob_length",
    "C40_java_recover_length",
    "C40_java_verify_length",
    "C40_node_recover_length",
    "C40_node_verify_length",
    "C40_node_negative_panics",
    "C40_blob_passes",
    "C40_node_cells",
    "C40_java_passes",
    "C40_node_passes",
    "C40_java_recover_index",
    "C40_java_verify_index",
    "C40_node_recover_wraps",
    "C40_node_index_refuted"
   ],
   "note": "Lengths are checked before any library call; Java indices outside 0..127 are rejected; a negative Node integer makes the assertion in bigint_to_u64 panic; a Node index of 2^64 + 3 is accepted as 3."
  },
  {
   "property": "C41",
   "status": "proved",
   "theorems": [
    "C41_call",
    "C41_dispose",
    "C41_every_program",
    "C41_program",
    "C41_after_dispose_refuted"
   ],
   "note": "cs_behaves (SpecCs.v) says what each method does on a live or disposed object; every program of methods does that, leaves no message, frees the context once if and only if Dispose was called, and never has undefined behaviour. After Dispose a call aborts the process. The collector does not move arrays here (see C46)."
  },
  {
   "property": "C42",
   "status": "proved",
   "theorems": [
    "C42_length",
    "C42_accepted",
    "C42_rejected_refuted",
    "C42_real_refuted"
   ],
   "note": "The claim is false: for every blob of the right length that the library rejects, the method returns 48 zero bytes and a nil error, and the message is not freed. It holds for wrong lengths; accepted blobs give the commitment."
  },
  {
   "property": "C43",
   "status": "proved",
   "theorems": [
    "C43_hex_unique",
    "C43_commit_key",
    "C43_keys",
    "C43_commit_key_points",
    "C43_verification_key_points",
    "C43_from_json",
    "C43_checked_then_unchecked",
    "C43_lagrange_unused",
    "C43_context_points",
    "C43_context"
   ],
   "note": "Strings are UTF-8 byte lists; hex decoding is modelled, the JSON parser and point decompression are arguments. Also: the context built from a setup is the context of its points, and g1_lagrange is never read."
  },
  {
   "property": "C44",
   "status": "proved",
   "theorems": [
    "C44_open",
    "C44_open_panics",
    "C44_verify",
    "C44_verify_panics",
    "C44_accepted",
    "C44_sound",
    "C44_unique",
    "C44_coset",
    "C44_naive",
    "C44_fk20",
    "C44_fk20_msm",
    "C44_num_proofs"
   ],
   "note": "naive scheme for any set of at least two distinct points (quotient, evaluations, acceptance, exact panic conditions, uniqueness of the accepted proof), and equality with both FK20 implementations on every coset"
  },
  {
   "property": "C45",
   "status": "proved",
   "theorems": [
    "C44_fk20",
    "C45_long_commit_key_refuted"
   ],
   "note": "Refuted for longer keys with a computed witness; for keys of the exact size see C44_fk20."
  },
  {
   "property": "C46",
   "status": "proved",
   "theorems": [
    "C46_blob_pinned",
    "C46_moved_refuted"
   ],
   "note": "Holds for BlobToKzgCommitment with any collector; refuted for the other three methods by a collector that moves what is not pinned."
  },
  {
   "property": "C47",
   "status": "proved",
   "theorems": [
    "C47_program",
    "C47_collected_refuted"
   ],
   "note": "Holds when the finalizer runs after the last call or never; refuted when it runs during the last call."
  },
  {
   "property": "C48",
   "status": "proved",
   "theorems": [
    "C48_commit",
    "C48_compute",
    "C48_blob_refused",
    "C48_recover",
    "C48_recover_refused",
    "C48_verdict",
    "C48_verify_refused",
    "C48_verdict_single",
    "C48_round_trip",
    "C48_any_half"
   ],
   "note": "The C entry points over the modelled library. With tables, the calls that use them are covered where no exceptional pair is met (C21)."
  },
  {
   "property": "C49",
   "status": "proved",
   "theorems": [
    "C49_c",
    "C49_node",
    "C49_cs_nim",
    "C49_java",
    "C49_java_any",
    "C49_java_threads_refuted",
    "C49_defaults",
    "C49_rust",
    "C49_positive",
    "C49_total",
    "C49_commit_verify",
    "C49_compute",
    "C49_recover"
   ],
   "note": "The default number of threads and whether threads can be started are parameters. The claim fails for Java longs outside 0 .. 2^32 - 1."
  },
  {
   "property": "C50",
   "status": "proved",
   "theorems": [
    "C50_call",
    "C50_program",
    "C50_text",
    "C50_message_refuted"
   ],
   "note": "The text of a Nim error does not depend on the error: refuted part of the claim."
  },
  {
   "property": "C51",
   "status": "proved",
   "theorems": [
    "C51_compute",
    "C51_commitment",
    "C51_verify",
    "C51_recover",
    "C51_recover_same_refuted",
    "C51_compute_tables",
    "C51_recover_tables",
    "C51_commitment_tables",
    "C51_verify_tables"
   ],
   "note": "Recovery: the library is the reference plus the check that the answer contains the given cells; plain equality is refuted. The _tables theorems carry the agreement over to contexts with tables."
  },
  {
   "property": "C52",
   "status": "proved",
   "theorems": [
    "C52_compute",
    "C52_commit",
    "C52_recover_null",
    "C52_recover",
    "C52_verify_null",
    "C52_verify",
    "C52_locals",
    "C52_locals_refuted",
    "C52_locals_verify_refuted",
    "C52_recover_equals",
    "C52_honest_true"
   ],
   "note": "The bound of 16 local references is refuted."
  },
  {
   "property": "C53",
   "status": "proved",
   "theorems": [
    "C53_equals",
    "C53_equals_other",
    "C53_hash",
    "C53_to_bytes_null",
    "C53_to_bytes",
    "C53_to_bytes_library",
    "C53_hash_refuted",
    "C53_to_bytes_refuted"
   ],
   "note": "Injectivity of hash codes and, for arbitrary sizes, of the bytes is refuted."
  },
  {
   "property": "C54",
   "status": "proved",
   "theorems": [
    "C54_commit",
    "C54_compute",
    "C54_compute_cells",
    "C54_recover",
    "C54_verify",
    "C54_recover_same",
    "C54_honest_true"
   ],
   "note": "The five synchronous methods over buffers and views, with exact error texts; results in new buffers; negative indices panic."
  },
  {
   "property": "C55",
   "status": "proved",
   "theorems": [
    "C55_async",
    "C55_progress",
    "C55_settled",
    "C55_call_time_refuted",
    "C55_torn_refuted"
   ],
   "note": "All interleavings. The claims that the answer is for the bytes at the time of the call, and that true means that the batch was valid at some moment, are refuted."
  },
  {
   "property": "C56",
   "status": "proved",
   "theorems": [
    "C56_binding",
    "C56_algebraic",
    "C56_algebraic_batch",
    "C56_commitment"
   ],
   "note": "Reductions and a count of secrets; the hardness assumptions themselves are not stated."
  },
  {
   "property": "C57",
   "status": "proved",
   "theorems": [
    "C57_reduction",
    "C57_canonical",
    "C57_preimages",
    "C57_false_acceptance"
   ],
   "note": "Reduction of the hash modulo r, the exact number of preimages, and the number of hashes for which a wrong batch passes."
  },
  {
   "property": "C58",
   "status": "proved",
   "theorems": [
    "C58_printable",
    "C58_distinct",
    "C58_decimal",
    "C58_returns",
    "C58_blob_message",
    "C58_few_message",
    "C58_index_message",
    "C58_recover_lengths",
    "C58_recover_range",
    "C58_recover_duplicates",
    "C58_recover_chunk",
    "C58_recover_inconsistent",
    "C58_verify_lengths",
    "C58_verify_commitment",
    "C58_verify_proof",
    "C58_verify_chunk"
   ],
   "note": "Texts of derive(Debug), injective and printable, and the message of every refused call of the C interface."
  },
  {
   "property": "C59",
   "status": "proved",
   "theorems": [
    "C59_one_at_a_time",
    "C59_once",
    "C59_loaded_before_use",
    "C59_own_failure",
    "C59_finishes"
   ],
   "note": "Events of loading along every schedule of any number of threads; volatile and monitor accesses interleave."
  },
  {
   "property": "C60",
   "status": "proved",
   "theorems": [
    "C60_blst",
    "C60_blst_fewer",
    "C60_blst_no_points",
    "C60_plain",
    "C60_table_more",
    "C60_table_fewer",
    "C60_memory_refuted",
    "C60_reported_refuted"
   ],
   "note": "blst's wbits functions are given by what they access and compute; the two claims that do not hold are refuted with witnesses. C60_table_fewer has the same condition on exceptional pairs as C21."
  },
  {
   "property": "C61",
   "status": "proved",
   "theorems": [
    "C61_commit",
    "C61_compute",
    "C61_recover",
    "C61_verify",
    "C61_commit_sizes",
    "C61_compute_sizes",
    "C61_recover_sizes",
    "C61_verify_sizes",
    "C61_typed",
    "C61_options",
    "C61_options_tables"
   ],
   "note": "Go is not part of the comparison: a rejected blob gives 48 zero bytes there (C42)."
  },
  {
   "property": "C62",
   "status": "proved",
   "theorems": [
    "C62_faithful",
    "C62_library",
    "C62_never_broken",
    "C62_as_alone",
    "C62_frame",
    "C62_progress",
    "C62_free_race_refuted",
    "C62_same_output_refuted",
    "C62_verdict_last"
   ],
   "note": "The steps of a call are its reads, writes, frees and its return; memory is sequentially consistent."
  },
  {
   "property": "C63",
   "status": "proved",
   "theorems": [
    "C63_cs",
    "C63_nim_little",
    "C63_nim_big",
    "C63_nim_refuted"
   ],
   "note": "Struct layout as in C; pointers of at least 4 bytes."
  },
  {
   "property": "C64",
   "status": "proved",
   "theorems": [
    "C64_java",
    "C64_java_windows_arm",
    "C64_java_other",
    "C64_java_darwin_refuted",
    "C64_cs",
    "C64_cs_only",
    "C64_cs_own",
    "C64_script",
    "C64_script_universal_refuted",
    "C64_script_silent_refuted",
    "C64_go",
    "C64_nim",
    "C64_linux_arm_refuted",
    "C64_linux_arm",
    "C64_windows_arm_refuted",
    "C64_node",
    "C64_node_only",
    "C64_node_local"
   ],
   "note": "Refuted parts: see the theorems ending in _refuted; they name the machines for which the scripts fail."
  },
  {
   "property": "C65",
   "status": "proved",
   "theorems": [
    "C65_result",
    "C65_any",
    "C65_order",
    "C65_idle_answered",
    "C65_progress",
    "C65_bounded",
    "C65_answered",
    "C65_completes"
   ],
   "note": "any number of threads and workers, any schedule: every call has its result alone, panics stay in their call, one answer per call in order, no deadlock, bounded work, all calls answered"
  },
  {
   "property": "C66",
   "status": "proved",
   "theorems": [
    "C66_sequential",
    "C66_calls",
    "C66_dispose_excludes",
    "C66_in_time",
    "C66_results",
    "C66_overlap_refuted",
    "C66_late_dispose",
    "C66_two_disposes_refuted"
   ],
   "note": "Any number of threads, any schedule; reads and writes of the field are sequentially consistent. That a Dispose may run during another operation is refuted."
  },
  {
   "property": "C67",
   "status": "proved",
   "theorems": [
    "C67_prover",
    "C67_open",
    "C67_naive",
    "C67_matrices",
    "C67_take_n",
    "C67_verification_key",
    "C67_commit_key"
   ],
   "note": "One direction (returns only if the sizes fit) except C67_take_n, which is exact; what is returned for sizes that fit is C34, C44 and C04."
  }
 ]
}