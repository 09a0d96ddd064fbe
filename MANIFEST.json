{
 "claims": [
  {
   "property": "C01",
   "status": "proved",
   "theorems": [
    "C01_duval_is_lyndon_factorization"
   ],
   "note": "Every text; factors are exhibited and the returned list is exactly their 0-based end positions."
  },
  {
   "property": "C02",
   "status": "proved",
   "theorems": [
    "C02_duval_unique",
    "C02_lyndon_factorization_unique"
   ],
   "note": ""
  },
  {
   "property": "C03",
   "status": "proved",
   "theorems": [
    "C03_isa_lyndon_agrees_with_duval"
   ],
   "note": "sa is any list satisfying is_suffix_array (unique, see C08)."
  },
  {
   "property": "C04",
   "status": "proved",
   "theorems": [
    "C04_lyndon_conjugate_smallest_rotation",
    "C04_lyndon_conjugate_empty_panics"
   ],
   "note": ""
  },
  {
   "property": "C05",
   "status": "proved",
   "theorems": [
    "C05_border_array_longest_borders"
   ],
   "note": ""
  },
  {
   "property": "C06",
   "status": "proved",
   "theorems": [
    "C06_smallest_period",
    "C06_empty"
   ],
   "note": ""
  },
  {
   "property": "C07",
   "status": "proved",
   "theorems": [
    "C07_is_primitive_decides",
    "C07_is_primitive_empty"
   ],
   "note": ""
  },
  {
   "property": "C08",
   "status": "proved",
   "theorems": [
    "C08_suffixarray_naive"
   ],
   "note": ""
  },
  {
   "property": "C09",
   "status": "proved",
   "theorems": [
    "C09_inverse_permutation",
    "C09_inverse_permutation_involutive",
    "C09_inverse_permutation_out_of_range",
    "C09_any_table"
   ],
   "note": ""
  },
  {
   "property": "C10",
   "status": "proved",
   "theorems": [
    "C10_compute_phi",
    "C10_compute_phi_empty"
   ],
   "note": ""
  },
  {
   "property": "C11",
   "status": "proved",
   "theorems": [
    "C11_plcp_lcp"
   ],
   "note": "Includes the wrap-around entry phi[sa[0]]=sa[n-1] and texts without sentinel."
  },
  {
   "property": "C12",
   "status": "proved",
   "theorems": [
    "C12_compute_psv",
    "C12_compute_nsv",
    "C12_empty_panics",
    "C12_large_table_refuted"
   ],
   "note": "Arrays shorter than 2^32; the u32 marker and the `as u32` cast are modelled."
  },
  {
   "property": "C13",
   "status": "proved",
   "theorems": [
    "C13_bwt_from_text_by_sa",
    "C13_panics",
    "C13_bwt_from_sa"
   ],
   "note": ""
  },
  {
   "property": "C14",
   "status": "proved",
   "theorems": [
    "C14_bwt_by_matrix_naive",
    "C14_total",
    "C14_rotation_invariant"
   ],
   "note": ""
  },
  {
   "property": "C15",
   "status": "proved",
   "theorems": [
    "C15_bwt_by_matrix",
    "C15_panics"
   ],
   "note": "sort is any function returning suffix arrays (divsufsort is trusted to be one)."
  },
  {
   "property": "C16",
   "status": "proved",
   "theorems": [
    "C16_dollar_agree"
   ],
   "note": ""
  },
  {
   "property": "C17",
   "status": "proved",
   "theorems": [
    "C17_matrix_bwt_determines_conjugacy_class",
    "C17_dollar_bwt_injective"
   ],
   "note": ""
  },
  {
   "property": "C18",
   "status": "proved",
   "theorems": [
    "C18_bbwt_naive",
    "C18_bbwt_permutation",
    "C18_bbwt_injective",
    "C18_bbwt_surjective",
    "C18_bbwt_empty_panics"
   ],
   "note": "Includes surjectivity (pigeonhole over the permutations of a word)."
  },
  {
   "property": "C19",
   "status": "proved",
   "theorems": [
    "C19_bbwt_eq_bwt_on_lyndon_words"
   ],
   "note": ""
  },
  {
   "property": "C20",
   "status": "proved",
   "theorems": [
    "C20_generator_enumerates_lyndon_words",
    "C20_generator_zero_length",
    "C20_generator_sigma_zero"
   ],
   "note": "1<=sigma<=256 and n>=1; sigma=0 and n=0 described by separate theorems."
  },
  {
   "property": "C21",
   "status": "proved",
   "theorems": [
    "C21_binary_generator",
    "C21_each_string_once",
    "C21_does_not_stop",
    "C21_stops_at_max_rank",
    "C21_long_panics",
    "C21_lexicographic_order_refuted"
   ],
   "note": "Property text states what the code does; the documented order and termination are refuted by separate theorems."
  },
  {
   "property": "C22",
   "status": "proved",
   "theorems": [
    "C22_conjugate_iterator"
   ],
   "note": ""
  },
  {
   "property": "C23",
   "status": "proved",
   "theorems": [
    "C23_number_of_runs",
    "C23_runs_exist_unique"
   ],
   "note": ""
  },
  {
   "property": "C24",
   "status": "proved",
   "theorems": [
    "C24_any_range",
    "C24_bad_alphabet_panics",
    "C24_random_string_generator",
    "C24_max_range_panics",
    "C24_eight_bits_refuted"
   ],
   "note": "Also gives the exact letters of every string."
  },
  {
   "property": "C25",
   "status": "proved",
   "theorems": [
    "C25_bit_size"
   ],
   "note": ""
  },
  {
   "property": "C26",
   "status": "proved",
   "theorems": [
    "C26_mtf_decodable",
    "C26_mtf_panics_on_255",
    "C26_all_bytes_refuted"
   ],
   "note": "Byte 255 panics: the all-bytes claim is refuted."
  },
  {
   "property": "C27",
   "status": "proved",
   "theorems": [
    "C27_rle"
   ],
   "note": ""
  },
  {
   "property": "C28",
   "status": "proved",
   "theorems": [
    "C28_rle_zero_exact",
    "C28_rle_zero_total",
    "C28_lossless_refuted",
    "C28_zero_free_copied"
   ],
   "note": "Losslessness is refuted; the exact output is proved for every input."
  },
  {
   "property": "C29",
   "status": "proved",
   "theorems": [
    "C29_rle_text",
    "C29_rle_text_format",
    "C29_rle_text_injective"
   ],
   "note": ""
  },
  {
   "property": "C30",
   "status": "proved",
   "theorems": [
    "C30_checks",
    "C30_escape_never_panics",
    "C30_escape_removes_from_symbols",
    "C30_escape_roundtrip",
    "C30_roundtrip_duplicate_to_refuted"
   ],
   "note": "Round trip under the stated condition on repeated --to symbols; its necessity shown by a counterexample theorem."
  },
  {
   "property": "C31",
   "status": "proved",
   "theorems": [
    "C31_default_prefix_writes_nothing",
    "C31_prefix_processed",
    "C31_reversion_prefix",
    "C31_roundtrip_prefix",
    "C31_whole_input_by_default_refuted"
   ],
   "note": "The documented whole-input default is refuted."
  },
  {
   "property": "C32",
   "status": "proved",
   "theorems": [
    "C32_count_sigma",
    "C32_all_256_bytes_panic"
   ],
   "note": ""
  },
  {
   "property": "C33",
   "status": "proved",
   "theorems": [
    "C33_reverse",
    "C33_reverse_twice"
   ],
   "note": ""
  },
  {
   "property": "C34",
   "status": "proved",
   "theorems": [
    "C34_file_stdin_agree_iff",
    "C34_file",
    "C34_stdin_short_panics",
    "C34_truncated_file_panics"
   ],
   "note": "Agreement iff prefix <= length."
  },
  {
   "property": "C35",
   "status": "proved",
   "theorems": [
    "C35_lz77_decodes",
    "C35_empty_panics"
   ],
   "note": "Bytes < 256, length < 2^32; range-minimum crate replaced by its documented result (rmq), divsufsort by any suffix sorter."
  },
  {
   "property": "C36",
   "status": "proved",
   "theorems": [
    "C36_lz77_longest_previous_factors"
   ],
   "note": "is_lz77_parsing spells out longest previous factors; factor lengths are unique."
  },
  {
   "property": "C37",
   "status": "proved",
   "theorems": [
    "C37_lz77_minimal"
   ],
   "note": "parsable ranges over all parsings into literals and earlier-starting copies, overlapping allowed."
  },
  {
   "property": "C38",
   "status": "proved",
   "theorems": [
    "C38_lexparse_determines_text",
    "C38_lexparse_determines_text_refuted",
    "C38_empty_panics"
   ],
   "note": "Naive claim false for c^n (refuted theorem covers all n, c)."
  },
  {
   "property": "C39",
   "status": "proved",
   "theorems": [
    "C39_mus_with_sentinel"
   ],
   "note": "get_mus composed with the structures of main, on s followed by 0."
  },
  {
   "property": "C40",
   "status": "proved",
   "theorems": [
    "C40_mus_program",
    "C40_empty_panics",
    "C40_mus_program_refuted"
   ],
   "note": "Naive claim (all MUSs of the file) refuted; exact behaviour proved for all texts."
  },
  {
   "property": "C41",
   "status": "proved",
   "theorems": [
    "C41_is_attractor_decides",
    "C41_is_attractor_bytes",
    "C41_out_of_range",
    "C41_empty_text_refuted"
   ],
   "note": "RMQ structure and rank/select structure modelled by their specifications; the printing of the counterexample is modelled only by its UTF-8 unwrap."
  },
  {
   "property": "C42",
   "status": "proved",
   "theorems": [
    "C42_fibonacci_word",
    "C42_never_wrong",
    "C42_terminates",
    "C42_exact",
    "C42_too_large",
    "C42_any_estimate",
    "C42_short_estimate",
    "C42_whole_range_refuted"
   ],
   "note": "Binet's formula is modelled in IEEE binary64 (SpecFloat) with compiler-rt's powi. C42_any_estimate shows the word is right for any sufficient buffer length (C42_short_estimate: and that shorter ones panic), so the rounding of powi only decides where the panics start (C42_whole_range_refuted: k=75 panics although the length fits)."
  },
  {
   "property": "C43",
   "status": "proved",
   "theorems": [
    "C43_fibonacci_number",
    "C43_overflow",
    "C43_estimate",
    "C43_estimate_small",
    "C43_estimate_refuted"
   ],
   "note": ""
  },
  {
   "property": "C44",
   "status": "proved",
   "theorems": [
    "C44_thuemorse_word",
    "C44_too_large"
   ],
   "note": ""
  },
  {
   "property": "C45",
   "status": "proved",
   "theorems": [
    "C45_kolakoski_word",
    "C45_words_grow",
    "C45_too_large"
   ],
   "note": ""
  },
  {
   "property": "C46",
   "status": "proved",
   "theorems": [
    "C46_period_doubling",
    "C46_too_large"
   ],
   "note": ""
  },
  {
   "property": "C47",
   "status": "proved",
   "theorems": [
    "C47_tribonacci_word",
    "C47_too_large",
    "C47_tribonacci_number"
   ],
   "note": ""
  },
  {
   "property": "C48",
   "status": "proved",
   "theorems": [
    "C48_vtm_word",
    "C48_too_large"
   ],
   "note": ""
  },
  {
   "property": "C49",
   "status": "proved",
   "theorems": [
    "C49_fibonacci_lyndonfactor",
    "C49_too_large"
   ],
   "note": ""
  },
  {
   "property": "C50",
   "status": "proved",
   "theorems": [
    "C50_paperfolding",
    "C50_too_large"
   ],
   "note": ""
  },
  {
   "property": "C51",
   "status": "proved",
   "theorems": [
    "C51_power2_sequence",
    "C51_last_letter_refuted",
    "C51_too_large"
   ],
   "note": "The first wording (position 2^k is b) is refuted: C51_last_letter_refuted."
  },
  {
   "property": "C52",
   "status": "proved",
   "theorems": [
    "C52_debruijn_windows_unique",
    "C52_small_k",
    "C52_debruijn_refuted",
    "C52_even_k_refuted",
    "C52_odd_k_refuted"
   ],
   "note": "The documented claim (length 2^(k+1) for every k) is false of the code: C52_debruijn_refuted (k=4), C52_even_k_refuted (every even k>=4), C52_odd_k_refuted (odd k from 5 to 15, by evaluation). The cause is that is_necklace accepts prenecklaces (C53). For odd k>=17 nothing is claimed beyond C52_debruijn_windows_unique: no uniform missing window is known."
  },
  {
   "property": "C53",
   "status": "proved",
   "theorems": [
    "C53_is_necklace",
    "C53_accepts_necklaces",
    "C53_only_necklaces_refuted",
    "C53_zero_length"
   ],
   "note": "The doc comment claims necklaces; refuted by C53_only_necklaces_refuted. n=0 is never accepted."
  },
  {
   "property": "C54",
   "status": "proved",
   "theorems": [
    "C54_enumerate",
    "C54_no_repetition",
    "C54_default_max",
    "C54_rejects"
   ],
   "note": ""
  },
  {
   "property": "C55",
   "status": "proved",
   "theorems": [
    "C55_kmer_generator",
    "C55_overflow_panics",
    "C55_program"
   ],
   "note": ""
  },
  {
   "property": "C56",
   "status": "proved",
   "theorems": [
    "C56_zero_order_entropy",
    "C56_kth_order_entropy",
    "C56_contexts",
    "C56_program",
    "C56_panics",
    "C56_empty_text",
    "C56_long_order"
   ],
   "note": "f64 numbers are modelled as exact real numbers (NaN = None); rounding is not modelled. Uses the axioms of Coq.Reals."
  },
  {
   "property": "C57",
   "status": "proved",
   "theorems": [
    "C57_same_entropy",
    "C57_programs_agree",
    "C57_long_order_differs",
    "C57_empty_text_differs",
    "C57_kmer_program_orders",
    "C57_kmer_function_orders"
   ],
   "note": "f64 numbers are modelled as exact real numbers; hash map iteration order is arbitrary. Uses the axioms of Coq.Reals."
  },
  {
   "property": "C58",
   "status": "proved",
   "theorems": [
    "C58_randomstring",
    "C58_terminates",
    "C58_never_panics"
   ],
   "note": ""
  },
  {
   "property": "C59",
   "status": "proved",
   "theorems": [
    "C59_bwt_default",
    "C59_use_matrix_short",
    "C59_use_matrix_no_dollar",
    "C59_use_matrix_refuted",
    "C59_no_dollar",
    "C59_no_dollar_matrix_refuted",
    "C59_zero_byte_panics",
    "C59_no_dollar_panics",
    "C59_count_r",
    "C59_count_r_panics"
   ],
   "note": "The first wording (--use-matrix works for every zero-free input) is false of the code: C59_use_matrix_refuted."
  },
  {
   "property": "C60",
   "status": "proved",
   "theorems": [
    "C60_lyndonfactorization",
    "C60_empty_panics"
   ],
   "note": ""
  },
  {
   "property": "C61",
   "status": "proved",
   "theorems": [
    "C61_thuemorse_overlap_free"
   ],
   "note": ""
  },
  {
   "property": "C62",
   "status": "proved",
   "theorems": [
    "C62_lyndonwords_program",
    "C62_large_alphabet_panics"
   ],
   "note": ""
  },
  {
   "property": "C63",
   "status": "proved",
   "theorems": [
    "C63_with_startsymbol",
    "C63_general_morphism",
    "C63_prefix_assumption_refuted",
    "C63_2morphism",
    "C63_2morphism_assumption_refuted",
    "C63_thuemorse_by_morphism",
    "C63_fibonacci_by_morphism"
   ],
   "note": "fuel of iterate_general_morphism is S(max image length ^ rounds), proved sufficient under the stated hypotheses"
  },
  {
   "property": "C64",
   "status": "proved",
   "theorems": [
    "C64_word_program",
    "C64_aborts",
    "C64_never_wrong"
   ],
   "note": "word_main models the dispatch; writing itself (write_all) is assumed to succeed. BinaryDeBrujin: no resource limit is modelled for its output vector."
  },
  {
   "property": "C65",
   "status": "proved",
   "theorems": [
    "C65_number_distinct_lyndon_factors",
    "C65_empty",
    "C65_always_distinct_refuted"
   ],
   "note": ""
  },
  {
   "property": "C66",
   "status": "proved",
   "theorems": [
    "C66_parallel_statistics",
    "C66_no_panic_no_deadlock",
    "C66_terminates"
   ],
   "note": ""
  },
  {
   "property": "C67",
   "status": "proved",
   "theorems": [
    "C67_counters",
    "C67_best_genuine",
    "C67_best_single_worker",
    "C67_best_first_single_worker",
    "C67_second_criteria",
    "C67_best_refuted",
    "C67_no_panic_only_deadlock",
    "C67_every_execution_ends",
    "C67_panic_freezes",
    "C67_finishes_refuted",
    "C67_deadlock_free_refuted"
   ],
   "note": ""
  },
  {
   "property": "C68",
   "status": "proved",
   "theorems": [
    "C68_fibonacci_attractor"
   ],
   "note": ""
  },
  {
   "property": "C69",
   "status": "proved",
   "theorems": [
    "C69_fibonacci_mus"
   ],
   "note": ""
  },
  {
   "property": "C70",
   "status": "proved",
   "theorems": [
    "C70_period_doubling_attractor"
   ],
   "note": ""
  },
  {
   "property": "C71",
   "status": "proved",
   "theorems": [
    "C71_periodic_entropy",
    "C71_unary",
    "C71_alternating",
    "C71_zero_order"
   ],
   "note": ""
  },
  {
   "property": "C72",
   "status": "proved",
   "theorems": [
    "C72_entropy_bounds",
    "C72_zero_order_bounds"
   ],
   "note": ""
  },
  {
   "property": "C73",
   "status": "proved",
   "theorems": [
    "C73_lexparse_is_the_lexparse",
    "C73_size",
    "C73_unary_refuted"
   ],
   "note": ""
  },
  {
   "property": "C74",
   "status": "proved",
   "theorems": [
    "C74_lexparse_at_most_2r",
    "C74_lexparse_2r"
   ],
   "note": ""
  },
  {
   "property": "C75",
   "status": "proved",
   "theorems": [
    "C75_lz77_attractor",
    "C75_lexparse_attractor",
    "C75_bwt_attractor",
    "C75_accepted_lower_bound"
   ],
   "note": ""
  },
  {
   "property": "C76",
   "status": "proved",
   "theorems": [
    "C76_records",
    "C76_maximum",
    "C76_overflow"
   ],
   "note": ""
  },
  {
   "property": "C77",
   "status": "proved",
   "theorems": [
    "C77_program",
    "C77_lines",
    "C77_no_position_refuted",
    "C77_words",
    "C77_order_unique"
   ],
   "note": ""
  },
  {
   "property": "C78",
   "status": "proved",
   "theorems": [
    "C78_bwt_then_count_runs",
    "C78_escape_then_count_r",
    "C78_documented_pipeline_refuted",
    "C78_count_r_needs_escape",
    "C78_bwt_mtf_rle_lossless"
   ],
   "note": ""
  },
  {
   "property": "C79",
   "status": "proved",
   "theorems": [
    "C79_rle_release",
    "C79_rle_release_agrees",
    "C79_rle_release_decodable",
    "C79_lossless_refuted",
    "C79_rle_text_release",
    "C79_rle_zero_release",
    "C79_rle_zero_release_total"
   ],
   "note": ""
  },
  {
   "property": "C80",
   "status": "proved",
   "theorems": [
    "C80_count_sigma_release",
    "C80_all_bytes",
    "C80_never_aborts"
   ],
   "note": ""
  },
  {
   "property": "C81",
   "status": "proved",
   "theorems": [
    "C81_agrees",
    "C81_never_wrong",
    "C81_modulo_64",
    "C81_described_refuted",
    "C81_numbers"
   ],
   "note": ""
  },
  {
   "property": "C82",
   "status": "proved",
   "theorems": [
    "C82_mtf_crash",
    "C82_rle_crash",
    "C82_escape_crash",
    "C82_rle_modes_crash",
    "C82_escape_modes_crash",
    "C82_mtf_ends",
    "C82_mtf_run",
    "C82_rle_run",
    "C82_escape_run",
    "C82_silent_truncation_refuted"
   ],
   "note": ""
  },
  {
   "property": "C83",
   "status": "proved",
   "theorems": [
    "C83_in_place_loses",
    "C83_in_place_run",
    "C83_in_place_works"
   ],
   "note": ""
  },
  {
   "property": "C84",
   "status": "proved",
   "theorems": [
    "C84_bwt",
    "C84_count_z",
    "C84_count_lexparse",
    "C84_lyndonfactorization",
    "C84_lyndonfactorization_complete_refuted",
    "C84_no_output",
    "C84_failed_runs_erase"
   ],
   "note": ""
  },
  {
   "property": "C85",
   "status": "proved",
   "theorems": [
    "C85_factor_file_unique",
    "C85_count_z_lossless",
    "C85_count_lexparse_lossless",
    "C85_lexparse_unary_refuted"
   ],
   "note": ""
  },
  {
   "property": "C86",
   "status": "proved",
   "theorems": [
    "C86_transforms_of_smallest_rotation",
    "C86_agree_iff_smallest_rotation",
    "C86_factor_across_the_border",
    "C86_not_primitive_refuted"
   ],
   "note": ""
  },
  {
   "property": "C87",
   "status": "proved",
   "theorems": [
    "C87_probe_output"
   ],
   "note": ""
  },
  {
   "property": "C88",
   "status": "proved",
   "theorems": [
    "C88_worker_lines"
   ],
   "note": ""
  },
  {
   "property": "C89",
   "status": "proved",
   "theorems": [
    "C89_printed_table"
   ],
   "note": ""
  },
  {
   "property": "C90",
   "status": "proved",
   "theorems": [
    "C90_fibonacci_bwt",
    "C90_small"
   ],
   "note": ""
  },
  {
   "property": "C91",
   "status": "proved",
   "theorems": [
    "C91_fibonacci_even",
    "C91_fibonacci_odd",
    "C91_only_even_refuted"
   ],
   "note": ""
  },
  {
   "property": "C92",
   "status": "proved",
   "theorems": [
    "C92_zero_order_f64",
    "C92_program_f64",
    "C92_zero_order_close",
    "C92_log2_exists",
    "C92_sign"
   ],
   "note": ""
  },
  {
   "property": "C93",
   "status": "proved",
   "theorems": [
    "C93_kth_order_f64",
    "C93_program_f64",
    "C93_sign"
   ],
   "note": ""
  },
  {
   "property": "C94",
   "status": "proved",
   "theorems": [
    "C94_kmer_f64",
    "C94_programs_agree_f64"
   ],
   "note": ""
  },
  {
   "property": "C95",
   "status": "proved",
   "theorems": [
    "C95_same_outcome",
    "C95_reals",
    "C95_panics_f64"
   ],
   "note": ""
  },
  {
   "property": "C96",
   "status": "proved",
   "theorems": [
    "C96_fields_unique",
    "C96_count_sigma",
    "C96_count_sigma_panics",
    "C96_count_z",
    "C96_count_lexparse",
    "C96_lyndonfactorization",
    "C96_lyndonfactorization_length_refuted",
    "C96_count_r",
    "C96_entropy",
    "C96_entropy_kmer",
    "C96_name_with_blank_refuted"
   ],
   "note": ""
  },
  {
   "property": "C97",
   "status": "proved",
   "theorems": [
    "C97_mus_output",
    "C97_mus_panics",
    "C97_mus_line_unique",
    "C97_mus_sqlplot_refuted"
   ],
   "note": ""
  },
  {
   "property": "C98",
   "status": "proved",
   "theorems": [
    "C98_program",
    "C98_byte_not_covered",
    "C98_utf8",
    "C98_answer_refuted"
   ],
   "note": ""
  },
  {
   "property": "C99",
   "status": "proved",
   "theorems": [
    "C99_position",
    "C99_zero_byte",
    "C99_attractor_judged_refuted",
    "C99_empty"
   ],
   "note": ""
  },
  {
   "property": "C100",
   "status": "proved",
   "theorems": [
    "C100_executions",
    "C100_messages",
    "C100_silent_after_panic",
    "C100_label_refuted",
    "C100_every_interval_refuted",
    "C100_once_refuted"
   ],
   "note": ""
  },
  {
   "property": "C101",
   "status": "proved",
   "theorems": [
    "C101_duval",
    "C101_isa_lyndon_factorization",
    "C101_lyndon_conjugate",
    "C101_border_array",
    "C101_is_primitive",
    "C101_compute_psv",
    "C101_compute_nsv",
    "C101_compute_phi",
    "C101_inverse_permutation",
    "C101_compute_plcp",
    "C101_compute_lcp",
    "C101_lcp_intervals",
    "C101_lyndon_words",
    "C101_count_lexparse",
    "C101_count_z",
    "C101_mus"
   ],
   "note": ""
  },
  {
   "property": "C102",
   "status": "proved",
   "theorems": [
    "C102_bwt",
    "C102_suffixarray",
    "C102_bbwt",
    "C102_stable_unique",
    "C102_sort_by_stable",
    "C102_enumerate",
    "C102_unstable_refuted"
   ],
   "note": ""
  },
  {
   "property": "C103",
   "status": "proved",
   "theorems": [
    "C103_agrees",
    "C103_binary",
    "C103_binary_long_refuted",
    "C103_lyndon_other_sizes",
    "C103_lyndon_large_refuted",
    "C103_lyndonwords",
    "C103_lyndonwords_lines_refuted",
    "C103_random_wraps",
    "C103_random_letter_sizes"
   ],
   "note": ""
  },
  {
   "property": "C104",
   "status": "proved",
   "theorems": [
    "C104_programs_same",
    "C104_plcp_tables",
    "C104_lcp_tables",
    "C104_tables_same"
   ],
   "note": ""
  },
  {
   "property": "C105",
   "status": "proved",
   "theorems": [
    "C105_count_z",
    "C105_count_lexparse_even",
    "C105_count_lexparse_odd",
    "C105_count_r_odd",
    "C105_count_r_three"
   ],
   "note": ""
  },
  {
   "property": "C106",
   "status": "proved",
   "theorems": [
    "C106_exact_total",
    "C106_constant_average",
    "C106_copy_average",
    "C106_plain_claim_refuted",
    "C106_one_letter"
   ],
   "note": ""
  },
  {
   "property": "C107",
   "status": "proved",
   "theorems": [
    "C107_lyndonwords",
    "C107_lyndonwords_large",
    "C107_randomstring",
    "C107_randomstring_stdout",
    "C107_randomstring_stdout_complete_refuted",
    "C107_enumerate",
    "C107_enumerate_rejects",
    "C107_enumerate_default",
    "C107_generator_kmer",
    "C107_enumerate_lexparse",
    "C107_complete_lines"
   ],
   "note": ""
  },
  {
   "property": "C108",
   "status": "proved",
   "theorems": [
    "C108_order",
    "C108_order_lz77",
    "C108_order_programs",
    "C108_letters",
    "C108_letters_lz77",
    "C108_letters_mus",
    "C108_letters_attractor",
    "C108_letters_entropy",
    "C108_letters_enough_refuted"
   ],
   "note": ""
  },
  {
   "property": "C109",
   "status": "proved",
   "theorems": [
    "C109_continuation",
    "C109_repetition",
    "C109_first_letter",
    "C109_block_replaced",
    "C109_one_byte_more_or_less",
    "C109_one_byte_changed",
    "C109_others_refuted"
   ],
   "note": ""
  },
  {
   "property": "C110",
   "status": "proved",
   "theorems": [
    "C110_thuemorse_bwt",
    "C110_thuemorse_runs",
    "C110_period_doubling_bwt",
    "C110_period_doubling_runs",
    "C110_vtm_bwt",
    "C110_vtm_runs"
   ],
   "note": ""
  },
  {
   "property": "C111",
   "status": "proved",
   "theorems": [
    "C111_accepted",
    "C111_values",
    "C111_order",
    "C111_help",
    "C111_unknown",
    "C111_debug",
    "C111_debug_enumerate",
    "C111_rle_panics",
    "C111_rle_release"
   ],
   "note": ""
  },
  {
   "property": "C112",
   "status": "proved",
   "theorems": [
    "C112_bwt",
    "C112_count_lexparse",
    "C112_count_z",
    "C112_escape",
    "C112_lyndonfactorization",
    "C112_lyndonwords",
    "C112_mtf",
    "C112_randomstring",
    "C112_reverse",
    "C112_count_r",
    "C112_count_sigma",
    "C112_count_z_prints",
    "C112_count_lexparse_prints",
    "C112_lyndonfactorization_prints",
    "C112_mus",
    "C112_entropy",
    "C112_entropy_kmer",
    "C112_is_stringattractor",
    "C112_count_runs",
    "C112_word",
    "C112_rle_debug",
    "C112_rle_release",
    "C112_rle_run",
    "C112_rle_crash",
    "C112_rle_file",
    "C112_enumerate",
    "C112_readme",
    "C112_readme_refuted",
    "C112_commas_refuted"
   ],
   "note": ""
  },
  {
   "property": "C113",
   "status": "proved",
   "theorems": [
    "C113_gen_artificial",
    "C113_interrupted",
    "C113_names_differ"
   ],
   "note": ""
  },
  {
   "property": "C114",
   "status": "proved",
   "theorems": [
    "C114_field",
    "C114_compute_stats_refuted",
    "C114_with_infilename"
   ],
   "note": ""
  },
  {
   "property": "C115",
   "status": "proved",
   "theorems": [
    "C115_reverse",
    "C115_reverse_twice",
    "C115_word",
    "C115_escape_roundtrip",
    "C115_bwt",
    "C115_mtf",
    "C115_thuemorse_runs",
    "C115_period_doubling_runs",
    "C115_vtm_runs",
    "C115_fibonacci_factors",
    "C115_bwt_count_runs"
   ],
   "note": ""
  },
  {
   "property": "C116",
   "status": "proved",
   "theorems": [
    "C116_thuemorse",
    "C116_period_doubling",
    "C116_vtm",
    "C116_power2",
    "C116_quaternary_paperfolding",
    "C116_paperfolding",
    "C116_tribonacci",
    "C116_fibonacci_lyndonfactor",
    "C116_word_then_count_z"
   ],
   "note": ""
  },
  {
   "property": "C117",
   "status": "proved",
   "theorems": [
    "C117_fibonacci",
    "C117_fibonacci_lyndonfactor",
    "C117_vtm",
    "C117_period_doubling",
    "C117_quaternary_paperfolding",
    "C117_paperfolding",
    "C117_tribonacci",
    "C117_thuemorse",
    "C117_power2",
    "C117_number_of_factors",
    "C117_word_then_lyndonfactorization"
   ],
   "note": ""
  },
  {
   "property": "C118",
   "status": "proved",
   "theorems": [
    "C118_accepted_attractor",
    "C118_count_z",
    "C118_count_lexparse",
    "C118_count_r",
    "C118_count_z_at_most",
    "C118_debruijn"
   ],
   "note": ""
  },
  {
   "property": "C119",
   "status": "proved",
   "theorems": [
    "C119_how_many",
    "C119_program",
    "C119_unique_substrings",
    "C119_increasing"
   ],
   "note": ""
  },
  {
   "property": "C120",
   "status": "proved",
   "theorems": [
    "C120_count_z",
    "C120_count_lexparse",
    "C120_count_r",
    "C120_mus",
    "C120_lyndon",
    "C120_lyndon_repeated"
   ],
   "note": ""
  },
  {
   "property": "C121",
   "status": "proved",
   "theorems": [
    "C121_lyndon_conjugate",
    "C121_primitive",
    "C121_duval"
   ],
   "note": ""
  },
  {
   "property": "C122",
   "status": "proved",
   "theorems": [
    "C122_runs_spell_the_word_before",
    "C122_count_runs",
    "C122_length",
    "C122_growth",
    "C122_word_then_count_runs"
   ],
   "note": ""
  },
  {
   "property": "C123",
   "status": "proved",
   "theorems": [
    "C123_mus",
    "C123_attractor",
    "C123_runs",
    "C123_count_runs",
    "C123_count_sigma",
    "C123_entropy0",
    "C123_entropy0_program",
    "C123_smallest_period",
    "C123_is_primitive",
    "C123_distinct",
    "C123_other_sizes_refuted"
   ],
   "note": ""
  },
  {
   "property": "C124",
   "status": "proved",
   "theorems": [
    "C124_number_of_runs",
    "C124_word_then_count_runs",
    "C124_shares"
   ],
   "note": ""
  },
  {
   "property": "C125",
   "status": "proved",
   "theorems": [
    "C125_letters",
    "C125_sigma",
    "C125_word_then_count_sigma"
   ],
   "note": ""
  },
  {
   "property": "C126",
   "status": "proved",
   "theorems": [
    "C126_smallest_period",
    "C126_is_primitive"
   ],
   "note": ""
  },
  {
   "property": "C127",
   "status": "proved",
   "theorems": [
    "C127_highest_power",
    "C127_almost_fourth_power",
    "C127_paperfolding_squares",
    "C127_word_file"
   ],
   "note": ""
  },
  {
   "property": "C128",
   "status": "proved",
   "theorems": [
    "C128_rotation",
    "C128_same_bwt",
    "C128_same_conjugate",
    "C128_thuemorse",
    "C128_fibonacci",
    "C128_period_doubling",
    "C128_vtm",
    "C128_vtm_odd_refuted",
    "C128_paperfolding",
    "C128_files"
   ],
   "note": ""
  },
  {
   "property": "C129",
   "status": "proved",
   "theorems": [
    "C129_end_marked",
    "C129_quaternary",
    "C129_word_then_count_r"
   ],
   "note": ""
  },
  {
   "property": "C130",
   "status": "proved",
   "theorems": [
    "C130_end_marked",
    "C130_matrix",
    "C130_word_then_count_r"
   ],
   "note": ""
  }
 ]
}