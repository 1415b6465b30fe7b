{
 "claims": [
  {
   "property": "C01",
   "status": "proved",
   "theorems": [
    "emd_1d_dp_optimal"
   ],
   "note": "all rational inputs"
  },
  {
   "property": "C02",
   "status": "proved",
   "theorems": [
    "emd_1d_dp_symmetric",
    "emd_1d_dp_zero_iff",
    "emd_1d_dp_triangle"
   ],
   "note": ""
  },
  {
   "property": "C03",
   "status": "proved",
   "theorems": [
    "emd_1d_dp_order_irrelevant"
   ],
   "note": "for every rounding"
  },
  {
   "property": "C04",
   "status": "proved",
   "theorems": [
    "emd_1d_dp_bounds",
    "emd_1d_dp_unit_bound"
   ],
   "note": ""
  },
  {
   "property": "C05",
   "status": "proved",
   "theorems": [
    "emd_1d_dp_rounded",
    "binary64_rounding_lawful"
   ],
   "note": "any lawful rounding; round-to-nearest-even with 53 bits is lawful; lengths up to 2^53"
  },
  {
   "property": "C06",
   "status": "proved",
   "theorems": [
    "emd_1d_slow_agrees",
    "emd_1d_slow_meaning",
    "emd_1d_slow_agrees_everywhere_refuted"
   ],
   "note": "agreement on pairwise distance <= 1, general meaning otherwise"
  },
  {
   "property": "C07",
   "status": "proved",
   "theorems": [
    "emd_1d_hybrid_agrees",
    "emd_1d_hybrid_optimal",
    "emd_1d_hybrid_limit"
   ],
   "note": "agreement for pairwise distance <= 2, which is the exact limit"
  },
  {
   "property": "C08",
   "status": "proved",
   "theorems": [
    "emd_1d_old_agrees",
    "emd_1d_old_optimal",
    "emd_1d_old_agrees_up_to_two_refuted"
   ],
   "note": "agreement for pairwise distance <= 1"
  },
  {
   "property": "C09",
   "status": "proved",
   "theorems": [
    "nmd_type_error_iff",
    "nmd_value_error_iff",
    "nmd_zero_division_iff"
   ],
   "note": "all argument types; bool counts as int"
  },
  {
   "property": "C10",
   "status": "proved",
   "theorems": [
    "nmd_is_sum_of_emds",
    "nmd_is_sum_of_emds_any_n"
   ],
   "note": ""
  },
  {
   "property": "C11",
   "status": "proved",
   "theorems": [
    "nmd_symmetric",
    "nmd_symmetric_in_floats_refuted"
   ],
   "note": "exact arithmetic; bitwise symmetry in binary64 is refuted with a witness"
  },
  {
   "property": "C12",
   "status": "proved",
   "theorems": [
    "nmd_self_zero",
    "nmd_zero_implies_equal"
   ],
   "note": ""
  },
  {
   "property": "C13",
   "status": "proved",
   "theorems": [
    "nmd_triangle",
    "nmd_normalized_triangle_refuted"
   ],
   "note": "the normalized distance does not satisfy it (witness)"
  },
  {
   "property": "C14",
   "status": "proved",
   "theorems": [
    "nmd_range",
    "nmd_normalized_range",
    "nmd_maximal_iff_disjoint",
    "nmd_self_zero",
    "nmd_zero_implies_equal"
   ],
   "note": ""
  },
  {
   "property": "C15",
   "status": "proved",
   "theorems": [
    "nmd_complement",
    "nmd_normalized_complement"
   ],
   "note": ""
  },
  {
   "property": "C16",
   "status": "proved",
   "theorems": [
    "nmd_similarity_pinched"
   ],
   "note": ""
  },
  {
   "property": "C17",
   "status": "proved",
   "theorems": [
    "nmd_oversize_n_nonnegative_refuted",
    "nmd_oversize_n_self_distance_refuted",
    "nmd_is_sum_of_emds_any_n"
   ],
   "note": "the desirable claim is false of the code; witnesses and the exact value for every n"
  },
  {
   "property": "C18",
   "status": "proved",
   "theorems": [
    "nmd_rounded_range",
    "nmd_rounded_self"
   ],
   "note": "any lawful rounding, at most 2^53 n-grams in total"
  },
  {
   "property": "C19",
   "status": "proved",
   "theorems": [
    "wordlist_vocabulary",
    "wordlist_vocabulary_order",
    "wordlist_init"
   ],
   "note": "any idempotent casefold, every history of calls"
  },
  {
   "property": "C20",
   "status": "proved",
   "theorems": [
    "add_word_rejected_no_effect"
   ],
   "note": "the whole state is unchanged; also says exactly which calls raise"
  },
  {
   "property": "C21",
   "status": "proved",
   "theorems": [
    "lookup_scores_public",
    "lookup_scores"
   ],
   "note": "any lawful rounding and any mean; lookup_scores covers n = 1 too, which the public function rejects"
  },
  {
   "property": "C22",
   "status": "proved",
   "theorems": [
    "lookup_lossless",
    "lookup_lossless_binary64"
   ],
   "note": "exact arithmetic for both values of normalize, any lawful rounding without normalize; normalized scores in binary64 for sizes at least 2 and words of moderate length (C83)"
  },
  {
   "property": "C23",
   "status": "proved",
   "theorems": [
    "lookup_result_shape"
   ],
   "note": "any lawful rounding"
  },
  {
   "property": "C24",
   "status": "proved",
   "theorems": [
    "lookup_all_candidates",
    "lookup_scores",
    "lookup_positive_scores",
    "lookup_noncandidates_zero"
   ],
   "note": "positivity in exact arithmetic for a strictly monotone mean"
  },
  {
   "property": "C25",
   "status": "proved",
   "theorems": [
    "lookup_self_maximal",
    "lookup_self_unique_best",
    "lookup_self_first",
    "lookup_self_first_unnormalized_refuted",
    "lookup_self_first_binary64"
   ],
   "note": "uniqueness and first place in exact arithmetic, and in binary64 for words of moderate length (C84); needs filter_n = 0 or at most len + 2"
  },
  {
   "property": "C26",
   "status": "proved",
   "theorems": [
    "lookup_bad_arguments",
    "lookup_errors",
    "lookup_error_iff",
    "lookup_total_refuted",
    "lookup_error_independent_of_top_k_refuted"
   ],
   "note": "plain totality is false of the code (witness)"
  },
  {
   "property": "C27",
   "status": "proved",
   "theorems": [
    "wordlist_order_independent"
   ],
   "note": "every set iteration order, also for later add_word results"
  },
  {
   "property": "C28",
   "status": "proved",
   "theorems": [
    "lookup_normalized_range",
    "lookup_normalized_self",
    "lookup_self_score_one_refuted"
   ],
   "note": "any lawful rounding"
  },
  {
   "property": "C29",
   "status": "proved",
   "theorems": [
    "lookup_v5_result",
    "lookup_v5_same_errors"
   ],
   "note": ""
  },
  {
   "property": "C30",
   "status": "proved",
   "theorems": [
    "wordset_refines",
    "wordset_contains_iff"
   ],
   "note": "any casefold, any normalizer (total or raising), every history; contains_iff for histories without pop"
  },
  {
   "property": "C31",
   "status": "proved",
   "theorems": [
    "wordset_failed_no_effect"
   ],
   "note": ""
  },
  {
   "property": "C32",
   "status": "proved",
   "theorems": [
    "wordset_index_consistent",
    "find_similar_errors"
   ],
   "note": ""
  },
  {
   "property": "C33",
   "status": "proved",
   "theorems": [
    "find_similar_ranking",
    "find_similar_k_best",
    "wordset_filter_size"
   ],
   "note": "any rounding; the score is the stated formula in exact arithmetic"
  },
  {
   "property": "C34",
   "status": "proved",
   "theorems": [
    "find_similar_member_first",
    "eligible_self",
    "find_similar_member_found_refuted"
   ],
   "note": "score exactly 1 in floats; first and strictly best in exact arithmetic, in binary64 by C119; without the length condition refuted"
  },
  {
   "property": "C35",
   "status": "proved",
   "theorems": [
    "find_similar_ignores_min_similarity",
    "find_similar_min_similarity_refuted"
   ],
   "note": ""
  },
  {
   "property": "C36",
   "status": "proved",
   "theorems": [
    "wordset_determined_by_contents",
    "wordset_discard_undoes_add"
   ],
   "note": ""
  },
  {
   "property": "C37",
   "status": "proved",
   "theorems": [
    "bow_is_optimal",
    "is_bow_unique",
    "bow_symmetric",
    "bow_order_irrelevant",
    "bow_range",
    "bow_zero_iff",
    "bow_normalized",
    "bow_errors",
    "bow_self_zero_refuted",
    "bow_triangle_refuted"
   ],
   "note": "scipy.optimize.linear_sum_assignment is any solver meeting its documented specification; brute_solver shows one exists"
  },
  {
   "property": "C38",
   "status": "proved",
   "theorems": [
    "trie_is_dict",
    "pop_takes_first_item",
    "lowercase_pop_refuted"
   ],
   "note": "pop() without a key needs tokenizer(detokenizer(tokenizer(k))) = tokenizer(k); refuted without it"
  },
  {
   "property": "C39",
   "status": "proved",
   "theorems": [
    "trie_is_dict",
    "trie_pruned",
    "pop_undoes_setitem",
    "empty_key_refuted"
   ],
   "note": ""
  },
  {
   "property": "C40",
   "status": "proved",
   "theorems": [
    "translate_leftmost_longest",
    "rewritten_unique",
    "translate_without_key"
   ],
   "note": ""
  },
  {
   "property": "C41",
   "status": "proved",
   "theorems": [
    "finditer_leftmost_longest",
    "scanned_unique",
    "finditer_disjoint",
    "finditer_overlapping"
   ],
   "note": ""
  },
  {
   "property": "C42",
   "status": "proved",
   "theorems": [
    "lookup_exact",
    "string_lookup_exact",
    "default_lookup",
    "cheap_transposition_refuted"
   ],
   "note": "numbers are exact (ints, or floats as long as nothing rounds)"
  },
  {
   "property": "C43",
   "status": "proved",
   "theorems": [
    "edit_distance_least",
    "levenshtein_least",
    "edit_distance_is_levenshtein",
    "edit_distance_script",
    "edit_distance_metric",
    "edit_distance_range"
   ],
   "note": "sequences over any type with decidable equality"
  },
  {
   "property": "C44",
   "status": "proved",
   "theorems": [
    "damerau_optimal_alignment",
    "damerau_symmetric_separating",
    "damerau_versus_edit_distance",
    "damerau_unrestricted_refuted",
    "damerau_triangle_refuted"
   ],
   "note": "the name and docstring suggest the unrestricted distance and a metric: both refuted"
  },
  {
   "property": "C45",
   "status": "proved",
   "theorems": [
    "bk_search_exact"
   ],
   "note": ""
  },
  {
   "property": "C46",
   "status": "proved",
   "theorems": [
    "to_dfa_language",
    "to_dfa_start_refuted",
    "levenshtein_nfa",
    "levenshtein_dfa",
    "near_edit_distance",
    "levenshtein_dfa_empty_refuted"
   ],
   "note": "strings that lead back to the start states are lost by to_dfa: refuted with witnesses"
  },
  {
   "property": "C47",
   "status": "proved",
   "theorems": [
    "tokenize_tokens",
    "tokenize_words",
    "tokenize_modes",
    "tokenize_merged"
   ],
   "note": "for any character classification"
  },
  {
   "property": "C48",
   "status": "proved",
   "theorems": [
    "emd_1d_hybrid_rounded",
    "emd_1d_old_rounded",
    "emd_1d_hybrid_rounded_separates_refuted"
   ],
   "note": "any lawful rounding; separation fails for positions closer than an ulp"
  },
  {
   "property": "C49",
   "status": "proved",
   "theorems": [
    "wordset_init_ok",
    "wordset_init_sizes",
    "wordset_init_errors"
   ],
   "note": ""
  },
  {
   "property": "C50",
   "status": "proved",
   "theorems": [
    "wordset_le_iff",
    "wordset_eq_iff",
    "wordset_isdisjoint_iff",
    "wordset_ior",
    "wordset_isub",
    "wordset_eq_symmetric_refuted"
   ],
   "note": "bodies of the collections.abc mixins modelled from CPython"
  },
  {
   "property": "C51",
   "status": "proved",
   "theorems": [
    "bow_rounded_range",
    "bow_rounded_reordered"
   ],
   "note": "any lawful rounding"
  },
  {
   "property": "C52",
   "status": "proved",
   "theorems": [
    "sort_keys_ascending",
    "sort_keys_descending_refuted"
   ],
   "note": ""
  },
  {
   "property": "C53",
   "status": "proved",
   "theorems": [
    "slice_of_sorted",
    "slice_of_unsorted_refuted",
    "slice_of_default_sort_refuted"
   ],
   "note": ""
  },
  {
   "property": "C54",
   "status": "proved",
   "theorems": [
    "findall_longest_optimal"
   ],
   "note": ""
  },
  {
   "property": "C55",
   "status": "proved",
   "theorems": [
    "search_finds"
   ],
   "note": ""
  },
  {
   "property": "C56",
   "status": "proved",
   "theorems": [
    "lookups_agree",
    "unit_transposition_lookup",
    "lookup_errors",
    "damerau_lookup_default_refuted"
   ],
   "note": ""
  },
  {
   "property": "C57",
   "status": "proved",
   "theorems": [
    "next_valid_string_least"
   ],
   "note": ""
  },
  {
   "property": "C58",
   "status": "proved",
   "theorems": [
    "find_all_matches_exact",
    "find_all_matches_last_character_refuted",
    "find_all_matches_unsorted_refuted"
   ],
   "note": ""
  },
  {
   "property": "C59",
   "status": "proved",
   "theorems": [
    "sentence_tokens",
    "sentence_strings",
    "sentence_positions_refuted"
   ],
   "note": ""
  },
  {
   "property": "C60",
   "status": "proved",
   "theorems": [
    "word_grams",
    "word_grams_error",
    "text_grams"
   ],
   "note": ""
  },
  {
   "property": "C61",
   "status": "proved",
   "theorems": [
    "v3_lookup_lists"
   ],
   "note": "sizes positive and distinct"
  },
  {
   "property": "C62",
   "status": "proved",
   "theorems": [
    "v3_lookup_raises"
   ],
   "note": "sizes positive and distinct"
  },
  {
   "property": "C63",
   "status": "proved",
   "theorems": [
    "v3_scores",
    "v3_exact_match_first_refuted",
    "v3_exact_match_size_one_refuted"
   ],
   "note": "sizes positive and distinct, at most 2^53 n-grams per word"
  },
  {
   "property": "C64",
   "status": "proved",
   "theorems": [
    "v3_add_word_outcome",
    "v3_lookup_order_irrelevant"
   ],
   "note": ""
  },
  {
   "property": "C65",
   "status": "proved",
   "theorems": [
    "v3_vocabulary_never_returns"
   ],
   "note": "the recursion limit is a parameter of the model"
  },
  {
   "property": "C66",
   "status": "proved",
   "theorems": [
    "cython_memory_safe"
   ],
   "note": ""
  },
  {
   "property": "C67",
   "status": "proved",
   "theorems": [
    "cython_agrees",
    "cython_optimal",
    "cython_integers_refuted"
   ],
   "note": ""
  },
  {
   "property": "C68",
   "status": "proved",
   "theorems": [
    "dawg_insert"
   ],
   "note": ""
  },
  {
   "property": "C69",
   "status": "proved",
   "theorems": [
    "dawg_answers",
    "dawg_before_finalize"
   ],
   "note": "words shorter than the recursion limit"
  },
  {
   "property": "C70",
   "status": "proved",
   "theorems": [
    "dawg_get_index_range"
   ],
   "note": ""
  },
  {
   "property": "C71",
   "status": "proved",
   "theorems": [
    "dawg_minimal",
    "dawg_count_edges_refuted"
   ],
   "note": ""
  },
  {
   "property": "C72",
   "status": "proved",
   "theorems": [
    "dawg_frozen",
    "dawg_insert_after_finalize_refuted"
   ],
   "note": ""
  },
  {
   "property": "C73",
   "status": "proved",
   "theorems": [
    "eed_range"
   ],
   "note": ""
  },
  {
   "property": "C74",
   "status": "proved",
   "theorems": [
    "eed_self",
    "eed_zero",
    "eed_self_zero_refuted"
   ],
   "note": ""
  },
  {
   "property": "C75",
   "status": "proved",
   "theorems": [
    "eed_least",
    "eed_symmetric_refuted"
   ],
   "note": "exact arithmetic"
  },
  {
   "property": "C76",
   "status": "proved",
   "theorems": [
    "eed_best"
   ],
   "note": "exact arithmetic"
  },
  {
   "property": "C77",
   "status": "proved",
   "theorems": [
    "v5b_init",
    "v5b_vocabulary",
    "v5b_add_word"
   ],
   "note": ""
  },
  {
   "property": "C78",
   "status": "proved",
   "theorems": [
    "v5b_lookup_total",
    "v5b_lookup_unsearchable",
    "v5b_lookup_ranked"
   ],
   "note": ""
  },
  {
   "property": "C79",
   "status": "proved",
   "theorems": [
    "v5b_scores",
    "v5b_range",
    "v5b_self_first",
    "v5b_normalized_range_refuted"
   ],
   "note": "exact arithmetic, except that scores are not negative and the refutation"
  },
  {
   "property": "C80",
   "status": "proved",
   "theorems": [
    "v5b_agrees",
    "v5b_agrees_converse_refuted",
    "v5b_agrees_binary64_refuted"
   ],
   "note": "exact arithmetic"
  },
  {
   "property": "C81",
   "status": "proved",
   "theorems": [
    "emd_1d_dp_accurate"
   ],
   "note": "rounding to 53 bits, without underflow"
  },
  {
   "property": "C82",
   "status": "proved",
   "theorems": [
    "nmd_accurate",
    "nmd_nearly_symmetric"
   ],
   "note": ""
  },
  {
   "property": "C83",
   "status": "proved",
   "theorems": [
    "lookup_lossless_binary64",
    "lookup_all_candidates_binary64",
    "lookup_v5_lossless_binary64"
   ],
   "note": "mean is sum divided by length"
  },
  {
   "property": "C84",
   "status": "proved",
   "theorems": [
    "lookup_self_unique_best_binary64",
    "lookup_self_first_binary64"
   ],
   "note": "mean is sum divided by length"
  },
  {
   "property": "C85",
   "status": "proved",
   "theorems": [
    "to_regex_total"
   ],
   "note": ""
  },
  {
   "property": "C86",
   "status": "proved",
   "theorems": [
    "to_regex_matches",
    "strings_to_regex_matches"
   ],
   "note": "the conditions on keys cannot be dropped, see C89"
  },
  {
   "property": "C87",
   "status": "proved",
   "theorems": [
    "to_regex_scans",
    "to_regex_agrees_with_trie"
   ],
   "note": ""
  },
  {
   "property": "C88",
   "status": "proved",
   "theorems": [
    "fuzzy_quotes_ignored",
    "fuzzy_quotes_refuted"
   ],
   "note": ""
  },
  {
   "property": "C89",
   "status": "proved",
   "theorems": [
    "no_keys_refuted",
    "own_key_refuted",
    "own_character_refuted",
    "case_insensitive_refuted",
    "foreign_text_refuted",
    "space_runs_refuted",
    "fffd_newline_refuted",
    "fffd_group_refuted",
    "simplify_refuted"
   ],
   "note": "negative claims with witnesses"
  },
  {
   "property": "C90",
   "status": "proved",
   "theorems": [
    "process_file_rewrites",
    "process_file_copies",
    "process_file_skips"
   ],
   "note": "UTF-8, os.linesep is a newline"
  },
  {
   "property": "C91",
   "status": "proved",
   "theorems": [
    "process_file_crash_safe"
   ],
   "note": "input not named like the temporary file"
  },
  {
   "property": "C92",
   "status": "proved",
   "theorems": [
    "process_file_returns",
    "process_file_raises",
    "process_file_bad_text"
   ],
   "note": ""
  },
  {
   "property": "C93",
   "status": "proved",
   "theorems": [
    "overwrite_atomic_refuted",
    "line_ends_refuted",
    "bare_output_refuted",
    "input_lost_refuted",
    "leftover_refuted",
    "binary_refuted",
    "week_run_refuted"
   ],
   "note": "negative claims"
  },
  {
   "property": "C94",
   "status": "proved",
   "theorems": [
    "format_bytes_text",
    "format_bytes_small",
    "format_bytes_refuted"
   ],
   "note": ""
  },
  {
   "property": "C95",
   "status": "proved",
   "theorems": [
    "format_seconds_text",
    "format_seconds_short",
    "format_seconds_total",
    "format_seconds_week_refuted",
    "format_seconds_refuted"
   ],
   "note": "the logarithm is a parameter"
  },
  {
   "property": "C96",
   "status": "proved",
   "theorems": [
    "emd_1d_hybrid_accurate",
    "emd_1d_old_accurate",
    "emd_1d_hybrid_relative_refuted"
   ],
   "note": ""
  },
  {
   "property": "C97",
   "status": "proved",
   "theorems": [
    "check_correct_accepts",
    "check_correct_exact",
    "check_correct_rejects",
    "check_correct_symmetric",
    "check_correct_tolerance_refuted"
   ],
   "note": "the isinstance checks are taken to pass"
  },
  {
   "property": "C98",
   "status": "proved",
   "theorems": [
    "nmd_at_most_edit_distance",
    "nmd_at_most_damerau_distance",
    "nmd_similarity_after_edits"
   ],
   "note": "exact arithmetic"
  },
  {
   "property": "C99",
   "status": "proved",
   "theorems": [
    "nmd_relabel"
   ],
   "note": "every rounding"
  },
  {
   "property": "C100",
   "status": "proved",
   "theorems": [
    "nmd_backwards",
    "nmd_backwards_in_floats_refuted"
   ],
   "note": ""
  },
  {
   "property": "C101",
   "status": "proved",
   "theorems": [
    "emd_1d_dp_reflect",
    "emd_1d_dp_translate",
    "emd_1d_dp_common",
    "emd_1d_dp_move_one",
    "emd_1d_dp_add_one",
    "emd_1d_dp_split"
   ],
   "note": "exact arithmetic"
  },
  {
   "property": "C102",
   "status": "proved",
   "theorems": [
    "orig_insert"
   ],
   "note": ""
  },
  {
   "property": "C103",
   "status": "proved",
   "theorems": [
    "orig_answers",
    "orig_before_finish",
    "orig_lookup_before_finish_refuted",
    "orig_insert_after_finish_refuted"
   ],
   "note": "words shorter than the recursion limit"
  },
  {
   "property": "C104",
   "status": "proved",
   "theorems": [
    "orig_minimal"
   ],
   "note": "words shorter than the recursion limit"
  },
  {
   "property": "C105",
   "status": "proved",
   "theorems": [
    "orig_script"
   ],
   "note": "words shorter than the recursion limit"
  },
  {
   "property": "C106",
   "status": "proved",
   "theorems": [
    "ieee_rounds_to_nearest",
    "emd_1d_dp_ieee",
    "nmd_ieee",
    "nmd_ieee_range",
    "bow_ieee",
    "ieee_lawful_refuted"
   ],
   "note": "results of 2^1023 and more are left open"
  },
  {
   "property": "C107",
   "status": "proved",
   "theorems": [
    "deep_sizeof_sum",
    "deep_sizeof_sound",
    "deep_sizeof_returns",
    "deep_sizeof_error",
    "deep_sizeof_error_finite",
    "deep_sizeof_never",
    "deep_sizeof_part",
    "deep_sizeof_cycle",
    "deep_sizeof_same",
    "deep_sizeof_additive_refuted",
    "deep_sizeof_contents_refuted"
   ],
   "note": "objects do not change while measured; no id is reused for a temporary"
  },
  {
   "property": "C108",
   "status": "proved",
   "theorems": [
    "slice_step_of_sorted",
    "stride_nth",
    "delslice_removes_slice",
    "delslice_of_sorted",
    "delslice_fails",
    "pop_keeps_order",
    "open_slices",
    "whole_slice_refuted"
   ],
   "note": ""
  },
  {
   "property": "C109",
   "status": "proved",
   "theorems": [
    "fromkeys_contents",
    "match_methods"
   ],
   "note": ""
  },
  {
   "property": "C110",
   "status": "proved",
   "theorems": [
    "check_implementations_accepts",
    "check_implementations_sound",
    "check_implementations_symmetric",
    "sampled_tests_pass",
    "tests_pass",
    "script_sweep_passes",
    "todo_test_refuted",
    "check_implementations_beyond_one_refuted"
   ],
   "note": ""
  },
  {
   "property": "C111",
   "status": "proved",
   "theorems": [
    "build_ieee",
    "reachable_ieee",
    "lookup_ieee",
    "similarity_ieee",
    "lookup_self_first_ieee",
    "lookup_lossless_ieee",
    "lookup_range_ieee"
   ],
   "note": "at most 2^20 sizes, each up to 2^51"
  },
  {
   "property": "C112",
   "status": "proved",
   "theorems": [
    "fuzz_round_passes",
    "fuzz_test_passes",
    "commented_out_test_refuted"
   ],
   "note": "the tests without random numbers are the Example trie_tests_pass"
  },
  {
   "property": "C113",
   "status": "proved",
   "theorems": [
    "wordset_ge_iff",
    "wordset_lt_iff",
    "wordset_gt_iff",
    "wordset_ne_iff",
    "wordset_ixor",
    "wordset_with_itself",
    "wordset_ior_failed",
    "wordset_new_set_refuted",
    "wordset_iand_refuted",
    "wordset_ixor_iterable_refuted",
    "wordset_ixor_set_refuted"
   ],
   "note": ""
  },
  {
   "property": "C114",
   "status": "proved",
   "theorems": [
    "nmd_normalized_relaxed",
    "nmd_normalized_factor_refuted",
    "nmd_normalized_factor_best",
    "bow_relaxed",
    "bow_factor_refuted",
    "bow_factor_best"
   ],
   "note": "exact arithmetic"
  },
  {
   "property": "C115",
   "status": "proved",
   "theorems": [
    "lookup_growth",
    "lookup_pushed_out",
    "lookup_order_scores",
    "lookup_order_same",
    "lookup_order_refuted",
    "lookup_prefix_refuted",
    "scorable_unless_zero"
   ],
   "note": ""
  },
  {
   "property": "C116",
   "status": "proved",
   "theorems": [
    "bow_accurate"
   ],
   "note": "unbounded exponent (C106 shows underflow does not matter)"
  },
  {
   "property": "C117",
   "status": "proved",
   "theorems": [
    "sum_two_same",
    "sum_exact_same",
    "sum_relative_error",
    "sum_plain_error_refuted",
    "sum_monotone_refuted",
    "lookup_sum_same",
    "lookup_sum_same_ieee",
    "lookup_sum_same_refuted",
    "hybrid_sum_accurate",
    "old_sum_accurate",
    "slow_sum_accurate",
    "check_sum_accepts"
   ],
   "note": "the accuracy bounds are for rounding with unbounded exponent"
  },
  {
   "property": "C118",
   "status": "proved",
   "theorems": [
    "lookup_lossless_sum",
    "lookup_all_candidates_sum",
    "lookup_v5_lossless_sum",
    "lookup_self_unique_best_sum",
    "lookup_self_first_sum",
    "lookup_range_sum",
    "lookup_sum_ieee"
   ],
   "note": ""
  },
  {
   "property": "C119",
   "status": "proved",
   "theorems": [
    "find_similar_accurate",
    "find_similar_member_first_doubles",
    "find_similar_ieee"
   ],
   "note": "accuracy for up to 2^51 n-grams"
  },
  {
   "property": "C120",
   "status": "proved",
   "theorems": [
    "find_similar_prefix",
    "find_similar_add",
    "find_similar_discard",
    "find_similar_order",
    "find_similar_order_refuted"
   ],
   "note": ""
  },
  {
   "property": "C121",
   "status": "proved",
   "theorems": [
    "wordset_agrees_wordlist",
    "wordset_near_public",
    "wordset_equals_public_refuted",
    "wordset_agrees_two_sizes_refuted",
    "wordset_agrees_large_size_refuted"
   ],
   "note": "the first in exact arithmetic"
  },
  {
   "property": "C122",
   "status": "proved",
   "theorems": [
    "near_searches_agree",
    "near_searches_empty_refuted"
   ],
   "note": ""
  },
  {
   "property": "C123",
   "status": "proved",
   "theorems": [
    "strip_marks_meaning",
    "wordset_ignores_marks",
    "wordset_canonical",
    "wordset_ignores_marks_refuted",
    "wordset_canonical_refuted",
    "wordset_compatibility_refuted"
   ],
   "note": "unicodedata.normalize as the Unicode Standard defines it; refutations use an excerpt of the character database"
  },
  {
   "property": "C124",
   "status": "proved",
   "theorems": [
    "find_all_matches_probes",
    "find_all_matches_probes_best",
    "bk_search_probes"
   ],
   "note": ""
  },
  {
   "property": "C125",
   "status": "proved",
   "theorems": [
    "dawgs_agree",
    "dawg_and_trie",
    "dawg_and_filled_trie"
   ],
   "note": ""
  },
  {
   "property": "C126",
   "status": "proved",
   "theorems": [
    "nbytes_sum",
    "nbytes_order",
    "nbytes_returns_refuted",
    "deep_sizeof_of_trie"
   ],
   "note": ""
  },
  {
   "property": "C127",
   "status": "proved",
   "theorems": [
    "translate_pieces",
    "finditer_pieces",
    "translate_lines",
    "translate_letters",
    "translate_pieces_refuted",
    "translate_twice_refuted"
   ],
   "note": ""
  },
  {
   "property": "C128",
   "status": "proved",
   "theorems": [
    "v5b_growth",
    "v5b_pushed_out",
    "v5b_prefix",
    "v5b_order",
    "v5b_order_refuted"
   ],
   "note": ""
  },
  {
   "property": "C129",
   "status": "proved",
   "theorems": [
    "edits_keep_a_gram",
    "lookup_finds_typo",
    "lookup_finds_typo_binary64",
    "find_similar_finds_typo",
    "v5b_finds_typo",
    "v5b_finds_typo_score",
    "v3_finds_typo",
    "lookup_finds_typo_short_refuted"
   ],
   "note": "scores exact in lookup_finds_typo, find_similar_finds_typo and v5b_finds_typo_score"
  },
  {
   "property": "C130",
   "status": "proved",
   "theorems": [
    "wordset_settings_fixed",
    "wordset_repr_tells",
    "wordset_repr_normalizer_refuted"
   ],
   "note": ""
  },
  {
   "property": "C131",
   "status": "proved",
   "theorems": [
    "dawg_step_prefix",
    "dawg_step_positions",
    "dawg_step_count",
    "dawg_step_none",
    "dawg_step_again_refuted"
   ],
   "note": ""
  },
  {
   "property": "C132",
   "status": "proved",
   "theorems": [
    "dawg_nodes_equal",
    "dawg_clone",
    "dawg_clone_finalized",
    "dawg_nodes_equal_early_refuted"
   ],
   "note": ""
  }
 ]
}