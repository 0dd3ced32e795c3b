{
 "claims": [
  {
   "property": "C01",
   "status": "proved",
   "theorems": [
    "C01_components_exist_unique",
    "C01_fanout_counts_components",
    "C01_fallback_counts_components"
   ],
   "note": "both code paths and the pure-Python fallback"
  },
  {
   "property": "C02",
   "status": "proved",
   "theorems": [
    "C02_nextset",
    "C02_nextunset",
    "C02_bitlength",
    "C02_bitcount",
    "C02_testbit"
   ],
   "note": ""
  },
  {
   "property": "C03",
   "status": "proved",
   "theorems": [
    "C03_anextset",
    "C03_anextunset",
    "C03_abitcount",
    "C03_abitlength",
    "C03_setops",
    "C03_subset",
    "C03_iteratesetbits",
    "C03_iterateunsetbits",
    "C03_setbit_clearbit_testbit",
    "C03_bitnslots"
   ],
   "note": ""
  },
  {
   "property": "C04",
   "status": "proved",
   "theorems": [
    "C04_pyintnextset",
    "C04_pyintbitcount"
   ],
   "note": ""
  },
  {
   "property": "C05",
   "status": "proved",
   "theorems": [
    "C05_concat_small",
    "C05_combined_item",
    "C05_fanout_condition_refuted"
   ],
   "note": "fan-out condition shown necessary by C05_fanout_condition_refuted"
  },
  {
   "property": "C06",
   "status": "proved",
   "theorems": [
    "C06_concat_fat",
    "C06_small_fat_agree"
   ],
   "note": "last bit position unused: with all 128 positions in use the code reads past the array"
  },
  {
   "property": "C07",
   "status": "proved",
   "theorems": [
    "C07_cells_in_range",
    "C07_cells_distinct",
    "C07_cells_do_not_overlap",
    "C07_cells_onto",
    "C07_span_recovered",
    "C07_span_recovered_255",
    "C07_long_sentence_refuted",
    "C07_many_labels_refuted"
   ],
   "note": ""
  },
  {
   "property": "C08",
   "status": "proved",
   "theorems": [
    "C08_print_after_encode",
    "C08_read_written",
    "C08_encoding_injective",
    "C08_too_long_rejected",
    "C08_empty_component_refuted"
   ],
   "note": ""
  },
  {
   "property": "C09",
   "status": "proved",
   "theorems": [
    "C09_agenda_is_priority_queue",
    "C09_ties_oldest_first",
    "C09_ties_after_update_refuted"
   ],
   "note": ""
  },
  {
   "property": "C10",
   "status": "proved",
   "theorems": [
    "C10_peek_without_updates",
    "C10_peek_valid_top",
    "C10_peek_after_update_refuted",
    "C10_peek_claims_empty_refuted"
   ],
   "note": ""
  },
  {
   "property": "C11",
   "status": "proved",
   "theorems": [
    "C11_len",
    "C11_clear_refuted"
   ],
   "note": ""
  },
  {
   "property": "C12",
   "status": "proved",
   "theorems": [
    "C12_pop_best",
    "C12_replace_entries",
    "C12_kbest_entries",
    "C12_ties_oldest_first",
    "C12_no_deadlock",
    "C12_monotone",
    "C12_stale_entry_refuted",
    "C12_worse_set_refuted"
   ],
   "note": ""
  },
  {
   "property": "C13",
   "status": "proved",
   "theorems": [
    "C13_merge_interleaves",
    "C13_merge_permutation",
    "C13_merge_sorted_stable",
    "C13_merge_sorted"
   ],
   "note": ""
  },
  {
   "property": "C14",
   "status": "proved",
   "theorems": [
    "C14_slice_bounds",
    "C14_other_steps_rejected",
    "C14_allow_step_refuted"
   ],
   "note": ""
  },
  {
   "property": "C15",
   "status": "proved",
   "theorems": [
    "C15_membership",
    "C15_len",
    "C15_order",
    "C15_eq",
    "C15_and",
    "C15_or_sub_le",
    "C15_iteration_distinct",
    "C15_iteration_with_duplicates_refuted"
   ],
   "note": ""
  },
  {
   "property": "C16",
   "status": "proved",
   "theorems": [
    "C16_subtrees_preorder",
    "C16_postorder",
    "C16_postorder_shared_refuted",
    "C16_same_nodes",
    "C16_pos_pairs",
    "C16_pos_order",
    "C16_pos_order_mixed_refuted",
    "C16_treepositions_preorder",
    "C16_treepositions_postorder",
    "C16_treepositions_leaves",
    "C16_treepositions_bothorder",
    "C16_subtrees_positions",
    "C16_leaf_treeposition",
    "C16_spanning_leaves",
    "C16_spanning_errors",
    "C16_height"
   ],
   "note": ""
  },
  {
   "property": "C17",
   "status": "proved",
   "theorems": [
    "C17_parse_str",
    "C17_parse_int",
    "C17_str_injective",
    "C17_empty_label_refuted"
   ],
   "note": ""
  },
  {
   "property": "C18",
   "status": "proved",
   "theorems": [
    "C18_roundtrip_iff",
    "C18_no_hash",
    "C18_no_brackets",
    "C18_missing",
    "C18_unescape_escape",
    "C18_counterexamples"
   ],
   "note": ""
  },
  {
   "property": "C19",
   "status": "proved",
   "theorems": [
    "C19_discbracket_roundtrip",
    "C19_bracket_roundtrip",
    "C19_out_of_range",
    "C19_detection_flat",
    "C19_terminal_not_last_refuted",
    "C19_detection_bracket_refuted",
    "C19_detection_pretty_refuted",
    "C19_missing_word_refuted"
   ],
   "note": ""
  },
  {
   "property": "C20",
   "status": "proved",
   "theorems": [
    "C20_yield",
    "C20_binary",
    "C20_small_unchanged",
    "C20_empty_node_refuted"
   ],
   "note": ""
  },
  {
   "property": "C21",
   "status": "proved",
   "theorems": [
    "C21_unbinarize_binarize",
    "C21_tailmarker_refuted"
   ],
   "note": ""
  },
  {
   "property": "C22",
   "status": "proved",
   "theorems": [
    "C22_continuous",
    "C22_yield",
    "C22_constituents"
   ],
   "note": ""
  },
  {
   "property": "C23",
   "status": "proved",
   "theorems": [
    "C23_merge_split",
    "C23_merge_split_eq",
    "C23_merge_split_distinct",
    "C23_same_label_siblings_refuted"
   ],
   "note": ""
  },
  {
   "property": "C24",
   "status": "proved",
   "theorems": [
    "C24_yield",
    "C24_no_unary_left",
    "C24_restore",
    "C24_idempotent",
    "C24_plus_refuted"
   ],
   "note": ""
  },
  {
   "property": "C25",
   "status": "proved",
   "theorems": [
    "C25_yield",
    "C25_preterminals",
    "C25_untouched",
    "C25_idempotent",
    "C25_constituents"
   ],
   "note": ""
  },
  {
   "property": "C26",
   "status": "proved",
   "theorems": [
    "C26_removeterminals",
    "C26_nothing_selected"
   ],
   "note": ""
  },
  {
   "property": "C27",
   "status": "proved",
   "theorems": [
    "C27_same_tree",
    "C27_leaves",
    "C27_ordered",
    "C27_fixed",
    "C27_idempotent",
    "C27_normal_form"
   ],
   "note": ""
  },
  {
   "property": "C28",
   "status": "proved",
   "theorems": [
    "C28_marks",
    "C28_remove_add",
    "C28_add_idempotent",
    "C28_underscore_refuted"
   ],
   "note": ""
  },
  {
   "property": "C29",
   "status": "proved",
   "theorems": [
    "C29_productions_describe",
    "C29_without_frontiers",
    "C29_accepted",
    "C29_counts",
    "C29_monotone",
    "C29_terminal_with_siblings_refuted"
   ],
   "note": ""
  },
  {
   "property": "C30",
   "status": "proved",
   "theorems": [
    "C30_rule_probability",
    "C30_lexical_probability",
    "C30_sum_to_one",
    "C30_same_in_all_arrays",
    "C30_incrementrulecount",
    "C30_duplicate_lines_refuted",
    "C30_treebank",
    "C30_large_counts_refuted"
   ],
   "note": ""
  },
  {
   "property": "C31",
   "status": "proved",
   "theorems": [
    "C31_fragments",
    "C31_nodefreq"
   ],
   "note": ""
  },
  {
   "property": "C32",
   "status": "proved",
   "theorems": [
    "C32_packed",
    "C32_packed_inconsistent_refuted",
    "C32_accepted",
    "C32_goodman",
    "C32_derivations_finite",
    "C32_label_mass",
    "C32_address_mass",
    "C32_ewe_mass"
   ],
   "note": ""
  },
  {
   "property": "C33",
   "status": "proved",
   "theorems": [
    "C33_sumfrags",
    "C33_merge_fragments",
    "C33_unsorted_refuted",
    "C33_sumrules_shifted",
    "C33_sumrules_empty_refuted",
    "C33_sumrules_refuted",
    "C33_sumlex",
    "C33_merge_lexicon"
   ],
   "note": ""
  },
  {
   "property": "C34",
   "status": "proved",
   "theorems": [
    "C34_ids_unique",
    "C34_ids_format"
   ],
   "note": ""
  },
  {
   "property": "C35",
   "status": "proved",
   "theorems": [
    "C35_memo_addresses",
    "C35_memo_unchanged",
    "C35_addresses_unique"
   ],
   "note": ""
  },
  {
   "property": "C36",
   "status": "proved",
   "theorems": [
    "C36_right",
    "C36_left",
    "C36_yield"
   ],
   "note": ""
  },
  {
   "property": "C37",
   "status": "proved",
   "theorems": [
    "C37_contsets",
    "C37_ranges",
    "C37_ranges_unique",
    "C37_rangeheads"
   ],
   "note": ""
  },
  {
   "property": "C38",
   "status": "proved",
   "theorems": [
    "C38_equal_words",
    "C38_hash",
    "C38_equivalence",
    "C38_siblings_refuted"
   ],
   "note": ""
  },
  {
   "property": "C39",
   "status": "proved",
   "theorems": [
    "C39_parent_pointers",
    "C39_single_parent",
    "C39_parent_index",
    "C39_edits_done",
    "C39_only_edits",
    "C39_failed_unchanged",
    "C39_constructor",
    "C39_extend",
    "C39_spliceabove",
    "C39_splicebelow",
    "C39_prune",
    "C39_acyclic",
    "C39_treeposition",
    "C39_repeated_refuted",
    "C39_cycle_refuted",
    "C39_prune_root_refuted"
   ],
   "note": ""
  },
  {
   "property": "C40",
   "status": "proved",
   "theorems": [
    "C40_kbest_sound",
    "C40_kbest_complete",
    "C40_no_derivation",
    "C40_complete_refuted_shared_edge",
    "C40_cost_refuted_lexical",
    "C40_deep_refuted"
   ],
   "note": ""
  },
  {
   "property": "C41",
   "status": "proved",
   "theorems": [
    "C41_terminates",
    "C41_viterbi",
    "C41_edges",
    "C41_inside",
    "C41_items",
    "C41_no_duplicates_sparse",
    "C41_duplicates_refuted_dense",
    "C41_leftchild_refuted"
   ],
   "note": ""
  },
  {
   "property": "C42",
   "status": "proved",
   "theorems": [
    "C42_terminates",
    "C42_partition",
    "C42_longest",
    "C42_complete",
    "C42_empty_refuted"
   ],
   "note": ""
  },
  {
   "property": "C43",
   "status": "proved",
   "theorems": [
    "C43_cartesian_product",
    "C43_lexicographic",
    "C43_once",
    "C43_count"
   ],
   "note": ""
  },
  {
   "property": "C44",
   "status": "proved",
   "theorems": [
    "C44_intersection_exists",
    "C44_recall",
    "C44_precision",
    "C44_undefined",
    "C44_range",
    "C44_swap",
    "C44_perfect",
    "C44_f_measure",
    "C44_f_range",
    "C44_f_measure_weighted",
    "C44_bitset",
    "C44_bracketings",
    "C44_corpus",
    "C44_exact",
    "C44_exact_disconly",
    "C44_tags",
    "C44_accuracy",
    "C44_nan_poisons_mean"
   ],
   "note": ""
  },
  {
   "property": "C45",
   "status": "proved",
   "theorems": [
    "C45_sentence",
    "C45_roundtrip",
    "C45_500_phrases",
    "C45_word_as_node",
    "C45_percent",
    "C45_duplicate_key"
   ],
   "note": ""
  },
  {
   "property": "C46",
   "status": "proved",
   "theorems": [
    "C46_punctroot",
    "C46_punctraise",
    "C46_balancedpunctraise",
    "C46_move",
    "C46_punctremove",
    "C46_removeall",
    "C46_punctprune",
    "C46_prune",
    "C46_root",
    "C46_punctraise_place",
    "C46_punctlower_refuted"
   ],
   "note": ""
  },
  {
   "property": "C47",
   "status": "proved",
   "theorems": [
    "C47_canonical_unique",
    "C47_treedist",
    "C47_newtreedist",
    "C47_zero",
    "C47_symmetric",
    "C47_triangle",
    "C47_normalised"
   ],
   "note": ""
  },
  {
   "property": "C48",
   "status": "proved",
   "theorems": [
    "C48_lookup",
    "C48_arrays_indexed"
   ],
   "note": ""
  },
  {
   "property": "C49",
   "status": "proved",
   "theorems": [
    "C49_labels",
    "C49_stable",
    "C49_rule_numbers"
   ],
   "note": ""
  },
  {
   "property": "C50",
   "status": "proved",
   "theorems": [
    "C50_editdistance",
    "C50_zero",
    "C50_symmetric",
    "C50_triangle",
    "C50_bounds",
    "C50_pathscore",
    "C50_paths",
    "C50_path_keys",
    "C50_leafancestor",
    "C50_leafancestor_self",
    "C50_score_one_not_exact"
   ],
   "note": ""
  },
  {
   "property": "C51",
   "status": "proved",
   "theorems": [
    "C51_classes",
    "C51_representative",
    "C51_same_representative"
   ],
   "note": ""
  },
  {
   "property": "C52",
   "status": "proved",
   "theorems": [
    "C52_right",
    "C52_left",
    "C52_left_refuted"
   ],
   "note": ""
  },
  {
   "property": "C53",
   "status": "proved",
   "theorems": [
    "C53_getbits",
    "C53_intervals",
    "C53_alignsent"
   ],
   "note": ""
  },
  {
   "property": "C54",
   "status": "proved",
   "theorems": [
    "C54_viterbi",
    "C54_edges",
    "C54_root",
    "C54_every_item",
    "C54_total",
    "C54_terminates",
    "C54_tag_also_phrase_refuted"
   ],
   "note": ""
  },
  {
   "property": "C55",
   "status": "proved",
   "theorems": [
    "C55_sound",
    "C55_complete",
    "C55_all_maximal",
    "C55_treebank_sound",
    "C55_treebank_complete",
    "C55_two_treebanks",
    "C55_minterms",
    "C55_minterms_refuted"
   ],
   "note": ""
  },
  {
   "property": "C56",
   "status": "proved",
   "theorems": [
    "C56_indices",
    "C56_count",
    "C56_reported"
   ],
   "note": ""
  },
  {
   "property": "C57",
   "status": "proved",
   "theorems": [
    "C57_sound",
    "C57_complete",
    "C57_complete_unary",
    "C57_frontier_refuted"
   ],
   "note": ""
  },
  {
   "property": "C58",
   "status": "proved",
   "theorems": [
    "C58_array",
    "C58_nodes"
   ],
   "note": ""
  },
  {
   "property": "C59",
   "status": "proved",
   "theorems": [
    "C59_finite",
    "C59_inside",
    "C59_inside_any",
    "C59_posterior",
    "C59_expected",
    "C59_threshold",
    "C59_keeps_probable",
    "C59_lexprob_refuted",
    "C59_order_refuted"
   ],
   "note": ""
  },
  {
   "property": "C60",
   "status": "proved",
   "theorems": [
    "C60_lossless",
    "C60_nothing_lost",
    "C60_checkwhitelist_split",
    "C60_split_without_markorigin_refuted",
    "C60_filter",
    "C60_derivations"
   ],
   "note": ""
  },
  {
   "property": "C61",
   "status": "proved",
   "theorems": [
    "C61_total",
    "C61_stable",
    "C61_injective",
    "C61_dense",
    "C61_readback",
    "C61_file_roundtrip",
    "C61_example",
    "C61_epsilon_refuted",
    "C61_getword_phrasal_refuted"
   ],
   "note": ""
  },
  {
   "property": "C62",
   "status": "proved",
   "theorems": [
    "C62_workload_tiles",
    "C62_balanced",
    "C62_workload_count",
    "C62_two_treebanks",
    "C62_recurringfragments",
    "C62_indices_unique",
    "C62_numproc",
    "C62_cover"
   ],
   "note": ""
  },
  {
   "property": "C63",
   "status": "proved",
   "theorems": [
    "C63_results",
    "C63_eval",
    "C63_schedule",
    "C63_stats",
    "C63_duplicate",
    "C63_blocks",
    "C63_bitpar",
    "C63_sentid_refuted",
    "C63_output"
   ],
   "note": ""
  },
  {
   "property": "C64",
   "status": "proved",
   "theorems": [
    "C64_total",
    "C64_encoding",
    "C64_unambiguous",
    "C64_joinable",
    "C64_tsg",
    "C64_discontinuous_refuted"
   ],
   "note": ""
  },
  {
   "property": "C65",
   "status": "proved",
   "theorems": [
    "C65_logprobsum",
    "C65_logprobadd",
    "C65_mpp",
    "C65_mpp_order",
    "C65_mpp_derivation",
    "C65_mpp_best",
    "C65_tree_of_derivation",
    "C65_same_tree",
    "C65_mpp_dop",
    "C65_mpd",
    "C65_mpd_best",
    "C65_mpd_duplicate_refuted",
    "C65_shortest",
    "C65_fragment_count",
    "C65_sldop_simple",
    "C65_constraints",
    "C65_removeids_other"
   ],
   "note": ""
  },
  {
   "property": "C66",
   "status": "proved",
   "theorems": [
    "C66_marginals",
    "C66_optimal",
    "C66_better_than_derivations",
    "C66_covers",
    "C66_lost_words_refuted"
   ],
   "note": ""
  },
  {
   "property": "C67",
   "status": "proved",
   "theorems": [
    "C67_inside",
    "C67_admissible",
    "C67_tight",
    "C67_consistent",
    "C67_total",
    "C67_skipped_rules_refuted"
   ],
   "note": ""
  },
  {
   "property": "C68",
   "status": "proved",
   "theorems": [
    "C68_lrgaps",
    "C68_sx",
    "C68_pcfg",
    "C68_total",
    "C68_terminates",
    "C68_improbable_refuted"
   ],
   "note": ""
  },
  {
   "property": "C69",
   "status": "proved",
   "theorems": [
    "C69_transform",
    "C69_same_words",
    "C69_described",
    "C69_wellformed",
    "C69_extra_nodes",
    "C69_pair",
    "C69_root_label_refuted"
   ],
   "note": ""
  },
  {
   "property": "C70",
   "status": "proved",
   "theorems": [
    "C70_year_pattern",
    "C70_number_pattern",
    "C70_zero_threshold_fails",
    "C70_defined",
    "C70_lexicon",
    "C70_statistics",
    "C70_train_sentences",
    "C70_signatures",
    "C70_smoothing_rules",
    "C70_smoothing_weights",
    "C70_numerals_covered",
    "C70_test_words_covered",
    "C70_loaded_parser_covered",
    "C70_known_word_kept",
    "C70_signature_marker",
    "C70_signature_clean",
    "C70_numeral_signature_refuted",
    "C70_parenthesis_refuted",
    "C70_year_uncovered_refuted"
   ],
   "note": ""
  },
  {
   "property": "C71",
   "status": "proved",
   "theorems": [
    "C71_roundtrip",
    "C71_same_probabilities",
    "C71_buffer_size",
    "C71_truncated",
    "C71_nul_byte_refuted",
    "C71_empty_component_refuted"
   ],
   "note": ""
  },
  {
   "property": "C72",
   "status": "proved",
   "theorems": [
    "C72_given",
    "C72_function",
    "C72_rule",
    "C72_default",
    "C72_onehead",
    "C72_shape",
    "C72_idempotent",
    "C72_kept",
    "C72_is_found",
    "C72_modifiers",
    "C72_marked",
    "C72_file",
    "C72_like",
    "C72_lowercase_refuted"
   ],
   "note": ""
  },
  {
   "property": "C73",
   "status": "proved",
   "theorems": [
    "C73_total",
    "C73_tokens",
    "C73_arcs",
    "C73_roots",
    "C73_rooted",
    "C73_acyclic",
    "C73_yield",
    "C73_projective",
    "C73_conll",
    "C73_headpos",
    "C73_deplen_refuted"
   ],
   "note": ""
  },
  {
   "property": "C74",
   "status": "proved",
   "theorems": [
    "C74_numlines",
    "C74_chomp",
    "C74_extract",
    "C74_extract_blanks",
    "C74_extract_error",
    "C74_position",
    "C74_window",
    "C74_empty_refuted",
    "C74_sents",
    "C74_indices",
    "C74_count",
    "C74_count_refuted",
    "C74_highlight",
    "C74_emptymatch_refuted",
    "C74_index_fresh",
    "C74_index_stale_refuted"
   ],
   "note": ""
  },
  {
   "property": "C75",
   "status": "proved",
   "theorems": [
    "C75_limit",
    "C75_set",
    "C75_only_stored",
    "C75_fifo",
    "C75_counts",
    "C75_sents",
    "C75_nomaximum_refuted",
    "C75_regex_sents_refuted"
   ],
   "note": ""
  },
  {
   "property": "C76",
   "status": "proved",
   "theorems": [
    "C76_highlight",
    "C76_charindices",
    "C76_charindices_union"
   ],
   "note": ""
  },
  {
   "property": "C77",
   "status": "proved",
   "theorems": [
    "C77_optimal",
    "C77_head",
    "C77_binarizes",
    "C77_binary",
    "C77_unbinarize",
    "C77_example",
    "C77_order_refuted"
   ],
   "note": ""
  },
  {
   "property": "C78",
   "status": "proved",
   "theorems": [
    "C78_kbest_sound",
    "C78_no_parse",
    "C78_kbest_complete",
    "C78_complete_refuted"
   ],
   "note": ""
  },
  {
   "property": "C79",
   "status": "proved",
   "theorems": [
    "C79_sound",
    "C79_counts",
    "C79_complete",
    "C79_choice",
    "C79_choice_made",
    "C79_yfarray",
    "C79_lexical_refuted",
    "C79_unary_refuted"
   ],
   "note": ""
  },
  {
   "property": "C80",
   "status": "proved",
   "theorems": [
    "C80_read",
    "C80_binarized",
    "C80_sum",
    "C80_lexicon_refuted"
   ],
   "note": ""
  },
  {
   "property": "C81",
   "status": "proved",
   "theorems": [
    "C81_kbest_sound",
    "C81_no_parse",
    "C81_kbest_complete",
    "C81_complete_refuted"
   ],
   "note": ""
  },
  {
   "property": "C82",
   "status": "proved",
   "theorems": [
    "C82_reads",
    "C82_othertext",
    "C82_export",
    "C82_roundtrip",
    "C82_example",
    "C82_roundtrip_example",
    "C82_text_before_refuted",
    "C82_flat_tree_is_text",
    "C82_header_table_refuted"
   ],
   "note": ""
  },
  {
   "property": "C83",
   "status": "proved",
   "theorems": [
    "C83_roundtrip",
    "C83_leaves",
    "C83_structure",
    "C83_example",
    "C83_right_neighbour_refuted",
    "C83_right_neighbour_left",
    "C83_defaults_refuted",
    "C83_slash_refuted",
    "C83_hyphen_refuted"
   ],
   "note": ""
  },
  {
   "property": "C84",
   "status": "proved",
   "theorems": [
    "C84_all_or_nothing",
    "C84_recorded",
    "C84_schedule",
    "C84_files",
    "C84_stats_rows",
    "C84_stats_columns",
    "C84_noparse"
   ],
   "note": ""
  },
  {
   "property": "C85",
   "status": "proved",
   "theorems": [
    "C85_remove_label",
    "C85_remove_none",
    "C85_remove_idempotent",
    "C85_words",
    "C85_labels",
    "C85_remove_add",
    "C85_between_where",
    "C85_between",
    "C85_readback",
    "C85_readback_tree",
    "C85_digits_refuted",
    "C85_empty_tag_refuted",
    "C85_functions",
    "C85_morph_word",
    "C85_morph_labels",
    "C85_morph_add",
    "C85_morphfeats",
    "C85_morphfeats_parts"
   ],
   "note": ""
  },
  {
   "property": "C86",
   "status": "proved",
   "theorems": [
    "C86_stages",
    "C86_best",
    "C86_fallback",
    "C86_words",
    "C86_raw_trees",
    "C86_success",
    "C86_first",
    "C86_terminates",
    "C86_probmult",
    "C86_subtrees_refuted",
    "C86_loops_refuted",
    "C86_stale_refuted",
    "C86_fallback_refuted"
   ],
   "note": ""
  },
  {
   "property": "C87",
   "status": "proved",
   "theorems": [
    "C87_yield",
    "C87_continuous",
    "C87_error",
    "C87_constituents",
    "C87_once",
    "C87_lost_refuted",
    "C87_star_refuted"
   ],
   "note": ""
  },
  {
   "property": "C88",
   "status": "proved",
   "theorems": [
    "C88_reordered",
    "C88_words",
    "C88_continuous",
    "C88_normal_form",
    "C88_unchanged",
    "C88_idempotent"
   ],
   "note": ""
  },
  {
   "property": "C89",
   "status": "proved",
   "theorems": [
    "C89_marks_last",
    "C89_marks",
    "C89_marks_inorder",
    "C89_order",
    "C89_fanout",
    "C89_dp",
    "C89_funcnode",
    "C89_restored",
    "C89_appendfunc",
    "C89_lemmanode",
    "C89_morphnode",
    "C89_strip",
    "C89_parent",
    "C89_tagpa",
    "C89_words",
    "C89_appendmorph_refuted"
   ],
   "note": ""
  },
  {
   "property": "C90",
   "status": "proved",
   "theorems": [
    "C90_matches",
    "C90_groups",
    "C90_vertical_refuted",
    "C90_shape",
    "C90_labels",
    "C90_debinarize",
    "C90_siblings",
    "C90_parent_refuted",
    "C90_merged"
   ],
   "note": ""
  },
  {
   "property": "C91",
   "status": "proved",
   "theorems": [
    "C91_label",
    "C91_label_unique",
    "C91_name",
    "C91_trees",
    "C91_defined",
    "C91_mapping",
    "C91_fanout_refuted",
    "C91_split_refuted"
   ],
   "note": ""
  },
  {
   "property": "C92",
   "status": "proved",
   "theorems": [
    "C92_most_likely",
    "C92_sldop",
    "C92_treeparsing",
    "C92_unknown",
    "C92_model_restored",
    "C92_model_restored_refuted",
    "C92_mask_restored_refuted",
    "C92_unknown_rejected_refuted"
   ],
   "note": ""
  },
  {
   "property": "C93",
   "status": "proved",
   "theorems": [
    "C93_finite",
    "C93_dopparseprob",
    "C93_chain_refuted"
   ],
   "note": ""
  },
  {
   "property": "C94",
   "status": "proved",
   "theorems": [
    "C94_derivation",
    "C94_compose",
    "C94_unique",
    "C94_number",
    "C94_words",
    "C94_words_refuted"
   ],
   "note": ""
  },
  {
   "property": "C95",
   "status": "proved",
   "theorems": [
    "C95_switch",
    "C95_reselect",
    "C95_defined",
    "C95_history",
    "C95_increment",
    "C95_renormalize_refuted"
   ],
   "note": ""
  },
  {
   "property": "C96",
   "status": "proved",
   "theorems": [
    "C96_known",
    "C96_history",
    "C96_rules",
    "C96_noderuleno",
    "C96_unknown",
    "C96_unknown_label",
    "C96_addrules_refuted",
    "C96_newlabel_refuted"
   ],
   "note": ""
  },
  {
   "property": "C97",
   "status": "proved",
   "theorems": [
    "C97_succeeds",
    "C97_mapping",
    "C97_incremental",
    "C97_rulemapping",
    "C97_partition",
    "C97_rulemapping_labels",
    "C97_again_refuted",
    "C97_failure_refuted",
    "C97_message_refuted",
    "C97_unknown_rule_refuted"
   ],
   "note": ""
  },
  {
   "property": "C98",
   "status": "proved",
   "theorems": [
    "C98_getyf",
    "C98_unary",
    "C98_unary_refuted"
   ],
   "note": ""
  },
  {
   "property": "C99",
   "status": "proved",
   "theorems": [
    "C99_treebankfanout"
   ],
   "note": ""
  },
  {
   "property": "C100",
   "status": "proved",
   "theorems": [
    "C100_indextrees",
    "C100_twoterminals",
    "C100_partners",
    "C100_slice_refuted",
    "C100_two_words_refuted"
   ],
   "note": ""
  }
 ]
}