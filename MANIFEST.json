{
 "claims": [
  {
   "property": "C01",
   "status": "proved",
   "theorems": [
    "C01_tone_rules"
   ],
   "note": "Combinations the textbook does not allow (high/low class with mai tri or chattawa) keep the written tone; also stated."
  },
  {
   "property": "C02",
   "status": "proved",
   "theorems": [
    "C02_consonant_tables"
   ],
   "note": ""
  },
  {
   "property": "C03",
   "status": "proved",
   "theorems": [
    "C03_order_syllables",
    "C03_order_strings"
   ],
   "note": ""
  },
  {
   "property": "C04",
   "status": "proved",
   "theorems": [
    "C04_equality",
    "C04_consistent_with_order_refuted"
   ],
   "note": "Equivalence proved; consistency with the sort order refuted by a witness."
  },
  {
   "property": "C05",
   "status": "proved",
   "theorems": [
    "C05_raw_round_trip",
    "C05_raw_list_round_trip",
    "C05_literal_refuted"
   ],
   "note": ""
  },
  {
   "property": "C06",
   "status": "proved",
   "theorems": [
    "C06_shift"
   ],
   "note": ""
  },
  {
   "property": "C07",
   "status": "proved",
   "theorems": [
    "C07_fraction_sorted_complete",
    "C07_fraction_unique",
    "C07_fraction_unique_refuted"
   ],
   "note": "Sortedness and completeness proved; documented uniqueness refuted in general and proved when equal strings carry equal positions."
  },
  {
   "property": "C08",
   "status": "proved",
   "theorems": [
    "C08_indexes_consistent"
   ],
   "note": ""
  },
  {
   "property": "C09",
   "status": "proved",
   "theorems": [
    "C09_edit_results",
    "C09_union_laws"
   ],
   "note": ""
  },
  {
   "property": "C10",
   "status": "proved",
   "theorems": [
    "C10_flat_enumeration"
   ],
   "note": ""
  },
  {
   "property": "C11",
   "status": "proved",
   "theorems": [
    "C11_grouping_preserves",
    "C11_start_needed"
   ],
   "note": "Start node without incoming edge is required; C11_start_needed shows the condition cannot be dropped."
  },
  {
   "property": "C12",
   "status": "proved",
   "theorems": [
    "C12_grouping_safe",
    "C12_self_loop_refuted"
   ],
   "note": "Safe on every acyclic graph; self loop gives undefined behaviour (witness)."
  },
  {
   "property": "C13",
   "status": "proved",
   "theorems": [
    "C13_grouping_reduced"
   ],
   "note": ""
  },
  {
   "property": "C14",
   "status": "proved",
   "theorems": [
    "C14_list_graph",
    "C14_mixing_refuted"
   ],
   "note": "Mixing of strings sharing interior positions is exhibited by C14_mixing_refuted."
  },
  {
   "property": "C15",
   "status": "proved",
   "theorems": [
    "C15_notations_total",
    "C15_parse_printable"
   ],
   "note": ""
  },
  {
   "property": "C16",
   "status": "proved",
   "theorems": [
    "C16_phonetic_unambiguous"
   ],
   "note": ""
  },
  {
   "property": "C17",
   "status": "proved",
   "theorems": [
    "C17_soundex_exact"
   ],
   "note": ""
  },
  {
   "property": "C18",
   "status": "proved",
   "theorems": [
    "C18_respelling_tone",
    "C18_respelling_sound",
    "C18_dead_mid_refuted"
   ],
   "note": ""
  },
  {
   "property": "C19",
   "status": "proved",
   "theorems": [
    "C19_line_structure",
    "C19_lines",
    "C19_words_exist"
   ],
   "note": ""
  },
  {
   "property": "C20",
   "status": "proved",
   "theorems": [
    "C20_flat_decodes",
    "C20_grouped_decodes",
    "C20_parse_decodes",
    "C20_escapes_refuted"
   ],
   "note": ""
  },
  {
   "property": "C21",
   "status": "proved",
   "theorems": [
    "C21_flat_defined_iff",
    "C21_grouped_defined",
    "C21_parse_json",
    "C21_empty_refuted"
   ],
   "note": ""
  },
  {
   "property": "C22",
   "status": "proved",
   "theorems": [
    "C22_literals",
    "C22_hyphens",
    "C22_hyphenation_unique",
    "C22_after_blank_refuted"
   ],
   "note": ""
  },
  {
   "property": "C23",
   "status": "proved",
   "theorems": [
    "C23_terminates",
    "C23_terminates_utf8"
   ],
   "note": ""
  },
  {
   "property": "C24",
   "status": "proved",
   "theorems": [
    "C24_safe",
    "C24_stray_vowel_refuted"
   ],
   "note": ""
  },
  {
   "property": "C25",
   "status": "proved",
   "theorems": [
    "C25_full_cover"
   ],
   "note": ""
  },
  {
   "property": "C26",
   "status": "proved",
   "theorems": [
    "C26_acyclic_rooted"
   ],
   "note": ""
  },
  {
   "property": "C27",
   "status": "proved",
   "theorems": [
    "C27_nodes_distinct",
    "C27_node_spans",
    "C27_long_span_refuted"
   ],
   "note": ""
  },
  {
   "property": "C28",
   "status": "proved",
   "theorems": [
    "C28_verbatim_spans",
    "C28_nothing_dropped"
   ],
   "note": ""
  },
  {
   "property": "C29",
   "status": "proved",
   "theorems": [
    "C29_foreign_text"
   ],
   "note": ""
  },
  {
   "property": "C30",
   "status": "proved",
   "theorems": [
    "C30_well_formed"
   ],
   "note": ""
  },
  {
   "property": "C31",
   "status": "proved",
   "theorems": [
    "C31_initial_written"
   ],
   "note": ""
  },
  {
   "property": "C32",
   "status": "proved",
   "theorems": [
    "C32_pool_transparent"
   ],
   "note": ""
  },
  {
   "property": "C33",
   "status": "proved",
   "theorems": [
    "C33_pool_order",
    "C33_unique_keys_refuted"
   ],
   "note": ""
  },
  {
   "property": "C34",
   "status": "proved",
   "theorems": [
    "C34_dictionary_step",
    "C34_dictionary_first"
   ],
   "note": ""
  },
  {
   "property": "C35",
   "status": "proved",
   "theorems": [
    "C35_prefix_search"
   ],
   "note": ""
  },
  {
   "property": "C36",
   "status": "proved",
   "theorems": [
    "C36_length_field",
    "C36_round_trip",
    "C36_empty_refuted",
    "C36_limit_refuted"
   ],
   "note": ""
  },
  {
   "property": "C37",
   "status": "proved",
   "theorems": [
    "C37_accepted_forms",
    "C37_well_formed",
    "C37_key",
    "C37_key_exact",
    "C37_malformed_rejected",
    "C37_lax_refuted"
   ],
   "note": ""
  },
  {
   "property": "C38",
   "status": "proved",
   "theorems": [
    "C38_all_kept",
    "C38_later_lines_lost_refuted",
    "C38_long_line_refuted",
    "C38_empty_refuted",
    "C38_nul_refuted"
   ],
   "note": ""
  },
  {
   "property": "C39",
   "status": "proved",
   "theorems": [
    "C39_no_index",
    "C39_failed_load_refuted",
    "C39_parse_refuted",
    "C39_throw_refuted"
   ],
   "note": ""
  },
  {
   "property": "C40",
   "status": "proved",
   "theorems": [
    "C40_abbreviations"
   ],
   "note": ""
  },
  {
   "property": "C41",
   "status": "proved",
   "theorems": [
    "C41_breaks"
   ],
   "note": ""
  },
  {
   "property": "C42",
   "status": "proved",
   "theorems": [
    "C42_run",
    "C42_rejected",
    "C42_decided",
    "C42_choices_exist",
    "C42_choices_unique"
   ],
   "note": ""
  },
  {
   "property": "C43",
   "status": "proved",
   "theorems": [
    "C43_first",
    "C43_later_refuted",
    "C43_short_refuted",
    "C43_spurious_refuted"
   ],
   "note": ""
  },
  {
   "property": "C44",
   "status": "proved",
   "theorems": [
    "C44_lossless",
    "C44_literals_print"
   ],
   "note": ""
  },
  {
   "property": "C45",
   "status": "proved",
   "theorems": [
    "C45_karan"
   ],
   "note": ""
  },
  {
   "property": "C46",
   "status": "proved",
   "theorems": [
    "C46_open_syllables",
    "C46_open_oe"
   ],
   "note": ""
  },
  {
   "property": "C47",
   "status": "proved",
   "theorems": [
    "C47_shipped"
   ],
   "note": ""
  },
  {
   "property": "C48",
   "status": "proved",
   "theorems": [
    "C48_final_written"
   ],
   "note": ""
  },
  {
   "property": "C49",
   "status": "proved",
   "theorems": [
    "C49_tone_written"
   ],
   "note": ""
  },
  {
   "property": "C50",
   "status": "proved",
   "theorems": [
    "C50_closed_syllables"
   ],
   "note": ""
  },
  {
   "property": "C51",
   "status": "proved",
   "theorems": [
    "C51_clusters_open",
    "C51_clusters_closed"
   ],
   "note": ""
  },
  {
   "property": "C52",
   "status": "proved",
   "theorems": [
    "C52_bad_word_refuted"
   ],
   "note": ""
  },
  {
   "property": "C53",
   "status": "proved",
   "theorems": [
    "C53_success"
   ],
   "note": ""
  },
  {
   "property": "C54",
   "status": "proved",
   "theorems": [
    "C54_independent_parts"
   ],
   "note": ""
  },
  {
   "property": "C55",
   "status": "proved",
   "theorems": [
    "C55_word_by_word"
   ],
   "note": ""
  },
  {
   "property": "C56",
   "status": "proved",
   "theorems": [
    "C56_word_grammar"
   ],
   "note": ""
  },
  {
   "property": "C57",
   "status": "proved",
   "theorems": [
    "C57_word_walks"
   ],
   "note": ""
  },
  {
   "property": "C58",
   "status": "proved",
   "theorems": [
    "C58_dictionary_frame"
   ],
   "note": ""
  },
  {
   "property": "C59",
   "status": "proved",
   "theorems": [
    "C59_text"
   ],
   "note": ""
  },
  {
   "property": "C60",
   "status": "proved",
   "theorems": [
    "C60_royal_institute",
    "C60_roman_merges"
   ],
   "note": ""
  },
  {
   "property": "C61",
   "status": "proved",
   "theorems": [
    "C61_phonetic_text"
   ],
   "note": ""
  },
  {
   "property": "C62",
   "status": "proved",
   "theorems": [
    "C62_reads_back"
   ],
   "note": ""
  },
  {
   "property": "C63",
   "status": "proved",
   "theorems": [
    "C63_nodes_fit"
   ],
   "note": ""
  },
  {
   "property": "C64",
   "status": "proved",
   "theorems": [
    "C64_no_repetition",
    "C64_repeated_reading_refuted"
   ],
   "note": ""
  },
  {
   "property": "C65",
   "status": "proved",
   "theorems": [
    "C65_program"
   ],
   "note": ""
  },
  {
   "property": "C66",
   "status": "proved",
   "theorems": [
    "C66_simplest_respelling"
   ],
   "note": ""
  },
  {
   "property": "C67",
   "status": "proved",
   "theorems": [
    "C67_raw_text",
    "C67_soundex_text"
   ],
   "note": ""
  },
  {
   "property": "C68",
   "status": "proved",
   "theorems": [
    "C68_words_kept",
    "C68_source_walks"
   ],
   "note": ""
  },
  {
   "property": "C69",
   "status": "proved",
   "theorems": [
    "C69_json",
    "C69_grouped"
   ],
   "note": ""
  },
  {
   "property": "C70",
   "status": "proved",
   "theorems": [
    "C70_breaks_that_matter"
   ],
   "note": ""
  },
  {
   "property": "C71",
   "status": "proved",
   "theorems": [
    "C71_every_text",
    "C71_outcome"
   ],
   "note": ""
  },
  {
   "property": "C72",
   "status": "proved",
   "theorems": [
    "C72_program",
    "C72_json",
    "C72_grouped"
   ],
   "note": ""
  },
  {
   "property": "C73",
   "status": "proved",
   "theorems": [
    "C73_unlinked_linear",
    "C73_doubling",
    "C73_polynomial_refuted"
   ],
   "note": "Linear without linked readings; C73_doubling gives the exact exponential count for กา repeated, C73_polynomial_refuted refutes every polynomial bound."
  },
  {
   "property": "C74",
   "status": "proved",
   "theorems": [
    "C74_breaks_found",
    "C74_breaking_off",
    "C74_parse_word",
    "C74_program"
   ],
   "note": ""
  },
  {
   "property": "C75",
   "status": "proved",
   "theorems": [
    "C75_covered",
    "C75_as_listed",
    "C75_extra_refuted",
    "C75_sentence",
    "C75_program"
   ],
   "note": ""
  },
  {
   "property": "C76",
   "status": "proved",
   "theorems": [
    "C76_line_read_back"
   ],
   "note": ""
  },
  {
   "property": "C77",
   "status": "proved",
   "theorems": [
    "C77_order_of_arrival",
    "C77_every_history",
    "C77_listing_order"
   ],
   "note": ""
  },
  {
   "property": "C78",
   "status": "proved",
   "theorems": [
    "C78_refused",
    "C78_success",
    "C78_cut_short_refuted",
    "C78_stopped_refuted",
    "C78_in_place_refuted",
    "C78_both_programs"
   ],
   "note": ""
  },
  {
   "property": "C79",
   "status": "proved",
   "theorems": [
    "C79_one_syllable",
    "C79_entry",
    "C79_parser",
    "C79_writable_refuted"
   ],
   "note": ""
  },
  {
   "property": "C80",
   "status": "proved",
   "theorems": [
    "C80_listing_ends",
    "C80_lattice_ends",
    "C80_entry_loops",
    "C80_rest_kept_refuted",
    "C80_ends_refuted"
   ],
   "note": ""
  },
  {
   "property": "C81",
   "status": "proved",
   "theorems": [
    "C81_letters",
    "C81_names",
    "C81_same",
    "C81_version"
   ],
   "note": ""
  },
  {
   "property": "C82",
   "status": "proved",
   "theorems": [
    "C82_positions",
    "C82_graph_refuted",
    "C82_lattice_refuted"
   ],
   "note": ""
  },
  {
   "property": "C83",
   "status": "proved",
   "theorems": [
    "C83_package",
    "C83_sorted",
    "C83_one_line"
   ],
   "note": ""
  },
  {
   "property": "C84",
   "status": "proved",
   "theorems": [
    "C84_syllables",
    "C84_strings",
    "C84_groups"
   ],
   "note": ""
  },
  {
   "property": "C85",
   "status": "proved",
   "theorems": [
    "C85_regular_words",
    "C85_sentences"
   ],
   "note": ""
  },
  {
   "property": "C86",
   "status": "proved",
   "theorems": [
    "C86_grouped_list",
    "C86_mixing_refuted"
   ],
   "note": ""
  },
  {
   "property": "C87",
   "status": "proved",
   "theorems": [
    "C87_lines",
    "C87_json",
    "C87_grouped"
   ],
   "note": ""
  },
  {
   "property": "C88",
   "status": "proved",
   "theorems": [
    "C88_any_text",
    "C88_syllable_count"
   ],
   "note": ""
  },
  {
   "property": "C89",
   "status": "proved",
   "theorems": [
    "C89_clear_texts",
    "C89_lines",
    "C89_json",
    "C89_grouped"
   ],
   "note": ""
  },
  {
   "property": "C90",
   "status": "proved",
   "theorems": [
    "C90_assertions",
    "C90_no_bare_vowel",
    "C90_one_place",
    "C90_words",
    "C90_no_assertion_fails_refuted"
   ],
   "note": ""
  },
  {
   "property": "C91",
   "status": "proved",
   "theorems": [
    "C91_linear_graph",
    "C91_exponential_bound",
    "C91_repeated",
    "C91_polynomial_listing_refuted"
   ],
   "note": ""
  },
  {
   "property": "C92",
   "status": "proved",
   "theorems": [
    "C92_vowels_written",
    "C92_signs_heard"
   ],
   "note": ""
  },
  {
   "property": "C93",
   "status": "proved",
   "theorems": [
    "C93_respelling",
    "C93_same_or_stops",
    "C93_no_bare_vowel",
    "C93_bare_vowel"
   ],
   "note": ""
  },
  {
   "property": "C94",
   "status": "proved",
   "theorems": [
    "C94_thai_merges"
   ],
   "note": ""
  },
  {
   "property": "C95",
   "status": "proved",
   "theorems": [
    "C95_pages",
    "C95_json",
    "C95_groups",
    "C95_printed",
    "C95_roman_lines_refuted"
   ],
   "note": ""
  },
  {
   "property": "C96",
   "status": "proved",
   "theorems": [
    "C96_heads_written",
    "C96_marks_heard"
   ],
   "note": ""
  },
  {
   "property": "C97",
   "status": "proved",
   "theorems": [
    "C97_spelt"
   ],
   "note": ""
  },
  {
   "property": "C98",
   "status": "proved",
   "theorems": [
    "C98_text",
    "C98_pairs",
    "C98_edges"
   ],
   "note": ""
  },
  {
   "property": "C99",
   "status": "proved",
   "theorems": [
    "C99_breaks",
    "C99_answers",
    "C99_conditions_needed",
    "C99_breaks_only_remove_refuted"
   ],
   "note": ""
  },
  {
   "property": "C100",
   "status": "proved",
   "theorems": [
    "C100_alike",
    "C100_same",
    "C100_exactly",
    "C100_free_words",
    "C100_dictionary_matters"
   ],
   "note": ""
  },
  {
   "property": "C101",
   "status": "proved",
   "theorems": [
    "C101_exactly",
    "C101_with_dictionary",
    "C101_count"
   ],
   "note": ""
  },
  {
   "property": "C102",
   "status": "proved",
   "theorems": [
    "C102_sequences"
   ],
   "note": ""
  },
  {
   "property": "C103",
   "status": "proved",
   "theorems": [
    "C103_range"
   ],
   "note": ""
  },
  {
   "property": "C104",
   "status": "proved",
   "theorems": [
    "C104_json",
    "C104_one_value",
    "C104_program",
    "C104_program_grouped",
    "C104_no_forgery_refuted"
   ],
   "note": ""
  },
  {
   "property": "C105",
   "status": "proved",
   "theorems": [
    "C105_lines",
    "C105_json",
    "C105_answers"
   ],
   "note": ""
  },
  {
   "property": "C106",
   "status": "proved",
   "theorems": [
    "C106_kept",
    "C106_none_added",
    "C106_conditions_needed",
    "C106_always_refuted"
   ],
   "note": ""
  },
  {
   "property": "C107",
   "status": "proved",
   "theorems": [
    "C107_kept",
    "C107_none_added",
    "C107_conditions_needed"
   ],
   "note": ""
  },
  {
   "property": "C108",
   "status": "proved",
   "theorems": [
    "C108_kept",
    "C108_conditions_needed"
   ],
   "note": ""
  },
  {
   "property": "C109",
   "status": "proved",
   "theorems": [
    "C109_exchange",
    "C109_lines",
    "C109_raw_refuted",
    "C109_silent"
   ],
   "note": ""
  },
  {
   "property": "C110",
   "status": "proved",
   "theorems": [
    "C110_relisted",
    "C110_source",
    "C110_longer_refuted"
   ],
   "note": ""
  },
  {
   "property": "C111",
   "status": "proved",
   "theorems": [
    "C111_same",
    "C111_moved",
    "C111_input",
    "C111_together",
    "C111_default_refuted"
   ],
   "note": ""
  },
  {
   "property": "C112",
   "status": "proved",
   "theorems": [
    "C112_same_lines",
    "C112_tones_shown_refuted"
   ],
   "note": ""
  },
  {
   "property": "C113",
   "status": "proved",
   "theorems": [
    "C113_same_program",
    "C113_order",
    "C113_later",
    "C113_order_refuted"
   ],
   "note": ""
  },
  {
   "property": "C114",
   "status": "proved",
   "theorems": [
    "C114_heard",
    "C114_input",
    "C114_same_refuted"
   ],
   "note": ""
  },
  {
   "property": "C115",
   "status": "proved",
   "theorems": [
    "C115_lost",
    "C115_kept",
    "C115_foreign_refuted"
   ],
   "note": ""
  },
  {
   "property": "C116",
   "status": "proved",
   "theorems": [
    "C116_points_lost",
    "C116_copied_refuted"
   ],
   "note": ""
  },
  {
   "property": "C117",
   "status": "proved",
   "theorems": [
    "C117_copied",
    "C117_between",
    "C117_not_repeated",
    "C117_repeated_refuted",
    "C117_and_so_on_lost"
   ],
   "note": ""
  },
  {
   "property": "C118",
   "status": "proved",
   "theorems": [
    "C118_lost",
    "C118_retyped_lost",
    "C118_alike_refuted"
   ],
   "note": ""
  }
 ]
}