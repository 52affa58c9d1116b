{
 "claims": [
  {
   "property": "C01",
   "status": "proved",
   "theorems": [
    "c01_parse_returns",
    "c01_hang_iff",
    "c01_no_final_backslash",
    "c01_always_returns_refuted"
   ],
   "note": ""
  },
  {
   "property": "C02",
   "status": "proved",
   "theorems": [
    "c02_grammar",
    "c02_unambiguous",
    "c02_errors"
   ],
   "note": ""
  },
  {
   "property": "C03",
   "status": "proved",
   "theorems": [
    "c03_tiling"
   ],
   "note": ""
  },
  {
   "property": "C04",
   "status": "proved",
   "theorems": [
    "c04_positions",
    "c04_error_line",
    "c04_line_numbers",
    "c04_line_right",
    "c04_line_right_refuted"
   ],
   "note": ""
  },
  {
   "property": "C05",
   "status": "proved",
   "theorems": [
    "c05_peek",
    "c05_eof"
   ],
   "note": ""
  },
  {
   "property": "C06",
   "status": "proved",
   "theorems": [
    "c06_same_tokens",
    "c06_replace_blank",
    "c06_leading_whitespace"
   ],
   "note": ""
  },
  {
   "property": "C07",
   "status": "proved",
   "theorems": [
    "c07_no_backslash",
    "c07_spell_any_symbol",
    "c07_identifier",
    "c07_string_body"
   ],
   "note": ""
  },
  {
   "property": "C08",
   "status": "proved",
   "theorems": [
    "c08_print_parsed"
   ],
   "note": ""
  },
  {
   "property": "C09",
   "status": "proved",
   "theorems": [
    "c09_roundtrip",
    "c09_roundtrip_no_raw",
    "c09_reader_exists",
    "c09_escaped_symbols_refuted"
   ],
   "note": ""
  },
  {
   "property": "C10",
   "status": "proved",
   "theorems": [
    "c10_hash_exact",
    "c10_hash_prefix",
    "c10_hash_sequence",
    "c10_equality",
    "c10_equivalence",
    "c10_hash"
   ],
   "note": ""
  },
  {
   "property": "C11",
   "status": "proved",
   "theorems": [
    "c11_escape_reads",
    "c11_injective",
    "c11_no_markup",
    "c11_utf8"
   ],
   "note": ""
  },
  {
   "property": "C12",
   "status": "proved",
   "theorems": [
    "c12_xml_meaning",
    "c12_xml_source"
   ],
   "note": ""
  },
  {
   "property": "C13",
   "status": "proved",
   "theorems": [
    "c13_html_meaning",
    "c13_html_source"
   ],
   "note": ""
  },
  {
   "property": "C14",
   "status": "proved",
   "theorems": [
    "c14_xml_attribute",
    "c14_html_attribute",
    "c14_xml_breakout_refuted",
    "c14_html_breakout_refuted",
    "c14_ampersand_refuted"
   ],
   "note": ""
  },
  {
   "property": "C15",
   "status": "proved",
   "theorems": [
    "c15_empty",
    "c15_document",
    "c15_wrapped_meaning"
   ],
   "note": ""
  },
  {
   "property": "C16",
   "status": "proved",
   "theorems": [
    "c16_empty",
    "c16_document"
   ],
   "note": ""
  },
  {
   "property": "C17",
   "status": "proved",
   "theorems": [
    "c17_ordinary_rule",
    "c17_balanced",
    "c17_balanced_refuted",
    "c17_no_property"
   ],
   "note": ""
  },
  {
   "property": "C18",
   "status": "proved",
   "theorems": [
    "c18_css_returns",
    "c18_css_panics",
    "c18_error_refuted"
   ],
   "note": ""
  },
  {
   "property": "C19",
   "status": "proved",
   "theorems": [
    "c19_xml_succeeds",
    "c19_xml_panics",
    "c19_html_panics",
    "c19_html_source_panics",
    "c19_no_panic_refuted"
   ],
   "note": ""
  },
  {
   "property": "C20",
   "status": "proved",
   "theorems": [
    "c20_pre",
    "c20_exact_refuted"
   ],
   "note": ""
  },
  {
   "property": "C21",
   "status": "proved",
   "theorems": [
    "c21_macro_free",
    "c21_only"
   ],
   "note": ""
  },
  {
   "property": "C22",
   "status": "proved",
   "theorems": [
    "c22_define",
    "c22_use",
    "c22_eager",
    "c22_undefined"
   ],
   "note": ""
  },
  {
   "property": "C23",
   "status": "proved",
   "theorems": [
    "c23_define",
    "c23_call",
    "c23_define_error"
   ],
   "note": ""
  },
  {
   "property": "C24",
   "status": "proved",
   "theorems": [
    "c24_call",
    "c24_for",
    "c24_match"
   ],
   "note": ""
  },
  {
   "property": "C25",
   "status": "proved",
   "theorems": [
    "c25_binding",
    "c25_pattern",
    "c25_variables",
    "c25_others",
    "c25_too_few",
    "c25_too_many",
    "c25_unknown_keyword"
   ],
   "note": ""
  },
  {
   "property": "C26",
   "status": "proved",
   "theorems": [
    "c26_match",
    "c26_first"
   ],
   "note": ""
  },
  {
   "property": "C27",
   "status": "proved",
   "theorems": [
    "c27_ifdef",
    "c27_lazy",
    "c27_bad"
   ],
   "note": ""
  },
  {
   "property": "C28",
   "status": "proved",
   "theorems": [
    "c28_reverse",
    "c28_twice",
    "c28_unique"
   ],
   "note": ""
  },
  {
   "property": "C29",
   "status": "proved",
   "theorems": [
    "c29_sort",
    "c29_stable",
    "c29_permutation",
    "c29_unique",
    "c29_integers",
    "c29_texts",
    "c29_floats",
    "c29_numbers",
    "c29_mixed_refuted"
   ],
   "note": ""
  },
  {
   "property": "C30",
   "status": "proved",
   "theorems": [
    "c30_join",
    "c30_concat",
    "c30_string",
    "c30_raw",
    "c30_number",
    "c30_symbol"
   ],
   "note": ""
  },
  {
   "property": "C31",
   "status": "proved",
   "theorems": [
    "c31_get",
    "c31_missing",
    "c31_unique",
    "c31_compose"
   ],
   "note": ""
  },
  {
   "property": "C32",
   "status": "proved",
   "theorems": [
    "c32_map",
    "c32_filter",
    "c32_results",
    "c32_splat",
    "c32_list",
    "c32_strip",
    "c32_do",
    "c32_apply",
    "c32_apply_call"
   ],
   "note": ""
  },
  {
   "property": "C33",
   "status": "proved",
   "theorems": [
    "c33_for",
    "c33_rounds"
   ],
   "note": ""
  },
  {
   "property": "C34",
   "status": "proved",
   "theorems": [
    "c34_namespace",
    "c34_unique"
   ],
   "note": ""
  },
  {
   "property": "C35",
   "status": "proved",
   "theorems": [
    "c35_embed",
    "c35_include",
    "c35_first",
    "c35_candidates",
    "c35_directories",
    "c35_order",
    "c35_order_refuted"
   ],
   "note": ""
  },
  {
   "property": "C36",
   "status": "proved",
   "theorems": [
    "c36_binding",
    "c36_disputed",
    "c36_counted",
    "c36_program",
    "c36_output_refuted",
    "c36_place_refuted"
   ],
   "note": ""
  },
  {
   "property": "C37",
   "status": "proved",
   "theorems": [
    "c37_budget",
    "c37_unique",
    "c37_macro_free",
    "c37_macro",
    "c37_variable",
    "c37_include",
    "c37_program",
    "c37_by",
    "c37_get"
   ],
   "note": ""
  },
  {
   "property": "C38",
   "status": "proved",
   "theorems": [
    "c38_arguments",
    "c38_tables",
    "c38_rejected"
   ],
   "note": ""
  },
  {
   "property": "C39",
   "status": "proved",
   "theorems": [
    "c39_document",
    "c39_parts",
    "c39_defined",
    "c39_only",
    "c39_get",
    "c39_syntax",
    "c39_key_panics",
    "c39_stream",
    "c39_every"
   ],
   "note": ""
  },
  {
   "property": "C40",
   "status": "proved",
   "theorems": [
    "c40_document",
    "c40_defined",
    "c40_exact",
    "c40_syntax"
   ],
   "note": ""
  },
  {
   "property": "C41",
   "status": "proved",
   "theorems": [
    "c41_lambda",
    "c41_names",
    "c41_apply",
    "c41_escape_refuted"
   ],
   "note": ""
  },
  {
   "property": "C42",
   "status": "proved",
   "theorems": [
    "c42_meaning",
    "c42_stops",
    "c42_no_target",
    "c42_prints",
    "c42_determined",
    "c42_documented",
    "c42_include_refuted"
   ],
   "note": ""
  },
  {
   "property": "C43",
   "status": "proved",
   "theorems": [
    "c43_direct",
    "c43_namespace",
    "c43_freed",
    "c43_live",
    "c43_no_files",
    "c43_refuted"
   ],
   "note": ""
  },
  {
   "property": "C44",
   "status": "proved",
   "theorems": [
    "c44_attribute",
    "c44_panic_refuted"
   ],
   "note": ""
  },
  {
   "property": "C45",
   "status": "proved",
   "theorems": [
    "c45_date",
    "c45_timestamp",
    "c45_unique",
    "c45_exact",
    "c45_close",
    "c45_day",
    "c45_overflow"
   ],
   "note": ""
  },
  {
   "property": "C46",
   "status": "proved",
   "theorems": [
    "c46_sorted",
    "c46_unsorted",
    "c46_listing",
    "c46_compared",
    "c46_collected",
    "c46_wrong"
   ],
   "note": ""
  },
  {
   "property": "C47",
   "status": "proved",
   "theorems": [
    "c47_parse_whitespace",
    "c47_expanded"
   ],
   "note": ""
  },
  {
   "property": "C48",
   "status": "proved",
   "theorems": [
    "c48_valid",
    "c48_tokens",
    "c48_values"
   ],
   "note": ""
  },
  {
   "property": "C49",
   "status": "proved",
   "theorems": [
    "c49_source",
    "c49_sexp"
   ],
   "note": ""
  },
  {
   "property": "C50",
   "status": "proved",
   "theorems": [
    "c50_refuted",
    "c50_reallocated",
    "c50_capacity",
    "c50_copy"
   ],
   "note": "The claim is refuted by a witness: five nested calls read through a dangling reference."
  },
  {
   "property": "C51",
   "status": "proved",
   "theorems": [
    "c51_panic",
    "c51_hang",
    "c51_smooth",
    "c51_attribute"
   ],
   "note": ""
  },
  {
   "property": "C52",
   "status": "proved",
   "theorems": [
    "c52_error_position",
    "c52_positions",
    "c52_line"
   ],
   "note": ""
  },
  {
   "property": "C53",
   "status": "proved",
   "theorems": [
    "c53_text"
   ],
   "note": ""
  },
  {
   "property": "C54",
   "status": "proved",
   "theorems": [
    "c54_both",
    "c54_front",
    "c54_content",
    "c54_plain",
    "c54_ignored",
    "c54_demanded",
    "c54_unreadable",
    "c54_leftover_refuted"
   ],
   "note": ""
  },
  {
   "property": "C55",
   "status": "proved",
   "theorems": [
    "c55_report",
    "c55_aligned",
    "c55_marked",
    "c55_expansion",
    "c55_main",
    "c55_generation",
    "c55_stage_syntax",
    "c55_stage_expansion",
    "c55_marks_on_line_refuted",
    "c55_always_shown_refuted"
   ],
   "note": ""
  },
  {
   "property": "C56",
   "status": "proved",
   "theorems": [
    "c56_patterns",
    "c56_schema",
    "c56_rejected",
    "c56_tables",
    "c56_overlap_refuted"
   ],
   "note": ""
  },
  {
   "property": "C57",
   "status": "proved",
   "theorems": [
    "c57_arguments",
    "c57_total",
    "c57_unique",
    "c57_call",
    "c57_lazy"
   ],
   "note": ""
  },
  {
   "property": "C58",
   "status": "proved",
   "theorems": [
    "c58_arguments",
    "c58_pattern",
    "c58_unique",
    "c58_total",
    "c58_pattern_total",
    "c58_call",
    "c58_lambda"
   ],
   "note": ""
  },
  {
   "property": "C59",
   "status": "proved",
   "theorems": [
    "c59_log",
    "c59_env",
    "c59_format"
   ],
   "note": ""
  },
  {
   "property": "C60",
   "status": "proved",
   "theorems": [
    "c60_split",
    "c60_joined",
    "c60_characters"
   ],
   "note": ""
  },
  {
   "property": "C61",
   "status": "proved",
   "theorems": [
    "c61_usize",
    "c61_i64",
    "c61_unique",
    "c61_printed"
   ],
   "note": ""
  },
  {
   "property": "C62",
   "status": "proved",
   "theorems": [
    "c62_components",
    "c62_file_name",
    "c62_parent",
    "c62_sex",
    "c62_no_sex",
    "c62_join",
    "c62_join_absolute",
    "c62_extension",
    "c62_order"
   ],
   "note": ""
  },
  {
   "property": "C63",
   "status": "proved",
   "theorems": [
    "c63_program",
    "c63_node",
    "c63_divergence"
   ],
   "note": ""
  },
  {
   "property": "C64",
   "status": "proved",
   "theorems": [
    "c64_log"
   ],
   "note": ""
  },
  {
   "property": "C65",
   "status": "proved",
   "theorems": [
    "c65_first_defect",
    "c65_one_defect",
    "c65_trichotomy"
   ],
   "note": ""
  },
  {
   "property": "C66",
   "status": "proved",
   "theorems": [
    "c66_value",
    "c66_sheet",
    "c66_document",
    "c66_trim",
    "c66_white",
    "c66_quoted"
   ],
   "note": ""
  },
  {
   "property": "C67",
   "status": "proved",
   "theorems": [
    "c67_program",
    "c67_node",
    "c67_nodes",
    "c67_call",
    "c67_sound",
    "c67_silent",
    "c67_unique",
    "c67_visible"
   ],
   "note": ""
  },
  {
   "property": "C68",
   "status": "proved",
   "theorems": [
    "c68_text",
    "c68_sexp",
    "c68_shown",
    "c68_xml",
    "c68_html",
    "c68_lower_case",
    "c68_program"
   ],
   "note": ""
  },
  {
   "property": "C69",
   "status": "proved",
   "theorems": [
    "c69_syntax"
   ],
   "note": ""
  },
  {
   "property": "C70",
   "status": "proved",
   "theorems": [
    "c70_program",
    "c70_budget",
    "c70_silent",
    "c70_determined"
   ],
   "note": ""
  },
  {
   "property": "C71",
   "status": "proved",
   "theorems": [
    "c71_reading",
    "c71_expansion",
    "c71_program",
    "c71_document",
    "c71_lambda_free"
   ],
   "note": ""
  },
  {
   "property": "C72",
   "status": "proved",
   "theorems": [
    "c72_final",
    "c72_again",
    "c72_output",
    "c72_symbol_refuted",
    "c72_unused"
   ],
   "note": ""
  },
  {
   "property": "C73",
   "status": "proved",
   "theorems": [
    "c73_names",
    "c73_exists",
    "c73_legible",
    "c73_text",
    "c73_same",
    "c73_front",
    "c73_ascii"
   ],
   "note": ""
  },
  {
   "property": "C74",
   "status": "proved",
   "theorems": [
    "c74_outcomes",
    "c74_runs",
    "c74_unique",
    "c74_files",
    "c74_variables",
    "c74_clock",
    "c74_quiet",
    "c74_alone",
    "c74_output",
    "c74_symbol_refuted"
   ],
   "note": ""
  },
  {
   "property": "C75",
   "status": "proved",
   "theorems": [
    "c75_program",
    "c75_nodes",
    "c75_runs",
    "c75_unique",
    "c75_name",
    "c75_ending",
    "c75_roundabout_refuted"
   ],
   "note": ""
  },
  {
   "property": "C76",
   "status": "proved",
   "theorems": [
    "c76_nodes",
    "c76_order",
    "c76_runs",
    "c76_unique",
    "c76_order_runs",
    "c76_roundabout_refuted"
   ],
   "note": ""
  },
  {
   "property": "C77",
   "status": "proved",
   "theorems": [
    "c77_growth",
    "c77_text",
    "c77_polynomial_refuted"
   ],
   "note": ""
  },
  {
   "property": "C78",
   "status": "proved",
   "theorems": [
    "c78_result",
    "c78_outcome",
    "c78_ends",
    "c78_decision",
    "c78_depth",
    "c78_steps",
    "c78_text"
   ],
   "note": ""
  },
  {
   "property": "C79",
   "status": "proved",
   "theorems": [
    "c79_nodes",
    "c79_variable",
    "c79_source",
    "c79_bounded_refuted"
   ],
   "note": ""
  },
  {
   "property": "C80",
   "status": "proved",
   "theorems": [
    "c80_sequence",
    "c80_first_failure",
    "c80_never_ends",
    "c80_initial_part",
    "c80_replace",
    "c80_unreachable"
   ],
   "note": ""
  },
  {
   "property": "C81",
   "status": "proved",
   "theorems": [
    "c81_joined",
    "c81_lines",
    "c81_space_refuted",
    "c81_nothing_refuted",
    "c81_error_stays",
    "c81_output_stays",
    "c81_no_lambda"
   ],
   "note": ""
  }
 ]
}