{
 "claims": [
  {
   "property": "C01",
   "status": "proved",
   "theorems": [
    "c01_float",
    "c01_float_closest",
    "c01_float_special",
    "c01_float_cases",
    "c01_float_neg",
    "c01_binary_nil",
    "c01_unary_nil",
    "c01_compare_nil",
    "c01_conditional",
    "c01_int_checked",
    "c01_int_wrapping",
    "c01_int_division",
    "c01_division_panics",
    "c01_int_bitwise",
    "c01_int_not",
    "c01_bool",
    "c01_neg",
    "c01_binary_range"
   ],
   "note": ""
  },
  {
   "property": "C02",
   "status": "proved",
   "theorems": [
    "c02_float_order",
    "c02_float_trichotomy",
    "c02_unordered",
    "c02_total",
    "c02_trichotomy",
    "c02_nil_operand",
    "c02_float",
    "c02_flip"
   ],
   "note": ""
  },
  {
   "property": "C03",
   "status": "proved",
   "theorems": [
    "c03_trusted_embed",
    "c03_embed_trusted",
    "c03_trusted_panics",
    "c03_trusted_total"
   ],
   "note": ""
  },
  {
   "property": "C04",
   "status": "proved",
   "theorems": [
    "c04_history",
    "c04_extend"
   ],
   "note": ""
  },
  {
   "property": "C05",
   "status": "proved",
   "theorems": [
    "c05_pre_run",
    "c05_fby_run",
    "c05_register_fby",
    "c05_register_pre"
   ],
   "note": ""
  },
  {
   "property": "C06",
   "status": "proved",
   "theorems": [
    "c06_flip_run",
    "c06_flip"
   ],
   "note": ""
  },
  {
   "property": "C07",
   "status": "partial",
   "theorems": [
    "c07_then_run",
    "c07_fby_run",
    "c07_then_default",
    "c07_fby_default",
    "c07_then_universal_partial",
    "c07_then_universal_refuted"
   ],
   "note": "The default-mode part of the claim is proved in full. The universal-mode part as stated is refuted (c07_then_universal_refuted: x -> pre z -> y differs from x -> y); it is proved under the condition that the middle operands have a value and are present whenever the first one is."
  },
  {
   "property": "C08",
   "status": "proved",
   "theorems": [
    "c08_absent",
    "c08_first"
   ],
   "note": ""
  },
  {
   "property": "C09",
   "status": "proved",
   "theorems": [
    "c09_stutter",
    "c09_same_present"
   ],
   "note": ""
  },
  {
   "property": "C10",
   "status": "proved",
   "theorems": [
    "c10_distinct",
    "c10_frame",
    "c10_commute"
   ],
   "note": ""
  },
  {
   "property": "C11",
   "status": "proved",
   "theorems": [
    "c11_providers_first",
    "c11_node_order",
    "c11_prog_order"
   ],
   "note": ""
  },
  {
   "property": "C12",
   "status": "proved",
   "theorems": [
    "c12_source",
    "c12_accepts_iff",
    "c12_reasons",
    "c12_components",
    "c12_node"
   ],
   "note": ""
  },
  {
   "property": "C13",
   "status": "proved",
   "theorems": [
    "c13_permutation",
    "c13_node"
   ],
   "note": ""
  },
  {
   "property": "C14",
   "status": "proved",
   "theorems": [
    "c14_order",
    "c14_init",
    "c14_source"
   ],
   "note": ""
  },
  {
   "property": "C15",
   "status": "proved",
   "theorems": [
    "c15_definitions",
    "c15_rejects"
   ],
   "note": ""
  },
  {
   "property": "C16",
   "status": "proved",
   "theorems": [
    "c16_no_bad_read",
    "c16_ordered"
   ],
   "note": "For every accepted program, with or without #[universal_pre], and any input values, no run fails on an out-of-range history access or an unassigned variable; every statement comes after the statements it reads from, including the clocks of registers."
  },
  {
   "property": "C17",
   "status": "proved",
   "theorems": [
    "c17_exact",
    "c17_universal"
   ],
   "note": ""
  },
  {
   "property": "C18",
   "status": "proved",
   "theorems": [
    "c18_equations",
    "c18_unique"
   ],
   "note": ""
  },
  {
   "property": "C19",
   "status": "partial",
   "theorems": [
    "c19_clear_partial",
    "c19_undelayed_partial",
    "c19_instants_partial",
    "c19_call_refuted",
    "c19_pre_call_refuted",
    "c19_universal_refuted",
    "c19_nan_refuted",
    "c19_slow_refuted"
   ],
   "note": "The claim in full is refuted by five accepted programs (c19_..._refuted). Proved for every default-mode program compiled without a recorded error whose expressions do not look before the first instant through calls, whose conditionals with a constant condition have branches on one clock, and that do not compare floats (c19_clear_partial, c19_undelayed_partial, c19_instants_partial)."
  },
  {
   "property": "C20",
   "status": "proved",
   "theorems": [
    "c20_pre_run",
    "c20_pushed_pre"
   ],
   "note": ""
  },
  {
   "property": "C21",
   "status": "partial",
   "theorems": [
    "c21_no_error_partial",
    "c21_refuted"
   ],
   "note": "The claim as stated is refuted (c21_refuted): a default-mode node applying -> to a variable on an explicit clock compiles, and its output is absent at some instants. Proved: if no error was recorded (even if not shown), no operand of a temporal operator at any depth is on an explicit clock (c21_no_error_partial)."
  },
  {
   "property": "C22",
   "status": "partial",
   "theorems": [
    "c22_rejection_reports",
    "c22_rejection_shown",
    "c22_only_clock_errors",
    "c22_no_error_partial",
    "c22_refuted"
   ],
   "note": "Second half proved: no code implies a recorded and shown error. First half refuted (c22_refuted: code generated although EClkTooSlow was recorded); proved that this is the only kind of error that can be recorded with code (c22_only_clock_errors), and that none is when default-mode nodes do not use -> or fby (c22_no_error_partial)."
  },
  {
   "property": "C23",
   "status": "partial",
   "theorems": [
    "c23_program",
    "c23_registers_partial",
    "c23_singleton_refuted",
    "c23_expression",
    "c23_inference"
   ],
   "note": "Proved for every program in the default mode, for every expression, and with #[universal_pre] when no register holds a one-component tuple; refuted with #[universal_pre] for tuples with one component (c23_singleton_refuted)."
  },
  {
   "property": "C24",
   "status": "proved",
   "theorems": [
    "c24_call",
    "c24_unique",
    "c24_recorded",
    "c24_signature"
   ],
   "note": ""
  },
  {
   "property": "C25",
   "status": "partial",
   "theorems": [
    "c25_typed",
    "c25_value",
    "c25_exact_partial",
    "c25_nodes_run",
    "c25_lazy",
    "c25_nan_refuted"
   ],
   "note": "Proved: the constants of an accepted program have values of their types or rustc reports an arithmetic error (c25_typed), the defining expression evaluated in a node is never another value (c25_value), and is exactly this value when no float occurs (c25_exact_partial). The exact claim is refuted with floats: comparisons with NaN are false in a constant and nil in a node (c25_nan_refuted)."
  },
  {
   "property": "C26",
   "status": "proved",
   "theorems": [
    "c26_interface",
    "c26_finite",
    "c26_infinite"
   ],
   "note": ""
  },
  {
   "property": "C27",
   "status": "proved",
   "theorems": [
    "c27_bin_left",
    "c27_clock_left",
    "c27_cmp_chain"
   ],
   "note": ""
  },
  {
   "property": "C28",
   "status": "partial",
   "theorems": [
    "c28_items",
    "c28_references",
    "c28_fields",
    "c28_locals",
    "c28_visible_partial",
    "c28_items_refuted",
    "c28_binders_refuted",
    "c28_types_refuted"
   ],
   "note": "Proved for all crates: generated items, fields and variables are distinct and references stay inside their program (c28_items, c28_references, c28_fields, c28_locals). Interference with visible names is excluded under explicit precautions (c28_visible_partial); without them it is refuted (c28_items_refuted, c28_binders_refuted, c28_types_refuted). Local names inside the macros of candle.rs are not modelled."
  },
  {
   "property": "C29",
   "status": "partial",
   "theorems": [
    "c29_options",
    "c29_wellformed",
    "c29_one_meaning",
    "c29_accepted",
    "c29_generic_partial",
    "c29_generics_refuted"
   ],
   "note": "Proved for all programs: the options of every compiled declaration are exactly what its attribute list means, every attribute of a compiled program has a documented form and applies to its declaration, and applicable attributes are accepted. The last clause (no duplicate type variables) holds for one attribute but is refuted for a declaration: two #[generic[T]] attributes give the list T, T (c29_generics_refuted)."
  },
  {
   "property": "C30",
   "status": "proved",
   "theorems": [
    "c30_identities"
   ],
   "note": ""
  },
  {
   "property": "C31",
   "status": "proved",
   "theorems": [
    "c31_merge_when",
    "c31_nil_clock",
    "c31_all_nil"
   ],
   "note": ""
  },
  {
   "property": "C32",
   "status": "partial",
   "theorems": [
    "c32_same_partial",
    "c32_default_meaning_partial",
    "c32_nested_refuted",
    "c32_literal_refuted"
   ],
   "note": "The claim as stated is refuted by two programs (c32_nested_refuted, c32_literal_refuted). Proved for whole programs, under all modes of their nodes: if no node samples or compares floating point numbers, and operands of fby, left operands of -> and call arguments are defined from instant 0 on, outputs are those of the default mode (c32_same_partial, c32_default_meaning_partial)."
  },
  {
   "property": "C33",
   "status": "partial",
   "theorems": [
    "c33_accepted",
    "c33_expression_partial",
    "c33_streams_partial",
    "c33_constant_if_refuted"
   ],
   "note": "Proved: accepted programs obey the reference clock calculus (c33_accepted), and values are present exactly when their clock is active under the conditions of `clear` (c33_expression_partial, c33_streams_partial). Without the condition on constant conditionals the claim is refuted (c33_constant_if_refuted)."
  },
  {
   "property": "C34",
   "status": "partial",
   "theorems": [
    "c34_undeclared_generic_refuted",
    "c34_unused_generic_refuted",
    "c34_duplicate_generic_refuted",
    "c34_large_literal_refuted",
    "c34_safe_partial"
   ],
   "note": "Refuted as stated by four families of programs (c34_..._refuted). c34_safe_partial shows that there are no other ways to abort: literals and step counts that fit in a machine word, and determined type parameters of the called nodes, suffice."
  },
  {
   "property": "C35",
   "status": "proved",
   "theorems": [
    "c35_float_of_int_rounded",
    "c35_nil",
    "c35_int_of_float_range",
    "c35_int_of_float",
    "c35_truncation",
    "c35_int_of_special",
    "c35_float_of_int",
    "c35_floor",
    "c35_ceil",
    "c35_sign"
   ],
   "note": ""
  },
  {
   "property": "C36",
   "status": "proved",
   "theorems": [
    "c36_if_evaluates_both",
    "c36_guard_no_protection"
   ],
   "note": ""
  },
  {
   "property": "C37",
   "status": "proved",
   "theorems": [
    "c37_depth_exact",
    "c37_accepted"
   ],
   "note": ""
  },
  {
   "property": "C38",
   "status": "partial",
   "theorems": [
    "c38_clash_reported_partial",
    "c38_no_clash_silent",
    "c38_refuted"
   ],
   "note": "The full claim is refuted: #[export] #[test(3)] is silent, #[test(3)] #[export] is reported (c38_refuted). Proved: every other clash is reported, and no clash means no report."
  },
  {
   "property": "C39",
   "status": "proved",
   "theorems": [
    "c39_equations"
   ],
   "note": ""
  },
  {
   "property": "C40",
   "status": "proved",
   "theorems": [
    "c40_floats",
    "c40_closed",
    "c40_range"
   ],
   "note": ""
  },
  {
   "property": "C41",
   "status": "proved",
   "theorems": [
    "c41_program",
    "c41_expression",
    "c41_answer"
   ],
   "note": ""
  },
  {
   "property": "C42",
   "status": "proved",
   "theorems": [
    "c42_unambiguous",
    "c42_spaces",
    "c42_writable"
   ],
   "note": ""
  },
  {
   "property": "C43",
   "status": "partial",
   "theorems": [
    "c43_rendering_partial",
    "c43_expansion_partial",
    "c43_keywords_partial",
    "c43_rendering_refuted",
    "c43_keywords_refuted"
   ],
   "note": "The claim is refuted for the name _, raw identifiers and infinite float literals (c43_rendering_refuted) and for types named by keywords (c43_keywords_refuted). Proved for all programs without these: rendering never aborts (c43_rendering_partial), with the precautions of C34 the macro never aborts (c43_expansion_partial), and no identifier that is not raw is a keyword (c43_keywords_partial)."
  },
  {
   "property": "C44",
   "status": "proved",
   "theorems": [
    "c44_equations",
    "c44_declarations",
    "c44_constants"
   ],
   "note": ""
  },
  {
   "property": "C45",
   "status": "proved",
   "theorems": [
    "c45_accepted",
    "c45_verdict",
    "c45_silent"
   ],
   "note": ""
  },
  {
   "property": "C46",
   "status": "proved",
   "theorems": [
    "c46_linked",
    "c46_separated",
    "c46_wrapped"
   ],
   "note": ""
  },
  {
   "property": "C47",
   "status": "partial",
   "theorems": [
    "c47_format",
    "c47_option",
    "c47_transparent",
    "c47_results",
    "c47_streams",
    "c47_moded",
    "c47_step",
    "c47_run",
    "c47_absent",
    "c47_files",
    "c47_first",
    "c47_default_partial",
    "c47_values",
    "c47_extern",
    "c47_ext_refuted",
    "c47_shadow_refuted"
   ],
   "note": "c47_ext_refuted: the README says that _ext is nothing for local nodes, the code prints six blanks. c47_shadow_refuted: a variable called _this hides the name of the node; c47_default_partial excludes it. Everything else in the statement is proved for all accepted programs (streams: c47_moded in any mode, c47_streams for the default mode). The text of floats is a parameter; format specifications are not modelled."
  },
  {
   "property": "C48",
   "status": "proved",
   "theorems": [
    "c48_sound",
    "c48_init",
    "c48_closed",
    "c48_linked",
    "c48_typed"
   ],
   "note": ""
  },
  {
   "property": "C49",
   "status": "proved",
   "theorems": [
    "c49_blind",
    "c49_replace",
    "c49_origin"
   ],
   "note": ""
  },
  {
   "property": "C50",
   "status": "proved",
   "theorems": [
    "c50_code",
    "c50_accepts",
    "c50_refused",
    "c50_safe",
    "c50_spaces",
    "c50_crate"
   ],
   "note": ""
  },
  {
   "property": "C51",
   "status": "proved",
   "theorems": [
    "c51_same",
    "c51_dropped",
    "c51_runs",
    "c51_clock_refuted",
    "c51_arrow_refuted"
   ],
   "note": ""
  },
  {
   "property": "C52",
   "status": "proved",
   "theorems": [
    "c52_verdict",
    "c52_runs",
    "c52_diagnostics"
   ],
   "note": ""
  },
  {
   "property": "C53",
   "status": "proved",
   "theorems": [
    "c53_removed",
    "c53_code",
    "c53_runs",
    "c53_extern"
   ],
   "note": ""
  },
  {
   "property": "C54",
   "status": "proved",
   "theorems": [
    "c54_exact",
    "c54_fails",
    "c54_reference",
    "c54_unchained",
    "c54_lazy_refuted",
    "c54_extern",
    "c54_extern_fails"
   ],
   "note": ""
  },
  {
   "property": "C55",
   "status": "proved",
   "theorems": [
    "c55_extern",
    "c55_refines",
    "c55_alike"
   ],
   "note": ""
  },
  {
   "property": "C56",
   "status": "proved",
   "theorems": [
    "c56_extern",
    "c56_accepted",
    "c56_runs"
   ],
   "note": ""
  },
  {
   "property": "C57",
   "status": "proved",
   "theorems": [
    "c57_extern",
    "c57_inlined",
    "c57_converse_refuted"
   ],
   "note": ""
  },
  {
   "property": "C58",
   "status": "proved",
   "theorems": [
    "c58_extern",
    "c58_rewritten",
    "c58_laws",
    "c58_runs"
   ],
   "note": ""
  },
  {
   "property": "C59",
   "status": "proved",
   "theorems": [
    "c59_extern",
    "c59_split"
   ],
   "note": ""
  },
  {
   "property": "C60",
   "status": "proved",
   "theorems": [
    "c60_observed",
    "c60_fails",
    "c60_rows"
   ],
   "note": ""
  },
  {
   "property": "C61",
   "status": "proved",
   "theorems": [
    "c61_slice",
    "c61_alike"
   ],
   "note": ""
  },
  {
   "property": "C62",
   "status": "proved",
   "theorems": [
    "c62_simpler",
    "c62_runs"
   ],
   "note": ""
  }
 ]
}