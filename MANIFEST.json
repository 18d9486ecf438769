{
 "claims": [
  {
   "property": "C01",
   "status": "proved",
   "theorems": [
    "C01_linecol_exact",
    "C01_linecol_unique",
    "C01_linecol_roundtrip",
    "C01_linecol_injective",
    "C01_linecol_fails"
   ],
   "note": "Bisection and newline table modelled exactly; positions are integers, the text any list of code points."
  },
  {
   "property": "C02",
   "status": "proved",
   "theorems": [
    "C02_repl_splice",
    "C02_repl_order_irrelevant",
    "C02_repl_overlap_fails",
    "C02_repl_backward_refuted"
   ],
   "note": "Sort and splice loop; includes the refuted behaviour for backward spans."
  },
  {
   "property": "C03",
   "status": "proved",
   "theorems": [
    "C03_messages_exact",
    "C03_line_col"
   ],
   "note": "Message dictionary and final print loop; output as structured lines."
  },
  {
   "property": "C04",
   "status": "proved",
   "theorems": [
    "C04_decode_is_scan",
    "C04_decode_lt_fails",
    "C04_decode_escape"
   ],
   "note": "Five sequential replacements equal one left-to-right scan; escape/decode round trip."
  },
  {
   "property": "C05",
   "status": "proved",
   "theorems": [
    "C05_registry_history",
    "C05_registry_failure_is_noop"
   ],
   "note": "Whole operation histories over any key type with decidable equality."
  },
  {
   "property": "C06",
   "status": "proved",
   "theorems": [
    "C06_tokenize_sound",
    "C06_longest_unique",
    "C06_tokenize_complete",
    "C06_tokenize_error",
    "C06_tokenize_error_complete",
    "C06_tokenize_terminates",
    "C06_tokenize_empty_match_loops_refuted"
   ],
   "note": "Match-length functions are arbitrary; non-termination on empty matches is proved for every fuel."
  },
  {
   "property": "C07",
   "status": "proved",
   "theorems": [
    "C07_scan_outcome",
    "C07_scan_terminates",
    "C07_other_kinds",
    "C07_scan_partition",
    "C07_scan_empty_pattern_loops_refuted"
   ],
   "note": "Matchers are arbitrary functions; sections are scanned exactly as a first-match partition."
  },
  {
   "property": "C08",
   "status": "proved",
   "theorems": [
    "C08_different_types",
    "C08_same_type",
    "C08_accessors",
    "C08_type_name",
    "C08_items",
    "C08_type_name_hidden_refuted",
    "C08_wrong_arity"
   ],
   "note": "Tagged tuples with Python tuple comparison; includes the refuted case of a field named T."
  },
  {
   "property": "C09",
   "status": "proved",
   "theorems": [
    "C09_total",
    "C09_components"
   ],
   "note": "Set iteration orders are covered because the history fixes the order of vertices and successors and the theorem holds for every history."
  },
  {
   "property": "C10",
   "status": "proved",
   "theorems": [
    "C10_prerequisites_first"
   ],
   "note": "Stated over the history of add_vertex/add_arc calls."
  },
  {
   "property": "C11",
   "status": "proved",
   "theorems": [
    "C11_levels",
    "C11_other_orders_never_return"
   ],
   "note": "Both halves: exact longest-path levels on fresh runs; every list violating prerequisites-first order never returns."
  },
  {
   "property": "C12",
   "status": "proved",
   "theorems": [
    "C12_flags_and_prerequisites"
   ],
   "note": "Flags, prerequisite lists exact; the assertion cannot fail since C09_total holds."
  },
  {
   "property": "C13",
   "status": "proved",
   "theorems": [
    "C13_first_clusters_persist",
    "C13_isolation_refuted"
   ],
   "note": "General persistence theorem and a refuting history ending in AssertionError."
  },
  {
   "property": "C14",
   "status": "proved",
   "theorems": [
    "C14_terminates",
    "C14_well_formed",
    "C14_distinct_items_refuted"
   ],
   "note": "Includes a termination proof for every finite item system, and a refutation of 'distinct states have distinct item sets' (kernels keep repetitions)."
  },
  {
   "property": "C15",
   "status": "proved",
   "theorems": [
    "C15_closure"
   ],
   "note": "Exact epsilon closure."
  },
  {
   "property": "C16",
   "status": "proved",
   "theorems": [
    "C16_runs",
    "C16_items",
    "C16_deterministic"
   ],
   "note": "Runs are exactly item paths; determinism included."
  },
  {
   "property": "C17",
   "status": "proved",
   "theorems": [
    "C17_accessor_reaches",
    "C17_accessor_shortest",
    "C17_no_exception"
   ],
   "note": "Accessors are valid and shortest; no exception is possible."
  },
  {
   "property": "C18",
   "status": "proved",
   "theorems": [
    "C18_tiles",
    "C18_depth",
    "C18_placement",
    "C18_balance",
    "C18_never_negative",
    "C18_accepts",
    "C18_odd_rejected",
    "C18_initial",
    "C18_error_report_refuted"
   ],
   "note": "The regex alternatives for end and newline are modelled exactly, all other patterns are an arbitrary function; includes acceptance/rejection and the refuted error report."
  },
  {
   "property": "C19",
   "status": "proved",
   "theorems": [
    "C19_accepts",
    "C19_tiles",
    "C19_text",
    "C19_stops"
   ],
   "note": "Acceptance is characterised exactly by a nesting relation; the regular expressions are an arbitrary lexing function that makes progress."
  },
  {
   "property": "C20",
   "status": "proved",
   "theorems": [
    "C20_sound",
    "C20_leaf",
    "C20_tag_fails",
    "C20_only_tags_fail",
    "C20_leaf_start_refuted"
   ],
   "note": "Soundness, exact positive case, exact failing case, and a refutation of unconditional success at leaf starts."
  },
  {
   "property": "C21",
   "status": "proved",
   "theorems": [
    "C21_split",
    "C21_partition",
    "C21_list_refuted"
   ],
   "note": "The hierarchy is any that TNode calls can build with List a leaf, as it is in the code's hierarchy. Values are the leaves. The overlap for list types is a theorem with a witness."
  },
  {
   "property": "C22",
   "status": "proved",
   "theorems": [
    "C22_total",
    "C22_reflexive",
    "C22_transitive",
    "C22_sound",
    "C22_complete",
    "C22_TBD_reflexive_refuted"
   ],
   "note": "Soundness is proved for all types but procedure types (those are C24) against a separate definition of the values of a type; completeness needs a reduced second type, which is what union_of_types gives."
  },
  {
   "property": "C23",
   "status": "proved",
   "theorems": [
    "C23_values",
    "C23_order",
    "C23_antichain",
    "C23_canonical",
    "C23_antichain_refuted",
    "C23_list_refuted",
    "C23_covers",
    "C23_one_list"
   ],
   "note": "The antichain clause holds only without List among the members; both failures around List are theorems with witnesses. Canonicity assumes that no node of the hierarchy has exactly one child."
  },
  {
   "property": "C24",
   "status": "proved",
   "theorems": [
    "C24_params_ignored",
    "C24_returns",
    "C24_arity",
    "C24_contravariance_refuted"
   ],
   "note": "The parameter check is a generator that is never consumed; the model follows that."
  },
  {
   "property": "C25",
   "status": "proved",
   "theorems": [
    "C25_sound",
    "C25_exact",
    "C25_unreachable",
    "C25_all_unreachable",
    "C25_incompatible",
    "C25_TBD_refuted"
   ],
   "note": "For hierarchy types and unions of them (C23 shows what goes wrong with list types). The failure for unknown types is a theorem with a witness."
  },
  {
   "property": "C26",
   "status": "proved",
   "theorems": [
    "C26_sound",
    "C26_exact",
    "C26_unnecessary",
    "C26_assert_errors",
    "C26_assert_not_raises",
    "C26_assert_not_errors",
    "C26_narrowed"
   ],
   "note": "with_type_test is modelled from the result of tc_expr on; the store gives a value to each expression text."
  },
  {
   "property": "C27",
   "status": "proved",
   "theorems": [
    "C27_exact",
    "C27_limit"
   ],
   "note": "parameter names numbered"
  },
  {
   "property": "C28",
   "status": "proved",
   "theorems": [
    "C28_sound",
    "C28_text"
   ],
   "note": "Any constraints, any source of terminals, also one with a state of its own such as SyntacticTIP (a place is a position together with a state): the answers of the source are part of the statement. Nodes are compared structurally; the model comment argues why this agrees with identity."
  },
  {
   "property": "C29",
   "status": "proved",
   "theorems": [
    "C29_complete",
    "C29_complete_all",
    "C29_stream",
    "C29_halts",
    "C29_cyclic_loops"
   ],
   "note": "Text: termination and both directions for every grammar in which no symbol derives itself, and divergence for every input with infinitely many derivations. Streams: C29_complete_all for sources whose answers do not depend on the history; C29_stream for every source that answers with terminals it was asked for, where the answers given in the run define the language; C29_halts for every source that is used up. Python's recursion limit is not modelled."
  },
  {
   "property": "C30",
   "status": "proved",
   "theorems": [
    "C30_longest"
   ],
   "note": "For every grammar, constraints and text; holds for every fuel, so also for cyclic grammars whenever the parser answers."
  },
  {
   "property": "C31",
   "status": "proved",
   "theorems": [
    "C31_exact"
   ],
   "note": "the names beside the markers are not modelled (unused by the code)"
  },
  {
   "property": "C32",
   "status": "proved",
   "theorems": [
    "C32_sound",
    "C32_bits",
    "C32_complete",
    "C32_complete_refuted",
    "C32_message_refuted"
   ],
   "note": "soundness for all; completeness for unambiguous definitions and refuted in general; also: error messages can be made for pairs that do not match"
  },
  {
   "property": "C33",
   "status": "proved",
   "theorems": [
    "C33_exact",
    "C33_success",
    "C33_failure"
   ],
   "note": "right-hand sides reduced to what check_reachability looks at; order of the report not modelled"
  },
  {
   "property": "C34",
   "status": "proved",
   "theorems": [
    "C34_reference",
    "C34_unbound",
    "C34_introduce",
    "C34_assign",
    "C34_gone"
   ],
   "note": "all histories of a frame that start with its first contour; _NcapturingParens_ not modelled"
  },
  {
   "property": "C35",
   "status": "proved",
   "theorems": [
    "C35_sound",
    "C35_complete",
    "C35_result",
    "C35_no_return",
    "C35_contours"
   ],
   "note": "constructs without control flow are arbitrary functions; expression evaluation is the interpreter's own"
  },
  {
   "property": "C36",
   "status": "proved",
   "theorems": [
    "C36_balanced",
    "C36_below",
    "C36_escape",
    "C36_crash_steps",
    "C36_crash_rules",
    "C36_keyerror"
   ],
   "note": "balanced when a value is given; the crash cases are proved for every state and program"
  },
  {
   "property": "C37",
   "status": "proved",
   "theorems": [
    "C37_numbers",
    "C37_unique",
    "C37_unique_refuted",
    "C37_success"
   ],
   "note": "uniqueness needs at most one introduction (refuted otherwise)"
  },
  {
   "property": "C38",
   "status": "proved",
   "theorems": [
    "C38_order",
    "C38_prototype_first",
    "C38_success",
    "C38_cycle"
   ],
   "note": "names numbered in their order; cyclic prototypes: no result for any fuel"
  },
  {
   "property": "C39",
   "status": "proved",
   "theorems": [
    "C39_merge",
    "C39_mixed_refuted",
    "C39_kind"
   ],
   "note": "also refuted: merged attributes always have a kind"
  },
  {
   "property": "C40",
   "status": "proved",
   "theorems": [
    "C40_exact",
    "C40_answers",
    "C40_inherited",
    "C40_async_refuted",
    "C40_within"
   ],
   "note": "exact when an answer is given; refuted for async functions etc. (AssertionError)"
  },
  {
   "property": "C41",
   "status": "proved",
   "theorems": [
    "C41_sound",
    "C41_exact"
   ],
   "note": "Types are hierarchy types, unions of them, or unknown."
  },
  {
   "property": "C42",
   "status": "proved",
   "theorems": [
    "C42_exact",
    "C42_fail"
   ],
   "note": "the expanded name is modelled as the list of its settings"
  },
  {
   "property": "C43",
   "status": "proved",
   "theorems": [
    "C43_success",
    "C43_exact",
    "C43_order",
    "C43_ccb_refuted"
   ],
   "note": "forms of [[ccb]] values modelled as constructors; order-dependence of [[ccb]] refuted by witness"
  },
  {
   "property": "C44",
   "status": "proved",
   "theorems": [
    "C44_parts",
    "C44_count",
    "C44_success"
   ],
   "note": "assertion about inline children not modelled"
  },
  {
   "property": "C45",
   "status": "proved",
   "theorems": [
    "C45_defaults",
    "C45_values",
    "C45_length_refuted"
   ],
   "note": "how the default values of length and name are found is not modelled"
  },
  {
   "property": "C46",
   "status": "proved",
   "theorems": [
    "C46_restored",
    "C46_refuted",
    "C46_algorithms_refuted"
   ],
   "note": "positive part for completed rules without algorithm; refuted by witness otherwise"
  },
  {
   "property": "C47",
   "status": "proved",
   "theorems": [
    "C47_in_turn",
    "C47_endless"
   ],
   "note": "iteration in order for unchanged Lists; non-termination for every amount of fuel otherwise"
  },
  {
   "property": "C48",
   "status": "proved",
   "theorems": [
    "C48_text",
    "C48_tokens",
    "C48_end",
    "C48_new"
   ],
   "note": "the lexical parser is an arbitrary function that returns pieces of the text"
  },
  {
   "property": "C49",
   "status": "proved",
   "theorems": [
    "C49_no_line_terminator",
    "C49_frontier",
    "C49_lookahead",
    "C49_no_token_refuted"
   ],
   "note": "IndexError before the first token refuted by example (C49_no_token_refuted)"
  },
  {
   "property": "C50",
   "status": "proved",
   "theorems": [
    "C50_kludge",
    "C50_decision",
    "C50_goal",
    "C50_total",
    "C50_once"
   ],
   "note": "three-way decision with all conditions; totality; no position twice; which productions make the kludge value (C50_kludge)"
  },
  {
   "property": "C51",
   "status": "proved",
   "theorems": [
    "C51_tree",
    "C51_tree_plain",
    "C51_reparse",
    "C51_fails",
    "C51_start_refuted",
    "C51_insert_refuted"
   ],
   "note": "the positive part for all states of a parse; the tree that a second parse returns (C51_tree, C51_tree_plain); two refutations with concrete texts"
  },
  {
   "property": "C52",
   "status": "proved",
   "theorems": [
    "C52_whole",
    "C52_error",
    "C52_halts",
    "C52_lexical"
   ],
   "note": "The Earley model run on the token source model. The lexical parser is an arbitrary function with the laws stated (what lexical_earley returns for a given lexical grammar is C28-C30); that it agrees with them for the ECMAScript grammar is not shown. Lookahead restrictions are judged in the state of the token source at that point (C49)."
  },
  {
   "property": "C53",
   "status": "proved",
   "theorems": [
    "C53_exact",
    "C53_common",
    "C53_alternatives",
    "C53_optional",
    "C53_total",
    "C53_lookahead_refuted",
    "C53_optional_terminal_refuted",
    "C53_optional_literal_refuted"
   ],
   "note": "For all grammars that meet well_formed (names free of + ~ ?, distinct left-hand sides, optional literals not spelt like a nonterminal, none of the three features for which refutations are given). Derivations are over an arbitrary reading of terminals and constraints; how the parser reads them is C29, C48-C52."
  },
  {
   "property": "C54",
   "status": "proved",
   "theorems": [
    "C54_within",
    "C54_siblings",
    "C54_makes",
    "C54_text",
    "C54_text_leaves"
   ],
   "note": "That the leaves are in order is a hypothesis; for parses of a text it follows from C52."
  },
  {
   "property": "C55",
   "status": "proved",
   "theorems": [
    "C55_chain",
    "C55_default",
    "C55_neither",
    "C55_optional_terminal_refuted"
   ],
   "note": "The early part of the function (evaluating focus and arguments) and the execution of the definition (C34-C36) are not part of this model."
  },
  {
   "property": "C56",
   "status": "proved",
   "theorems": [
    "C56_traversal",
    "C56_uncovered",
    "C56_late_cover_refuted",
    "C56_errors",
    "C56_nested",
    "C56_nested_error",
    "C56_exception_refuted"
   ],
   "note": "Executing a rule is an arbitrary function of the state; that covers persist is C58_persist."
  },
  {
   "property": "C57",
   "status": "proved",
   "theorems": [
    "C57_ancestors",
    "C57_nested",
    "C57_targets",
    "C57_shared_refuted"
   ],
   "note": ""
  },
  {
   "property": "C58",
   "status": "proved",
   "theorems": [
    "C58_first",
    "C58_again",
    "C58_persist",
    "C58_other_name_refuted"
   ],
   "note": "The parse itself is an arbitrary function (see C51, C52)."
  },
  {
   "property": "C59",
   "status": "proved",
   "theorems": [
    "C59_unit_symbol",
    "C59_unit_production",
    "C59_contains"
   ],
   "note": ""
  },
  {
   "property": "C60",
   "status": "proved",
   "theorems": [
    "C60_report",
    "C60_sound",
    "C60_total",
    "C60_optionals",
    "C60_optional_terminal_refuted"
   ],
   "note": "Tightened reading: trees with an optional terminal present are excluded by hypothesis and shown to fail by C60_optional_terminal_refuted. Exceptions are an arbitrary predicate."
  },
  {
   "property": "C61",
   "status": "proved",
   "theorems": [
    "C61_keys",
    "C61_keys_embed",
    "C61_keys_complete",
    "C61_first",
    "C61_messages",
    "C61_silent"
   ],
   "note": "Messages about suppressed arguments and annotations of a pair are not modelled."
  },
  {
   "property": "C62",
   "status": "proved",
   "theorems": [
    "C62_program",
    "C62_command",
    "C62_condition",
    "C62_stale_refuted",
    "C62_not_both_refuted",
    "C62_list_refuted",
    "C62_no_way_on_raises",
    "C62_mixed_return_raises"
   ],
   "note": "Type tests are restricted to variables in C62_program, C62_command and C62_condition (for tests of invocations see C62_stale_refuted). Types are hierarchy types or unions of them; environments start without unknown types. An assertion whose condition the analysis has no types for (Opaque, Never, NotBoth) is taken to hold. Operations that return completion records, nested invocations and the special cases for single steps are not modelled."
  },
  {
   "property": "C63",
   "status": "proved",
   "theorems": [
    "C63_settled",
    "C63_log",
    "C63_declared",
    "C63_summaries",
    "C63_gives_up",
    "C63_all_given",
    "C63_whole",
    "C63_skipped_arc_refuted",
    "C63_six_passes_refuted"
   ],
   "note": "The analysis of one definition is an arbitrary function of the summaries and the environment (for its commands see C62). C63_settled takes the order of the clusters as a hypothesis; C63_whole derives it from compute_dependency_levels. C63_skipped_arc_refuted and C63_six_passes_refuted are witnesses for the two exceptions. Printing, the files written and the fake nodes at which messages are installed are not modelled."
  },
  {
   "property": "C64",
   "status": "proved",
   "theorems": [
    "C64_resolve",
    "C64_map",
    "C64_check",
    "C64_sound",
    "C64_left_out_refuted",
    "C64_ordinal_refuted",
    "C64_first_of_one_refuted",
    "C64_test",
    "C64_test_possible",
    "C64_second_test"
   ],
   "note": "The species of the algorithm and the contours of the frame are not modelled. Terminals share one key of the map, which is never looked up. What a node fits is given by the relation fits between a production as written and the children; names_ok, nt: names of nonterminals do not end with a question mark."
  },
  {
   "property": "C65",
   "status": "proved",
   "theorems": [
    "C65_child",
    "C65_child_fails",
    "C65_optional_child_refuted",
    "C65_contains",
    "C65_two_refuted",
    "C65_two_when",
    "C65_number",
    "C65_two_distinct",
    "C65_containing"
   ],
   "note": "The four conditions share one method in the code. Nodes are told apart by id; C65_number and C65_two_distinct assume that ids within a tree are different."
  },
  {
   "property": "C66",
   "status": "proved",
   "theorems": [
    "C66_what_is_written_is_read",
    "C66_only_what_is_written_is_read",
    "C66_accepted_wherever_it_stands",
    "C66_symbol_after_but_not_refuted"
   ],
   "note": "The part of Python's re that the patterns use is modelled as a backtracking matcher; which characters beyond ASCII are word characters is a parameter. C66_symbol_after_but_not_refuted is an observation."
  },
  {
   "property": "C67",
   "status": "proved",
   "theorems": [
    "C67_messages_are_true",
    "C67_the_only_failures",
    "C67_odd_columns_fail",
    "C67_not_full_fails",
    "C67_odd_indentation_refuted",
    "C67_chars_on_a_line_refuted",
    "C67_one_excluded_refuted",
    "C67_runs_over_refuted"
   ],
   "note": "The refuted theorems are the four situations in which an assertion fails instead of a message being given."
  },
  {
   "property": "C68",
   "status": "proved",
   "theorems": [
    "C68_or",
    "C68_and",
    "C68_unless",
    "C68_parts",
    "C68_references",
    "C68_alternative",
    "C68_where",
    "C68_call"
   ],
   "note": "Constructs without control flow, focus references and the choice of algorithm are parameters of the model."
  },
  {
   "property": "C69",
   "status": "proved",
   "theorems": [
    "C69_kept",
    "C69_only_rules_record",
    "C69_if",
    "C69_for_each",
    "C69_algorithm",
    "C69_apply",
    "C69_all_rules"
   ],
   "note": "The scope problem of abandoned rules is C46_refuted; here the state in which later rules are executed is the one the earlier left behind."
  },
  {
   "property": "C70",
   "status": "proved",
   "theorems": [
    "C70_tree",
    "C70_ensure",
    "C70_hierarchy",
    "C70_order",
    "C70_down",
    "C70_up",
    "C70_dual",
    "C70_depth",
    "C70_root_refuted",
    "C70_constructor_refuted"
   ],
   "note": "Histories are sequences of calls of ensure_RecordSchema, of the constructor with a new name, and of the add methods by registered names."
  },
  {
   "property": "C71",
   "status": "proved",
   "theorems": [
    "C71_add_field",
    "C71_add_method",
    "C71_add_defn",
    "C71_fields",
    "C71_no_shadow",
    "C71_one_declaration",
    "C71_shadow_refuted",
    "C71_declarers",
    "C71_all_declarers",
    "C71_all_declarers_refuted"
   ],
   "note": "Declarations are represented by numbers; their types are not modelled here."
  },
  {
   "property": "C72",
   "status": "proved",
   "theorems": [
    "C72_accepts",
    "C72_fails",
    "C72_duplicates",
    "C72_names",
    "C72_references",
    "C72_unreferenced",
    "C72_result",
    "C72_clean",
    "C72_search",
    "C72_split",
    "C72_kebab",
    "C72_dashes",
    "C72_letters",
    "C72_nested_refuted"
   ],
   "note": "str.lower and the word characters beyond ASCII are parameters. Elements are names, positions, attributes, text, children."
  },
  {
   "property": "C73",
   "status": "proved",
   "theorems": [
    "C73_trailing",
    "C73_blank_lines",
    "C73_blank_lines_none",
    "C73_start_refuted",
    "C73_end_clause",
    "C73_characters"
   ],
   "note": "Regular expressions are modelled as matchers at a position with finditer; messages are positions."
  },
  {
   "property": "C74",
   "status": "proved",
   "theorems": [
    "C74_silent",
    "C74_failures",
    "C74_messages",
    "C74_once",
    "C74_first",
    "C74_prefix",
    "C74_depth",
    "C74_tab_refuted"
   ],
   "note": "Elements are given by name, positions, the two child-name tests, class and children. Inner positions are assumed to exist (an element without end tag whose tag is spread over several lines is not modelled)."
  },
  {
   "property": "C75",
   "status": "proved",
   "theorems": [
    "C75_accepts",
    "C75_fails",
    "C75_result",
    "C75_messages",
    "C75_grammars",
    "C75_one_level",
    "C75_consistent",
    "C75_goals",
    "C75_terminals",
    "C75_annex_refuted",
    "C75_arrow_refuted"
   ],
   "note": "Theorems in Properties_Defs.v over M_Defs.v: the reader's nodes are given as a tree of productions with node numbers; arena, augments, name patterns, info_for_nt_, both loops, make_grammars and do_left_right_stuff follow the source. Items other than GNT and RHS_SYMBOL_QM are kept only by the names below them."
  },
  {
   "property": "C76",
   "status": "proved",
   "theorems": [
    "C76_accepts",
    "C76_fails",
    "C76_messages",
    "C76_silent"
   ],
   "note": "Theorems in Properties_Refs.v over M_Refs.v. What check_non_defining_prodns stored on a right-hand side (doc_i, left-hand side, d_i) is given; (-1, -1) is modelled as the absence of a previous key."
  },
  {
   "property": "C77",
   "status": "proved",
   "theorems": [
    "C77_accepts",
    "C77_fails",
    "C77_messages",
    "C77_silent"
   ],
   "note": "Over the dictionaries that process_defining_emu_grammars builds (M_Defs.v). Positions of left-hand sides are given by an injective function of the production."
  },
  {
   "property": "C78",
   "status": "proved",
   "theorems": [
    "C78_found",
    "C78_accepts",
    "C78_fails",
    "C78_messages",
    "C78_silent",
    "C78_letter_refuted",
    "C78_mark_refuted"
   ],
   "note": "Over the dictionaries of M_Defs.v. The three regular expressions and str.find are modelled as functions and proved equal to declarative descriptions; which characters beyond ASCII match \\\\w is a parameter."
  },
  {
   "property": "C79",
   "status": "proved",
   "theorems": [
    "C79_exact",
    "C79_sees",
    "C79_never_misses",
    "C79_equivalence",
    "C79_numbers",
    "C79_number_refuted",
    "C79_symbol_refuted",
    "C79_object_refuted",
    "C79_description",
    "C79_answers",
    "C79_fails",
    "C79_is",
    "C79_neither"
   ],
   "note": "Refuted parts: C79_number_refuted, C79_symbol_refuted, C79_object_refuted (dataclass equality of classes whose value is not a dataclass field). Records, Agents and descriptions that need the static types are outside the model."
  },
  {
   "property": "C80",
   "status": "proved",
   "theorems": [
    "C80_duplicates",
    "C80_contains",
    "C80_more_than_one",
    "C80_also_occurs",
    "C80_in_neither",
    "C80_empty",
    "C80_nonterminals",
    "C80_nonterminals_answers",
    "C80_concat",
    "C80_append",
    "C80_number",
    "C80_not_a_list",
    "C80_numbers_refuted",
    "C80_of_form",
    "C80_of_form_names"
   ],
   "note": "Refuted part: C80_numbers_refuted."
  },
  {
   "property": "C81",
   "status": "proved",
   "theorems": [
    "C81_from_python",
    "C81_there_and_back",
    "C81_to_python_refuted",
    "C81_reserved",
    "C81_code_unit",
    "C81_code_point",
    "C81_code_unit_of_code_point",
    "C81_whole_quotient_refuted",
    "C81_code_unit_literal",
    "C81_code_unit_literal_only",
    "C81_short_literal_refuted",
    "C81_starred_str",
    "C81_concat",
    "C81_concat_fails",
    "C81_more_than_once",
    "C81_other_than",
    "C81_contains",
    "C81_contains_fails",
    "C81_number",
    "C81_number_all",
    "C81_bmp"
   ],
   "note": "Refuted parts: C81_to_python_refuted, C81_whole_quotient_refuted, C81_short_literal_refuted."
  },
  {
   "property": "C82",
   "status": "proved",
   "theorems": [
    "C82_integers",
    "C82_modulo",
    "C82_modulo_zero",
    "C82_power",
    "C82_quotient_nearest",
    "C82_quotient_exact",
    "C82_quotient_zero",
    "C82_floor",
    "C82_floor_refuted",
    "C82_quotient_refuted",
    "C82_surrogates",
    "C82_comparisons",
    "C82_comparators_refuted",
    "C82_between",
    "C82_decimal",
    "C82_hex",
    "C82_digits",
    "C82_digits_negative",
    "C82_number",
    "C82_number_refuted"
   ],
   "note": "Refuted parts: C82_floor_refuted, C82_quotient_refuted, C82_comparators_refuted, C82_number_refuted. Infinite and NaN floats, int ** negative int and the decimal representation of floats are outside the model."
  },
  {
   "property": "C83",
   "status": "proved",
   "theorems": [
    "C83_char_set",
    "C83_sets",
    "C83_gathers",
    "C83_words",
    "C83_matches",
    "C83_answers",
    "C83_tilde_refuted",
    "C83_but_not",
    "C83_but_not_answers",
    "C83_lookahead",
    "C83_digits",
    "C83_surrogates",
    "C83_property",
    "C83_pseudocode",
    "C83_one_of_refuted",
    "C83_agree",
    "C83_agree_refuted"
   ],
   "note": "Refuted parts: C83_tilde_refuted, C83_one_of_refuted, C83_agree_refuted. unicodedata.category is a parameter; ucd assumes of it that no pattern character other than U+2E2F is a letter, mark, digit or connector, which is true of the Unicode data. Lookahead with sequences of several terminals (an AssertionError in the code) is outside C83_lookahead."
  },
  {
   "property": "C84",
   "status": "proved",
   "theorems": [
    "C84_reports",
    "C84_fails",
    "C84_clean",
    "C84_expressions",
    "C84_one_reading",
    "C84_matching",
    "C84_one_comment",
    "C84_two_comments",
    "C84_tables",
    "C84_no_place_refuted",
    "C84_dead_pattern_refuted",
    "C84_figure_in_algorithm",
    "C84_figure_in_algorithm_refuted",
    "C84_stray_cell_refuted",
    "C84_between_anchors_refuted",
    "C84_two_comments_refuted",
    "C84_first_spaces_refuted"
   ],
   "note": "All checks are proved exact against an inductive list of complaints that does not use the functions of the model; content models are read against a grammar of expressions and matched against the language they denote. The patterns of attribute values are a parameter (re.fullmatch). Refuted: a stray cell ends the run; two comments in a row, a space between anchors and a figure in an algorithm are reported though allowed; spaces at the start of the text can be overlooked."
  },
  {
   "property": "C85",
   "status": "proved",
   "theorems": [
    "C85_lines",
    "C85_frontmatter",
    "C85_one_meaning",
    "C85_keys",
    "C85_block_text",
    "C85_outcome",
    "C85_runs",
    "C85_not_counted",
    "C85_fails",
    "C85_first_key_refuted",
    "C85_first_key",
    "C85_list_stops_refuted",
    "C85_module_refuted",
    "C85_space_refuted",
    "C85_bar_refuted",
    "C85_comment_refuted",
    "C85_marks_refuted"
   ],
   "note": "The parser of the front matter is proved equivalent, in both directions, to an inductive definition of blocks of lines; the outcome of test_one is proved equivalent to an inductive verdict. Messages printed before a failing assertion are not kept in the model (the failure ends the run). Reading the file and walking the directories are outside. Refuted: first key with a block value, lists, module counted twice, spaces in flags, comments, overlapping marks."
  },
  {
   "property": "C86",
   "status": "proved",
   "theorems": [
    "C86_vars_exact",
    "C86_vars_total",
    "C86_vars_skipped",
    "C86_vars_order",
    "C86_vars_each",
    "C86_neighbour_refuted",
    "C86_beginning_refuted",
    "C86_use_before_def_refuted",
    "C86_never_used_refuted"
   ],
   "note": "Refuted parts: neighbours of replacements of steps, the first 100 characters, use before definition, parameters never used. The exactness theorem asks for a whole algorithm (no mark shortly before it), totality for trees of the grammar's forms."
  },
  {
   "property": "C87",
   "status": "proved",
   "theorems": [
    "C87_ifs_exact",
    "C87_balanced",
    "C87_commonprefix",
    "C87_ifs_order",
    "C87_perform_refuted",
    "C87_set_field_refuted"
   ],
   "note": "Refuted parts: 'perform' and setting fields in both branches. Hypothesis ifs_formed: If-commands as in pseudocode.grammar:231-252."
  },
  {
   "property": "C88",
   "status": "proved",
   "theorems": [
    "C88_descs_exact",
    "C88_word_unique",
    "C88_alternatives",
    "C88_contexts",
    "C88_stops_refuted"
   ],
   "note": "Refuted part: two descriptions and one place of the grammar stop the run. Hypothesis descs_formed: known terms in known places; C88_alternatives and C88_contexts say which of the grammar's are."
  },
  {
   "property": "C89",
   "status": "proved",
   "theorems": [
    "C89_runs",
    "C89_stops",
    "C89_callees",
    "C89_undeclared",
    "C89_unreached",
    "C89_labels",
    "C89_static",
    "C89_crossing",
    "C89_runtimey",
    "C89_runtimey_exact",
    "C89_invocations",
    "C89_complaints",
    "C89_runtimey_refuted"
   ],
   "note": "Refuted part: callers holds names of functions and operations alike, so the function Set makes the operation Set count as a caller. Hypothesis: names of operations (and of functions) are distinct, being the keys of a dictionary. Python's recursion limit is not modelled."
  },
  {
   "property": "C90",
   "status": "proved",
   "theorems": [
    "C90_invocations",
    "C90_passing",
    "C90_expr",
    "C90_current_realm_refuted",
    "C90_set_fields_refuted"
   ],
   "note": "Hypotheses: trees by the listed productions (built), the two commands that are not in the grammar do not occur, _operation_ is called with the two arguments that the code asserts (plain). Refuted parts: C.[[X]](...) and the command that sets fields. C90_passing and C90_expr state two single productions outright."
  },
  {
   "property": "C91",
   "status": "proved",
   "theorems": [
    "C91_optional_parameters",
    "C91_same_arguments",
    "C91_the_refuted"
   ],
   "note": "Hypothesis: invocations of the three forms the code knows; the theorem C91_the_refuted shows what happens otherwise."
  },
  {
   "property": "C92",
   "status": "proved",
   "theorems": [
    "C92_the",
    "C92_completion_refuted",
    "C92_parens_refuted"
   ],
   "note": "Refuted parts: completion records described otherwise than in the code's lists; SDOs called with parentheses."
  },
  {
   "property": "C93",
   "status": "proved",
   "theorems": [
    "C93_split",
    "C93_split_fails",
    "C93_normalize",
    "C93_normalize_fails",
    "C93_twice_refuted",
    "C93_collision_refuted",
    "C93_agree",
    "C93_attributes",
    "C93_attributes_only",
    "C93_comma_refuted",
    "C93_literal",
    "C93_destarquote"
   ],
   "note": "Which characters beyond ASCII are word characters is a parameter. Refuted parts: normalizing twice, collisions, values with comma and space. detick is modelled but has no theorem of its own. C93_attributes_only and C93_destarquote pin the reading of a single line."
  },
  {
   "property": "C94",
   "status": "proved",
   "theorems": [
    "C94_aoids",
    "C94_aoids_in_order",
    "C94_aoids_fail",
    "C94_order",
    "C94_order_in_order",
    "C94_order_fails",
    "C94_silent",
    "C94_key",
    "C94_get_same",
    "C94_symbols_last",
    "C94_underscores",
    "C94_int8"
   ],
   "note": "str.lower is a parameter; the theorems about keys assume only that it lowers ASCII texts letter by letter. The children of a section are its section_children. The form of the messages is that of msg_at_node without the position."
  },
  {
   "property": "C95",
   "status": "proved",
   "theorems": [
    "C95_code",
    "C95_plain",
    "C95_no_entities",
    "C95_twice_refuted",
    "C95_caption",
    "C95_table",
    "C95_no_header",
    "C95_empty_row",
    "C95_errors",
    "C95_column",
    "C95_distinct",
    "C95_unique_row",
    "C95_duplicate_refuted",
    "C95_rows",
    "C95_escapes"
   ],
   "note": "int is a parameter. White space between elements is one constructor; inner_source_text is given with each element. Refuted parts: cooking twice, duplicate headings."
  },
  {
   "property": "C96",
   "status": "proved",
   "theorems": [
    "C96_accepted",
    "C96_report",
    "C96_errors",
    "C96_all",
    "C96_file",
    "C96_stops"
   ],
   "note": "A header is its name, species, for-phrase, parameters, whether it has a return_nature_node, and the number and title of its section with the titles of the parent and grandparent. A missing grandparent is taken as one without title. stderr is not modelled; the lines are those of the file alg_anomalies, each with its newline left out."
  },
  {
   "property": "C97",
   "status": "proved",
   "theorems": [
    "C97_params",
    "C97_params_error",
    "C97_title_ok",
    "C97_title",
    "C97_word_refuted",
    "C97_unbalanced_refuted",
    "C97_after_refuted"
   ],
   "note": "The regular expressions are written out as functions on texts; the title's parent is represented by its title, and messages carry their offset from the heading's start. Which characters beyond ASCII are word characters is a parameter."
  },
  {
   "property": "C98",
   "status": "proved",
   "theorems": [
    "C98_grammar",
    "C98_errors",
    "C98_pieces",
    "C98_escape",
    "C98_mixed_refuted",
    "C98_unproduced_refuted",
    "C98_orphan_refuted"
   ],
   "note": "The alternatives of the regular expression are lists of literals, character classes and maximal repetitions; that repetitions need no backtracking is proved (run_iff and the lemmas about the groups). Options and choices inside an alternative are several alternatives in a group. What is printed before the exit is not modelled."
  },
  {
   "property": "C99",
   "status": "proved",
   "theorems": [
    "C99_deepest",
    "C99_deepest_text",
    "C99_deepest_refuted",
    "C99_search",
    "C99_ids",
    "C99_refs",
    "C99_stops",
    "C99_number",
    "C99_pair",
    "C99_plural",
    "C99_report",
    "C99_unsectioned"
   ],
   "note": "Case-insensitive matching covers ASCII letters and the other forms Python gives s, i and k (long s, dotted and dotless i, Kelvin sign); the patterns contain no literal i or k. Sections are given by numbers with functions for their numbers and titles. Writing the file is the list of its lines."
  },
  {
   "property": "C100",
   "status": "proved",
   "theorems": [
    "C100_sentences",
    "C100_rules",
    "C100_no_rules",
    "C100_bad_line",
    "C100_apply",
    "C100_extract",
    "C100_verbatim",
    "C100_compare",
    "C100_mismatch",
    "C100_errors",
    "C100_check",
    "C100_counts",
    "C100_unused"
   ],
   "note": "Matching and expansion of the regular expressions in the rules are a parameter (any function from pattern and subject to groups and an expander), as are str.lower and repr; the trace file is not modelled. The scanners for the texts of rules, sentences, parameter statements and variables are written out. The failure for different parameter names (TypeError) and for bad rule lines (NameError) are what the code does, not what it says it wants."
  },
  {
   "property": "C101",
   "status": "proved",
   "theorems": [
    "C101_table",
    "C101_table_stops",
    "C101_unmarked",
    "C101_ticks",
    "C101_facts",
    "C101_found",
    "C101_references",
    "C101_unseen_refuted",
    "C101_globals"
   ],
   "note": "Tables are given by caption, header cells and rows of cells (analyze_table is C95), literals by their ranges, sections by kind, title and parent title. put_fact is a call recorded as a value (what is done with it is not part of this claim)."
  },
  {
   "property": "C102",
   "status": "proved",
   "theorems": [
    "C102_accepted",
    "C102_message",
    "C102_stops",
    "C102_sec",
    "C102_no_space",
    "C102_one",
    "C102_some",
    "C102_space_refuted",
    "C102_The_refuted"
   ],
   "note": "Sections are given by kind, title, id, element name and parent's title (a section without a parent is not modelled). Sets of texts are lists; \\w beyond ASCII and str.lower are parameters. Regular expressions are modelled as re.sub with a matcher each, proved equal to a relation of matches (rewritten)."
  },
  {
   "property": "C103",
   "status": "proved",
   "theorems": [
    "C103_extract",
    "C103_accepted",
    "C103_content",
    "C103_outer_env_refuted",
    "C103_root_refuted",
    "C103_check",
    "C103_same_tables"
   ],
   "note": "The parser of value descriptions and the one of method signatures are parameters. Uses the theory of record schemas of C70/C71 (reach, above). Refuted parts: a declaration below that comes before the one above; a field of the root."
  },
  {
   "property": "C104",
   "status": "proved",
   "theorems": [
    "C104_name",
    "C104_delimited",
    "C104_twice_refuted",
    "C104_symbol_refuted",
    "C104_expand",
    "C104_no_variable",
    "C104_part_refuted",
    "C104_article_refuted",
    "C104_put",
    "C104_count",
    "C104_put_fails",
    "C104_both_refuted",
    "C104_this"
   ],
   "note": "The groups matched in a preamble sentence are parameters; the replacement of characters by upper case is a parameter. Uses the theory of property paths of C93. Refuted parts: naming twice, symbol-keyed names, articles at the end of words, titles with both variables, names that are part of the variable."
  },
  {
   "property": "C105",
   "status": "proved",
   "theorems": [
    "C105_connect",
    "C105_connect_fails",
    "C105_goal",
    "C105_parse",
    "C105_once",
    "C105_section",
    "C105_calls",
    "C105_algs",
    "C105_eqns",
    "C105_covered",
    "C105_unnoticed_refuted"
   ],
   "note": "The parser, annotate_invocations and the identification of the section in a failure report are parameters. Refuted part: a failed parse counts as covered."
  },
  {
   "property": "C106",
   "status": "proved",
   "theorems": [
    "C106_finish",
    "C106_run",
    "C106_fails",
    "C106_home",
    "C106_report"
   ],
   "note": "The comparison of the header with the preamble before finish_initialization (C94) and the section number, title and for-phrase printed in the report are not part of this model; u_defns is a parameter giving the parent of each definition."
  }
 ]
}