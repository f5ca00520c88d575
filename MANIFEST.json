{
 "claims": [
  {
   "property": "C01",
   "status": "proved",
   "theorems": [
    "tokens_tile_text",
    "whole_text_covered"
   ],
   "note": ""
  },
  {
   "property": "C02",
   "status": "proved",
   "theorems": [
    "token_positions",
    "token_positions_after_leading_lf",
    "token_positions_refuted"
   ],
   "note": "True for texts not starting with a line feed; token_positions_after_leading_lf and token_positions_refuted give the exact deviation for the others."
  },
  {
   "property": "C03",
   "status": "proved",
   "theorems": [
    "getnext_advances",
    "stream_ends",
    "getnext_nil_iff",
    "getnext_hangs_iff",
    "open_string_loops_for_ever"
   ],
   "note": "GetNext fails to return exactly on an unclosed quote."
  },
  {
   "property": "C04",
   "status": "proved",
   "theorems": [
    "flags_only_filter",
    "flags_keep_the_rest"
   ],
   "note": ""
  },
  {
   "property": "C05",
   "status": "proved",
   "theorems": [
    "eof_absorbing",
    "eof_iff_end_or_nul"
   ],
   "note": ""
  },
  {
   "property": "C06",
   "status": "proved",
   "theorems": [
    "words_are_maximal",
    "word_starts_make_words"
   ],
   "note": ""
  },
  {
   "property": "C07",
   "status": "proved",
   "theorems": [
    "reserved_classification",
    "case_variants_classified_alike"
   ],
   "note": ""
  },
  {
   "property": "C08",
   "status": "proved",
   "theorems": [
    "numeral_shape"
   ],
   "note": ""
  },
  {
   "property": "C09",
   "status": "proved",
   "theorems": [
    "comment_ends_at_first_terminator"
   ],
   "note": ""
  },
  {
   "property": "C10",
   "status": "proved",
   "theorems": [
    "string_ends_at_first_unescaped_quote"
   ],
   "note": ""
  },
  {
   "property": "C11",
   "status": "proved",
   "theorems": [
    "symbols_longest_match",
    "every_token_has_a_shape",
    "double_symbol_order_irrelevant"
   ],
   "note": "Includes independence of Go map iteration order."
  },
  {
   "property": "C12",
   "status": "proved",
   "theorems": [
    "clone_reads_same_tokens",
    "clone_ends_the_same",
    "clone_equal_unless_at_lf",
    "clone_lines_refuted"
   ],
   "note": "Independence of the two cursors is by construction (positions are copied values in the model, as in Position.Clone); clone_lines_refuted shows the line-number deviation when cloned on a line feed."
  },
  {
   "property": "C13",
   "status": "proved",
   "theorems": [
    "lexical_round_trip",
    "lexical_round_trip_converse",
    "separated_lexemes_read_back"
   ],
   "note": ""
  },
  {
   "property": "C14",
   "status": "proved",
   "theorems": [
    "lexical_round_trip",
    "layout_does_not_matter",
    "separators_do_not_matter"
   ],
   "note": ""
  },
  {
   "property": "C15",
   "status": "proved",
   "theorems": [
    "value_abbr_faithful"
   ],
   "note": ""
  },
  {
   "property": "C16",
   "status": "proved",
   "theorems": [
    "some_accepts_iff",
    "every_accepts_iff",
    "not_accepts_iff",
    "de_morgan",
    "members_decide"
   ],
   "note": ""
  },
  {
   "property": "C17",
   "status": "proved",
   "theorems": [
    "map_history",
    "calls_leave_other_names",
    "overwrite_then_get",
    "get_ignores_case",
    "get_ignores_case_refuted"
   ],
   "note": "get_ignores_case_refuted: the built-in table is keyed in upper case, so equality in lower case alone is not enough there."
  },
  {
   "property": "C18",
   "status": "proved",
   "theorems": [
    "set_refuses_redeclaration",
    "set_binds_new_names",
    "set_atomic_refuted",
    "set_after_overwrite_nil_refuted"
   ],
   "note": "set_atomic_refuted and set_after_overwrite_nil_refuted give the two deviations."
  },
  {
   "property": "C19",
   "status": "proved",
   "theorems": [
    "inner_scope_shadows",
    "inner_scope_may_redeclare"
   ],
   "note": ""
  },
  {
   "property": "C20",
   "status": "proved",
   "theorems": [
    "composite_finds_first",
    "composite_finds_none",
    "composite_writes_first",
    "names_across_units"
   ],
   "note": ""
  },
  {
   "property": "C21",
   "status": "proved",
   "theorems": [
    "builtins_found_any_case",
    "builtins_only",
    "builtins_always_visible",
    "clone_of_stackable_refuted",
    "builtins_read_only"
   ],
   "note": "clone_of_stackable_refuted: the clone of a stackable context loses the built-ins."
  },
  {
   "property": "C22",
   "status": "proved",
   "theorems": [
    "scopes_are_balanced",
    "scope_leaks_after_rollback_refuted"
   ],
   "note": "scope_leaks_after_rollback_refuted shows the leak when the context is replaced by a clone in between."
  },
  {
   "property": "C23",
   "status": "proved",
   "theorems": [
    "units_are_sorted",
    "units_of_one_name_refuted"
   ],
   "note": ""
  },
  {
   "property": "C24",
   "status": "proved",
   "theorems": [
    "names_across_units"
   ],
   "note": "For unit contexts through ImportUnitDecls; the program context is covered when the loader is modelled."
  },
  {
   "property": "C25",
   "status": "proved",
   "theorems": [
    "unit_by_name",
    "uses_by_name",
    "ident_by_name",
    "decl_by_name",
    "compact_drops_nils"
   ],
   "note": ""
  },
  {
   "property": "C26",
   "status": "proved",
   "theorems": [
    "walk_visits_in_order",
    "walk_order_is_unique",
    "walk_stops_at_first_error",
    "walk_without_error_visits_all"
   ],
   "note": ""
  },
  {
   "property": "C27",
   "status": "proved",
   "theorems": [
    "member_lookup",
    "property_lookup",
    "cyclic_lookup_never_returns"
   ],
   "note": "For every acyclic hierarchy; a cyclic one does not return (cyclic_lookup_never_returns); the parser itself can build one, from type A = class(A) end. Needs lower-casing to be idempotent, which holds of Go's tables. A parent that is only forward declared counts as none, as in the code. FindProperty ignores visibility (property_lookup)."
  },
  {
   "property": "C28",
   "status": "proved",
   "theorems": [
    "computed_property_merges",
    "chain_exists",
    "inherits_from_spec"
   ],
   "note": "The name of the result is spelled as at the root of the chain. PortabilityDirective is never set by the parser and not modelled."
  },
  {
   "property": "C29",
   "status": "proved",
   "theorems": [
    "alias_answers_as_its_target",
    "unresolved_answers_no",
    "shapes_answer_for_themselves",
    "sets_and_files_answer_as_their_base",
    "answers_unique",
    "classification_returns",
    "circular_alias_never_answers"
   ],
   "note": "Circular aliases (type L = L) never answer; set types answer ordinal questions like their base type."
  },
  {
   "property": "C30",
   "status": "proved",
   "theorems": [
    "until_reads_the_list",
    "until_fails_iff",
    "until_fuel_is_a_bound",
    "ident_list_is_read",
    "ident_list_is_what_was_read"
   ],
   "note": "Until for every element parser; ParseIdentList in both directions."
  },
  {
   "property": "C31",
   "status": "proved",
   "theorems": [
    "expression_round_trip",
    "expression_text_round_trip",
    "accepted_expressions",
    "operators_bind_as_documented",
    "one_tree_per_source_form"
   ],
   "note": "Both directions (what is written is read back; what is accepted was written), unambiguity, and precedence over operator trees. Bare equality ignores places and references."
  },
  {
   "property": "C32",
   "status": "proved",
   "theorems": [
    "statement_round_trip",
    "statement_text_round_trip",
    "else_belongs_to_the_nearest_if"
   ],
   "note": "Every statement kind but ASM, with labels; semicolons before END optional; ON and AT in any letter case. Bare equality ignores places and references."
  },
  {
   "property": "C33",
   "status": "proved",
   "theorems": [
    "rollback_restores_the_stream"
   ],
   "note": "Line and column numbers can differ after a rollback on a line feed (C12); heap effects of the attempt stay (see C22)."
  },
  {
   "property": "C34",
   "status": "proved",
   "theorems": [
    "parsing_returns",
    "parsing_has_one_end",
    "read_to_the_end_iff",
    "expression_returns",
    "type_returns",
    "statement_returns",
    "block_returns",
    "asm_without_end_never_returns",
    "asm_text_never_returns",
    "depth_does_not_matter",
    "program_depth_does_not_matter"
   ],
   "note": "For expressions, statements and types on every text; for blocks on texts without a TYPE section (type A = A makes later questions about A endless, finding 25). The depth bound is linear in the length of the text."
  },
  {
   "property": "C35",
   "status": "proved",
   "theorems": [
    "layouts_of_one_text_agree",
    "expression_case",
    "statement_case",
    "type_case",
    "type_section_case",
    "block_case",
    "unit_case",
    "program_case"
   ],
   "note": "Expressions, statements, types, type sections, blocks, units and programs. Both runs end alike: equal trees and heaps up to spelling and position, errors equal up to the place, panic, no end."
  },
  {
   "property": "C36",
   "status": "proved",
   "theorems": [
    "parser_moves_forward",
    "parser_reads_on",
    "parser_starts_well"
   ],
   "note": "For every program over the parser primitives, hence every parse method."
  },
  {
   "property": "C37",
   "status": "proved",
   "theorems": [
    "rejected_token_is_cited",
    "accepted_token_is_returned",
    "missing_token_is_an_error"
   ],
   "note": "Current, Next and TokenErrorf."
  },
  {
   "property": "C38",
   "status": "proved",
   "theorems": [
    "uses_clause_round_trip",
    "uses_clause_names_are_new",
    "uses_clause_is_what_was_read",
    "effective_path_of_quoted"
   ],
   "note": ""
  },
  {
   "property": "C39",
   "status": "proved",
   "theorems": [
    "references_are_visible"
   ],
   "note": "Plain, qualified and cast names, in every program or unit context."
  },
  {
   "property": "C40",
   "status": "proved",
   "theorems": [
    "include_is_membership",
    "set_equal_iff",
    "slice_lists_members_once",
    "set_of_strings"
   ],
   "note": ""
  },
  {
   "property": "C41",
   "status": "proved",
   "theorems": [
    "reverse_backwards",
    "reverse_involutive",
    "map_elementwise",
    "include_iff",
    "select_picks",
    "exclude_picks",
    "select_exclude_partition",
    "strings_equal_iff",
    "sort_sorts",
    "sort_unique",
    "extract_strings_spec"
   ],
   "note": ""
  },
  {
   "property": "C42",
   "status": "proved",
   "theorems": [
    "logger_restored",
    "messages_reach_innermost_logger"
   ],
   "note": ""
  },
  {
   "property": "C43",
   "status": "proved",
   "theorems": [
    "methods_are_safe"
   ],
   "note": "Contexts as NewProgramContext and NewUnitContext make them. Panics of the loader (missing files, Unit1.X inside Unit1's interface) are outside these methods."
  },
  {
   "property": "C44",
   "status": "proved",
   "theorems": [
    "methods_are_safe"
   ],
   "note": "Errors without a position are duplicates (EDup names the earlier declaration) and conversions of numbers."
  },
  {
   "property": "C45",
   "status": "proved",
   "theorems": [
    "expression_walk",
    "parsed_expression_walk",
    "statement_walk",
    "parsed_statement_walk",
    "expression_walk_identifiers",
    "type_walk_identifiers",
    "type_walk_in_order_refuted",
    "statement_walk_identifiers",
    "unit_walk_identifiers",
    "program_walk_identifiers",
    "parsed_unit_walk",
    "parsed_program_walk"
   ],
   "note": "All words: expressions without restriction, statements from every source form of C32. Identifiers with their places: every type, statement, unit and program; in order without tags of variant parts (finding 45; type_walk_in_order_refuted)."
  },
  {
   "property": "C46",
   "status": "proved",
   "theorems": [
    "type_round_trip"
   ],
   "note": "Types of the fragment good_ty (DeclSpec), classes included: accessors of properties name members declared before them in the class, and a class with properties has no ancestor that is known. Findings 13, 46-52 and 57 say what the parser itself cannot read."
  },
  {
   "property": "C47",
   "status": "proved",
   "theorems": [
    "section_round_trip",
    "block_round_trip"
   ],
   "note": "Sections and blocks of the fragment good_section/good_block: names without unit prefix in types, compound bodies. What is known of names behind each section is part of the statement (knows ... after_section)."
  },
  {
   "property": "C48",
   "status": "proved",
   "theorems": [
    "program_round_trip"
   ],
   "note": "Programs without a uses clause; with one, the loading of units is C23, C24, C38."
  },
  {
   "property": "C49",
   "status": "proved",
   "theorems": [
    "program_is_safe",
    "own_name_panics",
    "clash_panics",
    "program_returns",
    "program_has_one_end",
    "program_uses_once",
    "lone_unit_is_safe",
    "lone_unit_returns"
   ],
   "note": "Safety for all texts; that it ends, for texts without the word TYPE (a type section can declare a type by itself). The exceptions are real: own_name_panics, clash_panics, C34."
  },
  {
   "property": "C50",
   "status": "proved",
   "theorems": [
    "unit_round_trip"
   ],
   "note": "ParseUnit on one unit; the fragment of C46-C48. Nothing is known of the units that its uses clauses name. Loading several units is C23, C24, C38, C49."
  },
  {
   "property": "C51",
   "status": "proved",
   "theorems": [
    "program_with_units_round_trip"
   ],
   "note": "The fragment of C46-C48 and C50; names of the interface section of each unit are different; the program has a uses clause (without one it is C48). Where a name is declared by several used units the last one counts."
  },
  {
   "property": "C52",
   "status": "proved",
   "theorems": [
    "references_of_programs_lead_to_their_names",
    "references_of_units_lead_to_their_names",
    "alike_names_are_not_told_apart"
   ],
   "note": "Soundness of references that are set, for every text and every set of files; which references are set is in C46-C51 for the fragment there. A reference is an address in the model's heap; a dangling pointer would be refuted too."
  },
  {
   "property": "C53",
   "status": "proved",
   "theorems": [
    "identifiers_of_expressions_stand_in_the_text",
    "identifiers_of_types_stand_in_the_text",
    "identifiers_of_statements_stand_in_the_text",
    "identifiers_of_units_stand_in_the_text",
    "identifiers_of_programs_stand_in_their_texts",
    "identifiers_in_order_are_pieces_of_the_text",
    "identifiers_in_order_do_not_overlap",
    "parsed_unit_walk",
    "parsed_program_walk"
   ],
   "note": "Soundness of the places of identifiers for every text; that no identifier of the text is missing is in C46-C51 for the fragment there. Only indices are compared: lines and columns are in C02."
  },
  {
   "property": "C54",
   "status": "proved",
   "theorems": [
    "accepted_expressions_are_written_so",
    "accepted_types_are_written_so",
    "accepted_statements_are_written_so",
    "accepted_blocks_are_written_so",
    "accepted_units_are_written_so",
    "accepted_programs_are_written_so",
    "words_gone_over_are_the_lexemes"
   ],
   "note": "Soundness of acceptance for every text; that everything of a form is accepted is C31, C32 and C46-C51 for the fragment there. Separators that the parser does not insist on are optional in the forms; the words between ASM and END are not kept by the code and may be any. The declaration references of the tree are in C52."
  },
  {
   "property": "C55",
   "status": "proved",
   "theorems": [
    "unit_offers_its_interface",
    "units_of_program_offer_their_interfaces",
    "every_unit_of_program_offers_its_interface",
    "interface_names_lost_refuted"
   ],
   "note": "For every accepted text, not only for round-trip forms (C50). The condition on lists of variables is necessary: interface_names_lost_refuted. A unit without a declaration map was given up for another of the same name (finding 54); with different names there is none (every_unit_of_program_offers_its_interface)."
  },
  {
   "property": "C56",
   "status": "proved",
   "theorems": [
    "order_of_maps_does_not_matter",
    "error_depends_on_order_of_maps_refuted"
   ],
   "note": "For successful runs of programs in which the interface uses clauses compare any two units; the whole result and heap are equal. For other programs the reported error may differ: error_depends_on_order_of_maps_refuted (finding 61)."
  },
  {
   "property": "C57",
   "status": "proved",
   "theorems": [
    "program_reads_only_its_files",
    "program_reads_the_files_it_names",
    "other_files_do_not_matter",
    "units_come_from_the_files_named",
    "items_get_the_unit_of_their_file_refuted"
   ],
   "note": "The file system is a function from paths to decoded texts that does not change during a run; reading and decoding themselves are not modelled."
  },
  {
   "property": "C58",
   "status": "proved",
   "theorems": [
    "program_errors_are_in_its_files",
    "duplicates_name_their_file_refuted",
    "lone_unit_is_safe"
   ],
   "note": "Under the conditions of C49 (no two of the files are units of one name; then it may panic). Errors without a position: a file that cannot be read, circular uses, duplicates, conversions of numbers, a unit whose name no item of the uses clause has. That duplicates are reported without a file is shown by duplicates_name_their_file_refuted (finding 62)."
  },
  {
   "property": "C59",
   "status": "proved",
   "theorems": [
    "files_are_units_of_the_names_used"
   ],
   "note": "Under the conditions of C49. That a file has the name of its own item does not hold: items_get_the_unit_of_their_file_refuted (finding 63)."
  }
 ]
}