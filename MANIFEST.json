{
 "claims": [
  {
   "property": "C01",
   "status": "partial",
   "theorems": [
    "C01_vector_is_a_list",
    "C01_vector_get_int64_wrap_refuted"
   ],
   "note": "Refinement to lists for every history is proved. The exception is the two-word accessors at index SIZE_MAX, where the bound check wraps and the access is out of bounds (refuted)."
  },
  {
   "property": "C02",
   "status": "partial",
   "theorems": [
    "C02_stack_is_lifo",
    "C02_push_all_pop_all",
    "C02_peek_int64_empty_refuted"
   ],
   "note": "LIFO behaviour is proved for every history. The two-word peeks on an empty stack read outside the block (refuted)."
  },
  {
   "property": "C03",
   "status": "partial",
   "theorems": [
    "C03_store_restore_int64",
    "C03_check_var_is_range",
    "C03_store_restore_double",
    "C03_u64_negative_refuted",
    "C03_double_pattern_refuted"
   ],
   "note": "Round trip proved for all targets and values. For u64 a negative value yields a word the range check refuses; the double with pattern LLONG_MAX is not restored (both refuted)."
  },
  {
   "property": "C04",
   "status": "partial",
   "theorems": [
    "C04_decode_standard",
    "C04_encoder_exact",
    "C04_round_trip_partial",
    "C04_round_trip_refuted"
   ],
   "note": "Decoder proved right for all code points and the encoder characterised exactly. The encoder is wrong on U+0800..U+0FFF and U+10000..U+3FFFF (refuted)."
  },
  {
   "property": "C05",
   "status": "proved",
   "theorems": [
    "C05_reading_decodes"
   ],
   "note": "For every list of code points."
  },
  {
   "property": "C06",
   "status": "partial",
   "theorems": [
    "C06_unscan_restores_partial",
    "C06_unscan_end",
    "C06_unscan_exact",
    "C06_unscan_text",
    "C06_unscan_refuted"
   ],
   "note": "Proved for every UTF-8 symbol in any input and for the end of input; the exact condition for arbitrary bytes is proved too. False for bytes that are not UTF-8 (refuted)."
  },
  {
   "property": "C07",
   "status": "proved",
   "theorems": [
    "C07_output_is_concatenation",
    "C07_output_with_failures"
   ],
   "note": "For every initial size, history and behaviour of the allocator (texts without NUL, total below 2^60)."
  },
  {
   "property": "C08",
   "status": "proved",
   "theorems": [
    "C08_cp866_round_trip",
    "C08_cp1251_round_trip",
    "C08_unknown_symbols"
   ],
   "note": "Whole-text round trip against the standard tables; unknown symbols become 0x1A."
  },
  {
   "property": "C09",
   "status": "proved",
   "theorems": [
    "C09_string_table_is_a_list",
    "C09_empty_vector_refuted",
    "C09_length_after_failure_refuted"
   ],
   "note": "For every history of calls, with byte strings (strings_add), symbol strings (strings_add_by_utf8) and vectors (strings_add_by_vector). Refuted for the empty vector, whose terminator is never written, and for lengths after a refused allocation."
  },
  {
   "property": "C10",
   "status": "partial",
   "theorems": [
    "C10_map_is_a_dictionary",
    "C10_distinct_keys_interfere_refuted",
    "C10_key_read_past_its_end_refuted"
   ],
   "note": "Dictionary behaviour proved for every history, with keys given as strings, symbol arrays or read from input, and for colliding hashes. Keys are limited to symbols the encoder writes correctly; outside, distinct keys share an entry and string keys are read past their end (refuted)."
  },
  {
   "property": "C11",
   "status": "proved",
   "theorems": [
    "C11_index_names_the_key_for_ever"
   ],
   "note": "For every history before and after the insertion and every form of the key (same key alphabet as C10)."
  },
  {
   "property": "C12",
   "status": "partial",
   "theorems": [
    "C12_hash_is_a_table_of_records",
    "C12_failed_set_reported_as_success_refuted"
   ],
   "note": "Refinement to a finite map for every reachable table and every call, including reuse of removed records. hash_set_int64 and hash_set_double report success when nothing was stored (refuted), so those two are covered for valid positions and absent keys only."
  },
  {
   "property": "C13",
   "status": "partial",
   "theorems": [
    "C13_tree_is_an_ordered_tree",
    "C13_children_read_back",
    "C13_argument_of_an_older_node_refuted"
   ],
   "note": "For every reachable tree and every call: adding children and arguments, setting types, walking by child, parent, number and pre-order; reads give back the abstract ordered tree. Adding an argument to a node that is not the last in the vector overwrites the next node (refuted), so argument calls are covered for the last node only, as the parser makes them."
  },
  {
   "property": "C14",
   "status": "proved",
   "theorems": [
    "C14_swap_exchanges_two_subtrees",
    "C14_remove_deletes_one_subtree",
    "C14_insert_puts_a_node_above",
    "C14_order_trades_places",
    "C14_set_child_moves_one_subtree",
    "C14_swap_with_a_descendant_refuted"
   ],
   "note": "swap, remove, insert, order and set_child on every reachable tree and every pair of nodes neither containing the other; swapping a node with its own descendant tears the tree (refuted, outside the claim)."
  },
  {
   "property": "C15",
   "status": "proved",
   "theorems": [
    "C15_preorder_visits_every_node_once",
    "C15_next_of_a_lone_root_refuted"
   ],
   "note": "Every reachable tree whose root has a child; for a lone root the next node is the root itself (refuted, outside the claim)."
  },
  {
   "property": "C16",
   "status": "partial",
   "theorems": [
    "C16_same_file_partial",
    "C16_normal",
    "C16_defined",
    "C16_same_file_refuted",
    "C16_corners_refuted"
   ],
   "note": "The result denotes the same file for every relative path and every absolute path which stays below the root, without two slashes side by side (C16_same_file_partial); no backslash, no './' and no 'dir/../' before the last name (C16_normal, every path); defined and not longer for paths below 1024 bytes ending in a name (C16_defined). Refuted in general: /../x becomes x, a//../b becomes a/b, / becomes empty, and an empty result reads before the array (C16_same_file_refuted, C16_corners_refuted)."
  },
  {
   "property": "C17",
   "status": "proved",
   "theorems": [
    "C17_history",
    "C17_once",
    "C17_answers",
    "C17_defined",
    "C17_arguments",
    "C17_arrays",
    "C17_arguments_refuted"
   ],
   "note": "Every history of ws_add_file/dir/flag and ws_set_output: the lists are the wishes in order of first occurrence, once each, output is the last; after one refusal nothing is answered any more and everything is refused (C17_history, C17_once, C17_answers). ws_parse_args and the array calls are such histories (C17_arguments, C17_arrays). Undefined only for a path without result or a long output (C17_defined); such command lines exist (C17_arguments_refuted)."
  },
  {
   "property": "C18",
   "status": "partial",
   "theorems": [
    "C18_comments_are_blanks_partial",
    "C18_last_line_comment",
    "C18_block_comments_refuted"
   ],
   "note": "Blanks, line comments and block comments without the misread spellings are proved to change nothing, at any place of any text. The empty block comment never ends (refuted); so the full statement is false."
  },
  {
   "property": "C19",
   "status": "partial",
   "theorems": [
    "C19_integer_literals_partial",
    "C19_binary_literals_refuted"
   ],
   "note": "All bases, any text around, values below 2^63 (binary: 2^61). Binary literals from 2^61 on become floating literals (refuted)."
  },
  {
   "property": "C20",
   "status": "proved",
   "theorems": [
    "C20_longest_punctuator"
   ],
   "note": "Every punctuator followed by any text in which it is the longest match."
  },
  {
   "property": "C21",
   "status": "proved",
   "theorems": [
    "C21_words",
    "C21_representations"
   ],
   "note": "After any history of lex, peek and reference updates on any text; keywords in English and Russian, small and capital. Table size below 2^56."
  },
  {
   "property": "C22",
   "status": "partial",
   "theorems": [
    "C22_strings",
    "C22_characters",
    "C22_unclosed_string_partial",
    "C22_unclosed_character",
    "C22_empty_character",
    "C22_unclosed_string_refuted"
   ],
   "note": "Strings (any number of pieces), characters, all escapes, unclosed literals at the end of a line. A string that runs to the end of the text makes the call never return (refuted)."
  },
  {
   "property": "C23",
   "status": "partial",
   "theorems": [
    "C23_lexing_advances",
    "C23_lexer_is_in_the_text",
    "C23_lexing_ends_partial",
    "C23_lexing_ends_refuted"
   ],
   "note": "Progress of every call after any history is proved. Termination on whole texts is proved for texts that end with two line feeds, without huge exponents, below 64 Mb; an unclosed string at the end of the text never returns (refuted)."
  },
  {
   "property": "C24",
   "status": "proved",
   "theorems": [
    "C24_grouping",
    "C24_grammar",
    "C24_one_tree",
    "C24_accepted",
    "C24_comma_in_conditional_refuted"
   ],
   "note": "Round trip for every expression tree over all operators (C24_grouping), for every text of a C grammar written as an inductive relation (C24_grammar), the grammar is unambiguous, and what is accepted without an error is exactly that grammar up to two liberties (C24_accepted). The C grammar's comma inside a conditional is refused: C24_comma_in_conditional_refuted. Nodes are terms naming the builder call; tokens are the lexer's."
  },
  {
   "property": "C25",
   "status": "proved",
   "theorems": [
    "C25_jumps_inside",
    "C25_texts_read",
    "C25_violations_reported"
   ],
   "note": "for every returned tree (any tokens, any errors) jumps stand inside their constructs and the context flags are restored; texts of the statement grammar are read back exactly; texts with a jump out of place are always reported. Symbol table, declarations and builder verdicts are arbitrary parameters"
  },
  {
   "property": "C26",
   "status": "partial",
   "theorems": [
    "C26_skips_groups_refuted",
    "C26_skips_groups_partial",
    "C26_recovery_ends"
   ],
   "note": "Always terminates at end of file or a token of the set, only dropping tokens (C26_recovery_ends). The claim that it never stops inside a group is false in the code (C26_skips_groups_refuted); it holds when no group stands directly in a group of its own kind (C26_skips_groups_partial)."
  },
  {
   "property": "C27",
   "status": "proved",
   "theorems": [
    "C27_scopes_restore_names",
    "C27_requests_succeed"
   ],
   "note": "for every history of declarations, blocks and functions that the rules accept, with no bound on nesting; every name is given back, and the place for the next variable too"
  },
  {
   "property": "C28",
   "status": "partial",
   "theorems": [
    "C28_innermost_declaration",
    "C28_redeclaration_rejected",
    "C28_rejected_declaration_hides_refuted"
   ],
   "note": "innermost resolution and the exact verdict on every declaration are proved for accepted histories; refuted: after a rejected declaration the name refers to an empty identifier, so nothing is claimed for histories that go on after a rejection"
  },
  {
   "property": "C29",
   "status": "partial",
   "theorems": [
    "C29_type_numbers_partial",
    "C29_type_numbers_exact",
    "C29_requests_succeed",
    "C29_constants_refuted",
    "C29_constant_enumerations_refuted"
   ],
   "note": "Proved for every history of requests: two numbers are equal exactly when the types have equal normal forms (C29_type_numbers_exact), hence exactly when the types are equal as long as neither mentions a constant of a simple type other than int or of an enumeration (C29_type_numbers_partial). Refuted for those: const char and const float share one number."
  },
  {
   "property": "C30",
   "status": "partial",
   "theorems": [
    "C30_type_sizes_partial",
    "C30_members",
    "C30_member_offsets_partial",
    "C30_members_disjoint_partial"
   ],
   "note": "Size, member list, offsets and disjointness proved for every history and every type that does not mention the constants the table confuses; for those C29_constants_refuted shows a constant float of size 1."
  },
  {
   "property": "C31",
   "status": "proved",
   "theorems": [
    "C31_frames",
    "C31_globals"
   ],
   "note": "C31_frames: at every point of every function the visible variables lie in the frame of the header and do not overlap. C31_globals: the same for the variables of a whole program outside functions, below the exported size."
  },
  {
   "property": "C32",
   "status": "partial",
   "theorems": [
    "C32_folding_keeps_value_partial",
    "C32_folding_defined_partial",
    "C32_plain_constants_fold",
    "C32_refusal_is_reported",
    "C32_folding_refuted"
   ],
   "note": "Proved for every constant expression (any nesting, all operators): the tree built has the value C gives (C32_folding_keeps_value_partial) and folding has no undefined behaviour when every part is defined (C32_folding_defined_partial); plain constants fold into one literal. Missing and false (C32_folding_refuted): folding divides by zero, overflows and shifts out of range for parts the program never evaluates, and a null pointer literal after && or || is read as its source position. The conditional operator is not folded by the code."
  },
  {
   "property": "C33",
   "status": "partial",
   "theorems": [
    "C33_expressions_partial",
    "C33_expressions_refuted"
   ],
   "note": "Compiler correctness against VmSpec.v for every supported integer/pointer expression (all operators, assignments, steps, subscripts, members, comma, short circuit, ?:), every store, stack and word arithmetic. False in full: x || y leaves x, **pp is loaded once, bool through a pointer uses the floating load (C33_expressions_refuted). Missing: calls, floating and structure values."
  },
  {
   "property": "C34",
   "status": "partial",
   "theorems": [
    "C34_functions_partial",
    "C34_statements_partial"
   ],
   "note": "Every statement nesting of the supported fragment and every terminating execution: the code of a function body reaches its end or the right return with the right cells; back-patch chains proved for all nestings. Missing: calls, array/structure declarations, executions that do not end."
  },
  {
   "property": "C35",
   "status": "partial",
   "theorems": [
    "C35_switch_partial",
    "C35_switch_refuted"
   ],
   "note": "Proved for tidy bodies (each section ends in a jump, default last). False in full: fall-through re-tests, default first wins, the value is never popped (C35_switch_refuted)."
  },
  {
   "property": "C36",
   "status": "partial",
   "theorems": [
    "C36_linked_partial",
    "C36_call_is_action",
    "C36_linked_refuted",
    "C36_argument_refuted"
   ],
   "note": "C36_linked_partial: after every history of words, patches of other words, calls and definitions, each call holds the number of its function's definition and nothing else changed; C36_call_is_action: this is what a call expression does. Missing, by C36_linked_refuted: the code generator itself overwrites the link of a call when the code is longer than 9000 words (the address of the previous call is taken for an instruction). C36_argument_refuted: a function passed as an argument before its definition is not linked."
  },
  {
   "property": "C37",
   "status": "partial",
   "theorems": [
    "C37_discarded_partial",
    "C37_discarded_refuted"
   ],
   "note": "Proved for assignments, steps and commas that have a variant without result. False in full: %= and other compound assignments on variables, plain operators, subscripts, ?:, displacements from 9000 on (C37_discarded_refuted)."
  },
  {
   "property": "C38",
   "status": "partial",
   "theorems": [
    "C38_distinct",
    "C38_operators",
    "C38_variants_partial",
    "C38_others_left_alone",
    "C38_variants_refuted"
   ],
   "note": "C38_distinct: the words of the instruction set are pairwise different; C38_operators: every operator of the language gets the instruction of its meaning; C38_variants_partial: the address, floating and void variants of every instruction are the words of these meanings, or the instruction itself if there is none; C38_others_left_alone: other words stay. Missing, by C38_variants_refuted: %=, <<=, >>=, &=, ^=, |= on a variable have a void variant in the list but are left alone."
  },
  {
   "property": "C39",
   "status": "proved",
   "theorems": [
    "C39_refuses",
    "C39_exact",
    "C39_global_size_refuted"
   ],
   "note": "C39_refuses: success exactly if every word of every table is in the target's range; C39_exact: read back as numbers, the file is the sizes and exactly the tables. C39_global_size_refuted shows that the size of the globals in the header line, which is no table, is not checked."
  },
  {
   "property": "C40",
   "status": "partial",
   "theorems": [
    "C40_values_follow_precedence_partial",
    "C40_not_refuted",
    "C40_minus_before_parenthesis_refuted",
    "C40_short_circuit_refuted"
   ],
   "note": "Value theorem for every expression without ! and without a unary operator directly before a parenthesis, all of whose parts have a value (any length, any nesting, any places). For the rest the claim is false: ! is never negated, -(1) is 2^63-1, 0 && 1/0 divides by zero (refuted theorems)."
  },
  {
   "property": "C41",
   "status": "partial",
   "theorems": [
    "C41_malformed_is_never_accepted",
    "C41_malformed_is_reported_partial",
    "C41_undefined_before_report_refuted"
   ],
   "note": "Never accepted: proved for every piece sequence. Reported: proved when no operator can overflow, divide or shift; otherwise the calculator may run into undefined arithmetic before it reports (refuted theorem)."
  },
  {
   "property": "C42",
   "status": "partial",
   "theorems": [
    "C42_macros_are_independent",
    "C42_empty_text_takes_next_text_refuted",
    "C42_empty_text_keeps_old_text_refuted",
    "C42_undef_of_undefined_name_loses_directive_refuted",
    "C42_second_define_hides_the_macro_refuted",
    "C42_empty_name_is_found_for_every_name_refuted"
   ],
   "note": "Refinement to a finite map from names to macros proved for every reachable table and every call, for non-empty names and texts and removal of defined macros. Outside these the full claim is refuted: an empty #set aliases or keeps another text; #undef of an undefined name can delete a directive; a second #define hides the macro from lookup by string; an empty name captures all undefined names."
  },
  {
   "property": "C43",
   "status": "proved",
   "theorems": [
    "C43_branches",
    "C43_misplaced"
   ],
   "note": "C43_branches: for every well-nested text of #if/#ifdef/#ifndef/#elif/#else/#endif, #while/#endw and #macro/#endm, with any lines, the preprocessor does what the derivation of its branches and loops says, and nothing else. Lines, expressions and definitions do what they do alone (C68 says what). C43_misplaced: an #elif, #else or end of a block where none may stand is reported and left out, and the text around it is processed as before."
  },
  {
   "property": "C44",
   "status": "partial",
   "theorems": [
    "C44_bounds",
    "C44_settles_partial",
    "C44_over_refuted"
   ],
   "note": "C44_bounds holds of every run at every point of it. C44_settles_partial: every run is over, or hangs with an error reported; C44_over_refuted: F(( at the end of the text hangs."
  },
  {
   "property": "C45",
   "status": "partial",
   "theorems": [
    "C45_one_literal",
    "C45_text_partial",
    "C45_kept_partial",
    "C45_backslash_refuted"
   ],
   "note": "C45_one_literal for every argument; C45_text_partial: exactly the characters for arguments without back slashes, through the lexer of C22; C45_kept_partial says what remains with back slashes. C45_backslash_refuted: escapes of the argument are taken for what they mean, a last back slash is lost."
  },
  {
   "property": "C46",
   "status": "partial",
   "theorems": [
    "C46_reports",
    "C46_success",
    "C46_status",
    "C46_success_refuted"
   ],
   "note": "C46_reports: for every history of reports, exactly which messages are shown at which place, the counts, monotone, input restored. C46_success / C46_status: compile succeeds exactly when no stage reported an error, main is defined and prototypes are defined (or -c), and the code is written; then no reported error is in the log. Refuted for errors printed by the LLVM and MIPS encoders without the reporter (C46_success_refuted). The stages are given by what they say."
  },
  {
   "property": "C47",
   "status": "partial",
   "theorems": [
    "C47_assignments_checked",
    "C47_constants_refused",
    "C47_initializers_checked",
    "C47_arguments_checked",
    "C47_returns_checked_partial",
    "C47_constants_refuted"
   ],
   "note": "Assignments, compound assignments, initialisers (lists, any nesting), arguments and returned values are accepted iff assignable by an independent relation; what is stored has the size and kind of the target. False parts in C47_constants_refuted: ++/-- on constants, whole assignment of structures with constant members, arrays inside constant structures, void* results unchecked. Types with two consts in a row are outside the statement (tidy)."
  },
  {
   "property": "C48",
   "status": "proved",
   "theorems": [
    "C48_target_selection"
   ],
   "note": "Target selection for every list of flags."
  },
  {
   "property": "C49",
   "status": "partial",
   "theorems": [
    "C49_upper_case_partial",
    "C49_upper_case_refuted",
    "C49_identifier_characters",
    "C49_transliteration_ascii",
    "C49_transliteration_injective_refuted"
   ],
   "note": "Identifier alphabet and ASCII output proved. Small YO is not capitalised and transliteration is not injective (refuted)."
  },
  {
   "property": "C50",
   "status": "partial",
   "theorems": [
    "C50_first_byte",
    "C50_first_byte_refuted"
   ],
   "note": "Proved for every position in UTF-8 text; on text starting with a continuation byte the search leaves the string (refuted)."
  },
  {
   "property": "C51",
   "status": "proved",
   "theorems": [
    "C51_scan_identifier",
    "C51_scan_no_identifier"
   ],
   "note": "Longest identifier, input position and text, for UTF-8 inputs."
  },
  {
   "property": "C52",
   "status": "proved",
   "theorems": [
    "C52_last_read_is_the_key_looked_up"
   ],
   "note": "After any history of calls."
  },
  {
   "property": "C53",
   "status": "proved",
   "theorems": [
    "C53_directives_are_always_found"
   ],
   "note": "For every reachable table (legal histories of C42; #undef of an undefined name is outside, see C42_undef_of_undefined_name_loses_directive_refuted) and every form in which the spelling is given."
  },
  {
   "property": "C54",
   "status": "partial",
   "theorems": [
    "C54_peek_partial",
    "C54_peek_returns",
    "C54_messages_refuted"
   ],
   "note": "After any history: place restored, same kind, same token next. A string literal peeked at is stored twice and messages are given twice (refuted)."
  },
  {
   "property": "C55",
   "status": "proved",
   "theorems": [
    "C55_exponents_wrap"
   ],
   "note": "For every digit string and exponent below 2^63."
  },
  {
   "property": "C56",
   "status": "partial",
   "theorems": [
    "C56_pointer_element",
    "C56_array_element",
    "C56_function_parts",
    "C56_unqualified_partial",
    "C56_classes",
    "C56_simple_types_partial"
   ],
   "note": "All parts and classes for every type; the unqualified type and the simple classes only for types without the confused constants."
  },
  {
   "property": "C57",
   "status": "proved",
   "theorems": [
    "C57_must_be_initialized"
   ],
   "note": ""
  },
  {
   "property": "C58",
   "status": "proved",
   "theorems": [
    "C58_variables_disjoint",
    "C58_function_memory"
   ],
   "note": "locals in scope are disjoint, globals are disjoint, everything a function ever declared fits the size returned by scope_func_exit"
  },
  {
   "property": "C59",
   "status": "partial",
   "theorems": [
    "C59_declarations_recorded",
    "C59_late_types_refuted"
   ],
   "note": "functions have types below 1000 in the histories; refuted for types from 1000 on: the number is not recorded and the definition is rejected"
  },
  {
   "property": "C60",
   "status": "partial",
   "theorems": [
    "C60_types_recognised",
    "C60_others_are_not_types_partial",
    "C60_large_constants_refuted",
    "C60_large_functions_refuted"
   ],
   "note": "typedef names are always recognised; other identifiers are not taken for types while places and values are below 1000; refuted for an enumeration constant 1000 and for the variable in cell 1000"
  },
  {
   "property": "C61",
   "status": "partial",
   "theorems": [
    "C61_complete_programs",
    "C61_main_is_a_function_refuted"
   ],
   "note": "exact for accepted histories; refuted: a variable called main counts as the function main"
  },
  {
   "property": "C62",
   "status": "proved",
   "theorems": [
    "C62_reading_ends"
   ],
   "note": "Fuel 16*length+16 always suffices, for all nine mutually recursive functions."
  },
  {
   "property": "C63",
   "status": "proved",
   "theorems": [
    "C63_statement_ends"
   ],
   "note": "proved for every token sequence under the stated hypotheses on the parser of declarations (it ends and consumes) and on the builder (a broken expression is broken)"
  },
  {
   "property": "C64",
   "status": "partial",
   "theorems": [
    "C64_scopes_close",
    "C64_scopes_close_refuted"
   ],
   "note": "proved for statements read without a new error; refuted otherwise: the early returns of parse_for_statement leave a scope open"
  },
  {
   "property": "C65",
   "status": "proved",
   "theorems": [
    "C65_format_checked"
   ],
   "note": "Format grammar is the inductive relation format; acceptance iff."
  },
  {
   "property": "C66",
   "status": "partial",
   "theorems": [
    "C66_once",
    "C66_sources_refuted"
   ],
   "note": "C66_once proves the statement for #include in every run; C66_sources_refuted: a file named as a source is read although an earlier source included it."
  },
  {
   "property": "C67",
   "status": "partial",
   "theorems": [
    "C67_failure_partial",
    "C67_printed_refuted"
   ],
   "note": "Failure implies a printed error; a printed error implies failure unless it was printed while skipping a branch. C67_printed_refuted: #if 0 / #endw / #endif prints an error and succeeds."
  },
  {
   "property": "C68",
   "status": "partial",
   "theorems": [
    "C68_lines_partial",
    "C68_conditions_partial",
    "C68_definitions",
    "C68_undefinitions",
    "C68_macro_values"
   ],
   "note": "Definitions with any parameters, # and ##; the values #macro gives, with any well-nested blocks in them; lines and conditions with calls nested in arguments and values, up to depth 257. Missing: arguments over several lines, calls of macros whose values have directives in them, an object-like macro followed by ()."
  },
  {
   "property": "C69",
   "status": "proved",
   "theorems": [
    "C69_accepted",
    "C69_refused",
    "C69_defined",
    "C69_members",
    "C69_subscripts",
    "C69_printing"
   ],
   "note": "C69_accepted/C69_refused decide every expression over any finished operands against the inductive relation has; C69_defined: building is defined unless a constant part must be folded (then C32). Assignments and calls are C47. C69_members, C69_subscripts and C69_printing give the nodes themselves."
  },
  {
   "property": "C70",
   "status": "proved",
   "theorems": [
    "C70_search_finds_the_place",
    "C70_search_from_any_location",
    "C70_output_is_located",
    "C70_output_is_whole",
    "C70_tag"
   ],
   "note": "C70_search_finds_the_place and C70_search_from_any_location over every text of marks; C70_output_is_located and C70_output_is_whole over every file of lines without directives, comments, continued lines and strings, a call having any text as its replacement. Buffers of paths and lines are taken as large enough."
  },
  {
   "property": "C71",
   "status": "partial",
   "theorems": [
    "C71_word_is_underlined",
    "C71_end_of_line",
    "C71_message_at_a_location",
    "C71_printed",
    "C71_printed_end",
    "C71_message_is_given_refuted",
    "C71_message_is_given_partial",
    "C71_message_fits_refuted"
   ],
   "note": "C71_word_is_underlined, C71_message_at_a_location, C71_printed for every line and place where the text fits the buffer. C71_message_is_given_refuted: at an empty line (the end of a text) the message is replaced by one saying that there is no location; C71_message_is_given_partial: only there. C71_message_fits_refuted: a text of 4096 bytes or more is written outside the buffer, and every message has such lines."
  },
  {
   "property": "C72",
   "status": "partial",
   "theorems": [
    "C72_beside_includer_partial",
    "C72_beside_last_begun",
    "C72_beside_includer_refuted",
    "C72_header_once",
    "C72_source_not_again",
    "C72_file_once_refuted",
    "C72_unopened_refuted",
    "C72_two_backslashes",
    "C72_backslash_refuted",
    "C72_long_name_refuted",
    "C72_set_index_refuted"
   ],
   "note": "Model of linker.c over the workspace model. C72_beside_last_begun: for plain names the answers of every history are the first existing candidate, relative to the file begun last, read unless read before. C72_beside_includer_partial: that is the claim when the headers of a source lie in its directory. C72_beside_includer_refuted: otherwise false, since the current file is never set back after a header; src/m.c gets src/sub/b.h for b.h after sub/c.h. C72_header_once, C72_source_not_again: no path is read twice, for all names. Refuted: a file with two spellings is read twice; a file which cannot be opened is skipped in silence; one backslash vanishes (two are a slash, C72_two_backslashes); long names leave an array; set_index accepts any number. The disk is a pair of parameters (exists, can be opened) which does not change."
  },
  {
   "property": "C73",
   "status": "partial",
   "theorems": [
    "C73_text_has_the_value_of_its_tokens_partial",
    "C73_malformed_text_is_never_accepted",
    "C73_no_token_is_reported",
    "C73_blank_is_reported",
    "C73_prefix_in_a_macro_refuted",
    "C73_constants_of_C_refuted"
   ],
   "note": "C73_text_has_the_value_of_its_tokens_partial: for every text, place and macros the value is that of its tokens, with the limits of C40 (no !, no unary operator directly before a parenthesis, every part defined); macro values with decimal numbers only. C73_malformed_text_is_never_accepted, C73_no_token_is_reported and C73_blank_is_reported for the others. Refuted: a number with a prefix in the value of a macro (C73_prefix_in_a_macro_refuted), octal and character constants as in C (C73_constants_of_C_refuted)."
  },
  {
   "property": "C74",
   "status": "partial",
   "theorems": [
    "C74_program_ends_partial",
    "C74_plain_programs_are_safe",
    "C74_block_declaration_ends",
    "C74_struct_round",
    "C74_unclosed_structures_refuted",
    "C74_enumerator_names_refuted",
    "C74_fifty_enumerators_refuted",
    "C74_many_parameters_refuted"
   ],
   "note": "proved: the parser returns on every token sequence at the end of file and a fault needs struct, enum or 97 commas (C74_program_ends_partial), plain programs are safe, block declarations discharge the hypothesis of C63. Refuted in full: an unclosed struct list loops for ever, an enumerator list starting with no name fails an assertion, 50 enumerators or 98 parameters are written past an array of 100."
  },
  {
   "property": "C75",
   "status": "partial",
   "theorems": [
    "C75_declaration_read_partial",
    "C75_program_read_partial",
    "C75_text_of_one_program",
    "C75_named_prototypes_refuted",
    "C75_void_pointers_refuted",
    "C75_pointers_refuted",
    "C75_local_types_refuted",
    "C75_local_typedefs_refuted"
   ],
   "note": "The grammar is in DeclSpec.v (section Texts). Every declaration in a block (C75_declaration_read_partial) and every program (C75_program_read_partial) written by it is read as its tree, without errors or faults, and denotes one program. Refuted for forms of C the parser refuses: prototypes with named parameters, pointers to void, pointers to pointers and constant pointers outside functions, typedef and enum alone in a block. A function body after other declarators of the same list is not in the grammar."
  },
  {
   "property": "C76",
   "status": "proved",
   "theorems": [
    "C76_declaration_is_text",
    "C76_statement_is_text",
    "C76_body_is_text",
    "C76_errors_only_grow",
    "C76_program_is_text",
    "C76_no_text_is_reported",
    "C76_texts_are_accepted"
   ],
   "note": "For all token sequences, symbol tables without undefined types and verdicts of the builder. The grammar of the accepted texts is in StmtAccept.v and DeclAccept.v; the hypothesis skipped_reported is what parser.c:2043-2052 does."
  },
  {
   "property": "C77",
   "status": "proved",
   "theorems": [
    "C77_flags_define_macros",
    "C77_other_flags_are_reported",
    "C77_long_name_overruns_array_refuted",
    "C77_cut_symbol_reads_past_end_refuted"
   ],
   "note": "C77_flags_define_macros covers the flags which can be granted, C77_other_flags_are_reported all others. Outside of the quantifier the claim is false: C77_long_name_overruns_array_refuted, C77_cut_symbol_reads_past_end_refuted."
  },
  {
   "property": "C78",
   "status": "proved",
   "theorems": [
    "C78_origin_of_line_found",
    "C78_origin_of_macro_found",
    "C78_tag_counts_characters",
    "C78_without_mark_counts_from_top",
    "C78_empty_line_counted_twice_refuted",
    "C78_empty_first_line_not_counted_refuted",
    "C78_search_leaves_text_refuted"
   ],
   "note": "C78_origin_of_line_found and C78_tag_counts_characters for comments with a line, C78_origin_of_macro_found for those with a symbol, C78_without_mark_counts_from_top for texts without one. Outside of the quantifier the claim is false: C78_empty_line_counted_twice_refuted, C78_empty_first_line_not_counted_refuted, C78_search_leaves_text_refuted."
  },
  {
   "property": "C79",
   "status": "proved",
   "theorems": [
    "C79_free_temporary_is_given",
    "C79_free_float_temporary_is_given",
    "C79_names_differ",
    "C79_ninth_register_refuted"
   ],
   "note": "C79_free_temporary_is_given, C79_free_float_temporary_is_given, C79_names_differ. Outside of the quantifier the claim is false: C79_ninth_register_refuted."
  },
  {
   "property": "C80",
   "status": "proved",
   "theorems": [
    "C80_frame_parts_are_apart",
    "C80_globals_are_apart",
    "C80_registers_are_restored",
    "C80_arguments_are_found",
    "C80_argument_registers_are_restored",
    "C80_nested_call_overwrites_refuted"
   ],
   "note": "C80_frame_parts_are_apart, C80_globals_are_apart, C80_registers_are_restored, C80_arguments_are_found, C80_argument_registers_are_restored. Outside of the quantifier the claim is false: C80_nested_call_overwrites_refuted."
  },
  {
   "property": "C81",
   "status": "proved",
   "theorems": [
    "C81_labels_are_declared_once",
    "C81_jumps_have_their_labels",
    "C81_jumps_stay_in_the_function",
    "C81_functions_do_not_share_labels",
    "C81_every_case_is_jumped_to"
   ],
   "note": "C81_labels_are_declared_once, C81_jumps_have_their_labels, C81_jumps_stay_in_the_function, C81_functions_do_not_share_labels, C81_every_case_is_jumped_to. That the labels stand at the right places of the code is not claimed here."
  },
  {
   "property": "C82",
   "status": "partial",
   "theorems": [
    "C82_while",
    "C82_do",
    "C82_for_partial",
    "C82_switch",
    "C82_the_program_goes_on_there",
    "C82_continue_performs_the_step_refuted"
   ],
   "note": "C82_while, C82_do, C82_for_partial, C82_switch say what comes after the labels for break and continue in the code of the statement, C82_the_program_goes_on_there (with C81_labels_are_declared_once) takes this to the whole program. False for continue in a for, which jumps over the step: C82_continue_performs_the_step_refuted."
  }
 ]
}
