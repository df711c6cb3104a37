{"id": "C01", "title": "Growable vector behaves as a list", "statement": "After any sequence of vector_create/add/set/get/remove/increase/resize calls the observable contents and every return value are those of a plain list: add returns the index of the new element, set/get act on exactly one element, out-of-range accesses fail without changing anything, remove pops the last element, increase/resize keep the old prefix and present every grown cell as 0.", "quantifier": "every finite history of vector operations, every index and every 64-bit item value", "why_tests_cant": "capacity doubling, shrinking and regrowing interact over unboundedly long histories; a test sees a few of them", "anchors": ["libs/utils/vector.c: vector_create, vector_add, vector_set, vector_get, vector_remove, vector_increase, vector_resize, vector_swap, vector_size"]}
{"id": "C02", "title": "Stack is LIFO", "statement": "stack_push/stack_pop/stack_peek/stack_reset/stack_resize behave as a last-in first-out sequence; peek and pop on an empty stack return the distinguished ITEM_MAX value and leave the stack empty. The multi-word peek on an empty stack must not read outside the storage.", "quantifier": "every finite history of stack operations", "why_tests_cant": "must hold for every interleaving of pushes and pops, including popping past empty", "anchors": ["libs/utils/stack.h", "libs/utils/stack.c", "libs/utils/vector.c: vector_get_int64"]}
{"id": "C03", "title": "64-bit values survive the target word split", "statement": "For each target word type (i64,u64,i32,u32,i16,u16,i8,u8) item_store_int64_for_target produces 8*8/width words each of which passes item_check_var for that target, and item_restore_int64_for_target gives back the original 64-bit value.", "quantifier": "every 64-bit value and every target word type", "why_tests_cant": "2^64 values times 8 targets cannot be enumerated", "anchors": ["libs/utils/item.c: item_store_int64_for_target, item_restore_int64_for_target, item_get_min, item_get_max, item_check_var"]}
{"id": "C04", "title": "UTF-8 encode/decode round trip", "statement": "For every Unicode code point, utf8_to_string writes exactly utf8_size(c) bytes, utf8_symbol_size of the first byte is that number, and utf8_convert of the bytes gives the code point back.", "quantifier": "every code point 0..0x10FFFF", "why_tests_cant": "tests try a handful of Latin and Cyrillic letters; the encoder picks its length from bit masks so whole ranges can be wrong", "anchors": ["libs/utils/utf8.c: utf8_size, utf8_symbol_size, utf8_convert, utf8_to_string"]}
{"id": "C05", "title": "Decoding text consumes every symbol exactly once", "statement": "Scanning a buffer that is the concatenation of the UTF-8 encodings of a list of code points symbol by symbol yields exactly this list and then end of input.", "quantifier": "every list of (correctly encodable) code points", "why_tests_cant": "unbounded text length and alphabet", "anchors": ["libs/utils/uniscanner.c: uni_scan_char", "libs/utils/utf8.c: utf8_symbol_size, utf8_convert", "libs/utils/uniio.c: in_set_buffer, in_get_position, in_set_position"]}
{"id": "C06", "title": "Pushing a character back restores the input", "statement": "uni_scan_char followed by uni_unscan_char of the character read leaves the input position where it was, so that the next read returns the same character.", "quantifier": "every buffer content and every position at a symbol boundary", "why_tests_cant": "position arithmetic must be right for symbols of every length", "anchors": ["libs/utils/uniscanner.c: uni_scan_char, uni_unscan_char", "libs/utils/utf8.c: utf8_size"]}
{"id": "C07", "title": "Buffered output is the exact concatenation", "statement": "Whatever the initial buffer size, the string extracted from a buffer output is the concatenation of everything printed, in order, with nothing lost or duplicated when the buffer is reallocated.", "quantifier": "every initial size and every sequence of printed strings", "why_tests_cant": "reallocation happens at data-dependent points; tests hit few of them", "anchors": ["libs/utils/uniio.c: out_set_buffer, out_func_buffer, out_extract_buffer", "libs/utils/uniprinter.c: uni_printf, uni_print_char"]}
{"id": "C08", "title": "Code page conversion round trip", "statement": "Converting a byte of CP866 or CP1251 to a code point and back gives the same byte for every byte the code page defines, and no two distinct bytes are mapped to the same code point.", "quantifier": "all 256 bytes of both code pages", "why_tests_cant": "per-branch arithmetic and tables; tests only sample letters", "anchors": ["libs/utils/utf8.c: utf8_to_cp866, utf8_from_cp866, utf8_to_cp1251, utf8_from_cp1251"]}
{"id": "C09", "title": "String table returns what was stored", "statement": "strings_add returns a fresh index; strings_get of that index returns exactly the bytes added for as long as the string has not been removed, whatever other strings are added; strings_remove drops exactly the last string.", "quantifier": "every finite history of add/remove/get and every string", "why_tests_cant": "arena reallocation and removal interact over histories", "anchors": ["libs/utils/strings.c: strings_create, strings_add, strings_add_by_vector, strings_get, strings_get_length, strings_remove, strings_size"]}
{"id": "C10", "title": "Map is a dictionary", "statement": "map_add/map_set/map_get implement a finite map from strings to values: get returns the last value stored under exactly this key, adding an existing key fails and changes nothing, distinct keys never interfere even when their hashes collide.", "quantifier": "every finite history of map operations and every set of keys", "why_tests_cant": "hash collisions and history dependence", "anchors": ["libs/utils/map.c: map_create, map_add, map_set, map_get, map_get_index, map_reserve, map_set_by_index, map_get_by_index, map_to_string"]}
{"id": "C11", "title": "Map indexes are stable names", "statement": "The index returned for a key is never reassigned: map_get_index returns it ever after, map_to_string of it returns the key, and get/set by index acts on the same entry as get/set by key.", "quantifier": "every finite history of map operations", "why_tests_cant": "must hold after any number of later insertions", "anchors": ["libs/utils/map.c: map_get_index, map_get_by_index, map_set_by_index, map_to_string"]}
{"id": "C12", "title": "Hash table stores integer-keyed records", "statement": "hash_add/hash_get/hash_set/hash_remove behave as a finite map from integer keys to fixed-length tuples: adding an existing key fails, a removed key is absent, re-adding works, and operations on one key never change the tuple of another.", "quantifier": "every finite history of hash operations, every key below the reserved value and every record size", "why_tests_cant": "record reuse after removal and chaining depend on the whole history", "anchors": ["libs/utils/hash.c: hash_create, hash_add, hash_get_index, hash_get, hash_get_by_index, hash_set, hash_set_by_index, hash_remove, hash_remove_by_index"]}
{"id": "C13", "title": "AST container is an ordered tree", "statement": "Building a tree with node_add_child/node_add_arg/node_set_arg and reading it with node_get_child/node_get_arg/node_get_parent/node_get_amount/node_get_argc/node_get_type/node_get_next gives back exactly the ordered tree that was built.", "quantifier": "every finite history of construction operations", "why_tests_cant": "the tree is threaded through one integer vector with in-place relinking; a wrong link only shows on particular shapes", "anchors": ["libs/utils/tree.c: node_get_root, node_add_child, node_add_arg, node_get_child, node_get_parent, node_get_next, node_set_arg, node_set_type"]}
{"id": "C14", "title": "Moving and removing subtrees changes nothing else", "statement": "node_swap exchanges exactly two disjoint subtrees and node_remove deletes exactly one subtree from its parent; every other node keeps its place, children and arguments.", "quantifier": "every tree and every pair of nodes neither of which contains the other", "why_tests_cant": "adjacent siblings, first/last child and only-child cases all relink differently", "anchors": ["libs/utils/tree.c: node_swap, node_remove, node_insert", "libs/compiler/AST.c: node_set_child"]}
{"id": "C15", "title": "Pre-order traversal visits every node once", "statement": "Starting at the root and repeating node_get_next enumerates every node of the tree exactly once, in pre-order, and then stops.", "quantifier": "every tree that has at least one child", "why_tests_cant": "unbounded depth and width", "anchors": ["libs/utils/tree.c: node_get_next"]}
{"id": "C16", "title": "Path normalisation preserves meaning", "statement": "ws_unix_path turns every back slash into a slash and removes './' and 'dir/../' parts so that the resulting path denotes the same file and contains no such part.", "quantifier": "every path string", "why_tests_cant": "paths are unbounded; overlapping parts interact", "anchors": ["libs/utils/workspace.c: ws_unix_path"]}
{"id": "C17", "title": "Workspace bookkeeping", "statement": "Files, directories and flags are kept in order without duplicates, and after one failed operation the workspace stays incorrect whatever is done later.", "quantifier": "every sequence of ws_add_* operations", "why_tests_cant": "history dependence", "anchors": ["libs/utils/workspace.c: ws_add_file, ws_add_dir, ws_add_flag, ws_has_flag, ws_is_correct, ws_parse_args"]}
{"id": "C18", "title": "Comments are skipped exactly", "statement": "The lexer treats a block comment as running from '/*' to the first following '*/' and a line comment as running to the end of the line; the tokens produced are those of the program with each comment replaced by a blank.", "quantifier": "every program text", "why_tests_cant": "the scanner looks at character pairs, so parity matters for runs of stars and slashes", "anchors": ["libs/compiler/lexer.c: skip_line_comment, skip_block_comment"]}
{"id": "C19", "title": "Integer literals denote their value", "statement": "A decimal, 0x, 0o, 0b or 0d literal yields an integer token with exactly the mathematical value of its digits whenever it fits in a 64-bit integer.", "quantifier": "every digit string in every base", "why_tests_cant": "accumulation overflows only on particular long literals", "anchors": ["libs/compiler/lexer.c: lex_numeric_literal"]}
{"id": "C20", "title": "Punctuators obey maximal munch", "statement": "Each punctuator spelling yields its own token and the lexer always takes the longest punctuator that matches at the current position.", "quantifier": "every punctuator followed by any text", "why_tests_cant": "the following character is arbitrary", "anchors": ["libs/compiler/lexer.c: lex"]}
{"id": "C21", "title": "Identifiers keep their spelling and keywords are recognised", "statement": "An identifier token refers to a representation whose text is exactly the spelling in the source; the same spelling always yields the same representation and different spellings different ones; each keyword spelling yields its keyword token.", "quantifier": "every identifier spelling and any preceding source", "why_tests_cant": "depends on the whole history of the representation table", "anchors": ["libs/compiler/lexer.c: lex_identifier_or_keyword", "libs/compiler/syntax.c: repr_reserve, keywords table", "libs/utils/map.c"]}
{"id": "C22", "title": "String and character escapes", "statement": "A quoted literal yields exactly the characters written, with each escape sequence replaced by its character; lexing always terminates, reporting an error for a literal that is not closed.", "quantifier": "every sequence of characters after the opening quote", "why_tests_cant": "termination on unterminated input cannot be tested exhaustively", "anchors": ["libs/compiler/lexer.c: get_next_string_elem, lex_char_literal, lex_string_literal"]}
{"id": "C23", "title": "Lexing always advances", "statement": "Every call of the lexer returns and consumes at least one character unless it is at the end of input, hence lexing a finite file ends with the end-of-file token.", "quantifier": "every program text", "why_tests_cant": "liveness over all inputs", "anchors": ["libs/compiler/lexer.c: lex, skip_whitespace, skip_block_comment, lex_string_literal"]}
{"id": "C24", "title": "Expressions are grouped by precedence and associativity", "statement": "Parsing the text of an expression, written with parentheses only where C precedence and associativity require them, builds exactly this expression tree, and parenthesised sub-expressions always group as written.", "quantifier": "every expression tree over all unary, binary, assignment, conditional, comma and postfix operators", "why_tests_cant": "unbounded nesting and operator mixes", "anchors": ["libs/compiler/parser.c: parse_primary_expression, parse_postfix_expression, parse_unary_expression, parse_RHS_of_binary_expression, parse_assignment_expression, parse_expression", "libs/compiler/operations.c: get_operator_precedence, token_to_binary, token_to_unary"]}
{"id": "C25", "title": "Jump statements only inside their constructs", "statement": "In every accepted program each break is inside a loop or switch, each continue inside a loop, each case/default inside a switch; every violation is reported as an error.", "quantifier": "every statement structure of any nesting", "why_tests_cant": "context flags are saved and restored along recursion; only nesting reveals a missing restore", "anchors": ["libs/compiler/parser.c: parse_break_statement, parse_continue_statement, parse_case_statement, parse_default_statement, parse_switch_statement, parse_while_statement, parse_do_statement, parse_for_statement"]}
{"id": "C26", "title": "Error recovery skips balanced input and terminates", "statement": "skip_until consumes tokens up to the requested one at the current bracket level, never stops inside a nested bracket group, and always terminates at the end of file at the latest.", "quantifier": "every token sequence", "why_tests_cant": "unbounded nesting", "anchors": ["libs/compiler/parser.c: skip_until, has_token_set"]}
{"id": "C27", "title": "Scopes restore names", "statement": "After leaving a block or a function every name refers to what it referred to before entering, however many declarations and nested scopes were opened inside.", "quantifier": "every well-nested sequence of declarations and scopes and every name", "why_tests_cant": "shadowing chains of unbounded depth", "anchors": ["libs/compiler/syntax.c: ident_add, scope_block_enter, scope_block_exit, scope_func_enter, scope_func_exit, repr_set_reference"]}
{"id": "C28", "title": "Names resolve to the innermost declaration and redeclaration is rejected", "statement": "Inside nested scopes a name refers to the most recent declaration still in scope; declaring a name twice in one scope is reported, declaring it again in an inner scope is not.", "quantifier": "every well-nested sequence of declarations and scopes", "why_tests_cant": "history dependence", "anchors": ["libs/compiler/syntax.c: ident_add", "libs/compiler/parser.c: to_identab"]}
{"id": "C29", "title": "Equal types have one representation", "statement": "Two types constructed through the type table get the same number exactly when they are structurally the same type.", "quantifier": "every sequence of type constructions", "why_tests_cant": "comparison walks variable-length records; collisions appear only for particular pairs", "anchors": ["libs/compiler/syntax.c: type_add, type_is_equal, get_static, type_pointer, type_array, type_const, type_structure, type_function"]}
{"id": "C30", "title": "Type sizes", "statement": "The size of a structure is the sum of the sizes of its members, every member's offset is the sum of the preceding sizes, hence members never overlap and fit in the structure.", "quantifier": "every type built from the constructors", "why_tests_cant": "recursive types of unbounded depth", "anchors": ["libs/compiler/syntax.c: type_size, type_structure_get_member_type", "libs/compiler/codegen.c: emit_member_lvalue"]}
{"id": "C31", "title": "Local storage does not overlap", "statement": "At every point of a function the cells of all variables in scope are pairwise disjoint and lie below the frame size recorded in the function header.", "quantifier": "every nesting of blocks and declarations", "why_tests_cant": "scope exit reuses storage; overlap appears only for some nestings", "anchors": ["libs/compiler/codegen.c: displacements_add, emit_compound_statement, emit_for_statement, emit_function_definition", "libs/compiler/syntax.c: ident_add, scope_block_exit, scope_func_exit"]}
{"id": "C32", "title": "Constant folding preserves value", "statement": "Replacing a constant expression by its folded literal gives the value the unfolded expression would have at run time, for all operators; folding never has undefined behaviour.", "quantifier": "all literal operands of 64 bits and all operators", "why_tests_cant": "operand space is 2^128 per operator", "anchors": ["libs/compiler/builder.c: fold_unary_expression, fold_binary_expression"]}
{"id": "C33", "title": "Emitted expression code computes the expression", "statement": "Running the code emitted for an integer expression leaves the VM stack as before plus exactly the value of the expression, with short-circuit evaluation of && and || and evaluation of exactly one branch of ?:, and performs the expression's assignments.", "quantifier": "every integer expression and every store", "why_tests_cant": "needs induction over expressions and jump targets", "anchors": ["libs/compiler/codegen.c: emit_expression, emit_binary_expression, emit_ternary_expression, emit_assignment_expression, emit_unary_expression, emit_increment_expression, emit_literal_expression"]}
{"id": "C34", "title": "Emitted statement code follows the statement", "statement": "Running the code emitted for if/while/do/for/break/continue/compound statements has the effect of the statement: jumps are patched so that control continues exactly where the statement says.", "quantifier": "every statement of any nesting and every store", "why_tests_cant": "back-patching chains through code; a wrong patch shows only for some nestings", "anchors": ["libs/compiler/codegen.c: emit_statement, emit_if_statement, emit_while_statement, emit_do_statement, emit_for_statement, emit_break_statement, emit_continue_statement, addr_begin_condition, addr_end_condition, addr_end_break"]}
{"id": "C35", "title": "Switch selects the right case", "statement": "Running the code of a switch executes the statements from the selected case on (or from default when no case matches, wherever default is written), until a break, and leaves the VM stack balanced.", "quantifier": "every switch body and every value", "why_tests_cant": "depends on order of cases, fall-through and default position", "anchors": ["libs/compiler/codegen.c: emit_switch_statement, emit_case_statement, emit_default_statement"]}
{"id": "C36", "title": "Calls to functions defined later are linked", "statement": "Every call of a prototyped function compiled before its definition is patched with the number the function gets when it is defined, no call site is missed and no other word of the code is changed.", "quantifier": "every interleaving of calls and definitions", "why_tests_cant": "the pending calls are threaded through the code itself", "anchors": ["libs/compiler/codegen.c: functions_add, functions_get, emit_call_expression"]}
{"id": "C37", "title": "Unused results are discarded", "statement": "Code emitted for an expression whose value is not used leaves the VM stack unchanged and has the same side effects.", "quantifier": "every expression used as a statement", "why_tests_cant": "the emitter patches the last emitted word by looking at its numeric value", "anchors": ["libs/compiler/codegen.c: emit_void_expression", "libs/compiler/instructions.c: instruction_to_void_ver"]}
{"id": "C38", "title": "Instruction variants keep the operation", "statement": "The address, floating and void variants of an instruction are distinct codes that stand for the same operator, and instructions without such a variant are left alone.", "quantifier": "every instruction code", "why_tests_cant": "offsets in a sparse enumeration", "anchors": ["libs/compiler/instructions.c: instruction_to_address_ver, instruction_to_floating_ver, instruction_to_void_ver, binary_to_instruction, unary_to_instruction"]}
{"id": "C39", "title": "Export refuses what the target cannot hold", "statement": "Code generation succeeds only if every word of every exported table fits the target word type, and then the exported text contains the tables exactly.", "quantifier": "every table content and target", "why_tests_cant": "depends on every word of the output", "anchors": ["libs/compiler/codegen.c: print_table, enc_export", "libs/utils/item.c: item_check_var"]}
{"id": "C40", "title": "Preprocessor expressions follow C precedence", "statement": "Feeding an expression in #if/#elif/#while/#eval to the expression computer gives the value of the expression under C precedence and associativity.", "quantifier": "every expression over the supported operators, parentheses and 64-bit numbers", "why_tests_cant": "operator precedence parsing of unbounded expressions", "anchors": ["libs/macro/computer.c: computer_push_token, computer_push_number, computer_pop_result, computer_compare_priority, computer_select_three, computer_const_number"]}
{"id": "C41", "title": "Preprocessor rejects malformed expressions", "statement": "An operand or operator sequence that is not an expression is reported as an error and never yields a value silently.", "quantifier": "every token sequence", "why_tests_cant": "infinitely many malformed sequences", "anchors": ["libs/macro/computer.c"]}
{"id": "C42", "title": "Macro table follows #define/#set/#undef", "statement": "At any time a macro name expands to the value given by the latest #define or #set not followed by #undef, independently of what was done to other names.", "quantifier": "every history of define/set/undef", "why_tests_cant": "the string arena reuses the last slot; aliasing depends on history", "anchors": ["libs/macro/storage.c: storage_add, storage_set_by_index, storage_get_by_index, storage_remove_by_index, storage_search"]}
{"id": "C43", "title": "Conditional directives select the first true branch", "statement": "For any well-nested #if/#elif/#else/#endif structure exactly the lines of the first branch whose condition holds (or of #else) are processed and directives inside skipped branches have no effect.", "quantifier": "every nesting of conditional directives", "why_tests_cant": "unbounded nesting; skipped blocks must still be matched", "anchors": ["libs/macro/parser.c: parse_block, skip_block, parse_elif, parse_if, parse_ifdef_ifndef, parse_next"]}
{"id": "C44", "title": "Preprocessing is bounded", "statement": "A #while loop is executed at most MAX_ITERATION+1 times and macro calls/includes nest at most to fixed depths, otherwise an error is reported.", "quantifier": "every loop condition and body", "why_tests_cant": "non-termination cannot be tested", "anchors": ["libs/macro/parser.c: parse_while, parse_identifier, parse_include"]}
{"id": "C45", "title": "Stringizing keeps the argument text", "statement": "The # operator turns an argument into a string literal which, when lexed, yields the argument's characters.", "quantifier": "every argument text", "why_tests_cant": "escaping of quotes and back slashes in all combinations", "anchors": ["libs/macro/parser.c: parse_values", "libs/compiler/lexer.c: get_next_string_elem"]}
{"id": "C46", "title": "Errors are counted and make compilation fail", "statement": "Each reported error increases the error count, the count never decreases, reporting restores the input position, with recovery disabled only the first error is reported; compilation succeeds only if no error was reported.", "quantifier": "every sequence of reports", "why_tests_cant": "history dependence", "anchors": ["libs/compiler/reporter.c: report_error, report_warning", "libs/compiler/compiler.c: compile_from_io", "libs/compiler/syntax.c: sx_is_correct", "libs/compiler/parser.c: parse"]}
{"id": "C47", "title": "Assignments respect const and types", "statement": "An assignment or initialisation is accepted only if the target is a modifiable (non-const) lvalue and the value's type is assignable to it.", "quantifier": "every pair of types", "why_tests_cant": "type space is infinite", "anchors": ["libs/compiler/builder.c: check_assignment_operands, build_binary_expression, build_unary_expression"]}
{"id": "C48", "title": "Target word type is chosen by the flags", "statement": "The target word type is the one named by the single target flag on the command line, int32 when no target flag is given, and an error when more than one is given; other flags have no influence.", "quantifier": "all lists of command line flags", "why_tests_cant": "the number and order of flags is unbounded", "anchors": ["libs/utils/item.c: item_get_status"]}
{"id": "C49", "title": "Letters, capitals and transliteration", "statement": "Identifier characters are exactly the Latin and Russian letters, digits and underscore; every small letter is capitalised to its capital; every identifier is transliterated into ASCII identifier characters and different identifiers stay different.", "quantifier": "all characters and all identifiers of any length", "why_tests_cant": "there are unboundedly many identifiers; injectivity is a statement about all pairs", "anchors": ["libs/utils/utf8.c: utf8_is_letter, utf8_is_digit, utf8_to_upper, utf8_transliteration", "libs/compiler/llvmgen.c: func_name_to_io"]}
{"id": "C50", "title": "Symbol boundaries are found from any byte", "statement": "From any byte position of a text utf8_to_first_byte finds the first byte of the symbol that contains this position and never reads outside the text.", "quantifier": "all texts and positions", "why_tests_cant": "texts and positions are unbounded", "anchors": ["libs/utils/utf8.c: utf8_to_first_byte", "libs/utils/logger.c", "libs/utils/commenter.c"]}
{"id": "C51", "title": "Scanning an identifier", "statement": "uni_scan_identifier reads exactly the longest identifier at the current input position, returns its text, and leaves the input right after it; if no letter is there nothing is consumed.", "quantifier": "all inputs that are UTF-8 texts, all positions", "why_tests_cant": "identifiers and surrounding text are unbounded", "anchors": ["libs/utils/uniscanner.c: uni_scan_identifier"]}
{"id": "C52", "title": "The last key read is available by name", "statement": "After a lookup in the map, map_last_read returns the text of the key that was looked up, whether or not it is present; after a new key has been inserted it returns nothing.", "quantifier": "every finite history of map operations followed by a lookup with any key", "why_tests_cant": "the text lives in a shared growing arena whose contents depend on the whole history", "anchors": ["libs/utils/map.c: map_last_read, map_get_index, map_reserve"]}
{"id": "C53", "title": "Directives keep working", "statement": "Every spelling of every preprocessor directive is recognised as that directive at any time, whatever macros have been defined, changed or removed.", "quantifier": "every history of calls on the macro table and every directive spelling", "why_tests_cant": "directives share a table with user names and index spaces of two tables are mixed; a clash depends on the history", "anchors": ["libs/macro/keywords.c: kw_add", "libs/macro/storage.c: storage_create, storage_search"]}
{"id": "C54", "title": "Peeking changes nothing a reader can see", "statement": "peek tells the kind of the next token and leaves the lexer where it was: the next call of lex returns that token, from and to the same places in the text, as if peek had not been called.", "quantifier": "every program text and every history of calls of lex and peek on it", "why_tests_cant": "peek runs the whole lexer and restores only part of its state; what is left depends on the history of the tables", "anchors": ["libs/compiler/lexer.c: peek, lex"]}
{"id": "C55", "title": "Exponents of integer literals", "statement": "A decimal literal with an exponent and without a point or a minus yields an integer token with the value of the literal modulo 2^64, without a message.", "quantifier": "every decimal digit string, exponent letter and exponent below 2^63", "why_tests_cant": "the value is accumulated by repeated multiplication for arbitrary exponents", "anchors": ["libs/compiler/lexer.c: lex_numeric_literal"]}
{"id": "C56", "title": "Types can be taken apart", "statement": "From the number of a type a client gets back exactly the types it was built from: the element of a pointer or array, the result and parameters of a function, the unqualified type of a constant, and the right answer to each question about its class.", "quantifier": "every history of type constructions and every type in it", "why_tests_cant": "the answers depend on every record added before and after", "anchors": ["libs/compiler/syntax.c: type_pointer_get_element_type, type_array_get_element_type, type_function_get_return_type, type_function_get_parameter_type, type_const_get_unqualified_type, type_is_pointer, type_is_floating"]}
{"id": "C57", "title": "Constants must be initialized", "statement": "A variable is required to have an initializer exactly when its type is constant, or an array of such, or a structure with such a member; pointers to constants do not count.", "quantifier": "every type built from the constructors", "why_tests_cant": "recursive types of unbounded depth", "anchors": ["libs/compiler/syntax.c: type_requires_initialization"]}
{"id": "C58", "title": "Places given to variables do not overlap", "statement": "The identifier table gives variables and parameters that are in scope together pairwise disjoint cells; every variable of a function lies in the memory size returned at the end of the function, every global below the global size.", "quantifier": "every well-nested sequence of declarations and scopes", "why_tests_cant": "depends on the whole history of declarations and scopes", "anchors": ["libs/compiler/syntax.c: ident_add, get_static, scope_block_enter, scope_block_exit, scope_func_enter, scope_func_exit"]}
{"id": "C59", "title": "Declarations stay recorded", "statement": "The type and the name of every declared identifier, and the value of a constant or the number of a function, can be read back at any later time, also after its scope has ended; a prototype gets the number of its definition.", "quantifier": "every well-nested sequence of declarations and scopes and every identifier declared in it", "why_tests_cant": "any later declaration or scope could change a record", "anchors": ["libs/compiler/syntax.c: ident_add, ident_get_type, ident_get_repr, ident_get_displ", "libs/compiler/parser.c: parse_function_definition"]}
{"id": "C60", "title": "Type names are told from other names", "statement": "ident_is_type_specifier holds for the names declared with typedef and for no variable, parameter, function or constant.", "quantifier": "every well-nested sequence of declarations and scopes and every identifier", "why_tests_cant": "depends on the amount of memory used and on the values of constants", "anchors": ["libs/compiler/syntax.c: ident_is_type_specifier, ident_add", "libs/compiler/parser.c: parse_init_enum_field_declarator"]}
{"id": "C61", "title": "Complete programs have main and all bodies", "statement": "The final check of the tables succeeds exactly when main was declared and every prototype of the global scope got its definition.", "quantifier": "every well-nested sequence of declarations and scopes", "why_tests_cant": "history dependence", "anchors": ["libs/compiler/syntax.c: sx_is_correct, ident_add"]}
{"id": "C62", "title": "Reading an expression ends on every input", "statement": "For every sequence of tokens, however malformed, the expression parser returns: it consumes a prefix of the tokens, never gives tokens back, and never takes back a reported error.", "quantifier": "every token sequence", "why_tests_cant": "a hang needs one particular malformed input; termination must hold for all", "anchors": ["libs/compiler/parser.c: parse_expression, parse_postfix_expression, parse_RHS_of_binary_expression, parse_initializer, skip_until"]}
{"id": "C63", "title": "Parsing a statement ends and makes progress", "statement": "For every sequence of tokens, however malformed, the statement parser returns, having moved past at least one token unless it was at the end; so no text makes the compiler loop inside a function body (as long as the parser of declarations returns).", "quantifier": "every token sequence, symbol table and builder verdict", "why_tests_cant": "one malformed token sequence that is not consumed hangs the compiler; no finite set of malformed programs excludes it", "anchors": ["libs/compiler/parser.c: parse_statement, parse_compound_statement_body, parse_expression_statement, skip_until"]}
{"id": "C64", "title": "Scopes are closed after a statement", "statement": "After a statement has been parsed, as many scopes are open as before it, so later declarations land in the scope they are written in.", "quantifier": "every statement of any nesting", "why_tests_cant": "each early return of the parser must close what it opened; only an exhaustive argument over paths shows it", "anchors": ["libs/compiler/parser.c: parse_for_statement, parse_compound_statement", "libs/compiler/syntax.c: scope_block_enter, scope_block_exit"]}
{"id": "C65", "title": "printf arguments match the format", "statement": "A call of printf whose first argument is a string literal is accepted exactly if the format is well formed and the other arguments are as many as its placeholders and assignable to the types they ask for; otherwise an error is reported.", "quantifier": "every format string and every list of argument expressions", "why_tests_cant": "format strings and argument lists are unbounded, and acceptance must agree with the format grammar on all of them", "anchors": ["libs/compiler/builder.c:evaluate_args", "libs/compiler/builder.c:build_printf_expression", "libs/compiler/builder.c:build_call_expression"]}
{"id": "C66", "title": "A header is included once", "statement": "A file which has already been read, as a source or by #include, is not read by a later #include, however the files include each other.", "quantifier": "every set of files, every inclusion graph and every order of sources", "why_tests_cant": "inclusion graphs are unbounded and may be cyclic", "anchors": ["libs/macro/parser.c: parse_include, parse_path", "libs/macro/linker.c: linker_add_header, linker_add_source"]}
{"id": "C67", "title": "The preprocessor's result tells whether it reported errors", "statement": "The preprocessor reports failure exactly if it printed an error message, so a compilation never goes on with a text the user was told is wrong.", "quantifier": "every list of source files, every content", "why_tests_cant": "the error flag is saved, cleared and restored by nested loops and calls; only an invariant over all runs shows nothing is lost", "anchors": ["libs/macro/parser.c: parser_error, parse_while, skip_block", "libs/macro/macro.c: macro_form_io"]}
{"id": "C68", "title": "Macros are replaced by their values", "statement": "Each use of a defined name is replaced by the value it was defined with, each parameter in it by the expanded argument, #parameter by the argument as a string and ##parameter by the argument as written, and the result is expanded again; other text is copied.", "quantifier": "every set of definitions, every text and every nesting of calls in arguments and values", "why_tests_cant": "calls nest without bound in arguments and in values", "anchors": ["libs/macro/parser.c: parse_identifier, parse_replacement, parse_brackets, parse_values, parse_observation, parse_define, parse_content, parse_args"]}
{"id": "C69", "title": "Expressions are accepted exactly when they are well typed", "statement": "An expression made of operators, subscripts, member accesses and ?: is accepted without an error exactly if its operands have types the language allows there; it then has the type the rules give, may be assigned to exactly if it names an object, and a member access selects the first member of that name, constant in a constant structure.", "quantifier": "every expression tree over any finished operands, every type", "why_tests_cant": "types and expressions nest without bound and the rules combine in every way", "anchors": ["libs/compiler/builder.c: build_subscript_expression, build_member_expression, build_unary_expression, build_binary_expression, build_ternary_expression, build_print_expression"]}
{"id": "C70", "title": "A place in preprocessed text is found in the source", "statement": "The location found at any place of preprocessed text is the file, the line, the column and the source line the code there comes from, whatever location the search began with; whatever the preprocessor copies from a file is found at the line and column it stands at in the file, what it puts instead of a call at the line and column of the call, and nothing but blanks is lost.", "quantifier": "every text of lines and line marks and every place in it; every file of lines with calls of macros and every character of the output", "why_tests_cant": "texts have any number of lines, marks, calls and replacement lines, and any two places may be searched one after another", "anchors": ["libs/utils/locator.c: loc_search_from, loc_search, loc_update, loc_update_begin, loc_update_end, loc_get_path, loc_get_code_line, loc_get_tag, loc_get_index", "libs/macro/parser.c: parse_identifier, parse_until, parse_hash, parser_preprocess"]}
{"id": "C71", "title": "A message shows its line and underlines its word", "statement": "A message about a place is given with the file, line and column of the place, the source line, and a line which underlines exactly the word at the place (letters and digits around it, or the one character), tabs kept so that the columns agree; printed, the word and the line below are coloured and nothing is lost.", "quantifier": "every message, every source line of any characters and every place in it", "why_tests_cant": "lines have any length and any mixture of one- to four-byte characters, tabs and words around the place", "anchors": ["libs/utils/logger.c: log_error, log_auto_error, set_error_log, splice, literal, length, print_msg, default_log"]}
{"id": "C72", "title": "An include directive reads the file it names", "statement": "A quoted include takes the file beside the file the directive stands in, or else the first of the -I directories which has it; an include in brackets takes the first of the -I directories which has it, or else the file beside. The file is read unless it was read before; a directive whose file does not exist is refused, and no name leaves an array.", "quantifier": "every file system, command line and history of sources, nested include directives and ends of files", "why_tests_cant": "histories and directory trees are unbounded, and the answer to a directive depends on all files read before it", "anchors": ["libs/macro/linker.c: linker_make_path, linker_internal_path, linker_external_path, linker_search_internal, linker_search_external, linker_add_source, linker_add_header, linker_set_index", "libs/macro/parser.c: parse_path"]}
{"id": "C73", "title": "The text of a preprocessor expression means its tokens", "statement": "The value of the text of an #if, #elif, #while or #eval expression is the value of the tokens written in it: blanks, comments and continued lines between tokens do not matter, the longest operator is meant, decimal, hexadecimal, octal and binary numbers with their sizes and characters have the value they spell, a name which is no macro counts as 0 and a macro as the tokens of its value. A text which is blank, whose tokens are no expression, or which holds something that is no token (an assignment, a string, a floating constant, a foreign character) is never accepted silently.", "quantifier": "every text, every place in the file, every set of macros and every sequence of gaps and tokens", "why_tests_cant": "texts, spellings of gaps and numbers and macro values are unbounded, and tokens interact through what stands next to them", "anchors": ["libs/macro/parser.c: parse_expression, parse_token, parse_number, parse_suffix, parse_sequence, skip_until, skip_lines, skip_comment, skip_multi_comment, skip_string", "libs/utils/map.c: map_get_hash_by_io"]}
{"id": "C74", "title": "Every program is read to its end", "statement": "Whatever the tokens of a program are, the parser of its declarations and functions returns, stands at the end of the file and has only moved on and added errors; it never loops, fails an assertion or leaves its arrays.", "quantifier": "every sequence of tokens, every symbol table and every verdict of the expression builder", "why_tests_cant": "sequences of tokens are unbounded, and error recovery has a different way to fail on each of them", "anchors": ["libs/compiler/parser.c: parse_type_specifier, parse_struct_declaration_list, parse_enum_declaration_list, parse_init_declarator, parse_declaration, parse_function_declarator, parse_function_definition, parse_external_definition, parse_translation_unit, parse"]}
{"id": "C75", "title": "Declarations and programs mean what their text says", "statement": "A text written by the grammar of declarations (types, structures, enumerations, typedefs, declarators, prototypes, functions with bodies) is read without an error, whatever follows it, as exactly the tree it denotes, and the symbol table receives exactly the entries of the text in their order; so a text denotes one program only.", "quantifier": "every program and declaration written by the grammar, of any length and nesting, every symbol table and every verdict of the expression builder", "why_tests_cant": "the grammar is recursive and its texts are unbounded; a test reads one text", "anchors": ["libs/compiler/parser.c: parse_type_specifier, parse_struct_or_union_specifier, parse_enum_specifier, parse_init_declarator, parse_declaration, parse_function_declarator, parse_function_definition, parse_external_definition, parse_translation_unit"]}
{"id": "C76", "title": "What is accepted without a message is a text of what was built", "statement": "If a program, a statement or a declaration is parsed and the number of reported errors does not change, then the tokens consumed are a text of exactly the tree that was built, written by the grammar the parser accepts, the symbol table received exactly the entries of that text, every jump stands inside a statement it can leave, and no else is left over; a token sequence outside of that grammar is always reported.", "quantifier": "every sequence of tokens, every symbol table without undefined types and every verdict of the expression builder", "why_tests_cant": "it ranges over all token sequences, also the malformed ones, of which a test tries a few", "anchors": ["libs/compiler/parser.c: parse_statement, parse_compound_statement_body, parse_declaration, parse_type_specifier, parse_struct_or_union_specifier, parse_enum_specifier, parse_init_declarator, parse_function_declarator, parse_function_definition, parse_external_definition, parse_translation_unit"]}
{"id": "C77", "title": "Flags -D define exactly the macros they name", "statement": "When every -D flag of the command line begins with a name and no two name the same macro, the preprocessor starts with exactly these macros: -DN and -DN= define N without a text, -DN=T defines N with the text T, and -DNT, where T begins with neither a letter, a digit nor =, does the same with a warning; flags which do not begin with -D change nothing. Otherwise the preprocessor fails and reports an error for the first flag at fault; the flags before it are defined and those behind it are not looked at.", "quantifier": "every list of flags which are UTF-8 texts with names shorter than 1024 symbols (longer names overrun an array and cut symbols are read past the end, shown separately), every content of fresh memory", "why_tests_cant": "flags, names and texts are arbitrary, and names collide in the table of macros in ways a few command lines do not show", "anchors": ["libs/macro/macro.c: ws_parse_name, ws_parse", "libs/macro/storage.c: storage_add_by_utf8, storage_set_by_index"]}
{"id": "C78", "title": "Comments about the origin of a line are found and read back", "statement": "In a text made of preprocessed lines and of comments // # path line, as they are written for a file and a line number, asking about any position of a line that is not empty gives the path of the nearest comment above it, that comment's number plus the lines in between, the offset in the line and the line itself, whatever stands above the comment and below the line; the printed tag counts the column in characters. With a comment // # path line symbol the answer is that line and that symbol. Without a comment above, no file is named and lines are counted from the top of the text.", "quantifier": "every path without blanks and newlines, every line number and every symbol number of a size_t, every text above, between and below (empty lines, texts which begin with a newline or with the end of a comment are shown separately to go wrong)", "why_tests_cant": "texts, paths and positions are arbitrary; a path may contain the very characters of the comment's prefix, and the nearest of many comments must be the one taken", "anchors": ["libs/utils/commenter.c: cmt_create, cmt_create_macro, cmt_to_string, cmt_search, cmt_get_tag, cmt_get_code_line, cmt_get_path, cmt_get_line, cmt_get_symbol, cmt_is_correct"]}
{"id": "C79", "title": "The MIPS generator never gives out a register that is in use", "statement": "Whatever registers were taken, locked and freed before, a request of the MIPS generator for a register, while one of $t0-$t7 is free, gives one of them that is not in use, and a request for a floating register gives one of $f4, $f6, $f8, $f10, $f16, $f18 that is not in use, or stops the program exactly when all six are in use. No two registers are written under the same name.", "quantifier": "every history of requests, locks and frees in which a general register is only asked for while one of $t0-$t7 is free (a ninth request is shown separately to give $s0 and to lose it)", "why_tests_cant": "the histories come from arbitrarily nested expressions; a test sees the registers of a few of them", "anchors": ["libs/compiler/mipsgen.c: lock_register, get_register, get_float_register, free_register, mips_register_to_io"]}
{"id": "C80", "title": "MIPS frames: nothing overlaps, arguments are found, registers come back", "statement": "In the code of the MIPS generator for a function without arrays, at every point of its body the saved registers, the variables of the open blocks, the parameters and the words written for a call lie in pieces of memory which do not overlap; global variables do not overlap. A function restores each register it saved, $s0-$s7 among them, from the word it saved it in, and $sp. For every list of parameters each argument is passed in the register or at the address where the function looks for it, no two in one register, and the registers used for arguments are saved and get their values back after the call.", "quantifier": "every sequence of declarations and blocks, every sizes of variables, every number and kinds of arguments of one word, every $sp (calls among the arguments of a call are shown separately to overwrite a saved word)", "why_tests_cant": "blocks nest arbitrarily and argument lists are of any length and mixture of kinds; overlaps show only for some of them", "anchors": ["libs/compiler/mipsgen.c: displacements_add, emit_compound_statement, emit_for_statement, emit_function_definition, emit_call_expression"]}
{"id": "C81", "title": "MIPS labels: declared once, every jump has its label, every case has its jump", "statement": "In the code the MIPS generator writes for a program no label is declared twice. If break stands only in loops and switches and continue only in loops, every jump and branch inside of a function has its label in the code of the same function, and never in another one. Every case and default of a switch with at most one default has a jump to its label.", "quantifier": "every list of functions with different numbers, every nesting of if, while, do, for, switch, break, continue, return, comparisons, && and ||, ?: (case and default directly in the body of their switch)", "why_tests_cant": "labels are numbered by two counters shared by all constructs; a clash shows only for particular nestings, and an assembler is needed to see it", "anchors": ["libs/compiler/mipsgen.c: emit_label_declaration, emit_if_statement, emit_switch_statement, emit_while_statement, emit_do_statement, emit_for_statement, emit_return_statement, emit_ternary_expression, emit_binary_expression, emit_binary_operation, encode_to_mips"]}
{"id": "C82", "title": "MIPS code: break leaves the innermost loop or switch, continue starts its next pass", "statement": "In the code the MIPS generator writes, a break goes on with the line right after its loop or switch. A continue goes on in a while and a do with the condition, in a for with the step and then the condition; in a switch it is that of the loop around it.", "quantifier": "every loop and switch, with every condition and body, at every place of every program", "why_tests_cant": "bodies nest arbitrarily; whether the label that break or continue jumps to is the one of its own loop depends on the numbers of all labels in between", "anchors": ["libs/compiler/mipsgen.c: emit_while_statement, emit_do_statement, emit_for_statement, emit_switch_statement, emit_break_statement, emit_continue_statement"]}
