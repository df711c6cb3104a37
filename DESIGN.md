# Formal model of RuC in Rocq (Coq 8.16.1)

This directory holds a machine-checked model of parts of `andrey-terekhov/RuC`
(the C-dialect compiler with Russian keywords) and theorems about it.

* `properties.jsonl` – the semantic properties (C01, C02, …), in English.
* `rocq/theories/` – the model, the specifications and the proofs.
* `MANIFEST.json` – which theorem settles which property.
* `seeded/LOG.jsonl` – the wrong programs the theorems were tested against.

## Layout of the Coq files

For every area `X` there are up to four files.

* `XModel.v` – the code of `/repo`, function by function.  Every definition
  carries a comment with the file and lines it models and every simplification.
* `XSpec.v` – a small specification that does not mention the model's helpers
  (lists, finite maps, inductive trees, a reference semantics…).
* `XProofs.v` – invariants, lemmas.
* `XProps.v` – only the property theorems: statement, `exact lemma`,
  `Print Assumptions`, and an `Example` that meets the hypotheses.

A property that is *false* of the code is settled by a theorem
`…_refuted` which exhibits a concrete input on which the model of the code
breaks the English statement, together with the strongest positive theorem
that does hold (suffix `_partial` when it does not cover the whole claim).

## Modelling conventions

* C integers that cannot overflow in the code at hand are `Z`/`nat`; where
  wrap-around or range matters (`item_t`, `size_t` arithmetic, literals, UTF-8
  bit fields, constant folding) it is explicit (`mod 2^64`, `wrap64`).
* Memory allocation never fails (`malloc`, `realloc` return a block).  A C
  array is a Coq list; reading or writing outside it is a distinct outcome
  (`None`), never a silent default.
* `while` loops become fuelled or structurally recursive functions; running
  out of fuel is a distinct outcome and theorems exclude it by showing that
  enough fuel exists.
* Undefined behaviour in C (division by zero, signed overflow, out-of-bounds)
  is a distinct outcome.

## Plan per property

| Id | Modelled | Technique |
|----|----------|-----------|
| C01 | `vector.c` with explicit capacity/array | refinement to `list Z`, induction over histories |
| C02 | `stack.c/h` over the vector model | refinement to LIFO list; `_refuted` for the double-word peek on an empty stack |
| C03 | `item.c` store/restore/check with 64-bit wrap | round-trip law by arithmetic on `Z` |
| C04 | `utf8.c` encoder/decoder with bit masks | round trip over ranges by `Z` arithmetic; `_refuted` for U+0800–U+0FFF |
| C05, C06 | `uniscanner.c`, buffer input of `uniio.c` | induction over the list of code points |
| C07 | buffer output of `uniio.c` | invariant over print histories |
| C08 | code page functions of `utf8.c` | finite domain, `forallb` lifted to `forall` |
| C09 | `strings.c` | refinement to list of strings |
| C10, C11 | `map.c` with buckets and key arena | refinement to finite map; invariant over histories |
| C12 | `hash.c` on the vector model | refinement to finite map |
| C13–C15 | `tree.c` on the vector model | representation predicate: ordered tree laid out in a vector |
| C16 | `ws_unix_path` over byte lists (`WsModel.v`) | the loop is a stack of names; the meaning of a path is a walk from a directory; `_refuted` for the corners |
| C17 | `workspace.c`: adding files, directories, flags, the output; the command line | every call asks for something which does not depend on the state (`wish`); induction over histories |
| C18, C19, C20, C22, C23 | `lexer.c` over a list of code points | spec automata; `_refuted` for "/*/", "**/", exponent and unterminated string |
| C21 | `lexer.c` identifiers over `map.c` | from the map refinement |
| C24, C62 | expression part of `parser.c` over token lists, AST as inductive tree | C grammar as a mutual inductive relation; grammar to parser by rule induction, parser to grammar by induction on fuel, print/parse round trip; fuel `16 * length + 16` always suffices |
| C25, C63, C64 | statement part of `parser.c`, with the symbol table, `parse_declaration` and the builder verdicts as parameters | invariants over all parser results; statement grammar to parser by rule induction; progress by showing each statement looks only past its keyword; `_refuted` for scopes after a malformed `for` |
| C26 | `skip_until` | induction over token list; full statement refuted, flat groups proved |
| C27, C28 | identifier table and scopes of `syntax.c` | invariant over well-nested histories |
| C29, C30 | type table of `syntax.c` | refinement to inductive types; `_refuted` for const types |
| C31 | `displacements_add`, scopes and function frames of `codegen.c` (`CodeModel.v`) | a layout of the variables given by the declarations alone (`StoreSpec.v`), induction over statements and units |
| C69 | the same model | typing rules as an inductive relation over expressions; the builder decides it, by induction over expressions |
| C70 | `locator.c` over bytes; the copying of lines with calls | marks read from the top as a state machine (`LocSpec.v`); the backward search finds its state, by induction over the lines; the output is a text of marks whose labels agree with the states |
| C71 | `logger.c` over bytes, printing as events | the word as a maximal run, unique; the loops by induction over the characters of the line |
| C72 | `macro/linker.c` over the workspace model, the disk as parameters | the candidate paths and the files being read as a small machine (`IncSpec.v`); invariant between numbers, marks and files read, over histories; `_refuted` for headers of another directory |
| C73 | the readers of `macro/parser.c` used by `parse_expression`, over code points; macros as a parameter | spellings of tokens and gaps as inductive relations (`EtextSpec.v`); induction over the text, uniform in the state of the calculator; C40/C41 for the tokens; `_refuted` for prefixes in macro values and for constants of C |
| C74 | declarations, functions and programs of `parser.c` (`DeclModel.v`) over the statement model; the symbol table `note`, `type_of`, `tag_of` and the builder verdicts as parameters | every function total by induction on fuel, in a relation `St` (suffix of tokens, errors grow, faults persist and have a cause); through bodies by `StmtEnv.v`; `_refuted` for loops, assertions and writes out of bounds |
| C75 | the same model; the grammar of types, members, enumerators, declarators, parameters, functions and programs as inductive relations between tokens, trees and symbol tables (`DeclSpec.v`, section Texts) | induction over the relations: each text is consumed exactly, with the tree of the text, no error, and the entries made in the order of the text; what C allows and the parser refuses (named prototypes, pointers to `void` and to pointers outside functions, local types) as refutations for every such text |
| C76 | the models of C63 and C74; the texts the parser takes, as inductive relations (`StmtAccept.v`, `DeclAccept.v`): the grammars of statements and of C75 with the liberties of C24 in expressions and with `typedef`, `const`, names before the star of a function and bodies in lists of declarators where the parser lets them through. Assumed of the symbol table: no undefined types in it, and a skipped body is reported | induction over the fuel, backwards through each function: if the number of errors is the same at the end and nothing went wrong, every step consumed a piece of a text (`StmtBack.v`, `DeclBack.v`, `UnitBack.v`); with C74 every other token sequence is reported; with C75 its texts are among those accepted |
| C77 | `ws_parse_name` and `ws_parse` of `macro/macro.c` (`FlagModel.v`) over the models of UTF-8 and of the table of macros; flags as lists of symbols | what a flag means is a function on symbols (`FlagSpec.v`); the reading loop by induction over the symbols, the table through C42 with bounds on its growth, induction over the flags; `_refuted` for names of 1024 symbols and for flags which are not UTF-8 |
| C78 | `utils/commenter.c` (`CommentModel.v`): texts are lists of bytes, pointers into them offsets, a read outside of them `None` | a mark is given as a text (`CommentSpec.v`); the backward search by induction over the reversed text: over lines without a mark, over the digits and the path of the mark, up to its prefix; numbers by the reading of decimal digits of C39; columns by induction over the characters; `_refuted` for empty lines, for an empty first line, and for texts which begin with the end of a mark |
| C79 | the table of temporaries of `mipsgen.c`, `mips_register_to_io` (`MipsModel.v`); enumerators are their numbers, a failed assertion is `None` | histories are an inductive relation between tables and sets of held registers (`uses`, `MipsProofs.v`); invariant: a word of the table is set exactly when its register is held; `_refuted`: the ninth temporary is $s0 and is never free again |
| C80 | the displacements, the saving and restoring of registers and the places of arguments of `mipsgen.c` (`MipsModel.v`), sizes as unbounded numbers | histories of declarations and blocks with the variables that are open; invariant: the variables of each block lie between its bounds, blocks are stacked; places of arguments and of parameters by induction over the list with the counters related; `_refuted`: a call among the arguments of a call writes over its first word |
| C81 | the labels and jumps of every statement and expression of `mipsgen.c` (`LabelModel.v`), with the two counters and the labels for break and continue; all other instructions are left out, a conditional jump on a constant is always there | declared labels and targets are lists (`LabelSpec.v`); invariant by mutual induction over statements and sections of switches: each label occurs at most once and its number lies between the counters before and after; each target is declared or is the break, continue or end label of the context |
| C82 | as C81 (`LabelModel.v`) | the lines after a label (`FlowSpec.v`) are computed for each kind of loop and for switch, using that the labels of inner statements have other numbers; `_refuted`: continue in a for jumps to the condition, past the step |
| C32, C65 | expression part of `builder.c` over typed nodes (`BuildModel.v`) | induction over constant expressions against reference values; UB refuted; format grammar as an inductive relation |
| C33, C34, C37 | integer expressions and statements of `codegen.c` (`CodeModel.v`) + the machine of `VmSpec.v` | reference semantics in `CodeSpec.v`; simulation by induction over derivations |
| C35 | switch part of `codegen.c` | simulation for a switch whose default is last; `_refuted` otherwise |
| C36 | `functions_add`, `functions_get`, `enc_*` linking of `codegen.c` | invariant on the chains of pending calls over histories of emitted words, definitions and calls; `_refuted` for code above 9000 words and functions as arguments |
| C38 | `instructions.c`, `instructions.h` (`InstrModel.v`) | case analysis over all operators and codes; `_refuted` where a variant is missing |
| C39 | `enc_export`, `print_table`, `enc_proc` of `codegen.c` | reader of the text which inverts the writer, induction over tables |
| C40, C41 | `macro/computer.c` (stacks as lists) and the loop of `parse_expression` | operator-precedence correctness by induction on a grammar with strengths, stack shape invariant for the converse; `_refuted` for `!`, `-(1)`, short circuit |
| C42 | `macro/storage.c`, `macro/keywords.c` over the map, hash and string models | link invariant between the three tables, refinement to a map from names to macros; `_refuted` for empty texts, `#undef` of an undefined name, second `#define`, empty name |
| C43, C44, C66–C68 | directive engine of `macro/parser.c` over lists of tokens (`MacroModel.v`), with the files, the calculator and its error points as parameters | mutually recursive functions as levels of recursion; a step is shown monotone, to keep the bounds, to shorten what is left and to settle; block structure by induction over derivations of what a text does; replacement by induction over derivations; `_refuted` for an unclosed call at the end, a stray closer in a skipped branch, a source included before |
| C45 | stringizing of `macro/parser.c` (`StrzModel.v`) against the string literals of `LexSpec.v` | induction over the text; `_refuted` for back slashes |
| C46 | `reporter.c`, `compiler.c` (`ReportModel.v`) | invariant over histories of reports; the outcome of the driver from the error count |
| C47 | `check_assignment_operands` and its callers | acceptance iff an inductive `assignable` relation; induction over nested lists; `_refuted` for the holes |
| C48 | `item_get_status` | induction over the flag list |
| C49 | letters, capitals, transliteration of `utf8.c` | finite tables lifted to texts; `_refuted` for YO and for injectivity |
| C50 | `utf8_to_first_byte` | induction over the bytes of a symbol; `_refuted` outside UTF-8 |
| C51 | `uni_scan_identifier` | induction over the identifier |
| C52 | `map_last_read` | from the map invariant |
| C53 | `kw_add`, `storage_search` | corollary of the refinement of C42 |
| C54 | `peek` | from the simulation of `lex` |
| C55 | exponents in `lex_numeric_literal` | induction over digits |
| C56, C57 | type table of `syntax.c` | same invariant as C29 |
| C58–C61 | identifier table of `syntax.c`, enum constants and function definitions of `parser.c` | same invariant as C27: table cells, name references and the scope stack against a list of frames; `_refuted` for types and places from 1000 on, a variable called `main` |

The virtual machine that executes RuC code is *not* in the repository; its
semantics is part of the trusted specification (`VmSpec.v`), written from
the comments in `instructions.h` and the way the code generator uses it.

## Trusted base

* The kernel of Coq 8.16.1, with its virtual machine (`vm_compute`, used for
  concrete examples, finite tables and refutations).
* Axioms: none.  Every property theorem is followed by `Print Assumptions`,
  and each of them answers "Closed under the global context".  No library
  besides Coq's own standard library is used.
* The specifications (`*Spec.v`): that they say what the English property says.
* `VmSpec.v`: the machine which runs the code.  It is not in the repository;
  it was written from the comments in `instructions.h` and from how the code
  generator uses each instruction.
* The faithfulness of the hand-written model to the C text.  Each definition
  cites its lines, and the comment at the head of each model file lists the
  simplifications.

### What is modelled

| Code | Model | Left out |
|------|-------|----------|
| `utils/vector.c`, `stack.h` | `VectorModel.v`, list level `LVec.v` | ITEM other than -64 |
| `utils/item.c` | `ItemModel.v` | ITEM other than -64, except `item_get_status` |
| `utils/utf8.c` | `Utf8Model.v` | code page conversion of whole files |
| `utils/uniio.c`, `uniscanner.c`, `uniprinter.c` | `UniioModel.v` | user callbacks, output files, floating formats |
| `utils/strings.c`, `map.c`, `hash.c`, `tree.c` | `StringsModel.v`, `MapModel.v`, `HashModel.v`, `TreeModel.v` | |
| `utils/workspace.c` | `WsModel.v` | a null workspace |
| `compiler/lexer.c`, `token.c` | `LexModel.v` | rounding of floating literals (kept as digits) |
| `compiler/parser.c`, expressions | `ParseModel.v` | |
| `compiler/parser.c`, statements | `StmtModel.v` | declarations are a parameter, instantiated in `DeclModel.v` |
| `compiler/parser.c` 789-1290, 1870-2257, declarations, functions, programs | `DeclModel.v` | the symbol table and `main` checks of its types (parameters); a loop without an end, a failed assertion or a write out of bounds is a recorded fault that ends the text |
| `compiler/builder.c` | `BuildModel.v` | statement builders, robot functions |
| `compiler/syntax.c` | `TypesModel.v`, `IdentModel.v` | error reporting |
| `compiler/codegen.c` | `CodeModel.v` | robot functions, `printid`/`getid` texts, threads beyond their words |
| `compiler/instructions.c` | `InstrModel.v` | |
| `macro/computer.c`, loop of `parse_expression` | `ComputerModel.v` | |
| `macro/parser.c` 100-327, 1157-1612 (text of expressions), `map_get_hash_by_io` | `EtextModel.v` | `scanf` conversions after the C standard (overflow undefined); macros as a parameter `replace`; errors without their texts |
| `macro/macro.c`: `ws_parse_name`, `ws_parse` | `FlagModel.v` | not the Windows variant |
| `macro/storage.c`, `keywords.c` | `StorageModel.v` | `kw_without`, `kw_after` |
| `macro/parser.c`, directives, calls, loops, inclusion; `macro_form_io` | `MacroModel.v` | the text of tokens (`parse_token`), comments, positions (in `LocModel.v`), warnings, paths of included files; stringizing in `StrzModel.v` |
| `macro/linker.c` | `IncModel.v` | `linker_clear`, a null linker, a disk which changes |
| `compiler/mipsgen.c`: `lock_register` to `free_register`, `mips_register_to_io`, `displacements_add`, the frames in `emit_function_definition`, the places of arguments in `emit_call_expression` | `MipsModel.v` | the instructions, expressions and statements, arrays, structures as parameters |
| `compiler/mipsgen.c`: labels and jumps of `emit_statement` and of all statements, of comparisons, logical and ternary expressions | `LabelModel.v` | the other instructions; case inside of the statement of a case (the program fails on it) |
| `utils/commenter.c` | `CommentModel.v` | NULL arguments, the sizes of buffers, a sign before a number |
| `utils/locator.c` | `LocModel.v` | `loc_copy`, `loc_is_correct`, the limits of the buffers `MAX_PATH` and `MAX_MSG_SIZE` |
| `utils/logger.c` | `LogModel.v` | Windows, the texts, replacing the loggers, NULL arguments |
| `compiler/reporter.c`, `compiler.c` | `ReportModel.v` | texts of messages |

Not modelled at all: `llvmgen.c`, the rest of `mipsgen.c`, `writer.c`, `errors.c` texts,
the old `preprocessor/` sources, and `main` programs.
