{
 "claims": [
  {
   "property": "C01",
   "status": "proved",
   "theorems": [
    "tokens_stand_for_lexemes",
    "tokens_cover_source",
    "empty_token_only_for_blank_text",
    "lexical_structure_unique"
   ],
   "note": "for texts without NUL shorter than 2^32-2 characters"
  },
  {
   "property": "C02",
   "status": "proved",
   "theorems": [
    "token_lines_right"
   ],
   "note": ""
  },
  {
   "property": "C03",
   "status": "proved",
   "theorems": [
    "token_columns_right",
    "token_columns_right_refuted"
   ],
   "note": "false behind a quote or comment on the same line: witness; proved for the other tokens"
  },
  {
   "property": "C04",
   "status": "proved",
   "theorems": [
    "tokenizer_ends",
    "tokenizer_accepts_exactly",
    "tokenizer_rejects_with_reason",
    "classifier_ends",
    "classifier_ends_refuted"
   ],
   "note": "false for a text of blanks without newline: witness; proved for all others"
  },
  {
   "property": "C05",
   "status": "proved",
   "theorems": [
    "word_gets_its_class",
    "classes_disjoint",
    "integer_grammar_complete_refuted",
    "string_token_is_one_literal_refuted"
   ],
   "note": "the grammar of record has two documented deviations, each with a witness: 0_1 is no integer, and a word that starts and ends with a double quote is one string"
  },
  {
   "property": "C06",
   "status": "proved",
   "theorems": [
    "names_are_not_reserved"
   ],
   "note": ""
  },
  {
   "property": "C07",
   "status": "proved",
   "theorems": [
    "integer_literal_value",
    "integer_words_have_values",
    "digits_have_one_value",
    "integer_literal_safe_refuted"
   ],
   "note": "undefined when a separator and an underscore follow a prefixed literal: witness; proved otherwise; strtoll modelled after C11 7.22.1.4"
  },
  {
   "property": "C08",
   "status": "proved",
   "theorems": [
    "rune_literal_value",
    "rune_literal_safe_refuted",
    "rune_token_is_one_literal_refuted"
   ],
   "note": "plain characters above 255 are outside the domain of iscntrl, and adjoining literals are one rune: witnesses; proved for single literals"
  },
  {
   "property": "C09",
   "status": "proved",
   "theorems": [
    "string_literal_value",
    "string_reading_unique"
   ],
   "note": "for words that are one quoted text; see string_token_is_one_literal_refuted for the others"
  },
  {
   "property": "C10",
   "status": "proved",
   "theorems": [
    "decode_inverts_utf8",
    "encode_is_utf8",
    "encode_total_on_scalars",
    "decode_rejects_at_first_bad_sequence"
   ],
   "note": "libc conversion functions modelled strictly by RFC 3629"
  },
  {
   "property": "C11",
   "status": "proved",
   "theorems": [
    "parser_finishes",
    "tree_reads_back",
    "tree_reads_back_refuted"
   ],
   "note": "order and completeness fail for programs or blocks that begin with a block: witness"
  },
  {
   "property": "C12",
   "status": "proved",
   "theorems": [
    "expression_reads_back"
   ],
   "note": ""
  },
  {
   "property": "C13",
   "status": "proved",
   "theorems": [
    "operators_group",
    "operators_group_anywhere",
    "operators_group_refuted"
   ],
   "note": "false in general: witness; proved for all plain expressions"
  },
  {
   "property": "C14",
   "status": "proved",
   "theorems": [
    "right_parentheses_group",
    "left_parentheses_group_iff",
    "parentheses_group_refuted"
   ],
   "note": "false for a leading parenthesis: witness and exact condition"
  },
  {
   "property": "C15",
   "status": "proved",
   "theorems": [
    "parser_is_safe",
    "parser_is_safe_refuted",
    "operands_are_there",
    "operands_are_there_refuted"
   ],
   "note": "false in general: witnesses; proved for programs that end with a line end not behind a declaration without value"
  },
  {
   "property": "C16",
   "status": "proved",
   "theorems": [
    "rejection_has_a_message",
    "rejection_has_a_message_refuted",
    "messages_point_into_program"
   ],
   "note": "parser only; false when the program ends with if, elif, while or namespace: witness"
  },
  {
   "property": "C17",
   "status": "proved",
   "theorems": [
    "jumps_stay_inside_loops",
    "jumps_stay_inside_loops_refuted"
   ],
   "note": "a block behind a call statement is not checked: witness; proved for programs without such blocks"
  },
  {
   "property": "C18",
   "status": "proved",
   "theorems": [
    "else_follows_if"
   ],
   "note": "for programs without blocks behind call statements"
  },
  {
   "property": "C19",
   "status": "proved",
   "theorems": [
    "no_code_behind_jumps",
    "only_comments_behind_jumps_refuted"
   ],
   "note": "noop and unreachable are allowed as well: witness"
  },
  {
   "property": "C20",
   "status": "proved",
   "theorems": [
    "constants_never_change"
   ],
   "note": ""
  },
  {
   "property": "C21",
   "status": "proved",
   "theorems": [
    "names_are_declared_once",
    "names_are_declared_once_refuted"
   ],
   "note": "aliases with a written type have no meaning and do not count: witness"
  },
  {
   "property": "C22",
   "status": "proved",
   "theorems": [
    "declared_first",
    "variables_are_declared_first",
    "targets_are_declared_first",
    "functions_are_declared_first"
   ],
   "note": "The first theorem is about all names, the others say more about names without dots."
  },
  {
   "property": "C23",
   "status": "proved",
   "theorems": [
    "expressions_are_well_typed",
    "operators_get_their_types"
   ],
   "note": ""
  },
  {
   "property": "C24",
   "status": "proved",
   "theorems": [
    "stored_values_have_the_declared_type",
    "void_is_not_computed",
    "no_void_variables_refuted"
   ],
   "note": "Void parameters can be stored: witness"
  },
  {
   "property": "C25",
   "status": "proved",
   "theorems": [
    "operators_get_their_types",
    "no_division_by_zero_refuted"
   ],
   "note": "the unused expression of an alias is not checked: witness"
  },
  {
   "property": "C26",
   "status": "proved",
   "theorems": [
    "calls_match_declarations",
    "calls_match_refuted"
   ],
   "note": "arguments are counted modulo 2^16: witness"
  },
  {
   "property": "C27",
   "status": "proved",
   "theorems": [
    "returns_match_functions",
    "programs_return_integers",
    "returns_match_refuted",
    "programs_return_integers_refuted",
    "no_values_from_void_refuted"
   ],
   "note": "for programs without nested functions; nested functions, external declarations and inner returns of functions without result break the claim: witnesses"
  },
  {
   "property": "C28",
   "status": "proved",
   "theorems": [
    "type_objects_are_types",
    "type_objects_describe_types"
   ],
   "note": ""
  },
  {
   "property": "C29",
   "status": "proved",
   "theorems": [
    "unused_names_are_reported",
    "only_unused_names_are_reported",
    "unused_names_are_errors",
    "unused_names_are_errors_refuted",
    "locals_are_reported_refuted"
   ],
   "note": "false as stated: a later block with unused names clears the error, and functions are not looked into: witnesses; proved: exactly the unused names outside of functions are reported, and an accepted one has such a block behind it"
  },
  {
   "property": "C30",
   "status": "proved",
   "theorems": [
    "generated_expressions_read_back",
    "generated_expressions_read_back_refuted"
   ],
   "note": "Restricted to expressions whose names are no C keywords, whose strings need no escapes and whose numbers are not the lowest integer, infinite or NaN; the second theorem shows programs outside these limits whose C text is wrong. The C grammar is Spec_C.v. The digits that printf %a writes for a floating point number are a parameter."
  },
  {
   "property": "C31",
   "status": "proved",
   "theorems": [
    "int_pow_is_power",
    "int_pow_is_power_refuted"
   ],
   "note": "Proved for exponents from one on. For the exponent zero the helper returns the base; the second theorem is the witness."
  },
  {
   "property": "C32",
   "status": "proved",
   "theorems": [
    "code_made",
    "code_made_flat",
    "code_made_runs",
    "code_made_refuted"
   ],
   "note": "The first theorem is the exact condition under which an accepted program has code (for programs without Void variables and comparisons of references); with it, code_made_runs says that the code does what the program does. The last one is a program with a break behind an inner loop, for which the compiler passes NULL to LLVM."
  },
  {
   "property": "C33",
   "status": "proved",
   "theorems": [
    "export_name_is_module_dot_name",
    "export_names_clash_only_if_same",
    "module_init_name",
    "module_init_never_clashes_with_export"
   ],
   "note": "for source names with a directory-free extension as described in the statements"
  },
  {
   "property": "C34",
   "status": "proved",
   "theorems": [
    "output_name_is_hidden_sibling",
    "output_names_never_shared",
    "output_name_never_a_source",
    "binary_name_drops_extension",
    "explicit_output_spares_source_refuted"
   ],
   "note": "an explicit -o may overwrite the source: witness"
  },
  {
   "property": "C35",
   "status": "proved",
   "theorems": [
    "command_line_checked",
    "only_command_lines_accepted",
    "option_order_irrelevant",
    "silent_success_only_for_help",
    "trailing_garbage_rejected_refuted"
   ],
   "note": ""
  },
  {
   "property": "C36",
   "status": "proved",
   "theorems": [
    "vector_behaves_like_list"
   ],
   "note": ""
  },
  {
   "property": "C37",
   "status": "proved",
   "theorems": [
    "hashtable_is_first_writer_wins_map",
    "hashtable_null_table_is_empty"
   ],
   "note": ""
  },
  {
   "property": "C38",
   "status": "proved",
   "theorems": [
    "output_only_for_accepted_programs",
    "output_only_for_accepted_files",
    "success_delivers_the_program",
    "nothing_behind_a_failing_file",
    "success_means_linked_refuted",
    "one_output_for_each_file_refuted",
    "failures_are_reported_refuted"
   ],
   "note": "LLVM's own passes, the file system and the shell are parameters. The refuted ones: a killed linker counts as success; several files share one output name; an unwritable output of the C back end crashes."
  },
  {
   "property": "C39",
   "status": "proved",
   "theorems": [
    "integer_constants_survive",
    "integer_constants_survive_refuted"
   ],
   "note": "For every 64 bit integer but the lowest; the second theorem shows that the text of the lowest one has no C value."
  },
  {
   "property": "C40",
   "status": "proved",
   "theorems": [
    "extra_arguments_joined"
   ],
   "note": ""
  },
  {
   "property": "C41",
   "status": "proved",
   "theorems": [
    "import_looks_beside_importer",
    "import_from_plain_name",
    "import_from_root_refuted"
   ],
   "note": "false only for the root directory: witness"
  },
  {
   "property": "C42",
   "status": "proved",
   "theorems": [
    "last_occurrence_found",
    "accepted_source_names",
    "accepted_names_end_in_sk_refuted",
    "accepted_names_are_safe_refuted"
   ],
   "note": ""
  },
  {
   "property": "C43",
   "status": "proved",
   "theorems": [
    "float_literal_text",
    "bool_literal_value"
   ],
   "note": "strtod itself is not modelled"
  },
  {
   "property": "C44",
   "status": "proved",
   "theorems": [
    "nodes_are_as_written",
    "definition_has_equal_refuted"
   ],
   "note": ""
  },
  {
   "property": "C45",
   "status": "proved",
   "theorems": [
    "expressions_are_accepted",
    "double_unary_refuted"
   ],
   "note": ""
  },
  {
   "property": "C46",
   "status": "proved",
   "theorems": [
    "operands_are_names_or_literals"
   ],
   "note": ""
  },
  {
   "property": "C47",
   "status": "proved",
   "theorems": [
    "accepted_programs_are_well_formed",
    "every_node_is_checked"
   ],
   "note": "for programs without blocks behind call statements and calls of fewer than 2^16 arguments"
  },
  {
   "property": "C48",
   "status": "proved",
   "theorems": [
    "blocks_belong_to_statements"
   ],
   "note": "for programs without blocks behind call statements"
  },
  {
   "property": "C49",
   "status": "proved",
   "theorems": [
    "declarations_are_distinct"
   ],
   "note": ""
  },
  {
   "property": "C50",
   "status": "proved",
   "theorems": [
    "strcmp_is_equality"
   ],
   "note": ""
  },
  {
   "property": "C51",
   "status": "proved",
   "theorems": [
    "code_runs",
    "code_runs_refuted",
    "float_powers_refuted",
    "debug_changes_results_refuted"
   ],
   "note": "Spec_Run.v gives programs their meaning and Spec_IR.v is the part of LLVM IR that is used. With and without debug information. The second theorem has programs outside the limits whose code gives another result, the third a power of floats, whose helper is a variable in shim.ll and so has no result, the fourth one with a reference that ends with 6 in a debug build and has no result in other builds."
  },
  {
   "property": "C52",
   "status": "proved",
   "theorems": [
    "linker_gets_its_arguments",
    "linker_gets_its_arguments_refuted"
   ],
   "note": "For names without special characters and plain extra arguments. The second theorem is a file name that runs another command, and an extra argument that is split."
  },
  {
   "property": "C53",
   "status": "proved",
   "theorems": [
    "legal_programs_are_accepted",
    "legal_statements_are_accepted_refuted"
   ],
   "note": "The rules are legal in Spec_Accept.v, written on their own with the typing rules of Spec_Sem.v. The second theorem shows why one odd rule is needed: behind an external function the main program is checked as if it were that function."
  },
  {
   "property": "C54",
   "status": "proved",
   "theorems": [
    "programs_are_parsed",
    "trailing_comments_refuted"
   ],
   "note": "The grammar is stmt_at, block_at and stmts_at in Spec_Grammar.v, written on its own; stands says what a node has to say about the statement. The second theorem has the definitions that are rejected for what follows them on the line."
  },
  {
   "property": "C55",
   "status": "proved",
   "theorems": [
    "generated_files_read_back",
    "generated_files_read_back_refuted"
   ],
   "note": "The grammar of C is unit_at in Spec_CProg.v over the lexer and expression grammar of Spec_C.v; unit_stands in Spec_CBack.v says which C program stands for which checked program; writable are the conditions on names and texts. The theorem is about files that are written (c_file = Ok); the second theorem has a program for which printing goes through a null pointer."
  },
  {
   "property": "C56",
   "status": "proved",
   "theorems": [
    "c_files_are_written"
   ],
   "note": "filled and silent in Spec_CBack.v say in which blocks there is something to write. unwritten_ex has programs that meet the hypotheses and for which no file is written; that `export` excludes `mut` is proved from the parser."
  },
  {
   "property": "C57",
   "status": "proved",
   "theorems": [
    "c_files_behave",
    "c_files_behave_refuted"
   ],
   "note": "Spec_CRun.v gives C programs their meaning (only where C fixes it), Spec_Run.v gives Skull programs theirs; behaved in Spec_CBehave.v are the limits. The second theorem has accepted programs outside of them whose C file ends with another exit code (a function variable that starts with a constant, recursion, `and` with a call) or has no meaning (32 bit overflow, a variable as initialiser, unspecified order)."
  },
  {
   "property": "C58",
   "status": "proved",
   "theorems": [
    "backends_agree",
    "backends_agree_refuted"
   ],
   "note": "The second theorem has three accepted programs whose exit codes differ between the back ends."
  },
  {
   "property": "C59",
   "status": "proved",
   "theorems": [
    "accepted_programs_never_go_wrong",
    "accepted_programs_never_go_wrong_alone",
    "runs_are_the_programs",
    "answers_agree",
    "programs_are_deterministic",
    "ints_returned_refuted",
    "nothing_returned_refuted",
    "flat_refuted",
    "comparable_refuted"
   ],
   "note": "Spec_Safe.v has an interpreter that tells apart failing, going wrong and going on; runs_are_the_programs ties it to the meaning of Spec_Run.v that C51 and C57 use. The refuted theorems have accepted programs that go wrong when one condition is dropped."
  },
  {
   "property": "C60",
   "status": "proved",
   "theorems": [
    "check_messages_point_into_program"
   ],
   "note": "The token of a name that a void result is assigned to is only shown to be one of the program."
  },
  {
   "property": "C61",
   "status": "proved",
   "theorems": [
    "messages_are_printed",
    "template_is_printed_refuted",
    "one_line_per_message_refuted"
   ],
   "note": "The reason why a module cannot be loaded (strerror) is any text. Lines that the driver prints by itself (file not found, linker) are events without text."
  },
  {
   "property": "C62",
   "status": "proved",
   "theorems": [
    "modules_are_valid",
    "spaces_open_refuted",
    "values_returned_refuted",
    "flat_code_refuted",
    "ints_code_refuted",
    "nothing_code_refuted"
   ],
   "note": "valid in Spec_Valid.v are the rules of the LLVM verifier for the instructions in use. What LLVM folds is any function that keeps types (folds_typed). That a module is built at all is C32."
  },
  {
   "property": "C63",
   "status": "proved",
   "theorems": [
    "c_files_compile",
    "c_files_compile_refuted"
   ],
   "note": "The constraints are compiles_as in Spec_CCheck.v, a checker written on its own for the C programs of Spec_CProg.v; c_ready in Spec_CReady.v are the limits. That constant expressions have values (6.6p4) is left to C57. The second theorem has nine accepted programs outside of the limits whose files are refused."
  },
  {
   "property": "C64",
   "status": "proved",
   "theorems": [
    "object_files_are_made",
    "object_files_define",
    "object_files_ask",
    "exit_is_there_refuted",
    "externals_are_asked_refuted",
    "exports_are_defined_refuted"
   ],
   "note": "apart in Spec_Link.v is the condition on names; renames says what LLVM does with names that are taken. The last three theorems have accepted programs outside of the condition with wrong names."
  },
  {
   "property": "C65",
   "status": "proved",
   "theorems": [
    "object_files_fit",
    "object_files_serve"
   ],
   "note": "Follows from C64 and the form of names. Dot files are left out; C33 has the names that would clash."
  },
  {
   "property": "C66",
   "status": "proved",
   "theorems": [
    "sources_are_utf8",
    "ascii_sources_are_read",
    "sources_are_utf8_refuted"
   ],
   "note": "A system is any function from names to locales; utf8_locale and ascii_locale in Spec_Local.v say what a locale does with bytes. The last theorem has a machine with a Latin-1 locale."
  },
  {
   "property": "C67",
   "status": "proved",
   "theorems": [
    "c_object_files",
    "back_ends_export_the_same",
    "c_files_fit_refuted",
    "back_ends_export_the_same_refuted"
   ],
   "note": "c_defines and c_takes in Spec_CLink.v read linkage off the C program that C55 says is in the file. Linkage names are those of mangle_name (mangled). A declared function that is never called leaves no trace in an object file, which c_takes does not look at."
  },
  {
   "property": "C68",
   "status": "proved",
   "theorems": [
    "debuggers_show",
    "signatures_are_described",
    "debuggers_show_refuted"
   ],
   "note": "holds in Spec_Debug.v says how values lie in memory, shows how a debugger reads them by a DWARF description. How LLVM turns bits into bytes is a parameter. That instructions and variables have the right lines is not part of this."
  },
  {
   "property": "C69",
   "status": "proved",
   "theorems": [
    "debug_adds_lines",
    "debug_files_are_written",
    "lines_of_exports_refuted"
   ],
   "note": "marked in Spec_Lines.v says that a text is another one with line directives, line_marks lists the lines in order. The refuted theorem counts lines as a C compiler does (presumed). Global variables have no directives, in either build."
  },
  {
   "property": "C70",
   "status": "proved",
   "theorems": [
    "locations_are_right",
    "scopes_are_in_functions",
    "assignments_have_lines_refuted"
   ],
   "note": "reached, scope_at and belongs in Spec_Where.v say which locations there are. Locations are recorded where the code asks for them; that constants get none (conditions that are constants, variables of the main program that start with a constant) is left out. The refuted theorem has an accepted program."
  },
  {
   "property": "C71",
   "status": "proved",
   "theorems": [
    "variables_are_described",
    "variables_are_in_functions",
    "variables_have_addresses",
    "variables_have_addresses_refuted"
   ],
   "note": "describes in Spec_Vars.v says what is described. That the operand of a declare record is an address is taken from LLVM's documentation. The refuted theorem has an accepted program."
  }
 ]
}