{"id": "C01", "title": "No source text is lost or duplicated by the tokenizer", "statement": "When a source text is split into tokens without an error, the tokens are non-empty, in source order and do not overlap, each lies inside the source, and every character which is in no token is blank space (space, tab, carriage return or newline).", "quantifier": "for every source text (any sequence of non-NUL characters) that tokenizes without an error and contains at least one non-blank character", "why_tests_cant": "The claim is about all texts of any length; the tokenizer advances a raw pointer and interleaves comments, quotes, delimiters and white space, so a sampled set of inputs cannot exclude a skipped or doubly counted character.", "anchors": ["skull/parse/token.c: tokenize, tokenize_inner_loop, parse_delimiter, iter_comment, iter_quote, setup_next"]}
{"id": "C02", "title": "Reported line numbers are right", "statement": "The line recorded for a token is one plus the number of newlines before the first character of that token.", "quantifier": "for every source text that tokenizes, for every token of the result", "why_tests_cant": "Line counting happens in three different loops (plain text, comments, delimiters); only an argument over all texts shows that no path misses or double counts a newline.", "anchors": ["skull/parse/token.c: next_line, token_add_info, iter_comment, iter_quote, tokenize_inner_loop"]}
{"id": "C03", "title": "Reported columns are right", "statement": "The column recorded for a token is one plus the number of characters between the start of its line and the first character of the token.", "quantifier": "for every source text that tokenizes, for every token of the result", "why_tests_cant": "Columns depend on everything before the token on the same line; testing only samples the infinite set of prefixes. (The claim is false for lines that hold a quote or the end of a comment; the model shows a witness and proves the claim for texts without them.)", "anchors": ["skull/parse/token.c: tokenize_inner_loop, iter_quote, iter_comment, token_add_info"]}
{"id": "C04", "title": "The tokenizer and classifier always finish and stay in bounds", "statement": "Tokenizing and classifying a text always ends, never reads a character past the terminator and never follows a null pointer; it either gives tokens or reports exactly one error for the offending position, with its line and (where the line has no quotes or comments in front) its column.", "quantifier": "for every sequence of characters ending in one terminator", "why_tests_cant": "Non-termination, out-of-bounds reads and null accesses are properties of all inputs; a passing test on one input says nothing about the next. (False for a text with only blanks and no newline; the witness is proved, and safety is proved for every other text.)", "anchors": ["skull/parse/token.c: tokenize, tokenize_inner_loop, iter_comment, is_valid_comment_start, iter_quote", "skull/parse/classify.c: classify_tokens, classify_token"]}
{"id": "C05", "title": "Token classes agree with the lexical grammar", "statement": "A word is classified as integer, float, boolean, rune, string, operator, keyword or identifier exactly when it is in the documented grammar of that class, and the classes cannot overlap.", "quantifier": "for every word (sequence of characters) handed to the classifier", "why_tests_cant": "The grammars are infinite languages and the recognisers are hand written loops with special cases for prefixes and underscores.", "anchors": ["skull/parse/classify.c: classify_token, is_constant_integer_str, is_constant_float_str, is_constant_bool_str, is_constant_rune_str, is_constant_str_str, is_valid_identifier_str"]}
{"id": "C06", "title": "Keywords and built-in names can never be used as names", "statement": "No keyword, word operator or boolean constant is ever classified as an identifier or as a new name, and a name that is being declared is never a reserved word or a built-in type name.", "quantifier": "for every word", "why_tests_cant": "Needs to hold for the whole reserved list with and without trailing colon and in every dotted position; a list of examples covers only those written down.", "anchors": ["skull/parse/classify.c: classify_token, is_reserved_str, is_type_str"]}
{"id": "C07", "title": "Integer literals denote their mathematical value", "statement": "An accepted integer literal (decimal, hex, octal or binary, with or without underscores) evaluates to the value of its digits in its base; a literal whose value does not fit the 64 bit type is rejected with an overflow error.", "quantifier": "for every word in the integer grammar, of any length", "why_tests_cant": "2^64 values in four bases with underscores at arbitrary places, plus infinitely many overflowing literals.", "anchors": ["skull/semantic/types.c: eval_integer, strip_underscore_num", "skull/parse/classify.c: is_constant_integer_str"]}
{"id": "C08", "title": "Rune literals denote one code point", "statement": "An accepted rune literal denotes exactly the code point between the quotes, or the one its escape stands for; every other spelling is rejected with an error.", "quantifier": "for every word in the rune grammar", "why_tests_cant": "All code points and all hex escapes of 1 to 8 digits. (False for plain characters above 255, which iscntrl is not defined for, and for two adjoining literals, which become one; witnesses proved.)", "anchors": ["skull/semantic/types.c: eval_rune", "skull/common/str.c: c32sunescape, escape_hex, c32unhex"]}
{"id": "C09", "title": "String literals denote their unescaped text", "statement": "The value of an accepted string literal is the concatenation of its plain characters and the characters its escapes stand for, cut at the first NUL; an invalid escape anywhere in the literal is rejected.", "quantifier": "for every string literal, of any length", "why_tests_cant": "Arbitrary interleavings of escapes and text; the code edits a buffer in place with two pointers.", "anchors": ["skull/semantic/types.c: eval_str", "skull/common/str.c: c32sunescape, escape_hex, c32stombs"]}
{"id": "C10", "title": "Source decoding is faithful", "statement": "Decoding a file inverts UTF-8 encoding: a text made of valid code points is decoded to itself, and a byte sequence that is not valid UTF-8 is rejected with the number of characters in front of the first bad sequence. Encoding a decoded text gives back the same bytes.", "quantifier": "for every sequence of code points and every sequence of bytes", "why_tests_cant": "Byte strings of any length, with bad bytes at any place.", "anchors": ["skull/common/str.c: mbstoc32s, c32stombs", "skull/common/io.c: file_to_string"]}
{"id": "C11", "title": "The parser always finishes", "statement": "Parsing ends for every token list, and it never consumes a token twice: statements appear in the tree in source order.", "quantifier": "for every list of classified tokens", "why_tests_cant": "Recursive descent with backtracking over nested blocks, calls and parentheses of unbounded depth.", "anchors": ["skull/parse/ast_node.c: parse_ast_tree, parse_ast_tree_, parse_ast_node, parse_ast_sub_tree_, parse_expression, parse_func_call"]}
{"id": "C12", "title": "Expressions keep their operands and operators in order", "statement": "The tree built for an expression, read from left to right, gives exactly the operands and operators of the source in order; none is dropped, duplicated or reordered.", "quantifier": "for every expression of any length and nesting that is accepted", "why_tests_cant": "The parser rewrites the right side of an already built tree while it goes on; only an induction over the expression shows that nothing is lost.", "anchors": ["skull/parse/ast_node.c: parse_expression, parse_expr_rhs, parse_single_expr, parse_paren_expr"]}
{"id": "C13", "title": "Operators bind by their strength and group to the left", "statement": "An expression is grouped by the strengths of its operators (power, unary, * / mod, + -, logic and shifts, comparison): tighter operators first, operators of equal strength from left to right.", "quantifier": "for every accepted expression", "why_tests_cant": "Expressions are unbounded and the grouping of an operator depends on all operators before it. (False in general: `a is b + c * d` is read as `a is ((b + c) * d)`; the witness is proved, and the claim is proved for all expressions in which no right operand has a tighter operator on its own right.)", "anchors": ["skull/parse/ast_node.c: parse_expression, parse_expr_rhs, oper_to_precedence"]}
{"id": "C14", "title": "Parentheses group", "statement": "A parenthesised expression stays one operand of whatever surrounds it.", "quantifier": "for every accepted expression", "why_tests_cant": "Needs all surrounding contexts. (False: a parenthesised operand on the left is taken apart; the witness is proved, with the exact condition under which grouping is kept.)", "anchors": ["skull/parse/ast_node.c: parse_paren_expr, parse_expression, parse_expr_rhs"]}
{"id": "C15", "title": "The front end does not crash on malformed programs", "statement": "For every token list the parser either gives a tree in which every operand needed later is present or reports an error; it never follows a null pointer.", "quantifier": "for every list of classified tokens", "why_tests_cant": "All malformed programs; tests hold a few dozen. (False; each crash witness is proved, and crash freedom is proved for token lists that avoid the listed shapes.)", "anchors": ["skull/parse/ast_node.c: next_token, get_potential_unary_oper, parse_var_def, parse_var_assign, parse_function_proto"]}
{"id": "C16", "title": "A rejected program comes with a message", "statement": "Whenever a program is rejected at least one diagnostic has been recorded.", "quantifier": "for every token list", "why_tests_cant": "Every failing path through parser has to be covered. (False for a condition keyword at end of input; witness proved, plus the claim for all other paths.)", "anchors": ["skull/parse/ast_node.c: parse_condition, parse_namespace", "skull/common/errors.c: fmt_message"]}
{"id": "C17", "title": "break and continue stay inside loops", "statement": "In an accepted program every break and every continue lies inside a while loop of the same function.", "quantifier": "for every accepted syntax tree, of any size and nesting", "why_tests_cant": "Nesting is unbounded and the check uses one mutable depth counter shared by all functions.", "anchors": ["skull/semantic/flow.c: validate_control_break, validate_control_continue, validate_control_while", "skull/semantic/func.c: validate_stmt_func_decl"]}
{"id": "C18", "title": "else and elif always belong to an if", "statement": "In an accepted program the nearest statement before an else or elif, not counting comments, is an if or elif.", "quantifier": "for every accepted syntax tree", "why_tests_cant": "Comments and statements can be interleaved at will.", "anchors": ["skull/semantic/flow.c: validate_control_not_missing_if, validate_control_else, validate_control_elif"]}
{"id": "C19", "title": "No code after a jump", "statement": "In an accepted program nothing but comments, noop and unreachable follows a return, unreachable, break or continue in its block.", "quantifier": "for every accepted syntax tree", "why_tests_cant": "Blocks of any length at any depth.", "anchors": ["skull/semantic/flow.c: no_dead_code_below"]}
{"id": "C20", "title": "Constants never change", "statement": "In an accepted program no assignment targets a name declared without mut.", "quantifier": "for every accepted program", "why_tests_cant": "Aliases, scopes and namespaces decide which declaration an assignment refers to.", "anchors": ["skull/semantic/assign.c: validate_stmt_var_assign, node_to_var"]}
{"id": "C21", "title": "Names are declared once", "statement": "While a program is being accepted a declaration never hides or replaces a visible name: the new name was not visible in the current or any enclosing scope.", "quantifier": "for every accepted program", "why_tests_cant": "All scope histories.", "anchors": ["skull/semantic/symbol.c: scope_add_symbol, symbol_already_exists", "skull/semantic/scope.c: scope_find_name"]}
{"id": "C22", "title": "Names are declared before they are used", "statement": "In an accepted program each variable used in an expression or assignment has a declaration earlier in the same or an enclosing block (or is a parameter), and each called function is declared.", "quantifier": "for every accepted program", "why_tests_cant": "Unbounded nesting of blocks and functions.", "anchors": ["skull/semantic/variable.c", "skull/semantic/scope.c: scope_find_name, scope_find_var, make_child_scope, restore_parent_scope", "skull/semantic/expr.c: validate_ident_expr"]}
{"id": "C23", "title": "Accepted expressions are well typed", "statement": "Every accepted expression has a type under the documented rules: both sides of an operator have equal type, arithmetic takes Int or Float, shifts take Int, logic takes Bool, comparison gives Bool, & adds and * removes one reference level.", "quantifier": "for every expression tree and every environment", "why_tests_cant": "Infinitely many expressions and unbounded reference depth.", "anchors": ["skull/semantic/expr.c: validate_expr, validate_binary_expr, set_expr_type, validate_expr_restrictions"]}
{"id": "C24", "title": "Initialisers and assignments have the declared type", "statement": "In an accepted program every expression stored in a variable has exactly the type of the variable, and that type is never the Void of a call or an operation.", "quantifier": "for every accepted program", "why_tests_cant": "All programs.", "anchors": ["skull/semantic/assign.c: validate_stmt_var_def, validate_stmt_var_assign, is_expr_compatible_with_var, is_void_func_assign"]}
{"id": "C25", "title": "Division by a literal zero is rejected", "statement": "No expression that is handed to the code generators has an integer division or remainder whose right operand is the literal 0 anywhere in it.", "quantifier": "for every accepted expression", "why_tests_cant": "The division may be arbitrarily deep.", "anchors": ["skull/semantic/expr.c: is_div_by_zero"]}
{"id": "C26", "title": "Calls match their declarations", "statement": "In an accepted expression each call passes as many arguments as the function has parameters and each argument has the type of its parameter.", "quantifier": "for every accepted expression, for any number of parameters", "why_tests_cant": "Any number of parameters (counts are kept in 16 bits).", "anchors": ["skull/semantic/expr.c: validate_stmt_func_call, validate_func_call_params"]}
{"id": "C27", "title": "Return statements agree with the function", "statement": "In an accepted function with a result type each return has an expression of that type and control cannot fall off the end; at top level a return value is an Int.", "quantifier": "for every accepted function", "why_tests_cant": "All bodies. (Nested returns in a Void function are not checked; witness proved.)", "anchors": ["skull/semantic/flow.c: validate_stmt_return, is_valid_return_expr", "skull/semantic/func.c: post_validate_stmt_func_decl"]}
{"id": "C28", "title": "Reference types are unique", "statement": "Asking for the reference type of a type twice gives the same type object, and distinct types give distinct reference types, so comparing type objects is the same as comparing types.", "quantifier": "for every sequence of requests", "why_tests_cant": "Arbitrary request histories on a mutable list.", "anchors": ["skull/semantic/types.c: get_reference_type, find_type"]}
{"id": "C29", "title": "Unused names are reported", "statement": "With warnings as errors a module is accepted only if each of its module level variables and functions is used.", "quantifier": "for every scope tree", "why_tests_cant": "Any tree of scopes and hash slots. (False, the error flag is overwritten by child scopes; witness proved together with the exact result computed.)", "anchors": ["skull/semantic/unused.c: check_unused_symbols"]}
{"id": "C30", "title": "Generated C expressions mean what the source tree means", "statement": "The C text generated for an expression of an accepted program has exactly one reading as a C expression, and this reading has the operators, operands, names and constants of the expression.", "quantifier": "for every accepted program and every expression in it whose names are C identifiers, whose strings need no escapes, and whose numbers have C literals (false without these restrictions; witnesses proved)", "why_tests_cant": "C has its own precedence; correctness needs all nestings.", "anchors": ["skull/codegen/c/expr.c: gen_expr_c, gen_expr_binary_c, gen_expr_unary_c, gen_expr_func_call_c"]}
{"id": "C31", "title": "The power helper computes powers", "statement": "The integer power helper that is linked into programs returns base to the exponent whenever that fits into 64 bits, and overflows otherwise.", "quantifier": "for every pair of 64 bit integers", "why_tests_cant": "2^128 pairs. (False for exponents below one; witness proved, and the claim is proved for every positive exponent.)", "anchors": ["skull/codegen/c/write.c: _int_pow", "skull/shim.ll: _int_pow"]}
{"id": "C32", "title": "break and continue jump to the innermost loop", "statement": "The LLVM backend makes code for each accepted program, and a break or continue in it leads to the end or the condition of the innermost enclosing loop: the code does what the program says.", "quantifier": "for every accepted program, with any nesting and order of loops and jumps", "why_tests_cant": "Nesting and order are unbounded. (False after an inner loop has closed: the compiler crashes there; witness proved. The theorem is the exact condition for programs without Void variables and comparisons of references: code is made if and only if between the start of a loop and its jumps no other loop stands.)", "anchors": ["skull/codegen/llvm/flow.c: gen_control_while, gen_stmt_break, gen_stmt_continue", "skull/codegen/llvm/core.c: gen_tree, gen_node"]}
{"id": "C33", "title": "Exported names are module name dot name and never clash", "statement": "The linkage name of an exported symbol is the module name, a dot and the name; two exports clash only when module and name are the same.", "quantifier": "for every file name that ends in .sk and every identifier", "why_tests_cant": "All file names and identifiers.", "anchors": ["skull/semantic/mangle.c: mangle_name", "skull/codegen/abi.c: create_main_func_name"]}
{"id": "C34", "title": "Output files never overwrite the source or each other", "statement": "The intermediate file made for a source is in the same directory, is a hidden file with the given extension, and two different sources never share one; it is never the source itself.", "quantifier": "for every path", "why_tests_cant": "All paths.", "anchors": ["skull/common/io.c: gen_filename", "skull/codegen/shared.c: get_new_filename"]}
{"id": "C35", "title": "Conflicting or repeated command line flags are rejected", "statement": "A flag given twice is rejected, a contradictory set of flags is rejected, and the order of non-conflicting flags does not matter.", "quantifier": "for every argument list", "why_tests_cant": "Unboundedly many argument lists.", "anchors": ["skull/cli.c: handle_args, check_duplicate_flag, set_bool_flag, build_data_valid"]}
{"id": "C36", "title": "The growable array behaves like a list", "statement": "Pushing, popping, indexing and freezing behave like the same operations on a list and never touch memory outside the allocation.", "quantifier": "for every sequence of operations of any length", "why_tests_cant": "Any history, growth happens at powers of two.", "anchors": ["skull/common/vector.c: vector_push, vector_pop, vector_at, vector_freeze"]}
{"id": "C37", "title": "The hash table is a first-writer-wins map", "statement": "A lookup gives the value of the first insertion under that key, or nothing if the key was never inserted; a second insertion is refused and changes nothing.", "quantifier": "for every sequence of insertions and lookups and every key", "why_tests_cant": "Colliding keys and any history.", "anchors": ["skull/common/hashtable.c: ht_add, ht_get, ht_hash_key"]}
{"id": "C38", "title": "Nothing is generated for a rejected file", "statement": "No output is written for a file that fails any check, and after the first failing file no later file is compiled.", "quantifier": "for every list of files and every outcome of the stages", "why_tests_cant": "All combinations of outcomes.", "anchors": ["skull/real_main.c: real_main, compile_file", "skull/pipeline.c: run_pipeline"]}
{"id": "C39", "title": "Integer constants survive C generation", "statement": "The C text of an integer constant reads back as the same value with a type wide enough to hold it.", "quantifier": "for every 64 bit integer", "why_tests_cant": "2^64 values. (The least integer is printed in a form C reads as the negation of an unrepresentable literal; recorded as a finding.)", "anchors": ["skull/codegen/c/expr.c: gen_expr_const_c"]}
{"id": "C40", "title": "Joining program arguments keeps them", "statement": "Arguments after the double dash are passed on joined by single spaces, in order and complete.", "quantifier": "for every argument list", "why_tests_cant": "Any number and length of arguments, hand computed buffer sizes.", "anchors": ["skull/cli.c: squash_argv"]}
{"id": "C41", "title": "An import looks next to the importing file", "statement": "The file opened for an imported module is the module name with the source extension, in the directory of the importing file.", "quantifier": "for every importing path and every module name", "why_tests_cant": "All paths. (False for files directly in the root directory; witness proved.)", "anchors": ["skull/semantic/import.c: filename_for_module, current_file_dir"]}
{"id": "C42", "title": "Only source file names are accepted", "statement": "A file name is accepted exactly when it contains the source extension; the search finds the last occurrence.", "quantifier": "for every file name", "why_tests_cant": "All names. (The name need not end in the extension, and some accepted names break the later name computations; witnesses proved.)", "anchors": ["skull/cli.c: main", "skull/common/str.c: strrstr"]}
{"id": "C43", "title": "Float and boolean literals keep their text", "statement": "A float literal is infinite or not-a-number exactly when spelled so, and otherwise the number conversion gets exactly its characters without underscores; a boolean literal is true exactly when spelled true.", "quantifier": "for every word in the float and boolean grammars, anywhere in a source text", "why_tests_cant": "Infinitely many spellings; the conversion edits the buffer in place and stops at the point.", "anchors": ["skull/semantic/types.c: eval_float, eval_bool, strip_underscore_num"]}
{"id": "C44", "title": "Declarations and statements are recorded as written", "statement": "Every node of an accepted program says what is written at its token: the name, type and modifiers of a definition, the name, parameters in order, result type and modifiers of a function head, the keyword of any other statement.", "quantifier": "for every accepted token list and every node at any depth", "why_tests_cant": "The same record is filled by code that looks ahead, backtracks and moves the token pointer; every combination of modifiers, parameters and nested reference types has to be right.", "anchors": ["skull/parse/ast_node.c: parse_var_def, is_explicit_type, parse_function_proto, parse_function_proto_params, parse_var_assign, parse_condition, parse_import, parse_namespace"]}
{"id": "C45", "title": "Every well formed expression is accepted", "statement": "An expression made of operands, calls, parentheses, unary and binary operators is accepted without a message, provided no unary operator stands directly behind another one.", "quantifier": "for all expressions of any length and nesting depth", "why_tests_cant": "Unbounded length and nesting; a parser that rejects some deep or long combination passes every finite test set.", "anchors": ["skull/parse/ast_node.c: parse_expression, parse_single_expr, parse_root_expr, parse_func_call"]}
{"id": "C46", "title": "Operands are names or literals", "statement": "Every expression of a parsed program is made of names, literals, calls and operators; each operand is a token of the program of the right kind, and a call records its arguments in order with their number modulo 2^16.", "quantifier": "for every accepted token list and every expression at any depth", "why_tests_cant": "Unbounded nesting; the parser accepts any token it does not look at.", "anchors": ["skull/parse/ast_node.c: parse_root_expr, parse_single_token_expr, parse_func_call"]}
{"id": "C47", "title": "The checked tree records the right declarations, values and types", "statement": "An accepted program is well formed by declarative rules of scoping and typing, and what the checks store in the tree for the code generators (the declaration each name stands for, the value of each literal, the type of each expression) is what these rules give; no statement is lost.", "quantifier": "for every accepted program", "why_tests_cant": "Any nesting of blocks, functions and namespaces; the scope tree is built while it is walked.", "anchors": ["skull/semantic/entry.c: validate_ast_tree", "skull/semantic/scope.c", "skull/semantic/symbol.c", "skull/semantic/expr.c", "skull/semantic/assign.c", "skull/semantic/func.c"]}
{"id": "C48", "title": "Blocks belong to statements that take blocks", "statement": "In an accepted program only if, elif, else, while, functions and namespaces have a block, and the block of if, elif, else and while is not empty.", "quantifier": "for every accepted program and every statement at any depth", "why_tests_cant": "Any nesting; the parser attaches a block to whatever stands before it.", "anchors": ["skull/semantic/flow.c", "skull/semantic/entry.c: validate_ast_tree"]}
{"id": "C49", "title": "Declarations have distinct numbers", "statement": "In the checked tree of an accepted program no two declarations (variables, functions, parameters, namespaces) share a symbol, so an assignment or call through one symbol never concerns another declaration.", "quantifier": "for every accepted program", "why_tests_cant": "Any number of declarations in any nesting of blocks; symbols are allocated while the scope tree is built and moved.", "anchors": ["skull/semantic/symbol.c: scope_add_symbol", "skull/semantic/assign.c", "skull/semantic/func.c"]}
{"id": "C50", "title": "The string helper compares strings", "statement": "The helper that is linked into programs for `is` on strings returns true exactly for two equal strings.", "quantifier": "for every pair of strings without a zero character", "why_tests_cant": "Strings of any length; prefixes and the end of either string are the interesting cases.", "anchors": ["skull/codegen/c/write.c: _strcmp", "skull/shim.ll: _strcmp"]}
{"id": "C51", "title": "The LLVM back end preserves what a program does", "statement": "The module that the LLVM back end builds for an accepted program ends with the exit code that the program has, after performing the same calls of external functions with the same arguments in the same order, and it has no other result. Debug information (`-g`) changes the code but not what it does.", "quantifier": "for every accepted program (any nesting of functions, recursion, loops, branches and namespaces), with and without debug information, every floating point arithmetic and outside world, and every constant folding that respects the instructions; for runs that end, without references, without `mut` definitions in loops outside of functions, without integer divisions with a rest without powers to exponents below one and without powers of floats (false in these cases; witnesses proved; powers of floats call a helper that shim.ll defines as a variable; with references, debug builds and other builds differ)", "why_tests_cant": "Unbounded programs and runs; the generator builds blocks out of order and keeps global state about the current loop and function.", "anchors": ["skull/codegen/llvm/core.c", "skull/codegen/llvm/flow.c", "skull/codegen/llvm/func.c", "skull/codegen/llvm/assign.c", "skull/codegen/llvm/expr.c", "skull/codegen/llvm/debug.c:352-406", "skull/shim.ll"]}
{"id": "C52", "title": "The linker gets the arguments that were given", "statement": "The command that is run to make an executable is one call of cc: its words are the object file, the name of the executable and the extra arguments as given on the command line, whatever blanks or quotes the names have.", "quantifier": "for every command line; for names without the characters that are special between double quotes and extra arguments that are plain words (false otherwise; witness proved: a file name can run another command)", "why_tests_cant": "Names are arbitrary texts; the command is put together as text and split again by the shell.", "anchors": ["skull/codegen/llvm/write.c: emit_native_binary", "skull/cli.c: squash_argv"]}
{"id": "C53", "title": "Programs that keep the rules are accepted", "statement": "A program that parses and keeps the rules of the language (names are declared before use and once, expressions have types, conditions are Bool, assignments go to mutable variables of the same type, functions return what they say, break and continue are in loops, else follows if, nothing follows a jump, modules can be found) passes the checks and is not rejected, and the checks do not crash on it.", "quantifier": "for every program text and every environment without --werror; functions are not nested, names are declared without dots, calls have fewer than 2^16 arguments; external functions return Int or nothing if the main program returns (false otherwise; witness proved)", "why_tests_cant": "Acceptance depends on every declaration and type of the whole program; tests can only show some accepted programs.", "anchors": ["skull/semantic/entry.c: validate_ast_tree", "skull/semantic/expr.c: validate_expr", "skull/semantic/assign.c", "skull/semantic/func.c", "skull/semantic/shared.c"]}
{"id": "C54", "title": "Programs written by the grammar are parsed as what they say", "statement": "Take the grammar of statements: definitions with or without a type, behind `mut` or `export`; assignments; calls; return; import; unreachable, noop, break, continue and comments; if, elif, else and while with their blocks; namespaces; functions and external functions with parameters and results. A token sequence that is a list of such statements with newlines between them is parsed to its end without any message, and the tree has one node for each statement, in order, with the same kind, names, types, flags, parameters, expressions (same operands and operators in order, and the grouping where C13/C14 give it) and, nested to any depth, blocks. The claim fails for comments and closing brackets on the line of a definition, which other statements may have.", "quantifier": "every token sequence that the grammar derives, of any length and nesting depth", "why_tests_cant": "the grammar is recursive: there are infinitely many programs and every order and nesting of statements is a case of its own; parser tests give single small programs", "anchors": ["skull/parse/ast_node.c:62-1190"]}
{"id": "C55", "title": "The C file of a program is C and says what the program says", "statement": "When the C back end writes a file for an accepted program, the text behind the includes and helper functions is a translation unit by the grammar of C, it can be read in exactly one way, and this reading is the program: every function with its parameters, result type and body; every statement of the main program in `init`, in order; conditions, loops and else branches nested as in the source; variables of the program and of the top of functions as file scope variables with their initial value if it is constant, and otherwise assigned where they are defined; exported names with their linkage name; `main` calling `init`. Exactly the helpers that the program uses are defined in front. This holds with and without debug lines. It needs names that are no C keywords, texts without quotes, backslashes and newlines, numbers that C can write, no blocks behind external functions, and C23 if there are Bools. Without these the claim fails: Bool variables before C23, a variable called `int`, and blocks without statements, which are printed through a null pointer.", "quantifier": "every accepted program, every nesting, with and without debug information; every symbol name and linkage name", "why_tests_cant": "the generated text of each statement depends on what was generated before it (globals are collected on the side, else branches are attached to the last branch, helpers are requested by flags); tests compare a few printed files with expected text and do not read them as C", "anchors": ["skull/codegen/c/core.c:14-82", "skull/codegen/c/assign.c", "skull/codegen/c/flow.c", "skull/codegen/c/func.c", "skull/codegen/c/write.c", "skull/codegen/c/shared.c", "skull/codegen/c/debug.c"]}
{"id": "C56", "title": "A C file is written exactly when no block is without a text", "statement": "For an accepted program whose names and texts can be written in C, the C back end writes a file if and only if in the body of every if, elif, else, while and namespace, and of every function that is not external, there is at least one statement that has a text of its own: not only comments, aliases, nested functions, and, in function bodies, variables that are initialised by constants. Nothing else can stop it: each check of the back end (a defined expression, a linkage name for exported names, a constant behind `export`, a known source position for debug lines, parameters that are variables) always succeeds for accepted programs.", "quantifier": "every accepted program, every nesting of blocks and functions, with and without debug information", "why_tests_cant": "which statements have no text depends on where they stand and on whether the value of a variable is constant, and a missing text is only used later, when the block is put together; tests contain no block whose statements are all without a text", "anchors": ["skull/codegen/c/core.c:20-82", "skull/codegen/c/flow.c:14-92", "skull/codegen/c/func.c:25-124", "skull/codegen/c/assign.c:27-159", "skull/codegen/c/debug.c:8-21", "skull/parse/ast_node.c:93-162"]}
{"id": "C57", "title": "The C file of a program, compiled and run, does what the program does", "statement": "When a program that the compiler accepts runs to its end by the meaning of the language (statements in order, values of 64 bits, both operands of an operator, variables per call and per block), the C file that is written for it, run by the rules of C on a machine with 32 bit int and 64 bit long, does nothing undefined, calls the same external functions in the same order with the same values, and ends with the same exit code reduced to an int; it has no other behaviour. This holds for programs without namespaces, nested functions and references, whose constant arithmetic fits into 32 bits, whose operators do not leave the order of calls open, whose functions do not keep state in variables that start with constants, and which do not call themselves while they have variables. Outside these limits C gives other results or none.", "quantifier": "every accepted program within the limits, every run that ends, every nesting of statements, every depth of recursion, all floating point and external behaviour", "why_tests_cant": "locals of functions become file scope variables, constants are int instead of int64_t, initialisers move out of the program, && skips its right operand and C leaves evaluation order open; tests compare the C text with expected text and do not run it", "anchors": ["skull/codegen/c/core.c", "skull/codegen/c/assign.c", "skull/codegen/c/flow.c", "skull/codegen/c/func.c", "skull/codegen/c/expr.c", "skull/codegen/c/shared.c", "skull/codegen/c/types.c"]}
{"id": "C58", "title": "The LLVM back end and the C back end agree", "statement": "A program that stays within the limits of both back ends (C51 and C57) and runs to its end has the same result whichever back end is chosen: the module that is handed to LLVM and the C file both have a result, and every result of the one is the result of the other: the same calls of external functions, and the same exit code reduced to an int. It is false in general: the back ends differ on whether the right operand of and is evaluated, and on the life of variables in functions.", "quantifier": "every accepted program within both limits, every run that ends", "why_tests_cant": "the two back ends share no code behind the checker; tests run each of them on examples and never compare runs", "anchors": ["skull/codegen/c", "skull/codegen/llvm", "skull/build_data.c"]}
{"id": "C59", "title": "Accepted programs do not go wrong", "statement": "A program that passes the checks never gets stuck when it runs by the meaning of the language: after any number of steps it has ended with an exit code, or it still goes on, or it has failed for one of three reasons that no check could exclude (an operation whose result does not exist or does not fit, an external function that does not return what it was declared with, a statement unreachable that is reached). It never reads or sets a variable that has no value, never uses a value of another type than the checker gave it, never calls something that is no function or with another number of arguments, never tests a value that is no Bool, and never leaves a function without the result it promised. What it does is determined by the program and the functions from outside. This holds without references and nested functions, where functions without a result return nothing, where no two results of such functions are compared, and where the program itself returns only Ints, which is automatic without external functions; each of these conditions is needed.", "quantifier": "every accepted program, every number of steps, every depth of recursion, all floating point and external behaviour", "why_tests_cant": "the checks look at each statement once, with a scope and a current function that change on the way, while runs visit statements in another order and with other variables alive; tests check single programs for messages", "anchors": ["skull/semantic/assign.c", "skull/semantic/expr.c", "skull/semantic/flow.c", "skull/semantic/func.c", "skull/semantic/scope.c", "skull/semantic/symbol.c", "skull/semantic/entry.c"]}
{"id": "C60", "title": "Messages of the checks point into the program", "statement": "Each message of the semantic checks points at a place where a token of the program stands, and what it says fits this token: the name in it is the one spelled there, the token it quotes is that token, the statement it complains about starts there, and two types or kinds said to differ do differ. Messages without a place name a function or a module of the program or a type.", "quantifier": "every parsed program, every setting, accepted or rejected", "why_tests_cant": "messages are made at some sixty places from nodes, symbols and tokens that were stored long before; tests compare a few messages as text", "anchors": ["skull/semantic/assign.c", "skull/semantic/expr.c", "skull/semantic/flow.c", "skull/semantic/func.c", "skull/semantic/symbol.c", "skull/semantic/unused.c", "skull/semantic/types.c", "skull/semantic/import.c", "skull/common/str.c"]}
{"id": "C61", "title": "Messages are printed in full and say where", "statement": "What a run leaves on stderr for a file are its messages in order, each as the file name, Warning or Compilation error (in colour if asked for), the line and column if the message has a place, and the sentence of that message with the names, types, tokens and numbers it is about filled in and quoted. A line that is named exists in the file, and so does the column where the line has no quotes or comments in front. With -q nothing is printed.", "quantifier": "every file of less than 4 GiB, every command line, every reason the system may give for a failed import", "why_tests_cant": "a message is put together from a template with a varying number of texts, tokens, types or numbers in one union; a wrong order or a missing part only shows for the messages that a test provokes. (False where an operand is missing at the end of the file: the template is printed with its %s, witness proved. One line per message is false, too: a message can name a line break.)", "anchors": ["skull/common/errors.c: fmt_message, fmt_message_internal, message_stringify, get_error_msg, get_location_str, write_and_free_errors", "skull/real_main.c: real_main", "skull/common/str.c: uvsnprintf", "skull/parse/token.c: token_to_mbs_str"]}
{"id": "C62", "title": "The LLVM back end builds valid modules", "statement": "The module that is built for an accepted program is valid: each block ends with its only terminator; every operand has the type its instruction needs, arguments fit the function that is called and returned values the function that returns; branches stay in their function and never go to its first block; no register is set at two places, and on each way to an instruction the registers it uses are set before; each function has one declaration and, unless it comes from outside, blocks of its own; global variables start with values of their types. This holds with and without -g.", "quantifier": "every accepted program without functions in functions, references, comparisons of calls without result and blocks behind calls, that returns Int from the program, no value from functions without a result and never the result of a call without one, and has no jump directly in a namespace; all constants LLVM may fold", "why_tests_cant": "whether the verifier accepts a module depends on how values of variables, registers and blocks are kept across nested statements of any depth; tests run a few shapes. (False without each of the last five conditions, witnesses proved.)", "anchors": ["skull/codegen/llvm/core.c: gen_module, gen_tree, gen_node", "skull/codegen/llvm/flow.c: gen_control_while, gen_control_if_, gen_control_code_block, gen_stmt_return", "skull/codegen/llvm/func.c: gen_stmt_func_decl, gen_function_def, gen_expr_func_call", "skull/codegen/llvm/assign.c: setup_var_llvm, assign_value_to_var", "skull/codegen/llvm/expr.c: gen_expr", "skull/codegen/llvm/types.c: type_to_llvm_type"]}
{"id": "C63", "title": "C compilers accept the generated C files", "statement": "The C file of an accepted program meets the constraints of C11: each name is declared before it is used and once in its scope; operands, arguments, initialisers and returned values have types that fit; only objects that are not constant are assigned to; initialisers outside of functions are constant expressions; `break` and `continue` are in loops; functions are declared alike, defined once, and defined if they are static; there is a `main`.", "quantifier": "every accepted program without functions in functions, namespaces, references, comparisons of calls without result and blocks behind calls, that returns Int from the program and no value from functions without a result, whose outermost names (variables of functions count) differ from each other, from those of the generated code and from those of the headers, that initialises such variables with literals and operators only (or not with constants), and has no remainders of floats, no Void variables or results and no variable named as a helper; all lists of names declared by headers; all compilers, also those that take pointers to constants seriously, for which named string constants must not be copied", "why_tests_cant": "whether a file is accepted depends on how names, scopes and constants of the source are carried over at any depth; tests compile a few files. (False without each of the limits on names, constants, remainders, Void and strings, witnesses proved.)", "anchors": ["skull/codegen/c/core.c: gen_module_c, gen_node_c", "skull/codegen/c/assign.c: gen_stmt_global_var, gen_stmt_stack_var, gen_stmt_constexpt_global_var, gen_stmt_var_assign_c_", "skull/codegen/c/func.c: gen_function_def_c, gen_function_prototype_c, gen_param_c", "skull/codegen/c/flow.c: gen_control_block_c", "skull/codegen/c/expr.c: gen_expr_const_c, gen_expr_binary_c, gen_expr_unary_c, gen_expr_func_call_c", "skull/codegen/c/types.c", "skull/codegen/c/write.c"]}
{"id": "C64", "title": "Object files define and ask for the right names", "statement": "The object file of an accepted program can be made, and all of its values have different names. It defines the main function of the module (a dot and the name of the module), module.name for each exported function and each exported variable outside of functions, and nothing else; an executable also has _start and the helpers _strcmp, _int_pow and _float_pow. It asks other files for exactly the external functions that are called, under their own names, for helpers that are used if it is not for an executable, and for exit and pow if it is.", "quantifier": "every accepted program in which no two exports share a name, no external function shares its name with something that is not exported and, for executables, nothing but exports is called exit; every way in which LLVM numbers names that are taken; all file names; with and without -g", "why_tests_cant": "LLVM silently renames functions whose names are taken, so whether a name survives depends on all others in the module and on the order of declarations; tests link a few programs. (False without each of the conditions, witnesses proved.)", "anchors": ["skull/codegen/llvm/func.c: add_func", "skull/codegen/llvm/assign.c: setup_var_llvm", "skull/codegen/llvm/expr.c: create_and_call_builtin_oper", "skull/codegen/llvm/shared.c: setup_llvm_state", "skull/codegen/llvm/write.c: add_start_shim, llvm_insert_builtins", "skull/shim.ll", "skull/semantic/mangle.c: mangle_name", "skull/codegen/abi.c: create_main_func_name"]}
{"id": "C65", "title": "Object files of different modules can be linked", "statement": "The object files of two modules with different names never define the same name, if at most one of them is for an executable. None of them defines a name that another one asks for, except that the file of an executable has the helpers which other files ask for.", "quantifier": "all pairs of programs as in C64 whose files have different names that do not begin with a dot", "why_tests_cant": "it is about all pairs of programs and all of their names", "anchors": ["skull/codegen/llvm/func.c: add_func", "skull/codegen/llvm/assign.c: setup_var_llvm", "skull/codegen/llvm/shared.c: setup_llvm_state", "skull/codegen/llvm/write.c: add_start_shim, llvm_insert_builtins", "skull/semantic/mangle.c: mangle_name", "skull/codegen/abi.c: create_main_func_name"]}
{"id": "C66", "title": "Source files are read as UTF-8 whatever the environment", "statement": "Source files are read as UTF-8: a file that is UTF-8 is read as the text it encodes, any other file is rejected. The compiler only gives up for want of a locale if it has to fall back on C.UTF-8 and there is none. Files of ASCII characters are read as they are in every environment.", "quantifier": "every environment that names no locale, a locale that is not installed, or one that uses UTF-8; all sets of installed locales; all files", "why_tests_cant": "it is about all environments and sets of locales; tests run in one. (False if the environment names a locale that does not use UTF-8: it is used although C.UTF-8 is there, witness proved.)", "anchors": ["skull/common/local.c: setup_locale", "skull/real_main.c: real_main", "skull/common/str.c: mbstoc32s", "skull/pipeline.c: run_pipeline"]}
{"id": "C67", "title": "Object files made of C files define the right names", "statement": "The object file made of the C file of an accepted program defines main, module.name for each exported function and each exported variable at the top of the program or of a function, the helpers that the file has, and nothing else. External functions are taken from other files under their own names, and no other functions are. Exported names are the same as in the object file that the LLVM back end makes.", "quantifier": "every accepted program that can be written in C, in which nothing exported or external is called main or init and no external function shares its name; both back ends agree where exports are functions or variables at the top of the program that are not behind a jump", "why_tests_cant": "names depend on where a declaration stands and on labels that are attached in other declarations; it is about all programs. (Exports in blocks are defined by one back end only, witness proved. Files of two modules can never be linked: each has a main function, proved for all pairs.)", "anchors": ["skull/codegen/c/func.c: gen_function_prototype_c", "skull/codegen/c/assign.c: gen_stmt_global_var, gen_stmt_constexpt_global_var, gen_stmt_stack_var", "skull/codegen/c/write.c: print_main_shim, print_builtins", "skull/semantic/mangle.c: mangle_name", "skull/codegen/llvm/func.c: add_func", "skull/codegen/llvm/assign.c: setup_var_llvm"]}
{"id": "C68", "title": "Debuggers show what variables hold", "statement": "In debug builds of the LLVM back end the description of a type is such that a debugger shows exactly the value that a variable holds, for Int, Float, Rune, Str and references of any depth, under the name of the Skull type. Functions are described by their return type followed by their parameters in order, and different signatures have different descriptions. For Bool and references to Bool this only holds where LLVM rounds the size of one bit up to a byte.", "quantifier": "every memory, address, type and value in it; every signature; every conversion of bits to bytes that is right for whole bytes", "why_tests_cant": "types nest without bound and the values are all 64-bit words and strings; tests of the compiler only compare the text of the metadata. (Bools are described as one bit wide: where that becomes a size of 0 bytes, a debugger shows false for true, witness proved.)", "anchors": ["skull/codegen/llvm/debug.c: type_to_llvm_di_type, type_to_di_type, add_llvm_func_debug_info, setup_debug_info", "skull/semantic/types.c: get_reference_type"]}
{"id": "C69", "title": "Debug builds of the C back end add right line directives and nothing else", "statement": "The C file of a debug build is the C file of the plain build with line directives put in, each on a line of its own: one in front of each statement and each function that is defined, with the line that it has in the source, and one for each of the two functions that the compiler adds. Nothing else differs, and one file is written just where the other one is.", "quantifier": "every tree of checked statements and every environment of the back end; that both files are written for the same programs is for every accepted program that can be written in C", "why_tests_cant": "trees nest without bound and functions are moved in front of the statements; that nothing else differs is about all programs. (Exported functions are declared first, on the line of the directive, so a C compiler counts the function itself one line too far down, witness proved.)", "anchors": ["skull/codegen/c/debug.c: apply_debug_info", "skull/codegen/c/core.c: gen_node_c, gen_tree_c", "skull/codegen/c/func.c: gen_function_prototype_c", "skull/codegen/c/write.c: print_main_shim"]}
{"id": "C70", "title": "Instructions of debug builds have the right locations and scopes", "statement": "In debug builds of the LLVM back end the locations that instructions get (for constants, which are no instructions, those that they would get) are those of returns, no-ops, the names of called functions, the starts of conditions and the definitions of variables, for exactly the statements that do not stand behind a jump, and one for the end of the program. The scope of each is made of the blocks around the statement, up to the function that it is in, which is the function that the instruction is put into, as LLVM's verifier asks for.", "quantifier": "every tree of checked statements, with any nesting of blocks and functions", "why_tests_cant": "the scope is a global variable that is saved and restored around blocks and functions, which nest without bound. (Assignments have the line where the variable is defined, and the end of the program has the line of its first statement, witness proved.)", "anchors": ["skull/codegen/llvm/debug.c: add_llvm_debug_info, make_llvm_debug_location, add_llvm_control_flow_debug_info, add_llvm_func_debug_info", "skull/codegen/llvm/core.c: gen_module, gen_tree, gen_node", "skull/codegen/llvm/flow.c: gen_control_code_block, gen_stmt_return, gen_stmt_noop, gen_control_if_, gen_control_while, gen_stmt_implicit_main_return", "skull/codegen/llvm/func.c: gen_function_def, gen_expr_func_call", "skull/codegen/llvm/assign.c: assign_value_to_var"]}
{"id": "C71", "title": "Debuggers are told about each variable", "statement": "In debug builds of the LLVM back end the variables that are described are just those whose definitions do not stand behind a jump, and the parameters of the functions defined there, numbered from one. Variables of the main program belong to the whole file, others to the blocks around their definition up to the function that the record is put into; parameters belong to their function. All but the constants of functions are described by an address.", "quantifier": "every tree of checked statements, with any nesting of blocks and functions", "why_tests_cant": "scope, function and place depend on global state that is saved and restored around blocks and functions, which nest without bound. (Constants in functions are described by their value where debuggers expect an address, witness proved.)", "anchors": ["skull/codegen/llvm/debug.c: add_llvm_var_def_debug_info, add_llvm_global_var_def_debug_info, add_llvm_local_var_def_debug_info, add_llvm_func_debug_info, alloc_debug_function_param", "skull/codegen/llvm/assign.c: gen_stmt_var_def, setup_var_llvm, assign_value_to_var, is_top_level, requires_alloca_decl", "skull/codegen/llvm/func.c: gen_function_def", "skull/codegen/llvm/flow.c: gen_control_code_block"]}
