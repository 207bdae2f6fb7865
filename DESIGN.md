# Formal model of the skull compiler

Subject: `dosisod/skull` at the pinned commit in `/repo`. The C sources were read
as text, nothing was built or run. The model is written in Coq 8.16.1 under
`rocq/theories` (logical name `Verif`).

## Shape of the model

* The model is a set of total Gallina functions, one per C function where that is
  possible, each with a comment naming the file and the lines it follows.
* Undefined behaviour that the code can reach (null access, read past the
  terminator, failed assertion) is a separate outcome (`UB`, `Bad`, `Crash`), never a
  default value.
* Loops that follow pointers are structural recursion over the remaining input
  where possible; otherwise they use fuel with a separate out-of-fuel outcome
  which a theorem then excludes.
* Where a claim is false of the code, a theorem named `..._refuted` gives a
  concrete witness and a second theorem states what does hold.
* Files: `Model_X.v` is the model, `Spec_X.v` the vocabulary in which the claims are
  stated (grammars, typing rules, meaning of programs, C grammar, LLVM IR), `Proof_X.v`
  the lemmas. `Prop_X.v` holds the theorems of record: each has a short proof,
  `Print Assumptions` under it and an `Example` that meets its hypotheses.

## Property by property

| id | theorems in | modelled code | how it is proved |
|----|-------------|---------------|------------------|
| C01–C04 | `Prop_Token.v` | `parse/token.c` (all), `classify.c` for C04 | state machine over the characters; invariant on finished tokens and the open token; induction on the text |
| C05, C06 | `Prop_Classify.v` | `parse/classify.c` | inductive grammars, recogniser = grammar both ways |
| C07–C09, C43 | `Prop_Literal.v` | `semantic/types.c: eval_*, strip_underscore_num`, `common/str.c` escapes | digit value by Horner against positional sum; the in-place loops refine relational grammars |
| C10 | `Prop_Utf8.v` | `common/str.c: mbstoc32s, c32stombs` | `mbrtoc32`/`c32rtomb` of a UTF-8 locale after RFC 3629; induction |
| C11–C16, C44–C46 | `Prop_Parse.v` | `parse/ast_node.c` (all but freeing) | fuel bound by the number of tokens; printing of trees inverts parsing; grouping relation as specification; `Bad` and silent rejection excluded or exhibited |
| C17–C19, C48 | `Prop_Sem.v` | `semantic/flow.c`, `func.c`, `entry.c` | the accepted tree as a derivation (`walk`), specification is a relation on positions |
| C20–C26, C47, C49 | `Prop_Sem2.v`, `Prop_Sem.v` | `semantic/{assign,symbol,scope,variable,expr,func}.c` | declarative scoping and typing (`block_ok`, `stmt_ok`, `elab`), the checks produce derivations; history invariant for symbol numbers |
| C27, C29 | `Prop_Sem3.v` | `semantic/flow.c`, `func.c`, `unused.c` | state of the current function along the walk; the report list is computed exactly |
| C28 | `Prop_Types.v` | `semantic/types.c: get_reference_type` with vector and hash table | invariant over the request history |
| C30, C39 | `Prop_CGen.v` | `codegen/c/expr.c`, `types.c` | the generated text is read by a C lexer and a C expression grammar (`Spec_C.v`), the tree read is the source tree |
| C31, C50 | `Prop_Helpers.v` | `_int_pow`, `_strcmp` of `codegen/c/write.c` and `shim.ll` | loop invariants |
| C33, C34, C40–C42 | `Prop_Names.v` | `semantic/mangle.c`, `codegen/abi.c`, `codegen/shared.c`, `common/io.c: gen_filename`, `semantic/import.c`, `cli.c: squash_argv`, `common/str.c: strrstr` | buffers of bytes refine text algebra |
| C35 | `Prop_Cli.v` | `cli.c` | induction over the arguments |
| C36 | `Prop_Vector.v` | `common/vector.c` | refinement to a list |
| C37 | `Prop_HashTable.v` | `common/hashtable.c` | refinement to an association list over histories |
| C38 | `Prop_Pipeline.v` | `real_main.c`, `pipeline.c`, `codegen/backend.c`, `codegen/llvm/write.c` (LLVM calls as parameters), `codegen/c/*.c` (all) | what is done to the outside is a list of events; case analysis along the stages |
| C51 | `Prop_LLVM.v` | `codegen/llvm/{core,flow,func,assign,expr,shared}.c` | simulation: a big-step meaning of checked programs (`Spec_Run.v`) against a small-step machine for the part of LLVM IR that is used (`Spec_IR.v`) |
| C22 (order) | `Prop_Order.v` | `semantic/*.c` | symbols are numbered in the order of the text |
| C32 | `Prop_LLVM2.v` | `codegen/llvm/{core,flow,func,assign,expr,shared}.c` | generation goes through exactly if the state of the loops fits at each jump; induction over the well-formed program |
| C52 | `Prop_Shell.v` | the command of `emit_native_binary` | a reader for shell words (`Spec_Shell.v`) inverts it |
| C53 | `Prop_Accept.v` | `semantic/*.c` | the rules of the language as an inductive definition (`Spec_Accept.v`); induction over it |
| C54 | `Prop_Grammar.v` | `parse/ast_node.c` | a grammar of statements (`Spec_Grammar.v`); induction over derivations |
| C55 | `Prop_CProg.v` | `codegen/c/*.c` (all) | a grammar of C (`Spec_CProg.v`) with one reading for each text; induction over the checked program |
| C56 | `Prop_CProg.v` | `codegen/c/*.c`, `parse/ast_node.c` | a boolean function that says for each node whether it is printed and whether it has a text, by induction over the checked program |
| C57 | `Prop_CRun.v` | `codegen/c/*.c` | simulation: Spec_Run.v against a big-step meaning of C (`Spec_CRun.v`), through the C program that C55 says is in the file |
| C58 | `Prop_Backends.v` | `codegen/c/*.c`, `codegen/llvm/*.c` | from C51 and C57 |
| C59 | `Prop_Safe.v`, `Spec_Safe.v` | `semantic/*.c` | invariants of runs (`Proof_Safe3.v`), rules that the checks guarantee (`Proof_Safe2.v`, `Proof_Safe6.v`) |
| C60 | `Prop_Errors.v`, `Spec_Errors.v` | `semantic/*.c` | invariant of the checks (`Proof_Told.v`) |
| C61 | `Model_Errors.v`, `Prop_Printed.v`, `Spec_Printed.v` | `common/errors.c` | case by case (`Proof_Errors.v`), along the pipeline (`Proof_Errors2.v`) |
| C62 | `Prop_Valid.v`, `Spec_Valid.v` | `codegen/llvm/{core,flow,func,assign,expr,shared,types}.c` | a certificate (types of registers, owner of each block and registers set before it) grows along with the code (`Proof_Valid.v`); the rules of C59 say that statements fit |
| C63 | `Prop_CCheck.v`, `Spec_CCheck.v`, `Spec_CReady.v` | `codegen/c/*.c` | along the C program that C55 says is in the file: what is visible in the checked program is declared in the scopes of the C program (`Proof_CCheck*.v`); the typing of C20 and C59 gives the kinds of expressions |
| C64, C65 | `Model_Link.v`, `Prop_Link.v`, `Spec_Link.v` | `codegen/llvm/{core,flow,func,assign,expr,shared,write}.c`, `shim.ll`, `semantic/mangle.c`, `codegen/abi.c` | what is added to the module, in order, is what the program declares and calls (`Proof_Link.v`); declared names are words without dots (`Proof_Link2.v`, from C05 to C08); each public name is free when it is added (`Proof_Link3.v`) |
| C66 | `Model_Local.v`, `Prop_Local.v`, `Spec_Local.v` | `common/local.c`, `common/str.c`, `real_main.c` | cases of `setup_locale`; decoding in a UTF-8 locale is that of C10 |
| C67 | `Prop_CLink.v`, `Spec_CLink.v` | `codegen/c/{func,assign,write}.c` | along the C program that C55 says is in the file (`Proof_CLink.v`); names are words without dots as in C64 |
| C68 | `Model_Debug.v`, `Prop_Debug.v`, `Spec_Debug.v` | `codegen/llvm/debug.c:43-60, 140-196, 224-236, 316-325` | induction on how a value lies in memory |
| C69 | `Prop_Lines.v`, `Spec_Lines.v` | `codegen/c/{debug,core,func,write}.c` | both builds in step, along the tree (`Proof_Lines.v`) |
| C70 | `Model_Where.v`, `Prop_Where.v`, `Spec_Where.v` | `codegen/llvm/{debug,core,flow,func,assign}.c` | induction on the tree; scope and function are put back behind each statement (`Proof_Where.v`) |
| C71 | `Model_Vars.v`, `Prop_Vars.v`, `Spec_Vars.v` | `codegen/llvm/{debug,assign,func,flow}.c` | as C70 (`Proof_Vars.v`) |

## Modelled and not modelled

Modelled: everything named in the table. Simplifications that a reader has to know:

* Tokens, trees and symbols are values or list positions instead of heap pointers;
  freeing, running out of memory and running out of stack are left out.
* In the stages a message is its code and its location; `Model_Errors.v` has the text that is printed for it. `uvsnprintf`
  is modelled for `%s`, `%u` and `%zu`; `strerror` is any text.
* Types in the checks are terms; `type_objects_are_types` (C28) justifies that.
* The symbol table of a scope is an association list; C37 justifies that.
* `strtod`, `pow` and the digits of `printf("%a")` are parameters; theorems hold for
  every choice. `strtoll`, `strtoull`, `mbrtoc32`, `c32rtomb`, `iscntrl`, `printf("%li")` are
  modelled from the standards for a UTF-8 locale on an LP64 machine.
* LLVM: the C API builds modules of a small instruction set. What the IRBuilder folds
  is a parameter (`fold`) with the hypothesis that folding keeps values. Blocks are numbered
  in the order of creation. Names and linkage are apart in `Model_Link.v`: `LLVMAddFunction` and `LLVMAddGlobal` number names that are
  taken (`fresh`, a parameter), `LLVMLinkModules2` renames private values and merges declarations. Debug metadata (but for C68, C70 and C71) and names of values
  in functions are left out. What `-g` changes in the code itself is
  modelled: no-ops store into a fresh cell, and parameters are stored in cells of their own and treated as
  variables that can change (`debug.c:352-406`), which C51 and C58 cover.
* C back end: the whole text of the generated file is modelled (`Model_CFile.v`). The bodies of the
  helper functions are compared as text (C55) and modelled by hand (C31, C50).
* C programs have a meaning (`Spec_CRun.v`) only where the standard fixes it; conversions to signed types keep the low
  bits, `int` has 32 bits, `long` 64. The exit code is what `main` returns; that a shell only sees its low byte is
  outside of the model. `m_headers` are the names that the included headers declare.
* `codegen/llvm/write.c`: linking the helpers, verifying, optimising, printing and emitting are
  parameters that succeed or fail.
* Not modelled at all: the metadata that `codegen/llvm/debug.c` attaches (lines 50-350) except for the descriptions of types (C68), the locations and scopes of instructions (C70) and the records for variables (C71), `common/malloc.c`, the C compiler, the assembler and the
  linker, the file system (a parameter of the checks where `import` asks for a file).

## Trusted base

* the Coq 8.16.1 kernel (with `vm_compute`, which examples and witnesses use);
* axioms: none. `Print Assumptions` stands under every theorem of record and prints
  `Closed under the global context` for each of the theorems in MANIFEST.json;
* the reading of the C sources into Gallina, recorded in the comments;
* the specifications: `Spec_*.v`.

## Wrong programs

`seeded/LOG.jsonl` has one line for each wrong program that the theorems were tried on. `stopped_at` has the lemmas and
theorems at which the proofs stopped (they were admitted one after another in the scratch copy, for a few rounds). `failed` has the
theorems whose proofs rest on one of those, found by following names in the sources, so it has more theorems than those
whose statements are false of the wrong program. That a proof stops shows that it depends on the edited line. It does not prove that
the statement is false; the negated statement was not proved for the wrong programs. `tightened` has the theorems that were
strengthened after an edit went through.

## Where the code falls short of the claim

Each of these has a theorem `..._refuted`:

* columns are wrong behind quotes and comments on the same line (C03);
* a text of blanks without a newline crashes the classifier (C04);
* `0_1` is no integer, `"a"x"b"` is one string token, `'\\n''a'` one rune token (C05, C08);
* an integer literal followed by certain separators makes `eval_integer` read past its buffer (C07);
* a program or block that starts with a bare block loses statements (C11);
* `a is b + c * d` groups as `a is ((b + c) * d)` (C13), `(a + b) * c` as `a + (b * c)` (C14);
* programs that end behind `x: Int`, `x =`, `export` and the like crash the parser (C15);
  those that end behind `if`, `elif`, `while`, `namespace` are rejected without a message (C16);
* blocks behind call statements are not checked (C17); `noop` and `unreachable` may follow a jump (C19);
* Void parameters can be stored (C24); calls count arguments modulo 2^16 (C26); `return` is
  checked against the wrong function behind nested and external functions (C27);
* unused names go unreported as errors when a later block has some too (C29);
* a comment or a closing bracket on the line of a definition is a syntax error (C54);
* behind an external function the main program returns what that function should (C53);
* C text: keywords as names, quotes in strings, the lowest integer, infinities (C30, C39); Bool variables before
  C23, blocks without statements (C55);
* `x ^ 0` is `x` (C31, C51); `7 / 2` is poison (C51); `2.0 ^ 3.0` calls `_float_pow`, which `shim.ll:1` defines as a
  variable (C51); a top-level `mut` in a loop keeps its value (C51);
  a reference that is a parameter is followed twice unless the build is a debug build (C51);
  `break` and `continue` behind an inner loop crash the compiler (C32);
* C files: variables of functions are initialised once and shared by all calls, `and` and `or` skip calls that LLVM
  makes, constants overflow at 32 bits, variables initialise variables outside of functions, the order of calls is
  left open (C57); so the back ends differ (C58);
* C files that compilers refuse: variables of namespaces, variables of the same name in two functions, names like `init`,
  variables as initialisers outside of functions, remainders of floats, Void parameters, `return f()` with a Void `f`; and
  with a warning, copies of named strings (C63);
* accepted programs get stuck: a Float as exit code, a value from a function without a result, a function in a function
  that uses its variables, a comparison of two calls without a result (C59);
* a message about an operand missing at the end of the file has no name filled in, one about a line break takes two lines (C61);
* modules that LLVM's verifier rejects are built for `return` in a namespace, for `return g()` with a Void `g` in a block of a
  Void function, for functions in functions that use outer variables, and for the stuck returns of C59 (C62);
* an executable whose program declares `exit` (as the external function, say) calls `exit.1` and cannot be linked; an external
  function that shares its name with a function of a namespace is asked for under another name; of two exported variables with
  one name in two blocks one gets another name (C64); object files made with `-c` ask for helpers that no library has, and
  `external` never finds what another module exports (C64, C65);
* the compiler reads files in the character set of the environment, if that is no UTF-8 (C66);
* each C file has a `main`, so files of two modules cannot be linked; variables exported in a block are not exported by
  the C back end (C67);
* Bools are described to debuggers as one bit wide, which is no byte where LLVM rounds down (C68);
* in C files of debug builds exported functions count as being one line further down (C69);
* in debug builds assignments have the line where the variable is defined, the end of the program that of its first
  statement (C70);
* in debug builds constants of functions are described to debuggers by their value, where an address is expected (C71);
* `-o` may name the source (C34); `-v` and `-h` win over garbage (C35); `import` in the root directory (C41);
  names that only contain `.sk` (C42);
* a linker that is killed counts as successful, several files share one output name, an output of the
  C back end that cannot be opened crashes (C38); a file name with quotes in it runs commands (C52).
