# Formal model of libqasm in Rocq/Coq: design

Source: QuTech-Delft/libqasm at the pinned commit in `/repo` (C++20 library `cqasm`, cQASM 3.x only).
The code was read, not run: this sandbox has none of its dependencies (ANTLR, tree-gen, fmt, range-v3).

## 1. Shape of the development

`rocq/theories/` holds four kinds of files.

| kind | what it contains |
|---|---|
| `Base*.v`, `Model*.v` | computable Gallina definitions transcribed from the code, each with the file and lines it models; no proofs |
| `Spec*.v` | small independent specifications (JSON grammar, percent decoding, padded lexicographic order, denotational semantics of expressions, printers, ...) that never mention model helpers unless said |
| `Proofs*.v` | lemmas |
| `Properties*.v` | only `Theorem ... exact lemma. Qed.`, an `Example` that the hypotheses are met, and `Print Assumptions` |

Outcomes of a C++ call are values of `outcome A`: `Ok a`, `Err e` (a `cqasm::error::Error` was thrown),
`Throw k` (some other C++ exception `k` escapes), `UB k` (undefined behaviour of kind `k` was executed).
Undefined behaviour is therefore a distinct, visible outcome and never a default value.

Mutable analyzer state is a record threaded through the functions. Aliasing of tree nodes through shared pointers is
modelled where it is observable: `ModelObjects.v` has a heap of blocks that analyzers, copies and results share (C72-C74),
and `ModelNodes.v` runs an analysis with every node in memory (C97).

Strings are byte strings (`Coq.Strings.String.string`). `Int` is `Z` restricted to the signed 64-bit range, with
overflow explicit. `Float` is `SpecFloat.spec_float` with `prec = 53`, `emax = 1024` (IEEE binary64, round to nearest
even), computable and axiom free. `libm` functions (`sin`, `exp`, `pow`, ...) are an explicit parameter of the model.

## 2. Plan per property

| id | what is modelled | how it is proved |
|---|---|---|
| C01-C02 | `json_encode`, parametrised by the signedness of `char` | induction on the string against an independent JSON string decoder; counterexample for signed char and bytes >= 0x80 |
| C03 | `url_encode` | induction, percent-decoder as specification |
| C04 | `to_lowercase`, `equal_case_insensitive` | finite sweep over 256 bytes lifted by induction |
| C05 | `remove_triple_quotes` | computation on append |
| C06 | `StringBuilder` as a state machine | induction over the call history |
| C07-C08 | `Version` ctor (`std::stoi` included), `compare`, printing | induction on component lists; decimal round trip from the stdlib |
| C09-C10 | `SourceLocation` | order theory by `lia`; unique readability of the printed form |
| C11-C12 | `Error` | fold over context calls; inductive JSON grammar as specification |
| C13 | `to_strings`, `to_json`, `unwrap` | case analysis, tree serialisation abstract |
| C14-C16 | types, values, `promote`, `check_promote` | case analysis; binary64 rounding through `SpecFloat` (and Flocq for the real-number statement) |
| C17-C18 | overload tables | induction on the registration history |
| C19-C26 | all registered operators and functions; expression visitors | case analysis per operator; structural induction on expression ASTs |
| C27 | instruction set tables | finite sweep lifted to all strings |
| C28-C32 | gate/non-gate visiting, parameter resolution, size checks | structural induction on gates; case analysis over the default tables |
| C33-C34 | index visiting | induction on index lists |
| C35-C38, C58 | `SemanticAnalyzer` as a state machine over statements | invariants by induction over the statement list |
| C39-C43 | `Analyzer` object, scopes, reuse | case analysis, induction over operation sequences, counterexamples |
| C44, C53, C57 | locations through parser and analyzer | induction over trees |
| C45-C47 | the ANTLR lexer grammar as a maximal-munch function | induction on the input |
| C48-C50, C54 | the parser grammar as a recursive-descent function, AST builder | induction on ASTs / token lists |
| C51, C55 | `std::stoll`, `std::stod` on literals | decimal arithmetic, rounding |
| C52 | `ParseHelper::parse` | case analysis |
| C56 | primitive (de)serialisers as key/value maps, C++ and Python sides | case analysis, counterexample for the Python reader |
| C59 | IEEE operations of the folded operators | Flocq's theorems about `SpecFloat`-compatible operations |
| C60, C66 | invariant of analyzer states reached by declarations and analyses | induction over call histories; total correctness of the block visitor |
| C61-C62 | non-gate visitors, scopes | case analysis over the default tables; invariant by induction over histories |
| C63-C65 | inductive grammar and independent literal meaning in `SpecSyntax.v` | soundness, completeness and unambiguity of the recursive-descent function; viable-prefix argument for the error position |
| C67 | printed signatures | unique readability by induction over the printed list |
| C68-C69 | `cqasm.cpp`, `cqasm_python.cpp`, the Python module, the emscripten wrapper | refinement of every entry point to the analyzer methods |
| C70 | a parameter `rtl` for the unspecified order of evaluation in the syntactic visitor | both orders give the same tree unless two literals are out of range |
| C71 | composition of C48-C50 with the analysis | locations are irrelevant to the analysis (C57) |
| C72-C74 | a heap of blocks, analyzers that share them (`ModelObjects.v`) | simulation between the heap model and the functional model, frame invariants by induction over call histories |
| C75-C77 | the analyzer model; renaming of programs, trees and errors, renumbering of variable nodes (`SpecRename.v`) | a relation between two runs of the analyzer, kept by every visitor and by every statement; induction over the program |
| C78 | the analyzer model | the same relation, between states that differ only in the current block; induction over permutations |
| C79 | expressions, gates and statements with a hole (`SpecContext.v`) | congruence of the visitors by induction over the place |
| C80 | the analyzer model (`block_add`) | invariant of the current block, kept by every statement; induction over the program and over the analyses |
| C81 | the analysis again with values that carry locations (`ModelLocated.v`) | the new model erases to the old one (simulation of every visitor); locations by cases on the expression, induction over the program |
| C82 | the analyzer model; `SpecDiagnosis.v` states, without it, when each message is due and where | soundness by induction over expressions and gates, completeness by induction over the derivation of the problem; induction over the program |
| C83 | the analyzer model; PI and exp of Coq's real numbers | partial sums of Machin's series and of the series of exp(-1), computed with rational numbers, enclose pi and e; Flocq's rounding; invariant over analyses |
| C84 | the analyzer model; a predicate on values for 64-bit integers, doubles and indices | every folding function preserves the predicate (Flocq for the float operations, bit-wise lemmas for the integer ones), then expressions by induction, then an invariant over statements and analyses; literals of parsed texts through C50 |
| C85 | the analyzer and parser models; a writer from results to programs (SpecFolded.v) | literals evaluate to their values; promotion and resolution are idempotent; declarations and instructions of a run are separated by induction; texts through C50 and C84 |
| C86 | the lexer, parser and analyzer models; conversion to 32 bits as a change of locations (SpecNarrow.v) | positions of tokens are bounded by the length of the text; the analyzer commutes with a monotone cap on positions |
| C87 | `ModelInstructionSet.v` (all predicates), the parser and analyzer models; the names in a program and in a result in SpecNames.v | the tables are finite and every other name is unknown to all of them; names of parsed trees start with a letter (writable trees, C50); invariant over the statements of a block |
| C88 | lexer, parser and visitor models; SpecAppend.v | tokens before a line feed do not change with what follows it (no token goes over a line end except closed comments and strings, and `/` before `*` is in no sentence); a sentence behind a separator is a block (grammar in SpecParser.v), in both directions, so the first offending token is the moved one; trees of moved tokens are the moved trees; with C58 for the analysis |
| C89 | the analyzer and function models; SpecEvaluate.v: a big-step semantics of constant expressions with real numbers for IEEE 754 | every SpecFloat operation is the IEEE rule (Flocq for finite operands, cases for the others); every name with every list of numbers: the overload found gives the rule's value; induction over expressions, both directions; identifiers by the invariant that tables only grow by variables |
| C90 | all of the pipeline; SpecMeaning.v: inductive rules for operands, parameters, gates, statements, blocks and programs, on top of SpecEvaluate.v and the tables of SpecInstructions.v, without analyzer state or errors | an invariant ties the analyzer to the variables declared and statements added so far; each statement is accepted exactly if it has a meaning, which is what is added (both directions, from the exact lemmas of C28, C33, C61 and C89); induction over the block; with C64 from the text |
| C91 | all of the pipeline; SpecOutcome.v: inductive rules for the result of erroneous programs as well: what is wrong with an expression, gate, instruction, declaration or version, and what a block adds to the result | as C90, with an invariant that also covers redeclared variables; a statement that is wrong reports exactly the error of the rules (from C82), every statement is right, wrong or undefined; totality of the analysis gives the undefined case |
| C92 | as C91; SpecReuse.v: the result for a program behind earlier ones, in terms of the rules of C91, and histories of texts | the analyzer after a history is the one that has run the statements of all its programs; the rules of C91 for the concatenation, split at the new program |
| C93 | SpecSize.v: nodes of trees and results, indices of results; trees and results as in C64, C91 | refuted by a text with the range 0:10^18-1, using C90 and never evaluating the list; bounds by induction on the grammar derivation and on the rules of C91 |
| C94 | SpecAnnotations.v: trees and results without annotations, what is kept of annotations, the rules of C91 with annotations | both directions by induction on the tree; every visit compared with that of the tree without annotations, for which C91 is proved |
| C95 | SpecEntry.v: the four cases of a text, by the rules of C90, C91 and the grammar | from C68, C90 and C91; exhaustive because analysis of a tree of the grammar returns a result or is undefined |
| C96 | ModelThreads.v: threads with their own analyzers over one heap of blocks, taking turns of one call or one statement in any order | simulation of every thread by a lone thread whose references are moved by an injection; images of the injections are disjoint; the lone thread by the calls of ModelObjects.v |
| C97 | ModelNodes.v: the analysis once more, every node a cell of a heap, tables, arguments and trees referring to cells | each function simulates that of ModelLocated.v, changes no cell but the block, and returns the roots of trees whose nodes are new and different; paths in such a tree are unique |
| C98 | SpecExtend.v: registrations and analyses of one analyzer in any order; the names a program uses, read off its tree | two analyzers that agree on the used names give the same values, gates, errors and blocks (induction over expressions, gates and statements) and agree afterwards; a registration under another name keeps the agreement |
| C99 | SpecCommute.v: independent statements; results with two contributions exchanged; the closure of exchanges; declarations first | each statement gives states that see the same under the other names (`matches` of C75, with numbers that make room); the two orders lead to states that match under an exchange of numbers, and so do the rest of the block; an accepted instruction mentions nothing declared after it |
| C100 | ModelPython.v: str as code points, UTF-8 decoding and encoding with "surrogateescape", SWIG's conversion of arguments, the functions of the Python module; SpecPython.v: texts and their encoding | decoding inverts encoding and the other way round (induction on the bytes; arithmetic of UTF-8 from C52); composition with C68 and C95 |
| C101 | SpecAscii.v: printable characters, what the diagnostic of an error tells | induction over the problems of C82 of trees that can be written (C50): their messages consist of fixed words, numbers and identifiers; with C12 and C95 for the JSON. The messages of ANTLR itself about what is no program are not modelled, so C101 leaves them out (C02 says what happens to other characters there). |
| C102 | SpecShapes.v: trees whose index lists have entries, analyses one after the other, results with an empty index list | invariant of C35 over blocks of any statements; no step of the model throws in an ordinary state; what is not well formed then lacks an index. Seen through the API by adding a declaration with an error. |
| C103 | SpecGateShapes.v: parameters a name takes, gates that fit from the inside to the outside, operands of a name and of a gate | the statement visit without annotations is a chain of partial functions; each link characterised for any name: parameters by the three tables, lookup names by the registered kinds (C27), operands by C28's classes |
| C104 | SpecRegister.v: analyzers built through the API with the history of registrations, the entry chosen for a name and arguments, calls, further use in one scope | invariant: the tables of every scope are those of its history; C17 turns lookups into choices; induction over the scopes |
| C105 | SpecSorted.v: a location inside a piece of the text that follows another text, pieces and their errors, one error before another | the locations of a statement are those of its own tokens (induction over the grammar), tokens split into consecutive pieces; C44's lemma about one statement with the piece as the predicate; C82 for at most one error |
| C106 | SpecResize.v: a program and a result with other sizes, registers used with indices only, sizes that are large enough | C90 gives the meaning of the accepted program; the rules of SpecMeaning hold for the changed program (induction over the block); C90 back |
| C107 | SpecSpelled.v: a range and the list of its numbers, a whole register and the range of all its elements, programs and results that differ in these | C90 in both directions; the rules of SpecMeaning give the same (or the listed) operands, which address as many qubits or bits |
| C108 | SpecNumbers.v: expressions that are the same number where one of a type is expected, programs that differ in such expressions | C90 in both directions; expressions have one value (C89), a value is one number of a type. For texts (also C106, C107): the analysis of a tree without locations gives the result without locations (C47) |
| C109 | SpecSingle.v: programs and results in which qubits and bits of some names are registers of size 1 | C90 in both directions; such an operand stands for one qubit or bit either way. For texts as C108 |
| C110 | SpecUnroll.v: programs and results in which chosen instructions are replaced by one instruction per index | C90 in both directions; gates, parameters and indices have one meaning, so the parts agree. For texts as C108 |
| C111 | SpecMerge.v: programs and results in which two registers declared one after the other are one | C90 in both directions; the statements before the declarations keep their meaning, those behind have the shifted one; back again if the first register is used up to m only (a[m] is refused with two registers). For texts as C108 |
| C112 | SpecJoin.v: programs that share no variable, results one behind the other | C90 in both directions; induction over the second program with the variables of the first in front. For texts as C108 |
| C113 | SpecElementary.v: single operands, the elements of an operand, instructions taken apart | C90 in both directions; the program is built by induction over the block from the result of the given one. For texts the program is printed from the result (C50, C85) |
| C114 | SpecRenumber.v: programs and results in which the indices of some registers are other numbers | C90 in both directions; induction over the block with the sizes of the declared registers. For texts as C108 |
| C115 | SpecFlat.v: how many qubits and bits there are, the numbers of elements, programs and results with two registers. Hypothesis: both counts are integers of 64 bits | C90; an operand is the list of its numbers, which addresses as many elements; sums over filtered lists of variables for the numbers. For texts as C113, and with C113 for single elements of the two registers |
| C116 | SpecFollow.v: programs that go on, results continued alike | C90; a block is split where the sequel begins (ProofsMerge.v), and what comes before is determined by the result of the beginning. For texts as C112 |
| C117 | SpecOperations.v: the places of operands, the operations of a result | C90, C107, C109, C110, C111, C113, C115; places are counted like elements, and operands of an accepted instruction have equally many |

A property that is false of the faithful model is kept, refuted by a theorem `..._refuted` with a concrete witness, and
accompanied by the strongest restricted or characterising theorem that holds. In `MANIFEST.json` it has the status
`partial` and a note that starts with REFUTED.

## 3. Trusted base

* The kernel of Coq 8.16.1. `vcheck` rebuilds everything and runs `coqchk` on the compiled files as well.
* The statements: the files `Spec*.v` and `Properties*.v`.
* The faithfulness of the files `Base.v` and `Model*.v` to the source. Each definition cites the lines it models.
  `validation/golden.py` compares the model with the results the repository itself records (section 5).
* No axiom, parameter, or opaque hypothesis is declared in this development. Section variables are discharged: the
  theorems quantify over them.

### 3.1 Axioms

`Print Assumptions` is run after every property theorem in `Properties*.v`. It prints "Closed under the global context"
for all of them except the ones below.

These use real numbers to say what a floating-point literal or operation means. They depend on the axioms
`ClassicalDedekindReals.sig_forall_dec`, `ClassicalDedekindReals.sig_not_dec`, `Classical_Prop.classic` and
`FunctionalExtensionality.functional_extensionality_dep` of the standard library (some on a subset), and on nothing else:

* C05_asm_verbatim
* C14_promote_denotes, C16_int_to_nearest_double
* C23_double_comparisons, C59_arithmetic_correctly_rounded, C59_unary_correctly_rounded
* C30_gate_parameters, C30_non_gate_parameters
* C44_errors_located, C45_unreadable, C53_locations
* C48_full_parentheses, C49_minimal_parentheses, C49_no_fewer_parentheses, C50_every_program, C50_parsed_writable
* C51_out_of_range, C55_floats, C55_out_of_range, C55_unique
* C52_program_or_error, C52_throws, C63_accepted, C64_tree, C64_tree_unique, C65_first_error
* C66_analysed, C66_throws, C69_analyzer
* C70_same_tree, C70_same_analysis, C70_same_result, C71_rewritten
* C80_parsed, C81_in_text, C82_text, C83_numbers, C84_result, C84_expression, C84_parsed, C85_written, C85_text, C86_parsed,
  C86_analysed, C86_limit, C87_no_clash, C87_results, C89_value, C89_text, C89_one_value, C89_double_results, C89_sqrt_results,
  C90_tree, C90_text, C90_one_meaning, C91_tree, C91_tree_undefined, C91_one_result,
  C91_accepted, C91_text, C91_undefined, C91_syntax_error, C92_tree, C92_tree_undefined, C92_text, C92_undefined, C92_syntax_error, C93_refuted, C93_tree, C93_result_partial,
  C94_tree, C94_undefined, C94_nothing_else, C95_cases, C95_cpp, C95_python, C95_json, C100_parses, C100_texts, C101_messages, C101_literals, C101_json, C105_pieces, C105_order, C106_resized, C106_larger, C106_texts, C107_ranges, C107_whole, C107_ranges_in_texts, C107_whole_in_texts, C108_numbers, C108_texts, C108_integers_as_floats, C109_single, C109_texts, C110_sequence, C110_texts, C111_merged, C111_split, C111_texts, C111_split_in_texts, C112_joined, C112_texts, C113_elementary, C113_once, C113_text, C114_renumbered, C114_texts, C115_flat, C115_numbered, C115_text, C115_elements, C115_once, C116_follow, C116_beginning, C116_texts, C117_kept, C117_abbreviated, C117_sequence, C117_merged, C117_texts, C117_places

`coqchk` lists the axioms of every library file that is loaded, whether a theorem uses them or not. Apart from the four
above these are, all from the standard library: `Coq.Reals.Rdefinitions.RbaseSymbolsImpl.{R, Rabst, Rrepr, Rquot1, Rquot2,
R0, R0_def, R1, R1_def, Rplus, Rplus_def, Rmult, Rmult_def, Ropp, Ropp_def, Rlt, Rlt_def}`,
`Coq.Reals.Rdefinitions.RinvImpl.{Rinv, Rinv_def}` (both sealed modules with definitions behind them) and
`Coq.ssr.ssrunder.Under_rel.{Under_rel, Under_rel_from_rel, Under_relE, Over_rel, over_rel, over_rel_done, under_rel_done}`.

Flocq is used for lemmas about rounding. It declares no axioms.

## 4. What is modelled

### 4.1 Modelled

| source | model |
|---|---|
| `src/utils.cpp`, `src/string_builder.cpp` | `ModelUtils.v` |
| `src/version.cpp`, `version.hpp`, `versioning.hpp` | `ModelVersion.v`, `ModelApi.v` |
| `src/annotations.cpp`, `src/error.cpp`, `error.hpp`, `annotations*.hpp`, `result.hpp`, `parse_result.*`, `analysis_result.*` | `ModelError.v` |
| `types.{cpp,hpp,tree}`, `values.{cpp,hpp,tree}` | `ModelTypes.v` |
| `overload.hpp`, `resolver.{cpp,hpp}`, `instruction.{cpp,hpp}`, `core_function.{cpp,hpp}` | `ModelOverload.v`, `ModelPrimitives.v` |
| `register_consteval_core_functions.{cpp,hpp}` (every registered operator and function) | `ModelFunctions.v` |
| `instruction_set.{cpp,hpp}`, `register_instructions.cpp` (every registered instruction) | `ModelInstructionSet.v` |
| `syntactic.tree`, `semantic.tree` | `ModelAst.v` |
| `analyzer.{cpp,hpp}`, `scope.hpp` | `ModelAnalyzer.v` (values), `ModelObjects.v` (objects sharing blocks), `ModelThreads.v` (threads taking turns), `ModelNodes.v` (nodes in memory) |
| `semantic_analyzer.{cpp,hpp}` | `ModelSemantic.v`, `ModelLocated.v` (with the locations of values) |
| `CqasmLexer.g4` | `ModelLexer.v` |
| `CqasmParser.g4` | `ModelParser.v` |
| `syntactic_analyzer.cpp`, `antlr_scanner.cpp`, `antlr_custom_error_listener.cpp`, `parse_helper.cpp` | `ModelSyntactic.v` |
| `primitives.{cpp,hpp}`, `python/module/cqasm/v3x/{primitives,instruction}.py` | `ModelPrimitives.v` |
| `cqasm.cpp`, `cqasm_python.{cpp,hpp}`, `python/module/cqasm/v3x/__init__.py`, `emscripten_wrapper.{cpp,hpp}` | `ModelApi.v`, `ModelPython.v` |

### 4.2 Modelled with simplifications

* ANTLR's generated lexer is the function "longest match, first rule wins" over the rules of the grammar file. Its
  generated parser is a recursive-descent function with precedence climbing. That this function recognises the grammar,
  with the precedences and associativity ANTLR gives to alternatives, is a theorem (C63-C65) against an inductive
  grammar. That ANTLR implements its grammar file is trusted.
* The texts of ANTLR's syntax error messages are a parameter. Their positions are modelled. ANTLR stops at the first
  error because the listener throws.
* Positions are unbounded numbers. The code stores them in 32 bits; for texts below 4 GiB that makes no difference (C86).
* `libm` functions are a parameter of the model (`lm`). Theorems hold for every choice.
* `std::stod` raises `out_of_range` on overflow and on underflow. Where the standard leaves the underflow test open the
  model takes "the rounded result is subnormal or zero and inexact"; the comment at the definition says so.
* `ModelSemantic.v` drops the locations of value nodes. `ModelLocated.v` is the same analysis with the locations of
  operands, parameters and indices; those of arguments of functions and of annotation data are dropped there too. Whether
  tree-gen's `copy_annotation` keeps an old location when the source has none is a parameter (`keep`).
* Locations of semantic variables are dropped: the code copies that of the identifier, and the parser gives identifiers of
  declarations none.
* An `annotated` tree node carries only the location annotation the code attaches.
* `ModelObjects.v` registers default functions and instructions only when an analyzer is made, and a C++ exception that
  escapes an analysis ends the modelled run.
* The order in which the compiler evaluates operands is a parameter (`rtl`) in the syntactic visitor (C70).

### 4.3 Not modelled

* Code generated by tree-gen: CBOR encoding, dumpers, visitor dispatch. `clone` is taken to copy a value node with its
  indices, and `check_well_formed` to refuse a tree in which a node is found twice (ModelNodes.v). Serialised and
  dumped trees are abstract where an entry point returns them (`serialised`, `dumped` are parameters).
* What SWIG generates from `python/libqasm.i`, except its conversion of strings (ModelPython.v, after the manuals of SWIG
  and CPython); `python/python_lib.py` and build files.
* The ANTLR runtime, `fmt`, `range-v3` and the C++ standard library, apart from `stoi`, `stoll` and `stod`, which are defined.
* Exhaustion of memory or stack (`std::bad_alloc`). Races inside one call or one statement of an analysis: threads
  take turns (C96), which is the whole story if they share no block (C96_no_sharing). The library's only global is the
  instruction set, a local static variable (initialised once, by the language's rules) that is never written after
  construction. Caches of the ANTLR runtime are its own affair.
* `initialize` of primitives (values of fields of nodes that nobody filled in), stream operators of `AxisType` values and of values, `types_of(variables)` and
  `check_initialization_list_element_type`: never reached from the modelled entry points.

## 5. Validation of the model

`validation/golden.py` extracts the recorded test cases of the repository (`res/v3x/tests/integration`: input, syntactic
tree, semantic tree or errors) and evaluates the model on every input inside Coq. All 274 files agree. These are tests of the
model, not proofs; the theorems do not depend on them.

`rocq/theories/UnitTests.v` evaluates the model on the expectations of the repository's unit tests (`test/*.cpp`,
`test/v3x/cpp/*.cpp`, `test/v3x/python/*.py`), except those about mocks, ANTLR's own error texts, tree-gen's dumps and the
results of the math library. All hold.

## 6. Wrong programs

`seeded/LOG.jsonl` has one line per edit of the model that imitates a realistic bug, with the theorems that stopped
proving. Edits are made in a scratch copy. A theorem that survives an edit that falsifies its English claim is tightened.
Lines S.. are edits chosen by hand for a claim; all proofs that still can be checked are checked, so `failed_lemmas` is
complete (from S150 on: up to the first failing lemma under a theorem of the claim, and `failed_theorems` are those whose
proofs use a recorded lemma). Lines M.. are edits made by a program at random places of the model files (numerals, comparisons, branches,
strings, list constructors and so on); there the first failing lemma is recorded and `failed_theorems` are the theorems
whose proofs use it. Edits after which the model itself does not compile are not recorded. A line without failed theorems
says what was tightened or why no claim is broken.

## 7. Findings

Each is a theorem `..._refuted` with a concrete witness.

| property | behaviour of the code |
|---|---|
| C02 | `json_encode` writes `\u-0XX`-like escapes for bytes >= 0x80 where `char` is signed |
| C21 | constant folding divides by zero or overflows, indexing a constant dereferences a null pointer |
| C25 | both branches of `?:` and both operands of `&&`, `||` are evaluated |
| C31 | a `wait` without duration is accepted when the tree is built through the API |
| C34 | `q[0, 0]` is accepted |
| C36 | a redeclaration is an error but still leaves a variable |
| C41 | an analyzer keeps the names and statements of earlier analyses, although its class comment says analysing leaves it unchanged |
| C43 | a gate registered under a new name cannot be used |
| C52 | texts that are not UTF-8 and unreadable files make an exception escape |
| C56 | C++ writes the keys `name` and `operand_types` of an instruction, Python reads `n` and `t` |
| C69 | the file functions of the API forget the path in error messages |
| C70 | with two literals out of range, which one is reported depends on the compiler |
| C72, C73 | results and copies share their block with the analyzer: later analyses change them |
| C74 | using an outer variable in a pushed scope throws |
| C93 | ranges of indices are written out (and before the check against the register): a short text can exhaust the memory |

Not refuted, but worth knowing: messages about the operands of a modified gate use its internal name (`2q_X` for `ctrl.X`, see
`gate_text` in `SpecDiagnosis.v`, C82). Trees built through the API may have any gate in the place of a modifier: `X.H q, q` is accepted as a two-qubit gate (C102_case). The statement for other instructions accepts gate names too and then does not compare the sizes of the operands: `SWAP r, q` of three qubits and one (C103_others, C103_case). In texts of 4 GiB and more positions wrap around (C86_limit).
