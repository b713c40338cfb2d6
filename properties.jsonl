{"id": "C01", "title": "JSON string escaping round-trips on ASCII", "statement": "For every byte string whose bytes are all below 0x80, the string produced by json_encode is a legal body of a JSON string literal (no bare quote, backslash or control byte), and decoding it by the JSON rules gives back exactly the input.", "quantifier": "every ASCII byte string, of any length", "why_tests_cant": "The set of messages is unbounded; a test samples a few characters.", "anchors": ["src/utils.cpp: json_encode"]}
{"id": "C02", "title": "JSON string escaping is legal for every byte string", "statement": "For every byte string, json_encode produces a legal body of a JSON string literal, on platforms where char is signed as well as where it is unsigned.", "quantifier": "every byte string and both signednesses of char", "why_tests_cant": "Needs every byte value in every context and both platform choices.", "anchors": ["src/utils.cpp: json_encode"]}
{"id": "C03", "title": "URL encoding is injective and stays in the URL alphabet", "statement": "For every byte string, url_encode emits only unreserved URL characters and %XX triplets with upper-case digits, escapes exactly the bytes that are not unreserved (the normal form of RFC 3986), and percent-decoding returns exactly the input, so that two file names never share an encoding.", "quantifier": "every byte string", "why_tests_cant": "Unbounded inputs.", "anchors": ["src/utils.cpp: url_encode"]}
{"id": "C04", "title": "Case-insensitive comparison is the equivalence induced by ASCII lower-casing", "statement": "equal_case_insensitive(a,b) holds iff to_lowercase(a) == to_lowercase(b); it is reflexive, symmetric and transitive; to_lowercase is idempotent, preserves length and changes only the letters A-Z.", "quantifier": "every pair/triple of byte strings", "why_tests_cant": "Relation over an infinite domain.", "anchors": ["src/utils.cpp: to_lowercase, equal_case_insensitive"]}
{"id": "C05", "title": "Stripping triple quotes inverts adding them", "statement": "For every text t, remove_triple_quotes(''' + t + ''') = t; and the raw string of an asm declaration that reaches the AST is exactly the source text between the delimiters.", "quantifier": "every byte string", "why_tests_cant": "Unbounded inputs.", "anchors": ["src/utils.cpp: remove_triple_quotes", "src/v3x/syntactic_analyzer.cpp: visitAsmDeclaration"]}
{"id": "C06", "title": "StringBuilder is concatenation with escape decoding", "statement": "For every sequence of push_string/push_escape calls, str() is the in-order concatenation of the pushed fragments with each of the six known escape sequences replaced by its character and every other escape kept verbatim.", "quantifier": "every sequence of calls and fragments", "why_tests_cant": "Histories of any length.", "anchors": ["src/string_builder.cpp: push_string, push_escape"]}
{"id": "C07", "title": "Version comparison is a total order modulo trailing zeros", "statement": "The comparison of versions is reflexive, antisymmetric (up to trailing zero components), transitive and total; it is the lexicographic order after padding with zeros.", "quantifier": "every triple of component lists, of any length", "why_tests_cant": "Relations over unbounded lists.", "anchors": ["src/version.cpp: Version::compare", "include/libqasm/version.hpp"]}
{"id": "C08", "title": "Version printing and parsing round-trip", "statement": "Every non-empty list of components between 0 and INT_MAX prints to a string which the Version constructor parses back to the same list. The constructor accepts exactly the empty text and the texts each of whose dot-separated parts begins, after white space and an optional sign, with an integer from 0 to INT_MAX; every other text makes it throw.", "quantifier": "every non-empty list of int components; every text", "why_tests_cant": "Unbounded lists and texts.", "anchors": ["src/version.cpp: Version::Version, operator<<"]}
{"id": "C09", "title": "Source ranges stay ordered and expansion is the least enclosing range", "statement": "Every range built by the constructor has first <= last; expand_to_include yields the least ordered range containing the old range and the new position, whatever the order of successive expansions.", "quantifier": "every range and every sequence of positions", "why_tests_cant": "Order-theoretic law over all positions and histories.", "anchors": ["src/annotations.cpp: Range::Range, expand_to_include"]}
{"id": "C10", "title": "Printed source locations can be read back", "statement": "Two known-file source locations with 1-based positions in the same file and ordered ranges print to the same text only if they denote the same range: the printed location determines the range.", "quantifier": "every pair of locations", "why_tests_cant": "Injectivity over an infinite domain.", "anchors": ["src/annotations.cpp: operator<<"]}
{"id": "C11", "title": "The innermost location of an error wins", "statement": "For every error and every sequence of context() calls, the reported location is the one the error already had, else that of the first node in the sequence that has one; the message is never changed and never empty.", "quantifier": "every error and every sequence of context calls", "why_tests_cant": "Histories of calls.", "anchors": ["src/error.cpp: Error::Error, Error::context, Error::what"]}
{"id": "C12", "title": "Errors serialise to valid LSP diagnostics", "statement": "For every error with an ASCII message and file name, to_json is a valid JSON object whose range, message, severity and relatedInformation fields denote exactly the location, the message, 1 and the file URI of the error.", "quantifier": "every error (message, optional file name, range)", "why_tests_cant": "Unbounded messages and file names.", "anchors": ["src/error.cpp: Error::to_json", "include/libqasm/result.hpp: errors_to_json"]}
{"id": "C13", "title": "Results expose either a tree or errors, never both", "statement": "to_strings puts the serialised tree in slot 0 and nothing else iff there are no errors; otherwise slot 0 is empty and slots 1..n are the n error texts in order. to_json prints the tree iff there are no errors. unwrap returns the root iff there are no errors and otherwise throws after writing every error.", "quantifier": "every result", "why_tests_cant": "All error lists.", "anchors": ["include/libqasm/result.hpp", "src/v3x/analysis_result.cpp", "src/v3x/parse_result.cpp"]}
{"id": "C14", "title": "Promotion changes only the representation", "statement": "promote(v,t) on a constant succeeds iff the type of v is t or lies below it in bool < int < float; the result has type exactly t and denotes the same number (true/false as 1/0, an integer as the nearest double). References promote only to their own type.", "quantifier": "every constant, every reference to a variable, every target type", "why_tests_cant": "All values of three types.", "anchors": ["src/v3x/values.cpp: promote"]}
{"id": "C15", "title": "check_promote agrees with promote", "statement": "For every constant or qubit/bit reference v and every type t: check_promote(type_of(v), t) holds iff promote(v, t) is non-empty; the relation is reflexive and transitive.", "quantifier": "every value and type", "why_tests_cant": "Agreement of two independently written decision procedures.", "anchors": ["src/v3x/values.cpp: check_promote, promote, type_of"]}
{"id": "C16", "title": "Integers become the nearest double", "statement": "Promotion of an integer n to float yields a finite double that is the round-to-nearest-even of n, and is exact whenever |n| <= 2^53.", "quantifier": "every 64-bit integer", "why_tests_cant": "2^64 inputs.", "anchors": ["src/v3x/values.cpp: promote (static_cast<double>)"]}
{"id": "C17", "title": "The last registered applicable overload wins", "statement": "Resolving a call succeeds iff some registered overload of that exact name has the same arity and every argument promotes to its parameter type; the one chosen is the last such registered; its arguments are the promoted arguments. Registering overloads under other names has no effect.", "quantifier": "every history of registrations, name and argument list", "why_tests_cant": "Histories of registrations.", "anchors": ["include/libqasm/overload.hpp", "include/libqasm/v3x/resolver.hpp", "src/v3x/resolver.cpp"]}
{"id": "C18", "title": "Names are case-sensitive and independent", "statement": "Looking up a variable, function or instruction is decided by exact byte equality of names: an entry registered under one name is never found, and never changes what is found, under another.", "quantifier": "every pair of distinct names and table history", "why_tests_cant": "All names and histories.", "anchors": ["src/v3x/resolver.cpp", "include/libqasm/overload.hpp"]}
{"id": "C19", "title": "Operators have the documented result types", "statement": "For constant operands, every default operator or function applied to operands of types t1..tn is accepted iff the operand types promote to one of its signatures, and the result has the type given by the language table (arithmetic: the join of the operand types, at least int for ints and bools; comparisons, logic: bool; bitwise: int; power and the math functions: float).", "quantifier": "every operator name and tuple of constants", "why_tests_cant": "All operand values and operator names.", "anchors": ["src/v3x/register_consteval_core_functions.cpp", "include/libqasm/v3x/register_consteval_core_functions.hpp"]}
{"id": "C20", "title": "Integer constant folding is exact or undefined, never silently wrong", "statement": "For all 64-bit a,b the folded results of + - * unary- abs are the mathematical results whenever these fit in 64 bits; / and % truncate toward zero and satisfy a = (a/b)*b + a%b with |a%b|<|b| and sign of a; the evaluation is undefined behaviour exactly when the mathematical result (for %: the quotient, as in INT64_MIN % -1) does not fit or the divisor is 0.", "quantifier": "every pair of 64-bit integers", "why_tests_cant": "2^128 pairs.", "anchors": ["include/libqasm/v3x/register_consteval_core_functions.hpp: op_*_ii, fn_abs_i"]}
{"id": "C21", "title": "Analysing a program never executes undefined behaviour", "statement": "For every program text or AST, analysis terminates with a result or a documented exception: it never performs signed overflow, division by zero, an invalid shift or a null dereference.", "quantifier": "every program", "why_tests_cant": "All programs.", "anchors": ["src/v3x/semantic_analyzer.cpp", "include/libqasm/v3x/register_consteval_core_functions.hpp"]}
{"id": "C22", "title": "Bitwise and shift operators are two's complement", "statement": "For all 64-bit operands, ~ & ^ | act bit by bit on the two's complement representation, a<<k is a*2^k modulo 2^64 and a>>k is floor(a/2^k) for 0<=k<64, and a shift count outside 0..63 is undefined behaviour.", "quantifier": "every pair of 64-bit integers", "why_tests_cant": "2^128 pairs.", "anchors": ["include/libqasm/v3x/register_consteval_core_functions.hpp: op_binv_i..op_shr_ii"]}
{"id": "C23", "title": "Boolean operators and comparisons follow their truth tables", "statement": "For all booleans the operators ! && || ^^ == != < <= > >= agree with Boolean logic under false<true; for all integers and doubles the six comparisons are the mathematical order (false on NaN except !=), and exactly one of < == > holds for integers.", "quantifier": "all booleans, integers and doubles", "why_tests_cant": "All operand values.", "anchors": ["include/libqasm/v3x/register_consteval_core_functions.hpp"]}
{"id": "C24", "title": "Constant folding respects the meaning of the expression", "statement": "For every expression built from integer and boolean literals with the integer, comparison and logical operators, ?: and parentheses, analysis yields the value of the expression under its mathematical meaning whenever no intermediate result leaves the 64-bit range and no divisor or shift is invalid; otherwise undefined behaviour.", "quantifier": "every expression tree of any depth", "why_tests_cant": "Unbounded expression depth.", "anchors": ["src/v3x/semantic_analyzer.cpp: visit_*_expression, visit_function_call"]}
{"id": "C25", "title": "Only the selected branch of ?: matters", "statement": "An expression c ? a : b whose condition is true has the value of a whatever b is (and symmetrically); && and || ignore their right operand when the left decides.", "quantifier": "every expression", "why_tests_cant": "All operand expressions.", "anchors": ["src/v3x/semantic_analyzer.cpp: visit_ternary_conditional_expression", "include/libqasm/v3x/register_consteval_core_functions.hpp: tf_cp"]}
{"id": "C26", "title": "Folding a function call yields a constant and depends only on the values", "statement": "Every successful call of a default function or operator returns a constant; it never depends on the analyzer's variables, scopes or statements, and calls with a non-constant argument fail with an error.", "quantifier": "every call", "why_tests_cant": "All argument lists and analyzer states.", "anchors": ["src/v3x/values.cpp: check_const", "include/libqasm/v3x/register_consteval_core_functions.hpp"]}
{"id": "C27", "title": "The instruction set tables are coherent", "statement": "Every named gate is in exactly one of the single-qubit and two-qubit lists, is in the gate map with that many operands in every combination of qubit and qubit-array operands, always with the same parameter types; gate, non-gate and modifier names are pairwise disjoint; every name of a list is in its map and conversely.", "quantifier": "every name", "why_tests_cant": "All strings, cross-table invariants.", "anchors": ["src/v3x/instruction_set.cpp"]}
{"id": "C28", "title": "Gate applications are accepted iff they match the instruction set", "statement": "With the default instruction set, a (possibly modified) gate application on given operand values is accepted iff the gate name is known, its parameters match in number and promote to the declared types, the modifiers are legal, the operands are qubits or qubit arrays in the right number, and all operands address the same number of qubits.", "quantifier": "every gate expression, parameter list and operand list", "why_tests_cant": "All gate expressions and operand lists.", "anchors": ["src/v3x/semantic_analyzer.cpp: visit_gate_instruction, visit_gate, resolve_parameters", "src/v3x/register_instructions.cpp"]}
{"id": "C29", "title": "Gate modifiers nest legally", "statement": "An accepted gate expression of any nesting depth is a chain of modifiers ending in a named gate in which ctrl occurs only as the outermost modifier and never together with a two-qubit gate; inv and pow apply only to single-qubit gates; the accepted instruction has exactly one more qubit operand than the named gate iff ctrl is present.", "quantifier": "every gate expression of any depth", "why_tests_cant": "Unbounded nesting.", "anchors": ["src/v3x/semantic_analyzer.cpp: check_gate, get_gate_resolution_name, visit_gate"]}
{"id": "C30", "title": "Stored gate parameters have the declared types", "statement": "In every accepted gate or non-gate instruction the stored parameters are as many as the instruction set declares, each of exactly the declared type, and each denotes the same number as the source parameter.", "quantifier": "every accepted instruction", "why_tests_cant": "All programs.", "anchors": ["src/v3x/semantic_analyzer.cpp: resolve_parameters"]}
{"id": "C31", "title": "wait always carries its duration", "statement": "Every accepted wait instruction has exactly one integer parameter.", "quantifier": "every AST", "why_tests_cant": "All ASTs handed to the analyzer.", "anchors": ["src/v3x/semantic_analyzer.cpp: resolve_parameters", "src/v3x/instruction_set.cpp: get_non_gate_param_types_with_param_count"]}
{"id": "C32", "title": "Measurements pair bits and qubits one to one", "statement": "In every accepted measure the left operand is a bit or bit array, the right a qubit or qubit array, and they address the same number of elements.", "quantifier": "every accepted measure instruction", "why_tests_cant": "All operand shapes and sizes.", "anchors": ["src/v3x/semantic_analyzer.cpp: check_qubit_and_bit_indices_have_same_size"]}
{"id": "C33", "title": "Indexing is exactly the in-range selection", "statement": "Indexing a register of size n with a list of items and inclusive ranges is accepted iff the indices are constant integers, every range is non-decreasing and every index lies in 0..n-1; the result lists exactly the selected indices in source order.", "quantifier": "every register size and index list", "why_tests_cant": "Unbounded sizes and lists.", "anchors": ["src/v3x/semantic_analyzer.cpp: visit_index, visit_index_list, visit_index_range, check_out_of_range"]}
{"id": "C34", "title": "Index references have no repeated index", "statement": "As the value tree documents, the indices of an accepted index reference never repeat.", "quantifier": "every accepted index reference", "why_tests_cant": "All index lists.", "anchors": ["src/v3x/values.tree: index_ref", "src/v3x/semantic_analyzer.cpp: visit_index"]}
{"id": "C35", "title": "A successful analysis returns a well-formed tree", "statement": "If analysis with the default instruction set returns no errors then every reference in every statement is to a declared variable of the result, every index is within that variable's size, every operand has the type its instruction reference declares, and variable names are distinct.", "quantifier": "every program accepted by a fresh default analyzer", "why_tests_cant": "Inductive invariant over all programs.", "anchors": ["src/v3x/analyzer.cpp: analyze", "src/v3x/semantic_analyzer.cpp"]}
{"id": "C36", "title": "Errors and statements are accounted for one by one", "statement": "Analysis visits every statement: each source statement contributes either exactly one output (a variable or one statement, in source order) or exactly one error, in source order; one erroneous statement never hides the errors of another.", "quantifier": "every program of any length", "why_tests_cant": "Unbounded statement lists.", "anchors": ["include/libqasm/v3x/semantic_analyzer.hpp: visit_block", "src/v3x/semantic_analyzer.cpp"]}
{"id": "C37", "title": "A variable can be declared only once and constants cannot be redeclared", "statement": "Declaring a name already declared (or one of true, false, pi, eu, tau) is an error and never changes what the name resolves to.", "quantifier": "every program and name", "why_tests_cant": "All histories of declarations.", "anchors": ["src/v3x/resolver.cpp: VariableTable::add", "src/v3x/semantic_analyzer.cpp: visit_variable"]}
{"id": "C38", "title": "A name is visible exactly after its declaration", "statement": "A statement that mentions a name succeeds only if that name is a default constant or was declared by an earlier statement of the program; later statements never affect the analysis of earlier ones.", "quantifier": "every program and every split of it", "why_tests_cant": "All programs and splits.", "anchors": ["src/v3x/analyzer.cpp: resolve_variable", "src/v3x/semantic_analyzer.cpp: visit_identifier"]}
{"id": "C39", "title": "Only cQASM 3.0 is accepted, independently of trailing zeros", "statement": "An analyzer can be constructed only for a version equal to 3.0; a program is accepted as to its version iff its version equals the analyzer's modulo trailing zeros; a wrong version yields exactly one error and the rest of the program is still analysed.", "quantifier": "every api version and file version", "why_tests_cant": "All component lists.", "anchors": ["src/v3x/analyzer.cpp: Analyzer::Analyzer", "src/v3x/semantic_analyzer.cpp: visit_version"]}
{"id": "C40", "title": "Parse errors pass through unchanged", "statement": "Analysing a parse result that has errors returns exactly these errors with an empty root and leaves the analyzer unchanged.", "quantifier": "every analyzer state and error list", "why_tests_cant": "All states.", "anchors": ["src/v3x/analyzer.cpp: analyze"]}
{"id": "C41", "title": "Analyzers can be reused", "statement": "As documented, analyze never changes the analyzer: analysing any program any number of times, after any other programs, gives the result a fresh analyzer of the same configuration gives, and does not change earlier results.", "quantifier": "every sequence of analyze calls", "why_tests_cant": "Histories of calls.", "anchors": ["include/libqasm/v3x/analyzer.hpp", "src/v3x/analyzer.cpp: analyze"]}
{"id": "C42", "title": "Scopes nest", "statement": "For every sequence of declarations, instruction registrations, analyses and nested scopes in a pushed scope, inner variables and instructions shadow outer ones, other names resolve as before, and popping restores exactly the previous resolution of every name; functions are global: registering one in an inner scope is registering it outside.", "quantifier": "every sequence of push/register/pop operations", "why_tests_cant": "Histories of operations.", "anchors": ["src/v3x/analyzer.cpp: push_scope, pop_scope, resolve_variable, register_variable"]}
{"id": "C43", "title": "Registered instructions can be used", "statement": "An instruction added with register_instruction on qubit operands can be used in programs with matching operands.", "quantifier": "every name and operand specification", "why_tests_cant": "All names and signatures.", "anchors": ["src/v3x/analyzer.cpp: register_instruction", "src/v3x/semantic_analyzer.cpp: resolve_parameters"]}
{"id": "C44", "title": "Every semantic error of a parsed program carries a location", "statement": "For every text that parses, every error reported by analysis carries a source location in the given file, inside the text.", "quantifier": "every program text", "why_tests_cant": "All programs.", "anchors": ["src/v3x/semantic_analyzer.cpp: context calls", "src/v3x/syntactic_analyzer.cpp: setNodeAnnotation"]}
{"id": "C45", "title": "Lexing is lossless and total", "statement": "For every input, tokenisation either succeeds, and the concatenation of all tokens and skipped pieces is the input, or it fails with one error at the first position at which no token matches, everything before having been tokenised.", "quantifier": "every byte string", "why_tests_cant": "All inputs.", "anchors": ["src/v3x/CqasmLexer.g4"]}
{"id": "C46", "title": "Tokens are maximal and the first rule wins", "statement": "Each token is the longest prefix of the remaining input that matches any rule of the current mode, with the earliest rule on ties, so that keywords are keywords only when the whole word matches.", "quantifier": "every input and position", "why_tests_cant": "All inputs.", "anchors": ["src/v3x/CqasmLexer.g4"]}
{"id": "C47", "title": "White space and comments are insignificant", "statement": "Inserting blanks or comments between two tokens that are already separated, or at either end of a line, does not change the AST up to source locations.", "quantifier": "every program and every insertion point", "why_tests_cant": "All programs and insertions.", "anchors": ["src/v3x/CqasmLexer.g4: WHITE_SPACE, SINGLE_LINE_COMMENT, MULTI_LINE_COMMENT"]}
{"id": "C48", "title": "Printing then parsing an expression returns it", "statement": "For every expression AST, the token sequence obtained by printing it with parentheses around sub-expressions parses back to the same AST.", "quantifier": "every expression tree of any depth", "why_tests_cant": "Unbounded trees.", "anchors": ["src/v3x/CqasmParser.g4: expression", "src/v3x/syntactic_analyzer.cpp"]}
{"id": "C49", "title": "Operators have the documented precedence and associativity", "statement": "Printing an expression with only the parentheses required by the precedence table (unary operators tightest, ** and ?: right associative, the others left associative) parses back to the same AST.", "quantifier": "every expression tree of any depth", "why_tests_cant": "Unbounded trees.", "anchors": ["src/v3x/CqasmParser.g4: expression"]}
{"id": "C50", "title": "Every AST is expressible", "statement": "For every well-formed program AST there is a source text, given by an explicit printer, which parses without errors to that AST up to source locations.", "quantifier": "every program AST", "why_tests_cant": "Unbounded trees.", "anchors": ["src/v3x/CqasmParser.g4", "src/v3x/syntactic_analyzer.cpp"]}
{"id": "C51", "title": "Integer literals are exact or rejected", "statement": "An integer literal of any number of digits is accepted iff its value is at most 2^63-1, and then denotes exactly that value; otherwise parsing reports the out-of-range error at the literal.", "quantifier": "every digit string", "why_tests_cant": "All digit strings.", "anchors": ["src/v3x/syntactic_analyzer.cpp: get_int_value"]}
{"id": "C52", "title": "Parsing yields a program or exactly one error", "statement": "For every text, parse_string returns either a program and no error, or no program and exactly one error.", "quantifier": "every byte string", "why_tests_cant": "All inputs.", "anchors": ["src/v3x/parse_helper.cpp: ParseHelper::parse", "src/v3x/antlr_custom_error_listener.cpp"]}
{"id": "C53", "title": "AST locations are the positions of the tokens", "statement": "In the AST of every parsed text, each located node has a 1-based, ordered, single-line range, and the text of the first line at that range is the token that introduced the node.", "quantifier": "every program text", "why_tests_cant": "All inputs.", "anchors": ["src/v3x/syntactic_analyzer.cpp: setNodeAnnotation, expandNodeAnnotation"]}
{"id": "C54", "title": "Statement separators are interchangeable", "statement": "Replacing any run of newlines and semicolons between statements by any other non-empty run does not change the AST up to source locations; separators before the version and at the end are ignored.", "quantifier": "every program and every choice of separators", "why_tests_cant": "All programs.", "anchors": ["src/v3x/CqasmParser.g4: statementSeparator"]}
{"id": "C55", "title": "Float literals are correctly rounded", "statement": "A float literal denotes the double nearest to its decimal value (ties to even); literals out of the double range are rejected.", "quantifier": "every float literal", "why_tests_cant": "All digit strings.", "anchors": ["src/v3x/syntactic_analyzer.cpp: get_float_value"]}
{"id": "C56", "title": "Primitive serialisation round-trips", "statement": "Deserialising the serialised form of any version, instruction reference or function reference gives back the value, in C++ and across the language boundary to Python.", "quantifier": "every primitive value", "why_tests_cant": "All values.", "anchors": ["src/v3x/primitives.cpp", "src/v3x/instruction.cpp", "src/v3x/core_function.cpp", "python/module/cqasm/v3x/primitives.py"]}
{"id": "C57", "title": "The file name only labels the output", "statement": "Parsing and analysing the same text under two file names gives the same tree and the same errors except for the file name inside the locations.", "quantifier": "every text and pair of file names", "why_tests_cant": "All inputs.", "anchors": ["src/v3x/parse_helper.cpp", "src/v3x/syntactic_analyzer.cpp", "src/v3x/semantic_analyzer.cpp"]}
{"id": "C58", "title": "Appending statements extends the result", "statement": "Analysing a program extended by further statements keeps all variables, statements and errors of the shorter program as a prefix of its own.", "quantifier": "every program and extension", "why_tests_cant": "All programs.", "anchors": ["include/libqasm/v3x/semantic_analyzer.hpp: visit_block"]}
{"id": "C59", "title": "Floating-point folding is IEEE 754 arithmetic", "statement": "For all finite doubles, folding + - * / and sqrt gives the double nearest to the mathematical result (ties to even, infinity on overflow); unary minus and abs are exact.", "quantifier": "every pair of finite doubles", "why_tests_cant": "2^128 pairs of operands.", "anchors": ["include/libqasm/v3x/register_consteval_core_functions.hpp", "src/v3x/register_consteval_core_functions.cpp"]}
{"id": "C60", "title": "Analysis throws nothing but reports errors", "statement": "Analysing any tree the parser can produce with the default analyzer (in any state reached by declarations and earlier analyses) never throws: problems are reported in the result.", "quantifier": "every program and reachable analyzer state", "why_tests_cant": "All programs.", "anchors": ["src/v3x/semantic_analyzer.cpp", "src/v3x/analyzer.cpp: analyze"]}
{"id": "C61", "title": "Other instructions are accepted iff they match the instruction set", "statement": "With the default instruction set, measure, reset, init, barrier and wait are accepted iff their operands evaluate to bits and qubits as the language prescribes, their parameters match in number and promote to the declared types and, for measure, the two operands address the same number of elements.", "quantifier": "every non-gate instruction, parameter list and operand list", "why_tests_cant": "All operand and parameter lists.", "anchors": ["src/v3x/semantic_analyzer.cpp: visit_non_gate_instruction", "src/v3x/instruction_set.cpp"]}
{"id": "C62", "title": "Declarations, analyses and scopes keep the default instruction set", "statement": "Whatever programs are analysed and scopes pushed and popped, the functions and instructions of a default analyzer stay those of the language, and names stand only for constants and declared qubits, bits and registers of positive size.", "quantifier": "every sequence of analyze, push_scope and pop_scope calls", "why_tests_cant": "All histories.", "anchors": ["src/v3x/analyzer.cpp", "src/v3x/semantic_analyzer.cpp"]}
{"id": "C63", "title": "Which texts are programs", "statement": "A text in UTF-8 parses iff its tokens form a sentence of the grammar and all its integer and floating-point literals are in range.", "quantifier": "every text", "why_tests_cant": "All texts.", "anchors": ["src/v3x/CqasmLexer.g4", "src/v3x/CqasmParser.g4", "src/v3x/syntactic_analyzer.cpp", "src/v3x/parse_helper.cpp"]}
{"id": "C64", "title": "The tree is the syntax tree of the text", "statement": "The program returned for a text is the one that the grammar, the operator precedences and the meaning of literals give it, and there is only one.", "quantifier": "every text", "why_tests_cant": "All texts.", "anchors": ["src/v3x/CqasmParser.g4", "src/v3x/syntactic_analyzer.cpp"]}
{"id": "C65", "title": "Syntax errors are reported at the first offending token", "statement": "If the tokens of a text are not a sentence of the grammar, the error is located at the first token such that the tokens up to and including it begin no program.", "quantifier": "every text", "why_tests_cant": "All texts.", "anchors": ["src/v3x/antlr_custom_error_listener.cpp", "src/v3x/parse_helper.cpp"]}
{"id": "C66", "title": "Analysing a text never throws unless it is not UTF-8", "statement": "Analysing any UTF-8 text with the default analyzer, after any earlier texts, gives the syntax error, or a program with a list of semantic errors (or executes undefined behaviour, see C21); an exception escapes iff the text is not UTF-8.", "quantifier": "every sequence of texts", "why_tests_cant": "All histories.", "anchors": ["src/v3x/analyzer.cpp: analyze_string", "src/v3x/parse_helper.cpp", "src/v3x/cqasm.cpp"]}
{"id": "C67", "title": "Printed signatures identify instructions and functions", "statement": "Two instructions (or two functions) whose names contain no opening parenthesis print alike only if they have the same name and the same list of operand types up to array sizes, and for functions the same return type.", "quantifier": "every pair of instructions and of functions", "why_tests_cant": "All names and type lists.", "anchors": ["src/v3x/instruction.cpp", "src/v3x/core_function.cpp", "src/v3x/types.cpp: operator<<"]}
{"id": "C68", "title": "All entry points report the same result", "statement": "cqasm::v3x::analyze_string, the methods of V3xAnalyzer that Python uses, the Python functions on top of them and the JavaScript functions all return the tree exactly when the analysis of the text has no error, and the same error messages otherwise; the file functions do what the string functions do for the file's content, and fail with one exception if it cannot be read; an analyzer made without defaults rejects every instruction.", "quantifier": "every text, file name, file and version", "why_tests_cant": "All texts.", "anchors": ["src/v3x/cqasm.cpp", "src/v3x/cqasm_python.cpp", "python/module/cqasm/v3x/__init__.py", "emscripten/emscripten_wrapper.cpp"]}
{"id": "C69", "title": "Errors in a file name the file", "statement": "Every error reported for a file is located and its message names the path of the file.", "quantifier": "every file and path", "why_tests_cant": "All files.", "anchors": ["src/v3x/analyzer.cpp: analyze_file", "src/v3x/cqasm.cpp: analyze_file", "src/v3x/cqasm_python.cpp: analyze_file, parse_file"]}
{"id": "C70", "title": "The order of evaluation does not matter", "statement": "C++ leaves open in which order the operands of an operation are visited while the tree is built. Whatever the compiler chooses, the tree and the analysis of a text are the same.", "quantifier": "every text and both orders", "why_tests_cant": "The order is fixed by the compiler at hand.", "anchors": ["src/v3x/syntactic_analyzer.cpp: visit*Expression, visitIndexRange"]}
{"id": "C71", "title": "A program can be rewritten from its tree", "statement": "Printing the tree of any text, with all parentheses or with as few as possible, gives a text that parses to the same tree and is analysed with the same result, up to locations.", "quantifier": "every text that parses", "why_tests_cant": "All programs.", "anchors": ["src/v3x/CqasmParser.g4", "src/v3x/syntactic_analyzer.cpp", "src/v3x/semantic_analyzer.cpp"]}
{"id": "C72", "title": "Results stay as they were returned", "statement": "The result of an analysis shows, at the moment it is returned, the outcome of analysing the program in the analyzer's state. (Intended: whatever is done afterwards, it keeps showing it. True: later calls can at most append statements to its block, and change nothing if only analyzers made later are used to analyse.)", "quantifier": "every sequence of calls making, copying, extending and using any number of analyzers", "why_tests_cant": "All histories of calls: the block of a result is shared with the analyzer.", "anchors": ["src/v3x/analyzer.cpp:Analyzer::analyze", "src/v3x/semantic_analyzer.cpp:visit_program", "include/libqasm/v3x/scope.hpp"]}
{"id": "C73", "title": "Analyzers are independent of each other", "statement": "A copy of an analyzer starts out with the contents of the original. (Intended: calls on one analyzer do not affect any other. True: they never change the names, functions, instructions, variables or version of another, and change nothing of it if no analyzer has been copied; copies share their blocks.)", "quantifier": "every sequence of calls on any number of analyzers", "why_tests_cant": "All histories of calls and all pairs of analyzers.", "anchors": ["include/libqasm/v3x/analyzer.hpp", "include/libqasm/v3x/scope.hpp", "src/v3x/resolver.cpp"]}
{"id": "C74", "title": "Programs can be analysed in an inner scope", "statement": "After push_scope a program can be analysed that uses the variables of outer scopes. (Intended. True: a program whose statements mention only variables declared earlier in it, and names that are no variables outside, is analysed without exception; a program that mentions an outer variable is never accepted.)", "quantifier": "every analyzer reached from the default one, every program", "why_tests_cant": "All programs and states.", "anchors": ["src/v3x/analyzer.cpp:push_scope", "src/v3x/semantic_analyzer.cpp:visit_program", "src/v3x/analyzer.cpp:Analyzer::analyze"]}
{"id": "C75", "title": "Names of variables do not matter", "statement": "If the names of the variables a program declares and mentions are replaced, by a map that identifies no two of them and keeps the names of constants, then the analysis gives the same result with the replaced names: the same exceptions, the same tree, and the same errors at the same places, naming the new variable where they name one.", "quantifier": "every program, every such map, every default analyzer", "why_tests_cant": "All programs and all renamings.", "anchors": ["src/v3x/semantic_analyzer.cpp:visit_variable,visit_identifier", "src/v3x/resolver.cpp:VariableTable", "src/v3x/analyzer.cpp:resolve_variable,register_variable"]}
{"id": "C76", "title": "A new analyzer is like the first one", "statement": "Whatever analyzers were made, copied, extended and used before, a new default analyzer gives for a program the result that the first one in the process would give, up to the identities of the variable nodes.", "quantifier": "every history of calls, every program", "why_tests_cant": "All histories of calls.", "anchors": ["src/v3x/analyzer.cpp:Analyzer::Analyzer", "include/libqasm/v3x/analyzer.hpp", "src/v3x/cqasm.cpp:default_analyzer"]}
{"id": "C77", "title": "An unused declaration only adds its variable", "statement": "Inserting a declaration of a variable that no other statement declares and no later statement mentions adds this variable to the list of variables of the result at that place, and changes nothing else: not the errors, not the statements, not the other variables.", "quantifier": "every parsed program, every place in it, every legal declaration, every analyzer reached from the default one by analyses", "why_tests_cant": "All programs and places.", "anchors": ["src/v3x/semantic_analyzer.cpp:visit_variable,visit_global_block"]}
{"id": "C78", "title": "Instructions do not influence each other", "statement": "Removing an instruction from a program removes exactly its statement or its error from the result. Exchanging two neighbouring instructions exchanges their statements and errors. After the declarations, instructions can be put in any order: the result has the same variables, and the same statements and errors up to their order.", "quantifier": "every parsed program that is analysed without undefined behaviour, every instruction, every permutation", "why_tests_cant": "All programs and permutations.", "anchors": ["src/v3x/semantic_analyzer.cpp:visit_global_block,visit_gate_instruction,visit_non_gate_instruction"]}
{"id": "C79", "title": "Expressions of the same value are interchangeable", "statement": "Replacing an expression, anywhere in a statement, by another one at the same location that evaluates to the same value there (for instance a constant expression by the literal of its value) leaves the outcome of the analysis exactly the same.", "quantifier": "every program, every place of an expression in it, every pair of expressions with the same value, every analyzer", "why_tests_cant": "All programs, places and expressions.", "anchors": ["src/v3x/semantic_analyzer.cpp:visit_expression,visit_expression_list,visit_index_list"]}
{"id": "C80", "title": "The location of a block spans its statements", "statement": "In every result the block has a location exactly if one of its statements has one. It is then the least range that encloses the ranges of all its statements, in the file of the first located statement. Every tree read from a text meets the assumption that ranges end after they begin.", "quantifier": "every sequence of programs with ordered statement locations, analysed with one default analyzer", "why_tests_cant": "All programs and histories of analyses.", "anchors": ["src/v3x/analyzer.cpp:add_statement_to_current_scope", "src/annotations.cpp:expand_to_include"]}
{"id": "C81", "title": "Operands and parameters know where they come from", "statement": "Every operand and parameter of an instruction in a result has the location of the expression it was computed from, also when it was folded or promoted, and every index of an indexed operand that of its item or range. From a text, each operand and parameter has a location in that text.", "quantifier": "every program, every analyzer reached from the default one, every text", "why_tests_cant": "All programs and texts.", "anchors": ["src/v3x/semantic_analyzer.cpp:visit_expression,visit_index_item,visit_index_range,resolve_parameters", "src/v3x/values.cpp:promote", "include/libqasm/overload.hpp:resolve"]}
{"id": "C82", "title": "Every error message is true, and every mistake gets its message", "statement": "For each message the analysis can record there is a condition on the source that it describes (an unknown name, an index outside the register, an operation without overload for the operand types, a wrong number or type of parameters, operands of the wrong type or of different sizes, a repeated or illegal declaration, another version, ...) and a place: the innermost construct with a location that has the mistake. An error is recorded exactly if the condition holds in the state the earlier statements lead to: the message and the place are the ones of the first mistake in evaluation order, and each statement has at most one error. Folding may instead be undefined (C21).", "quantifier": "every parsed program or text, every expression and statement in it, every analyzer reached from the default one", "why_tests_cant": "All programs and all mistakes in them.", "anchors": ["src/v3x/semantic_analyzer.cpp:visit_variable,visit_gate,visit_gate_instruction,visit_non_gate_instruction,resolve_parameters,visit_index,visit_version", "src/v3x/analyzer.cpp:resolve_variable,resolve_function,resolve_instruction", "include/libqasm/v3x/resolver.hpp:resolve"]}
{"id": "C83", "title": "The named constants are as exact as a double can be", "statement": "At any point of any program, on an analyzer used before or not and whatever the program tries to declare, pi, tau and eu are finite doubles, namely the doubles nearest to the mathematical numbers pi, 2 pi and e, and true and false are the Boolean constants.", "quantifier": "every sequence of analyses, every program and every point in it", "why_tests_cant": "All programs; and a test compares the constant with another approximation, not with the number.", "anchors": ["src/v3x/analyzer.cpp:Analyzer::register_default_constants", "src/v3x/semantic_analyzer.cpp:visit_identifier"]}
{"id": "C84", "title": "The numbers of a result are machine numbers", "statement": "In every semantic tree a default analyzer returns, with or without errors and however often it was used before, each integer fits in 64 bits, each float is a double (possibly infinite or not a number), each register has a size between 1 and 2^63-1 and each index is at least 0 and smaller than that size. The literals of every parsed text meet the only assumption on the input.", "quantifier": "every sequence of programs analysed with one analyzer, every program, every math library returning doubles", "why_tests_cant": "Constant folding goes through more than a hundred functions and operators with wrap-around, rounding, shifts and conversions; a test cannot show that no nesting of them leaves the range.", "anchors": ["src/v3x/register_consteval_core_functions.cpp", "include/libqasm/v3x/register_consteval_core_functions.hpp", "src/v3x/semantic_analyzer.cpp:visit_index", "src/v3x/types.cpp", "src/v3x/values.cpp:promote"]}
{"id": "C85", "title": "Every result can be written as a folded program with the same result", "statement": "If a text is accepted, then the text that declares the variables of its result and then lists the instructions of its result, with signed literals instead of expressions, indices listed one by one and no function calls, constants or ranges, is accepted too and has exactly the same result (same variables, instructions, operands, parameters, versions), apart from source locations. Already at the level of trees the two analyses leave the analyzer in the same state.", "quantifier": "every accepted program or text, every math library returning doubles, both ways of writing parentheses", "why_tests_cant": "Needs that folding, promotion of parameters, overload resolution and all checks accept their own output for every value that can result, including infinities, NaN, negative zero and the smallest integer.", "anchors": ["src/v3x/semantic_analyzer.cpp", "src/v3x/analyzer.cpp", "src/v3x/values.cpp:promote", "src/v3x/syntactic_analyzer.cpp", "src/v3x/semantic.tree"]}
{"id": "C86", "title": "Positions are stored without loss", "statement": "In the result of parsing or analysing a text of less than 4 GiB, every line and column is the true one although the library stores positions in 32 bits. (In longer texts it need not be: a program after 2^32 empty lines is reported on line 1.)", "quantifier": "every UTF-8 text of less than 4 GiB, every sequence of such analyses", "why_tests_cant": "No test can read all texts, and none of realistic size comes near the limit.", "anchors": ["include/libqasm/annotations.hpp:SourceLocation", "src/v3x/syntactic_analyzer.cpp:setNodeAnnotation,expandNodeAnnotation", "src/v3x/antlr_custom_error_listener.cpp:syntaxError"]}
{"id": "C87", "title": "The name of an instruction tells what it is", "statement": "The InstructionSet puts every name in at most one class (one- or two-qubit gate, measure, reset, init, barrier, wait, inv, pow, ctrl), knows parameter types exactly for the names of the language, and no name a text can mention is a name of a composition (prefix 1q or 2q); so in every result the name of an instruction reference tells whether the gate has modifiers, which gate they are applied to, and whether it takes one or two operands.", "quantifier": "all names; all texts; all statements of all results of the default analyzer", "why_tests_cant": "The header claims that the prefixes avoid any possible conflict with names of programs; tests ask about a dozen names.", "anchors": ["include/libqasm/v3x/instruction_set.hpp:InstructionSet", "src/v3x/instruction_set.cpp", "src/v3x/semantic_analyzer.cpp:get_gate_resolution_name", "src/v3x/register_instructions.cpp"]}
{"id": "C88", "title": "Text can be written behind a program", "statement": "If a text is a program, then the text with another text on the next line is read as the statements of the first followed by those the other text has behind a version declaration, whose places are as many lines further down as the first text has line ends. If the other text is wrong its error is reported, as many lines further down; if it cannot be decoded the exception is the same. Analysing the longer text gives the variables, statements and errors of the first program, followed by others.", "quantifier": "all program texts (with or without byte order mark), all texts written behind them, all file names, operator orders of evaluation, math libraries and API versions", "why_tests_cant": "a test appends particular texts to particular programs; that no token, comment, string or error of the second text can reach back into the first needs all pairs of texts", "anchors": ["src/v3x/antlr_scanner.cpp", "src/v3x/CqasmLexer.g4", "src/v3x/CqasmParser.g4", "src/v3x/syntactic_analyzer.cpp: SyntacticAnalyzer::visitGlobalBlock", "src/v3x/analyzer.cpp: Analyzer::analyze_string"]}
{"id": "C89", "title": "The value of every constant expression", "statement": "An expression of literals, named constants, operators and functions has a constant value exactly if the language rules give it that value, and then at most one: integers are computed exactly and only if the result fits in 64 bits, doubles by IEEE 754 arithmetic rounding to nearest (with infinities, signed zeros and NaN), mixed operands as doubles, comparisons and booleans accordingly; pow and the mathematical functions are the C library functions of the same name applied to the argument as a double.", "quantifier": "all expressions of any nesting, at any point of any program, on analyzers used any number of times, for every C math library that returns doubles", "why_tests_cant": "tests compare particular expressions with particular values; operators, promotions and functions combine without bound, and rounding matters in the last bit", "anchors": ["src/v3x/register_consteval_core_functions.cpp", "include/libqasm/v3x/register_consteval_core_functions.hpp", "src/v3x/semantic_analyzer.cpp: visit_function_call, visit_unary_operator, visit_binary_operator, visit_identifier", "src/v3x/values.cpp: promote"]}
{"id": "C90", "title": "Which texts are accepted, and with which result", "statement": "A UTF-8 text is accepted without errors exactly if it is a program of the grammar and its tree has a meaning, and the result is that meaning: the version and API version, the declared variables numbered in order of declaration with their types, every instruction in order with its location, name, operand types, evaluated parameters (integers turned into doubles where the gate takes an angle) and operands with the selected indices, inline assembly as written, and the location of the block. The rules for the meaning mention no analyzer; a tree has at most one meaning.", "quantifier": "all texts, file names, orders of evaluation, API version texts denoting 3.0, and C math libraries that return doubles", "why_tests_cant": "this is the complete functional specification of successful runs; tests compare a few hundred texts with expected trees", "anchors": ["src/v3x/semantic_analyzer.cpp", "include/libqasm/v3x/semantic_analyzer.hpp", "src/v3x/analyzer.cpp: Analyzer::analyze, Analyzer::analyze_string", "src/v3x/register_consteval_core_functions.cpp", "src/v3x/instruction_set.cpp", "src/v3x/register_instructions.cpp", "src/v3x/syntactic_analyzer.cpp"]}
{"id": "C91", "title": "The result of every text", "statement": "For every UTF-8 text the result of the analysis is what the language rules say. If the text is not a program of the grammar, the result is one syntax error and no tree. Otherwise the result is a tree and a list of errors, both determined by rules that mention no analyzer: the version of the text or, if it is not supported, the API version and an error; every declared variable with its number (a redeclared name is listed and reported, and later instructions use the first variable; a declaration with a wrong type is reported and left out but takes a number); the instructions that have a meaning, in order; and for every other instruction one error with the text and location of the first thing wrong in it. Where the rules give no result the behaviour is undefined (division by zero, integer overflow, a conversion out of range, indexing a constant, a range ending at 2^63-1), and nowhere else. Results without errors are exactly those of C90.", "quantifier": "all texts, file names, orders of evaluation, API version texts denoting 3.0, and C math libraries that return doubles", "why_tests_cant": "this is the complete functional specification of the analysis, erroneous programs included; tests compare a few hundred texts with expected trees and messages", "anchors": ["src/v3x/semantic_analyzer.cpp", "include/libqasm/v3x/semantic_analyzer.hpp", "src/v3x/analyzer.cpp: Analyzer::analyze, Analyzer::analyze_string", "src/v3x/register_consteval_core_functions.cpp", "src/v3x/instruction_set.cpp", "src/v3x/register_instructions.cpp", "src/v3x/syntactic_analyzer.cpp"]}
{"id": "C92", "title": "The results of an analyzer that is used again", "statement": "One analyzer is given any number of texts, programs and syntax errors in any order. Its result for the next text is what the language rules give for the new program written behind all programs it has read before: variables and instructions of the earlier programs are in the result, names declared earlier can be used and cannot be declared again, numbering goes on, but the errors of earlier programs are not reported again, and the version is that of the new text. A text that is not a program gives one syntax error and leaves the analyzer as it is. Behaviour is undefined exactly where the rules give no result.", "quantifier": "all sequences of texts given to one analyzer, all file names, orders of evaluation, API version texts denoting 3.0, and C math libraries that return doubles", "why_tests_cant": "histories have no bound; tests use a new analyzer for every text", "anchors": ["src/v3x/analyzer.cpp: Analyzer::analyze, Analyzer::analyze_string, Analyzer::add_variable_to_current_scope, Analyzer::add_statement_to_current_scope", "src/v3x/semantic_analyzer.cpp: SemanticAnalyzer::visit_program", "include/libqasm/v3x/scope.hpp"]}
{"id": "C93", "title": "The size of results", "statement": "The size of the result of an analysis is bounded by a multiple of the length of the text. (False: ranges of indices are written out one by one, so a text of 66 characters is accepted with 10^18 indices. What holds: trees and results have at most as many nodes as the text has characters, there are at most as many errors, and at most as many indices as characters times the size of the largest register.)", "quantifier": "all texts, file names, orders of evaluation, API version texts denoting 3.0, and C math libraries that return doubles", "why_tests_cant": "a bound for all texts cannot be tested, and the text that breaks it exhausts the memory of the machine that tries it", "anchors": ["src/v3x/semantic_analyzer.cpp: visit_index_range", "include/libqasm/v3x/semantic_analyzer.hpp", "src/v3x/syntactic_analyzer.cpp", "src/v3x/CqasmParser.g4"]}
{"id": "C94", "title": "Annotations", "statement": "The analysis of a tree with annotations (they have no syntax; trees with annotations are built with the API) keeps every annotation at its variable, gate or instruction with the values of its operands in order. A wrong operand is left out and reported, at its own location or that of the annotation, and the others are kept. The annotations of a declaration are evaluated before its name is declared; those of a declaration, gate or instruction that is wrong are not looked at, but those of a right gate inside a wrong gate or instruction are. Annotations change nothing else: without them the same tree gives the same result without them, and its errors are among those with annotations, in order.", "quantifier": "all trees that are without their annotations those of the grammar, with any annotations anywhere, API version texts denoting 3.0, and C math libraries that return doubles", "why_tests_cant": "there are infinitely many annotated trees, and the unit tests never visit one", "anchors": ["src/v3x/semantic_analyzer.cpp: visit_annotation_data, visit_annotated", "src/v3x/semantic_analyzer.cpp: visit_variable, visit_gate, visit_gate_instruction, visit_non_gate_instruction, visit_asm_declaration"]}
{"id": "C95", "title": "Every text through every entry point", "statement": "Every text in UTF-8 is accepted (it has a meaning by the rules of the language), rejected (with certain errors), not a text of the language, or without result because a computation in it is undefined. cqasm::v3x::analyze_string returns the program of an accepted text and prints nothing; for the others it prints the errors, one per line, and throws. Python's analyze_string returns the program, written and read again, or the list of the messages. The JSON functions of Python and JavaScript return the program or the errors as JSON.", "quantifier": "all texts in UTF-8, file names, orders of evaluation, API version texts denoting 3.0, ways to write and read trees, and C math libraries that return doubles", "why_tests_cant": "the four cases must be exhaustive and the entry points agree on every text; tests only call them on some", "anchors": ["src/v3x/cqasm.cpp: analyze_string", "src/v3x/cqasm_python.cpp", "emscripten/emscripten_wrapper.cpp", "python/module/cqasm/v3x/__init__.py", "include/libqasm/result.hpp"]}
{"id": "C96", "title": "Threads do not disturb each other", "statement": "Any number of threads may use the library at the same time, each with analyzers it made itself (it may copy them, use them repeatedly, push and pop scopes and register things). Whatever the order in which their calls and the statements of their analyses are worked off, every thread sees what it would see if it were alone: the same analyzers, results, errors and exceptions. No thread waits for another, and a turn of one changes nothing that another sees. Threads refer to no common block, so that there is no race; they end in undefined behaviour or with an escaping exception only if one of them alone does. Limit: a copy of an analyzer shares its block with the original; given to another thread, the results depend on the order.", "quantifier": "all numbers of threads, all sequences of calls of each thread, all schedules (any order of turns, of one call or one statement of an analysis each)", "why_tests_cant": "tests run one thread; the number of schedules is exponential and a test sees the one the machine picks", "anchors": ["src/v3x/analyzer.cpp: analyze, push_scope, pop_scope, add_statement_to_current_scope", "src/v3x/semantic_analyzer.cpp: visit_program", "include/libqasm/v3x/scope.hpp", "include/libqasm/v3x/semantic_analyzer.hpp: visit_block", "src/v3x/instruction_set.cpp: get_instance"]}
{"id": "C97", "title": "No node of a result is in it twice", "statement": "Trees are made of nodes that are referred to by shared pointers. In the tree that an analysis returns, no node is at two places: changing a node at one place changes nothing elsewhere, and check_well_formed does not find a node twice. Values registered under names (constants and variables) have nodes of their own that never become part of a result: every use of a name puts a new node into the tree. An analysis, however it ends, changes no node that was there before except the block that it adds statements to.", "quantifier": "all analyzers, new or used before, all programs (with annotations or without, those of the grammar or built with the API), both ways to copy locations", "why_tests_cant": "sharing is invisible in the printed trees that tests compare; a shared node shows up only when the tree is changed or checked, and only for the programs that use the name twice", "anchors": ["src/v3x/resolver.cpp: VariableTable::resolve, VariableTable::add", "src/v3x/semantic_analyzer.cpp: visit_variable, visit_expression, visit_index, visit_gate, visit_gate_instruction, visit_non_gate_instruction", "include/libqasm/overload.hpp: resolve", "src/v3x/values.cpp: promote", "src/v3x/analyzer.cpp: add_statement_to_current_scope, analyze"]}
{"id": "C98", "title": "What is registered under other names does not matter", "statement": "Constants, functions and instructions may be registered with an analyzer at any moment, before the first analysis or between two. The results of the analyses of programs that do not use the registered names are exactly those without the registrations: same trees, same errors in the same order, same exceptions. A program uses the names of variables and constants that it declares or mentions, the names of functions that it calls (an operator calls the function named after it), and the names of instructions that it asks for (a gate under a modifier asks for the innermost gate under the prefix of the outermost modifier). Refused registrations change nothing.", "quantifier": "all analyzers with a scope, new or used before, all sequences of registrations and analyses, all programs", "why_tests_cant": "the extension of an analyzer must be harmless for every program that does not use it; tests can try some programs only", "anchors": ["src/v3x/analyzer.cpp: register_variable, register_consteval_core_function, register_instruction, resolve_variable, resolve_function, resolve_instruction", "include/libqasm/overload.hpp: add_overload, resolve", "src/v3x/resolver.cpp", "src/v3x/semantic_analyzer.cpp: get_gate_resolution_name"]}
{"id": "C99", "title": "Statements with no name in common may change places", "statement": "If neither of two neighbouring statements declares a name that the other one declares or mentions, exchanging them exchanges their variables, statements and errors in the result and changes nothing else (up to the numbers of the variable nodes when both are declarations); any number of such exchanges gives the same result up to order. In particular the declarations of an accepted program may all be moved to the front: the result is then exactly the same.", "quantifier": "every parsed program that is analysed without undefined behaviour, every pair of independent neighbours in it, every sequence of such exchanges, every analyzer reached from the default one by analyses", "why_tests_cant": "All programs and reorderings.", "anchors": ["src/v3x/semantic_analyzer.cpp:visit_global_block,visit_variable,visit_gate_instruction,visit_non_gate_instruction,visit_asm_declaration", "src/v3x/analyzer.cpp:register_variable,resolve_variable,add_variable_to_current_scope"]}
{"id": "C100", "title": "Python sees the bytes of trees and the characters of messages", "statement": "The bytes of a serialised tree reach the deserialiser of the Python module unchanged, whatever they are, although they travel as a str. A str without surrogates reaches the library as its UTF-8 encoding, and what comes back is the tree or the messages of the analysis of that text; parse_string never ends with an exception for such a str, and a str with a surrogate is refused before the library sees it.", "quantifier": "every sequence of bytes, every Python str, every file name and version", "why_tests_cant": "All sequences of bytes.", "anchors": ["python/module/cqasm/v3x/__init__.py", "python/libqasm.i", "src/v3x/cqasm_python.cpp"]}
{"id": "C101", "title": "Messages are plain characters and the JSON of a rejected text is legal everywhere", "statement": "Whatever characters a text contains, every message of the semantic analysis about it, and the message about a literal out of its range, consists of printable ASCII characters. So the JSON functions give, for every rejected text and on every platform, legal JSON that tells the range and the message of each error in order, and the URI of the file.", "quantifier": "every text in UTF-8, every file name, signed and unsigned char", "why_tests_cant": "All texts.", "anchors": ["src/v3x/semantic_analyzer.cpp", "src/error.cpp", "src/utils.cpp", "src/v3x/cqasm_python.cpp", "emscripten/emscripten_wrapper.cpp"]}
{"id": "C102", "title": "Trees of any shape are analysed without surprises", "statement": "A program that builds its syntax trees itself can give the analyzer trees that no text gives. Whatever such a tree contains (names, operands, parameters, gates in the place of modifiers, modifiers of nothing, annotations), if each of its index lists has an entry the analysis returns a result or meets one of the undefined operations of C21; no exception escapes. If an index list is empty the only further outcome is the exception about an incomplete tree, and it is thrown exactly if there is no error and an operand with an empty index list is in the result.", "quantifier": "every syntax tree, every analyzer after any earlier analyses", "why_tests_cant": "All trees.", "anchors": ["src/v3x/semantic_analyzer.cpp", "src/v3x/analyzer.cpp", "src/v3x/syntactic.tree"]}
{"id": "C103", "title": "Which instructions of trees of any shape are accepted", "statement": "In trees that a program builds itself, a gate application is accepted exactly if the gate and every gate inside it has a known name (of a gate, a modifier or another instruction) and parameters of the types for that name (what is no gate may lack them), nothing is around a gate on two qubits, and the operands are those of the gate and address equally many qubits; anything around a gate that is neither inv nor pow counts as a control. Another instruction is accepted, whatever its name, exactly if parameters and operands are those of the name; equal numbers are asked of measure only. A measurement in the place of a gate is refused. What is refused leaves one error and no trace.", "quantifier": "every gate tree without annotations (for these see C94), every list of operands and parameters, every name, every analyzer reached from the default one", "why_tests_cant": "All trees and states.", "anchors": ["src/v3x/semantic_analyzer.cpp:visit_gate,visit_gate_instruction,visit_non_gate_instruction,resolve_parameters,get_gate_resolution_name,check_gate,check_gate_instruction", "src/v3x/instruction_set.cpp"]}
{"id": "C104", "title": "What is registered is what names mean", "statement": "Whatever functions, instructions and constants have been registered with an analyzer, in whatever order, before, between and after analyses and in nested scopes: a call or operator has the result of the last registered function of its name to whose parameters the values of the arguments can be promoted, applied to the promoted values, and without such a function it is an error; a gate of the instruction set is resolved, likewise, to the last fitting instruction of the innermost scope that has one; a constant keeps its value in its scope and cannot be registered again. The default analyzer is nothing but an analyzer filled through these calls.", "quantifier": "all analyzers reached by any sequence of API calls, all functions of the user, all expressions and operands", "why_tests_cant": "All histories of registrations.", "anchors": ["src/v3x/analyzer.cpp:register_variable,register_consteval_core_function,register_instruction,resolve_function,resolve_instruction,push_scope,pop_scope", "include/libqasm/overload.hpp", "src/v3x/resolver.cpp", "src/v3x/cqasm.cpp:default_analyzer"]}
{"id": "C105", "title": "Errors come in the order of the text, each in its own statement", "statement": "The errors of the analysis of a text are in the order of the text: the text is cut into one piece for the version and one for each statement, each of them has at most one error, and this is located in its piece. So each error begins at or behind the end of the one before it, and no two errors have the same location.", "quantifier": "every text in UTF-8 that parses, every analyzer after any earlier analyses", "why_tests_cant": "All texts, all combinations of errors.", "anchors": ["src/v3x/semantic_analyzer.cpp:visit_program,visit_global_block", "src/v3x/semantic_analyzer.cpp:visit_variable,visit_gate_instruction,visit_non_gate_instruction", "src/error.cpp:context", "src/v3x/syntactic_analyzer.cpp"]}
{"id": "C106", "title": "Registers may get other sizes", "statement": "An accepted program stays accepted when the sizes in the declarations of registers that are used with indices only are changed, as long as the indices exist in the new registers; in particular when they are made larger. The result is the same but for the sizes of these registers.", "quantifier": "every accepted program, every choice of new sizes", "why_tests_cant": "All programs and sizes.", "anchors": ["src/v3x/semantic_analyzer.cpp:visit_variable,visit_index,check_out_of_range,check_qubit_and_bit_indices_have_same_size", "src/v3x/types.cpp", "src/v3x/values.cpp"]}
{"id": "C107", "title": "Ranges and whole registers are abbreviations", "statement": "A range of literals in the indices of an operand means the list of its numbers: writing the one for the other changes neither whether a program is accepted nor the result. A register as an operand means all its elements in order: writing the list of all elements for it, or the register for the list, does not change whether a program is accepted, and the results differ in these operands and in the operand types of the instructions only.", "quantifier": "every program of the grammar, every set of ranges or registers replaced", "why_tests_cant": "All programs, ranges and sizes.", "anchors": ["src/v3x/semantic_analyzer.cpp:visit_index,visit_index_list,visit_index_range,visit_index_item,check_out_of_range,check_qubit_and_bit_indices_have_same_size", "src/v3x/values.cpp", "src/v3x/semantic_analyzer.cpp:visit_gate_instruction,visit_non_gate_instruction"]}
{"id": "C108", "title": "Numbers count by what they stand for", "statement": "Expressions that stand for the same number, as one of the type that is expected at their place, may be written for each other in the parameters of gates, modifiers and other instructions and in indices (Rx(1), Rx(true) and Rx(1.0); q[3/2] and q[true]): the one program is accepted if and only if the other is, and the results are the same.", "quantifier": "every pair of programs of the grammar that differ in such expressions", "why_tests_cant": "All programs, expressions and math libraries.", "anchors": ["src/v3x/semantic_analyzer.cpp:visit_gate,resolve_parameters,visit_non_gate_instruction,visit_index_item,visit_index_range", "src/v3x/values.cpp:promote"]}
{"id": "C109", "title": "A single qubit or bit is a register of one", "statement": "A qubit or bit that is used without indices may be declared as a register of size 1 instead (qubit q; as qubit[1] q;): the one program is accepted if and only if the other is, and the results are the same but for the types of these variables.", "quantifier": "every program of the grammar, every set of names that are not used with an index", "why_tests_cant": "All programs, sets of variables and math libraries.", "anchors": ["src/v3x/semantic_analyzer.cpp:visit_variable,visit_gate_instruction,visit_non_gate_instruction", "include/libqasm/v3x/instruction_set.hpp:InstructionSet"]}
{"id": "C110", "title": "An instruction for several operands is the sequence of the instructions for one", "statement": "A gate, measurement or other instruction whose operands are lists of indices of one length may be unrolled into the instructions for the first, second, ... of the indices (CNOT q[0, 1], q[1, 2] as CNOT q[0], q[1]; CNOT q[1], q[2]): the one program is accepted if and only if the other is, and the result of the other is the result of the one, unrolled in the same way.", "quantifier": "every program of the grammar, every choice of instructions that are unrolled", "why_tests_cant": "All programs, choices of instructions, index lists and math libraries.", "anchors": ["src/v3x/semantic_analyzer.cpp:visit_gate_instruction,visit_non_gate_instruction,visit_index", "src/v3x/instruction_set.cpp"]}
{"id": "C111", "title": "Two registers may be one", "statement": "When two registers of one kind and of sizes m and k are declared one after the other and used by their elements only (those of the second by number), the program in which the one declaration of a register of size m + k takes their place and element i of the second is written as element m + i of the first is accepted whenever the program with two registers is, and its result is the other's with the elements of the second register counted on in this way; the variables declared later have numbers one lower. The other way round, a register whose first m elements are used by number, and whose others are those written as elements of a second one with a new name, may be split into two.", "quantifier": "every program of the grammar, every pair of registers, every place of their declarations", "why_tests_cant": "All programs, sizes, names, places and math libraries.", "anchors": ["src/v3x/semantic_analyzer.cpp:visit_variable,visit_index", "src/v3x/analyzer.cpp:resolve_variable"]}
{"id": "C112", "title": "Programs may be written one behind the other", "statement": "A program whose statements are written behind those of another one, with whose variables it has nothing to do (it neither declares nor mentions one of their names), is accepted there if and only if both programs are accepted alone; the result has the variables and instructions of the first and then those of the second, whose variables are numbered on.", "quantifier": "every pair of programs of the grammar of the same version", "why_tests_cant": "All pairs of programs and math libraries.", "anchors": ["src/v3x/semantic_analyzer.cpp:visit_program,visit_variable", "src/v3x/analyzer.cpp:add_statement_to_current_scope,add_variable_to_current_scope,resolve_variable"]}
{"id": "C113", "title": "Every accepted program can be written with instructions for single elements", "statement": "For every accepted program there is a program that is accepted too and in which every operand is a variable that is no register or one element x[z] of a register. Its result is that of the given program with every instruction replaced by the instructions for its first, second, ... elements, in this order; variables, gates, parameters, asm declarations and locations stay. A text with this program can be printed from the result of the given one.", "quantifier": "every accepted program of the grammar, every math library", "why_tests_cant": "All programs, register sizes and index lists.", "anchors": ["src/v3x/semantic_analyzer.cpp:visit_gate_instruction,visit_non_gate_instruction,visit_index", "src/v3x/instruction_set.cpp:InstructionSet"]}
{"id": "C114", "title": "The elements of a register may be numbered differently", "statement": "If the indices of some registers are written as numbers and every such number is replaced by another one, in such a way that numbers of elements become numbers of elements of the same register and others do not, the program is accepted if and only if it was accepted before. The result is the same except that the indices of these registers are the other numbers. In particular the elements of a register may change places, and nothing depends on two operands or indices being different elements.", "quantifier": "every program of the grammar, every choice of registers and new numbers", "why_tests_cant": "All programs, registers, renumberings and math libraries.", "anchors": ["src/v3x/semantic_analyzer.cpp:visit_index,visit_gate_instruction,visit_non_gate_instruction", "src/v3x/instruction_set.cpp:InstructionSet"]}
{"id": "C115", "title": "One register of qubits and one of bits are enough", "statement": "Every accepted program can be written with at most two declarations, of one register with all its qubits and of one with all its bits, as long as their numbers are integers of the language. All operands are then lists of numbers of elements of these registers, and the result is that of the given program with its elements numbered in the order of their declarations: these numbers are below the size of the register, no two elements have the same one, and none is left out. The program can be printed from the result of the given one, with any two different names for the registers. It can also be printed so that, in addition, every operand is a single element of one of them. Doing this again changes nothing.", "quantifier": "every accepted program, every pair of names", "why_tests_cant": "All programs, registers, names and math libraries.", "anchors": ["src/v3x/semantic_analyzer.cpp:visit_variable,visit_index,visit_gate_instruction,visit_non_gate_instruction", "src/v3x/instruction_set.cpp:InstructionSet"]}
{"id": "C116", "title": "What follows a program sees only the variables of its result", "statement": "Every beginning of an accepted program is accepted. If the results of two accepted programs have the same variables, in the same order and of the same types, then whatever statements may follow one of them may follow the other one, however differently the two are written and whatever instructions they contain. There they give the same instructions and variables, behind those of the two programs.", "quantifier": "every two programs of the grammar, every list of statements behind them", "why_tests_cant": "All programs, sequels and math libraries.", "anchors": ["src/v3x/semantic_analyzer.cpp:visit_program,visit_block,visit_variable", "src/v3x/analyzer.cpp:add_statement_to_current_scope,add_variable_to_current_scope,resolve_variable"]}
{"id": "C117", "title": "The operations of a program", "statement": "The result of an accepted program stands for a sequence of operations, each on single qubits and bits, which are numbered in the order of their declarations: an instruction is applied to the first elements of its operands, then to the second ones, and so on. Every operation is on existing qubits and bits, as many as the instruction has operands. Writing a program with instructions for single elements, with one register of qubits and one of bits, or with both, keeps these operations. So do declaring single qubits and bits as registers of one, writing whole registers as the lists of their elements, writing instructions for lists of elements as sequences of instructions, and declaring two registers as one.", "quantifier": "every accepted program, every pair of names of registers", "why_tests_cant": "All programs, registers, names and math libraries.", "anchors": ["src/v3x/semantic_analyzer.cpp:visit_variable,visit_index,visit_gate_instruction,visit_non_gate_instruction", "src/v3x/instruction_set.cpp:InstructionSet"]}
