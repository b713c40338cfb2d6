(** Model of the entry points for C++ (src/v3x/cqasm.cpp), for Python
    (src/v3x/cqasm_python.cpp, python/module/cqasm/v3x/__init__.py) and for
    JavaScript (emscripten/emscripten_wrapper.cpp).

    [rtl] is the order of evaluation chosen by the compiler and [signed] the
    signedness of char. [write_tree] and [dump_tree] are the CBOR and JSON
    serialisations that tree-gen generates. A file is given by its path and its
    content, [None] when it cannot be accessed. *)
From Verif Require Import Base ModelUtils ModelVersion ModelError ModelTypes ModelOverload ModelFunctions ModelAst ModelAnalyzer ModelSemantic ModelSyntactic.
Local Open Scope string_scope.

(** ** src/v3x/cqasm.cpp *)

(** src/v3x/cqasm.cpp:21-25, 32-37: what is written to stderr, and the outcome. The
    text is parsed before the analyzer is made. *)
Definition unwrap_analysis (lm : libm) (api : string) (parsed : outcome error (result program)) : string * outcome error (option sem_program) :=
  match (let! r := parsed in let! st := default_analyzer lm api in let! x := analyze st r in Ok (snd x)) with
  | Ok r => unwrap r
  | Err e => ("", Err e)
  | Throw w => ("", Throw w)
  | UB k => ("", UB k)
  end.
Definition v3x_analyze_file (lm : libm) (rtl : bool) (path : string) (content : option string) (api : string) : string * outcome error (option sem_program) :=
  unwrap_analysis lm api (parse_file content path None rtl).
Definition v3x_analyze_string (lm : libm) (rtl : bool) (data : string) (file : option string) (api : string) : string * outcome error (option sem_program) :=
  unwrap_analysis lm api (parse_string file rtl data).

(** ** src/v3x/cqasm_python.cpp *)

(** src/v3x/cqasm_python.cpp:26-34 V3xAnalyzer::V3xAnalyzer; max_version is "3.0"
    and without_defaults false by default (include/libqasm/v3x/cqasm_python.hpp:90) *)
Definition v3x_analyzer (lm : libm) (max_version : string) (without_defaults : bool) : outcome error analyzer :=
  if without_defaults then
    let! v := version_of_string max_version in
    let! st0 := new_analyzer v in
    let! st1 := register_default_constants st0 in
    register_default_functions lm st1
  else default_analyzer lm max_version.
(** src/v3x/cqasm_python.cpp:47-49 *)
Definition v3x_register_instruction (st : analyzer) (name : string) (param_types : option string) : outcome error analyzer :=
  register_instruction_spec st name param_types.
(** The file name of src/v3x/cqasm_python.cpp:84, 101, 142, 161 *)
Definition file_name_op (file_name : string) : option string := if file_name =? "" then None else Some file_name.

Section Python.
  Variables (rtl signed : bool).
  Section Parse.
    Variables (write_tree : option program -> string) (dump_tree : program -> string).
    (** src/v3x/cqasm_python.cpp:59-62 *)
    Definition v3x_parse_file (path : string) (content : option string) : outcome error (list string) :=
      let! r := parse_file content path None rtl in Ok (to_strings write_tree r).
    (** src/v3x/cqasm_python.cpp:74-77 *)
    Definition v3x_parse_file_to_json (path : string) (content : option string) : outcome error string :=
      let! r := parse_file content path None rtl in to_json dump_tree signed r.
    (** src/v3x/cqasm_python.cpp:83-87 *)
    Definition v3x_parse_string (data file_name : string) : outcome error (list string) :=
      let! r := parse_string (file_name_op file_name) rtl data in Ok (to_strings write_tree r).
    (** src/v3x/cqasm_python.cpp:100-104 *)
    Definition v3x_parse_string_to_json (data file_name : string) : outcome error string :=
      let! r := parse_string (file_name_op file_name) rtl data in to_json dump_tree signed r.
  End Parse.
  Section Analyze.
    Variables (write_tree : option sem_program -> string) (dump_tree : sem_program -> string).
    (** src/v3x/cqasm_python.cpp:115-119: also gives the analyzer afterwards: the
        method is const, but what its pointer points to changes. *)
    Definition v3x_analyze_file_ (st : analyzer) (path : string) (content : option string) : outcome error (analyzer * list string) :=
      let! r := parse_file content path None rtl in
      let! x := analyze st r in Ok (fst x, to_strings write_tree (snd x)).
    (** src/v3x/cqasm_python.cpp:131-135 *)
    Definition v3x_analyze_file_to_json (st : analyzer) (path : string) (content : option string) : outcome error (analyzer * string) :=
      let! r := parse_file content path None rtl in
      let! x := analyze st r in
      let! j := to_json dump_tree signed (snd x) in Ok (fst x, j).
    (** src/v3x/cqasm_python.cpp:141-146 *)
    Definition v3x_analyze_string_ (st : analyzer) (data file_name : string) : outcome error (analyzer * list string) :=
      let! r := parse_string (file_name_op file_name) rtl data in
      let! x := analyze st r in Ok (fst x, to_strings write_tree (snd x)).
    (** src/v3x/cqasm_python.cpp:159-165 *)
    Definition v3x_analyze_string_to_json (st : analyzer) (data file_name : string) : outcome error (analyzer * string) :=
      let! r := parse_string (file_name_op file_name) rtl data in
      let! x := analyze st r in
      let! j := to_json dump_tree signed (snd x) in Ok (fst x, j).
    (** emscripten/emscripten_wrapper.cpp:39-41 *)
    Definition js_analyze_string_to_json (lm : libm) (data file_name : string) : outcome error string :=
      let! st := v3x_analyzer lm "3.0" false in
      let! x := v3x_analyze_string_to_json st data file_name in Ok (snd x).
  End Analyze.
  (** emscripten/emscripten_wrapper.cpp:24-26 *)
  Definition js_parse_string_to_json (dump_tree : program -> string) (data file_name : string) : outcome error string :=
    v3x_parse_string_to_json dump_tree data file_name.
End Python.

(** ** python/module/cqasm/v3x/__init__.py *)

(** python/module/cqasm/v3x/__init__.py:57-65 and the same code in parse_string,
    analyze_file and analyze_string: a tree, or the list of the messages. The
    conversion of the first string to bytes and [read_tree], the deserialisation
    that tree-gen generates, are one parameter. *)
Definition py_unpack {R : Type} (read_tree : string -> R) (ret : list string) : R + list string :=
  match ret with
  | [s] => inl (read_tree s)
  | _ => inr (tl ret)
  end.
