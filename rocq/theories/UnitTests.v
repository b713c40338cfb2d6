(** The expectations of the repository's own unit tests, run on the model.
    These are tests of the model, not properties: each conjunct is one EXPECT_ of
    the file named in the comment. Tests of mocks, of ANTLR's own error texts, of
    tree-gen's dumps and of libm's results are left out. *)
From Coq Require Import SpecFloat.
From Verif Require Import Base ModelUtils ModelVersion ModelError ModelTypes ModelOverload ModelFunctions
  ModelInstructionSet ModelAst ModelAnalyzer ModelSemantic ModelLexer ModelParser ModelSyntactic.
Local Open Scope string_scope.

Ltac run := vm_compute; repeat (split; [reflexivity|]); reflexivity.

(** test/test_utils.cpp *)
Definition backslash : string := String "092" "".
Definition quote : string := String "034" "".
Example unit_to_lowercase :
  to_lowercase "" = "" /\ to_lowercase "abcd" = "abcd" /\ to_lowercase "ABCD" = "abcd" /\
  to_lowercase "abCD" = "abcd" /\ to_lowercase "abCD123" = "abcd123" /\
  to_lowercase "[abCD!]" = "[abcd!]" /\ to_lowercase "123" = "123".
Proof. run. Qed.
Example unit_equal_case_insensitive :
  equal_case_insensitive "" "" = true /\ equal_case_insensitive "abcd" "abcd" = true /\
  equal_case_insensitive "ABCD" "ABCD" = true /\ equal_case_insensitive "abCD" "ABcd" = true /\
  equal_case_insensitive "[abCD!]" "[ABcd!]" = true /\ equal_case_insensitive "123" "123" = true /\
  equal_case_insensitive "123" "ABC" = false.
Proof. run. Qed.
Example unit_url_encode :
  url_encode "" = "" /\ url_encode "a0 ^" = "a0%20%5E" /\
  url_encode ("C:" ++ backslash ++ "my file.txt") = "C%3A%5Cmy%20file.txt".
Proof. run. Qed.
Example unit_json_encode (signed : bool) :
  json_encode signed "" = "" /\
  json_encode signed ("a0 " ++ quote ++ backslash) = "a0 " ++ backslash ++ "u0022" ++ backslash ++ "u005C" /\
  json_encode signed ("C:" ++ backslash ++ "my file.txt") = "C:" ++ backslash ++ "u005Cmy file.txt" /\
  json_encode signed "failed to parse 'res/v1x/parsing/grammar/expression_recovery/input.cq'" =
    "failed to parse 'res/v1x/parsing/grammar/expression_recovery/input.cq'".
Proof. destruct signed; run. Qed.

(** test/test_annotations.cpp *)
Definition at_ (a b c d : N) : range := mk_range (mkIndex a b) (mkIndex c d).
Example unit_source_location :
  location_to_string (mk_location None (at_ 0 0 0 0)) = "<unknown file name>" /\
  location_to_string (mk_location (Some "") (at_ 0 0 0 0)) = "<unknown file name>" /\
  location_to_string (mk_location None (at_ 10 0 10 0)) = "<unknown file name>:10" /\
  location_to_string (mk_location (Some "") (at_ 10 0 10 0)) = "<unknown file name>:10" /\
  location_to_string (mk_location None (at_ 10 12 10 15)) = "<unknown file name>:10:12..15" /\
  location_to_string (mk_location (Some "") (at_ 10 12 10 15)) = "<unknown file name>:10:12..15" /\
  location_to_string (mk_location (Some "input.cq") (at_ 10 12 10 15)) = "input.cq:10:12..15" /\
  location_to_string (mk_location (Some "<unknown file name>") (at_ 10 12 10 15)) = "<unknown file name>:10:12..15".
Proof. run. Qed.

(** test/test_error.cpp *)
Definition nowhere := mk_location None (at_ 0 0 0 0).
Definition here := mk_location (Some "input.cq") (at_ 10 12 10 15).
Definition there := mk_location (Some "input.cq") (at_ 20 22 20 25).
Example unit_error_text :
  what (mk_error "") = "Error: <unknown error message>" /\
  what (mk_error "syntax error") = "Error: syntax error" /\
  what (mk_error_at "syntax error" None) = "Error: syntax error" /\
  what (mk_error_at "syntax error" (Some nowhere)) = "Error at <unknown file name>: syntax error" /\
  what (mk_error_at "syntax error" (Some here)) = "Error at input.cq:10:12..15: syntax error" /\
  what (mk_error_at "" (Some nowhere)) = "Error at <unknown file name>: <unknown error message>" /\
  what (mk_error_range "" None (at_ 0 0 0 0)) = "Error at <unknown file name>: <unknown error message>" /\
  what (mk_error_range "syntax error" None (at_ 0 0 0 0)) = "Error at <unknown file name>: syntax error" /\
  what (mk_error_range "syntax error" (Some "input.cq") (at_ 10 12 10 15)) = "Error at input.cq:10:12..15: syntax error" /\
  what (mk_error_range "syntax error" None (at_ 10 12 10 15)) = "Error at <unknown file name>:10:12..15: syntax error".
Proof. run. Qed.
Example unit_error_context :
  what (error_context (Some there) (mk_error_at "syntax error" (Some here))) = "Error at input.cq:10:12..15: syntax error" /\
  what (error_context None (mk_error "syntax error")) = "Error: syntax error" /\
  what (error_context (Some there) (mk_error "syntax error")) = "Error at input.cq:20:22..25: syntax error".
Proof. run. Qed.
(** JSON written with ' for the quote, to be readable. *)
Definition q (s : string) : string := map_bytes (fun c => if Ascii.eqb c "'" then "034"%char else c) s.
Definition zero_json := "'range':{'start':{'line':0,'character':0},'end':{'line':0,'character':0}}".
Definition here_json := "'range':{'start':{'line':10,'character':12},'end':{'line':10,'character':15}}".
Example unit_error_json (signed : bool) :
  error_to_json signed (mk_error "") = q ("{" ++ zero_json ++ ",'message':'<unknown error message>','severity':1}") /\
  error_to_json signed (mk_error "syntax error") = q ("{" ++ zero_json ++ ",'message':'syntax error','severity':1}") /\
  error_to_json signed (mk_error_range "syntax error" None (at_ 10 12 10 15)) =
    q ("{" ++ here_json ++ ",'message':'syntax error','severity':1}") /\
  error_to_json signed (mk_error_range "syntax error" (Some "input.cq") (at_ 10 12 10 15)) =
    q ("{" ++ here_json ++ ",'message':'syntax error','severity':1,'relatedInformation':[{'location':{'uri':'file:///input.cq',"
       ++ zero_json ++ "},'message':'<unknown error message>'}]}").
Proof. destruct signed; run. Qed.

(** test/v3x/cpp/test_values.cpp *)
Example unit_promote :
  let one := VFloat (S754_finite false 4503599627370496 (-52)) in
  let b := VVar (mkVariable 0 "b" (mkType TBool 1)) in
  promote (VBool true) (mkType TBool 1) = Ok (Some (VBool true)) /\
  promote (VBool true) (mkType TInt 1) = Ok (Some (VInt 1)) /\
  promote (VBool true) (mkType TFloat 1) = Ok (Some one) /\
  promote (VInt 1) (mkType TInt 1) = Ok (Some (VInt 1)) /\
  promote (VInt 1) (mkType TFloat 1) = Ok (Some one) /\
  promote one (mkType TFloat 1) = Ok (Some one) /\
  promote b (mkType TInt 1) = Ok (Some b) /\
  promote (VInt 1) (mkType TBool 1) = Ok None /\
  promote one (mkType TBool 1) = Ok None /\
  promote one (mkType TInt 1) = Ok None /\
  size_of (VBool true) = 1%Z /\ size_of (VInt 1) = 1%Z /\ size_of one = 1%Z.
Proof. run. Qed.

(** test/v3x/cpp/test_instruction_set.cpp *)
Definition all_true (p : string -> bool) (l : list string) : bool := forallb p l.
Definition all_false (p : string -> bool) (l : list string) : bool := forallb (fun n => negb (p n)) l.
Example unit_instruction_set :
  List.length named_gate_map = 60%nat /\ List.length non_gate_map = 16%nat /\
  List.length gate_modifier_map = 3%nat /\
  List.length single_qubit_named_gate_list = 20%nat /\ List.length two_qubit_named_gate_list = 5%nat /\
  all_true is_single_qubit_named_gate ["H"] = true /\
  all_false is_single_qubit_named_gate ["h"; "CNOT"; "1q_H"; "inv"] = true /\
  all_true is_two_qubit_named_gate ["CNOT"] = true /\
  all_false is_two_qubit_named_gate ["cnot"; "H"; "2q_H"; "ctrl"] = true /\
  all_true is_named_gate ["H"; "CNOT"] = true /\
  all_false is_named_gate ["h"; "cnot"; "1q_H"; "2q_H"; "inv"] = true /\
  all_true is_single_qubit_gate_composition ["1q_H"] = true /\
  all_false is_single_qubit_gate_composition ["H"; "CNOT"; "2q_H"; "inv"] = true /\
  all_true is_two_qubit_gate_composition ["2q_H"] = true /\
  all_false is_two_qubit_gate_composition ["H"; "CNOT"; "1q_H"; "inv"] = true /\
  all_true is_single_qubit_gate ["H"; "1q_H"] = true /\
  all_false is_single_qubit_gate ["CNOT"; "2q_H"; "inv"] = true /\
  all_true is_two_qubit_gate ["CNOT"; "2q_H"] = true /\
  all_false is_two_qubit_gate ["H"; "1q_H"; "inv"] = true /\
  all_true is_gate ["H"; "CNOT"; "1q_H"; "2q_H"] = true /\ all_false is_gate ["inv"; "measure"; "reset"] = true /\
  all_true is_measure ["measure"] = true /\ all_false is_measure ["MEASURE"] = true /\
  all_true is_reset ["reset"] = true /\ all_false is_reset ["RESET"] = true /\
  all_true is_init ["init"] = true /\ all_false is_init ["INIT"] = true /\
  all_true is_barrier ["barrier"] = true /\ all_false is_barrier ["BARRIER"] = true /\
  all_true is_wait ["wait"] = true /\ all_false is_wait ["WAIT"] = true /\
  all_true is_non_gate ["measure"; "reset"] = true /\ all_false is_non_gate ["inv"] = true /\
  all_true is_inv_gate_modifier ["inv"] = true /\ all_false is_inv_gate_modifier ["INV"] = true /\
  all_true is_pow_gate_modifier ["pow"] = true /\ all_false is_pow_gate_modifier ["POW"] = true /\
  all_true is_ctrl_gate_modifier ["ctrl"] = true /\ all_false is_ctrl_gate_modifier ["CTRL"] = true /\
  all_true is_single_qubit_gate_modifier ["inv"; "pow"] = true /\
  all_false is_single_qubit_gate_modifier ["ctrl"] = true /\
  all_true is_two_qubit_gate_modifier ["ctrl"] = true /\
  all_false is_two_qubit_gate_modifier ["inv"; "pow"] = true /\
  all_true is_gate_modifier ["inv"; "pow"; "ctrl"] = true /\
  all_false is_gate_modifier ["H"; "CNOT"; "1q_H"; "2q_H"; "measure"; "reset"] = true.
Proof. run. Qed.
Example unit_param_types :
  get_named_gate_param_types "H" = Ok None /\ get_named_gate_param_types "Rz" = Ok (Some "f") /\
  get_named_gate_param_types "inv" = Err (mk_error "couldn't find gate 'inv'") /\
  get_gate_modifier_param_types "inv" = Ok None /\ get_gate_modifier_param_types "pow" = Ok (Some "f") /\
  get_gate_modifier_param_types "H" = Err (mk_error "couldn't find gate modifier 'H'") /\
  get_instruction_param_types "H" = Ok None /\ get_instruction_param_types "measure" = Ok None /\
  get_instruction_param_types "pow" = Ok (Some "f") /\
  get_instruction_param_types "1q_H" = Err (mk_error "couldn't find instruction '1q_H'") /\
  get_non_gate_param_types_with_param_count "measure" 0 = None /\
  get_non_gate_param_types_with_param_count "measure" 3 = Some "fff" /\
  get_non_gate_param_types_with_param_count "measure" 1 = None.
Proof. run. Qed.

(** test/v3x/cpp/test_functions.cpp; pow and the transcendental functions, whose
    results are libm's, are left out. *)
Definition run_function (lm : libm) (name spec : string) (args : list value) : option value :=
  match find (fun d => (fst (fst d) =? name) && (snd (fst d) =? spec)) (default_functions lm) with
  | Some d => match snd d args with Ok v => Some v | _ => None end
  | None => None
  end.
Definition i_ := VInt. Definition b_ := VBool. Definition f_ (z : Z) := VFloat (float_of_Z z).
Definition gives (lm : libm) (name spec : string) (args : list value) (v : value) : bool :=
  match run_function lm name spec args, v with
  | Some (VInt a), VInt b => (a =? b)%Z
  | Some (VBool a), VBool b => Bool.eqb a b
  | Some (VFloat a), VFloat b => SFeqb a b   (* EXPECT_EQ of doubles: -0. == 0. *)
  | _, _ => false
  end.
Definition expectations : list (string * string * list value * value) :=
  [ ("operator-", "f", [f_ 0], f_ 0); ("operator-", "f", [f_ 5], f_ (-5)); ("operator-", "f", [f_ (-5)], f_ 5);
    ("operator-", "i", [i_ 0], i_ 0); ("operator-", "i", [i_ 5], i_ (-5)); ("operator-", "i", [i_ (-5)], i_ 5);
    ("operator+", "ff", [f_ (-5); f_ 5], f_ 0); ("operator+", "ii", [i_ (-5); i_ 5], i_ 0);
    ("operator-", "ff", [f_ (-5); f_ 5], f_ (-10)); ("operator-", "ii", [i_ (-5); i_ 5], i_ (-10));
    ("operator*", "ff", [f_ (-5); f_ 5], f_ (-25)); ("operator*", "ii", [i_ (-5); i_ 5], i_ (-25));
    ("operator/", "ff", [f_ (-5); f_ 5], f_ (-1)); ("operator/", "ii", [i_ (-5); i_ 5], i_ (-1));
    ("operator/", "ii", [i_ 8; i_ 3], i_ 2);
    ("operator%", "ii", [i_ (-1); i_ 3], i_ (-1)); ("operator%", "ii", [i_ 0; i_ 3], i_ 0);
    ("operator%", "ii", [i_ 1; i_ 3], i_ 1); ("operator%", "ii", [i_ (-1); i_ (-3)], i_ (-1));
    ("operator%", "ii", [i_ 0; i_ (-3)], i_ 0); ("operator%", "ii", [i_ 1; i_ (-3)], i_ 1);
    ("operator==", "ff", [f_ 2; f_ 2], b_ true); ("operator!=", "ff", [f_ 2; f_ 2], b_ false);
    ("operator>=", "ff", [f_ 2; f_ 2], b_ true); ("operator>", "ff", [f_ 2; f_ 2], b_ false);
    ("operator<=", "ff", [f_ 2; f_ 2], b_ true); ("operator<", "ff", [f_ 2; f_ 2], b_ false);
    ("operator==", "ii", [i_ 2; i_ 2], b_ true); ("operator!=", "ii", [i_ 2; i_ 2], b_ false);
    ("operator>=", "ii", [i_ 2; i_ 2], b_ true); ("operator>", "ii", [i_ 2; i_ 2], b_ false);
    ("operator<=", "ii", [i_ 2; i_ 2], b_ true); ("operator<", "ii", [i_ 2; i_ 2], b_ false);
    ("operator==", "bb", [b_ true; b_ true], b_ true); ("operator!=", "bb", [b_ true; b_ true], b_ false);
    ("operator>=", "bb", [b_ true; b_ true], b_ true); ("operator>", "bb", [b_ true; b_ true], b_ false);
    ("operator<=", "bb", [b_ true; b_ true], b_ true); ("operator<", "bb", [b_ true; b_ true], b_ false);
    ("operator~", "i", [i_ 172], i_ (-173)); ("operator&", "ii", [i_ 172; i_ 163], i_ 160);
    ("operator^", "ii", [i_ 172; i_ 163], i_ 15); ("operator|", "ii", [i_ 172; i_ 163], i_ 175);
    ("operator<<", "ii", [i_ 172; i_ 3], i_ 1376); ("operator>>", "ii", [i_ 172; i_ 3], i_ 21);
    ("operator!", "b", [b_ true], b_ false); ("operator&&", "bb", [b_ true; b_ true], b_ true);
    ("operator^^", "bb", [b_ true; b_ true], b_ false); ("operator||", "bb", [b_ true; b_ true], b_ true);
    ("operator?:", "bff", [b_ true; f_ (-5); f_ 5], f_ (-5)); ("operator?:", "bii", [b_ true; i_ (-5); i_ 5], i_ (-5));
    ("operator?:", "bbb", [b_ true; b_ true; b_ false], b_ true) ].
Example unit_functions (lm : libm) :
  forallb (fun '(n, s, args, v) => gives lm n s args v) expectations = true.
Proof. vm_compute. reflexivity. Qed.
(** fn_sqrt_f: within 0.00001 of 1.41421, that is between 1.41420 and 1.41422. *)
Example unit_sqrt (lm : libm) :
  match run_function lm "sqrt" "f" [f_ 2] with
  | Some (VFloat r) =>
      SFltb (float_of_Z 141420) (SFmul prec emax r (float_of_Z 100000)) = true /\
      SFltb (SFmul prec emax r (float_of_Z 100000)) (float_of_Z 141422) = true
  | _ => False
  end.
Proof. vm_compute. split; reflexivity. Qed.

(** test/v3x/cpp/test_analyzer.cpp; the statement of the fixture is [h] on [q]. *)
Definition fixture_statement (l : loc) : sem_statement :=
  SemGateInstr l (mkInstruction "h" [make_type TQubit]) (SemGate None "h" None [] []) [VVar (mkVariable 0 "q" (mkType TQubit 1))] [].
Definition with_block_location (l : loc) (st : analyzer) : analyzer :=
  mkAnalyzer (api_version st) (map (fun sc => mkScope (sc_variables_table sc) (sc_functions sc) (sc_instructions sc)
    (mkBlock (blk_statements (sc_block sc)) l) (sc_variables sc)) (scopes st)) (next_id st).
Definition block_after (before l : loc) : outcome error (nat * loc) :=
  let! v := version_of_string "3.0" in
  let! st := new_analyzer v in
  let! st' := add_statement (with_block_location before st) (fixture_statement l) in
  let! sc := current_scope st' in Ok (List.length (blk_statements (sc_block sc)), blk_loc (sc_block sc)).
Example unit_analyzer_scopes :
  (let! v := version_of_string "3.0" in let! st := new_analyzer v in
   let! sc := current_scope st in let! popped := pop_scope st in
   Ok (List.length (scopes st), sc_variables sc, List.length (scopes (push_scope st)), List.length (scopes popped)))
  = Ok (1%nat, [], 2%nat, 0%nat).
Proof. vm_compute. reflexivity. Qed.
Example unit_analyzer_add_statement :
  block_after None None = Ok (1%nat, None) /\
  block_after None (Some (mk_location (Some "input.cq") (at_ 10 20 11 10))) =
    Ok (1%nat, Some (mk_location (Some "input.cq") (at_ 10 20 11 10))) /\
  block_after (Some (mk_location (Some "input.cq") (at_ 5 15 8 30))) (Some (mk_location (Some "input.cq") (at_ 10 10 11 20))) =
    Ok (1%nat, Some (mk_location (Some "input.cq") (at_ 5 15 11 20))).
Proof. run. Qed.
Example unit_analyzer_analyze :
  (let! v := version_of_string "3.0" in let! st := new_analyzer v in
   let! r := analyze st (mkResult (Some (mkProgram v None [] None)) []) in
   Ok (option_map sp_version (res_root (snd r)), res_errors (snd r))) = Ok (Some [3; 0]%Z, []) /\
  (let! v := version_of_string "3.0" in let! st := new_analyzer v in
   let! r := analyze st (mkResult None [mk_error "parse error"]) in
   Ok (map what (res_errors (snd r)))) = Ok ["Error: parse error"].
Proof. run. Qed.

(** test/v3x/python/test_v3x_analyzer.py, test_analysis_result.py, test_parse_result.py *)
Definition errors_of_text (lm : libm) (rtl : bool) (data : string) : outcome error (list string) :=
  let! st := default_analyzer lm "3.0" in
  let! x := analyze_string rtl st data None in Ok (map what (res_errors (snd x))).
Example unit_python_errors (lm : libm) (rtl : bool) :
  errors_of_text lm rtl "version 3;qubit q;bit b;b = measure(1,0) q" =
    Ok ["Error at <unknown file name>:1:29..36: instruction 'measure' does not have an overload with 2 parameters."] /\
  errors_of_text lm rtl "version 3;qubit[3] q;X q[3]" = Ok ["Error at <unknown file name>:1:24..25: index 3 out of range (size 3)"] /\
  errors_of_text lm rtl "version 3;qubit q;H(0, 1) q" = Ok ["Error at <unknown file name>:1:19..20: instruction 'H' expects no parameters, but got 2."] /\
  errors_of_text lm rtl "version 3;qubit q;Rx(0, 1) q" = Ok ["Error at <unknown file name>:1:19..21: instruction 'Rx' expects 1 parameters, but got 2."] /\
  errors_of_text lm rtl "version 3;qubit q;Rn(0, 1) q" = Ok ["Error at <unknown file name>:1:19..21: instruction 'Rn' expects 5 parameters, but got 2."].
Proof. destruct rtl; run. Qed.
Example unit_python_json (lm : libm) (rtl signed : bool) :
  (let! st := default_analyzer lm "3.0" in
   let! x := analyze_string rtl st "version 3; qubit[0] q" None in Ok (errors_to_json signed (res_errors (snd x)))) =
  Ok (q "{'errors':[{'range':{'start':{'line':1,'character':21},'end':{'line':1,'character':22}},'message':'found qubit array of size <= 0','severity':1}]}").
Proof. destruct rtl, signed; run. Qed.
(** Positions of ANTLR's errors. *)
Definition error_places (rtl : bool) (data : string) : outcome error (list (option string)) :=
  let! r := parse_string None rtl data in Ok (map (fun e => option_map location_to_string (location e)) (res_errors r)).
Example unit_python_places (rtl : bool) :
  error_places rtl "version 3;qubit[5] q;bit[5] b;H q[0:4];b = measure" = Ok [Some "<unknown file name>:1:51"] /\
  error_places rtl "version 3; qubit[3.14]" = Ok [Some "<unknown file name>:1:18..22"] /\
  error_places rtl "vrsion 3" = Ok [Some "<unknown file name>:1:1..7"].
Proof. destruct rtl; run. Qed.
Definition tree_of_text (lm : libm) (rtl : bool) (data : string) : outcome error (option (version * list sem_statement * list (string * type))) :=
  let! st := default_analyzer lm "3.0" in
  let! x := analyze_string rtl st data None in
  Ok (option_map (fun p => (sp_version p, blk_statements (sp_block p), map (fun v => (var_name (sv_var v), var_type (sv_var v))) (sp_variables p))) (res_root (snd x))).
Definition without_places (s : sem_statement) : string * list value * list value :=
  match s with
  | SemGateInstr _ _ (SemGate _ n _ ps _) ops _ => (n, ops, ps)
  | SemNonGate _ _ n ops ps _ => (n, ops, ps)
  | SemAsm _ n _ _ => (n, [], [])
  end.
Example unit_python_trees (lm : libm) (rtl : bool) :
  let qs := mkVariable 0 "q" (mkType TQubitArray 5) in let bs := mkVariable 1 "b" (mkType TBitArray 5) in
  let q1 := mkVariable 0 "q" (mkType TQubit 1) in let b1 := mkVariable 1 "b" (mkType TBit 1) in
  map_outcome (option_map (fun '(v, ss, vs) => (v, map without_places ss, vs)))
    (tree_of_text lm rtl "version 3;qubit[5] q;bit[5] b;H q[0:4];b = measure q") =
  Ok (Some ([3]%Z, [("H", [VIndex qs [0; 1; 2; 3; 4]%Z], []); ("measure", [VVar bs; VVar qs], [])],
            [("q", mkType TQubitArray 5); ("b", mkType TBitArray 5)])) /\
  map_outcome (option_map (fun '(v, ss, vs) => map without_places ss))
    (tree_of_text lm rtl "version 3;qubit q;bit b;b = measure q;b = measure(1,0,0) q") =
  Ok (Some [("measure", [VVar b1; VVar q1], []);
            ("measure", [VVar b1; VVar q1], [VFloat (float_of_Z 1); VFloat (float_of_Z 0); VFloat (float_of_Z 0)])]).
Proof. destruct rtl; run. Qed.
