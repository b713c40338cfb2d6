(** Property C82: which error is reported for what, with which message and at which
    place. *)
From Verif Require Import Base ModelUtils ModelVersion ModelError ModelTypes ModelOverload ModelFunctions ModelInstructionSet ModelAst ModelLexer ModelParser ModelAnalyzer ModelSemantic ModelSyntactic
  SpecUtils SpecTypes SpecFunctions SpecInstructions SpecAnalyzer SpecLexer SpecParser SpecSyntax SpecTree SpecReading SpecDiagnosis
  ProofsExpr ProofsAnalyzer2 ProofsSyntax ProofsTree ProofsUtf8 ProofsReading ProofsText ProofsPipeline ProofsDiagnosis ProofsDiagnosis2 ProofsDiagnosis3 ProofsDiagnosis4 PropertiesAnalyzer PropertiesSyntax.
Local Open Scope string_scope.

(** ** Expressions: the error of an expression is a problem of it; an expression
    with a problem has that error, or its folding is undefined (see C21). *)
Theorem C82_expression_errors : forall lm st e m p, ordinary lm st -> visit st e = Err (mkRawError m p) -> problem st e m p.
Proof. intros lm st e m p Ho E. exact (visit_problem lm st Ho e _ E). Qed.
Theorem C82_expression_problems : forall lm st e m p, ordinary lm st -> problem st e m p ->
  visit st e = Err (mkRawError m p) \/ exists k, visit st e = UB k.
Proof. intros lm st e m p Ho. apply (problem_reported lm st Ho). Qed.

(** ** Statements: the same, except that the error is recorded and the analysis goes on. *)
Theorem C82_statement_errors : forall lm st s st' es, ordinary lm st -> grammar_statement s -> visit_statement st s = (Ok st', es) ->
  (es = [] /\ forall m p, ~ statement_problem st s m p) \/ exists m p, es = [mkRawError m p] /\ statement_problem st s m p.
Proof.
  intros lm st s st' es Ho Hs E. destruct (statement_reported lm st Ho s st' es Hs E) as [->|H]; [left|now right]. split; [reflexivity|].
  intros m p P. destruct (statement_reports lm st Ho s m p Hs P) as [[st'' X]|[k X]]; congruence.
Qed.
Theorem C82_statement_problems : forall lm st s m p, ordinary lm st -> grammar_statement s -> statement_problem st s m p ->
  (exists st', visit_statement st s = (Ok st', [mkRawError m p])) \/ exists k, visit_statement st s = (UB k, []).
Proof. intros lm st s m p Ho. exact (statement_reports lm st Ho s m p). Qed.

(** ** Programs and texts: the errors are the one about the version, if any, and one
    for every statement with a problem. *)
Theorem C82_program : forall lm st p st' r, ordinary lm st -> version_same (api_version st) [3; 0]%Z -> grammar_program p ->
  analyze_ast st p = Ok (st', r) ->
  exists ves es, res_errors r = (ves ++ es)%list /\ version_diagnosed (api_version st) (prog_version p) (prog_version_loc p) ves /\
    diagnosed st (prog_statements p) es.
Proof. exact program_diagnosed. Qed.
Theorem C82_text : forall lm rtl st data file s p st' r, ordinary lm st -> version_same (api_version st) [3; 0]%Z -> text_of data s -> utf8 s ->
  parse_string file rtl data = Ok (mkResult (Some p) []) -> analyze_string rtl st data file = Ok (st', r) ->
  exists ves es, res_errors r = (ves ++ es)%list /\ version_diagnosed (api_version st) (prog_version p) (prog_version_loc p) ves /\
    diagnosed st (prog_statements p) es.
Proof.
  intros lm rtl st data file s p st' r Ho V T U E A. unfold analyze_string in A. rewrite E in A. cbn [bind analyze res_errors res_root] in A.
  eapply program_diagnosed; eauto. apply (parse_reads file rtl data s p T U) in E. eapply parsed_grammar; eauto.
Qed.

(** ** Examples *)

Definition text_wrong : string := "version 3.1; qubit[3] q; bit[2] b; H zz; Rx(true, 1) q; ctrl.CNOT q[0], q[1]; ctrl.inv.X q[0], b[1]; X q[0:3]; qubit q; foo q; " ++
  "CNOT q, q[1]; b = measure q; wait(1.5) q; X q[sin(1)]; Y -q; Z q[2:1]; Rx(sin(1, 2)) q; b = measure(1) q[0:1]; bit[0] c".
Example C82_texts : text_of text_wrong text_wrong /\ utf8 text_wrong /\
  (exists p, parse_string None false text_wrong = Ok (mkResult (Some p) [])).
Proof. split; [text_case|]. split; [utf8_case|]. eexists. vm_compute. reflexivity. Qed.
Example C82_case : forall lm, ordinary lm (fresh_analyzer lm) /\ version_same (api_version (fresh_analyzer lm)) [3; 0]%Z /\
  exists st' r, analyze_string false (fresh_analyzer lm) text_wrong None = Ok (st', r) /\ map message (res_errors r) =
  ["the only cQASM version supported is 3.0, but the cQASM file is version 3.1";
   "failed to resolve variable 'zz'";
   "instruction 'Rx' expects 1 parameters, but got 2.";
   "trying to apply a gate modifier to a multi-qubit gate";
   "failed to resolve instruction '2q_X' with argument pack (qubit, bit)";
   "index 3 out of range (size 3)"; "trying to redeclare variable 'q'";
   "couldn't find instruction 'foo'";
   "qubit operands indices have different sizes";
   "qubit and bit indices have different sizes";
   "failed to resolve 'wait' with parameter type (float)";
   "expected an integer";
   "failed to resolve overload for 'operator-' with argument pack (qubit array)";
   "last index is lower than first index";
   "failed to resolve overload for 'sin' with argument pack (int, int)";
   "instruction 'measure' does not have an overload with 1 parameters.";
   "found bit array of size <= 0"].
Proof.
  intros lm. split; [apply analyses_ordinary, an_default, fresh_is_default|]. split; [intros i; reflexivity|]. apply ok_case. vm_compute. reflexivity.
Qed.
(** -(1 + zz), with the place of zz; and X on the unknown zz *)
Example C82_expression_case : forall lm l l', let zz := EIdent (Some l) "zz" in let e := EUnary l' UMinus (EBinary None BAdd (EInt None 1) zz) in
  problem (fresh_analyzer lm) e "failed to resolve variable 'zz'" (Some l) /\
  visit (fresh_analyzer lm) e = Err (mkRawError "failed to resolve variable 'zz'" (Some l)) /\
  statement_problem (fresh_analyzer lm) (gate_on "X" [] [zz]) "failed to resolve variable 'zz'" (Some l) /\ grammar_statement (gate_on "X" [] [zz]).
Proof.
  intros lm l l'. cbv zeta. assert (Ho : ordinary lm (fresh_analyzer lm)) by apply analyses_ordinary, an_default, fresh_is_default.
  assert (E : visit (fresh_analyzer lm) (EUnary l' UMinus (EBinary None BAdd (EInt None 1) (EIdent (Some l) "zz"))) = Err (mkRawError "failed to resolve variable 'zz'" (Some l)))
    by (vm_compute; reflexivity).
  split; [exact (C82_expression_errors lm _ _ _ _ Ho E)|]. split; [exact E|]. split; [|repeat constructor; cbn; intuition discriminate].
  apply (sp_gate_operand _ None (Gate None "X" None [] []) 1 [EIdent (Some l) "zz"] [] _ (Some l)).
  - apply legal_named with (ks := []) (vs := []); [cbn; tauto|reflexivity|constructor].
  - apply (first_problem_at (fresh_analyzer lm) [] (EIdent (Some l) "zz") [] [] _ None eq_refl). apply pr_name. vm_compute. intuition discriminate.
Qed.
Print Assumptions C82_expression_errors. Print Assumptions C82_expression_problems. Print Assumptions C82_statement_errors.
Print Assumptions C82_statement_problems. Print Assumptions C82_program. Print Assumptions C82_text.
