(** Property C81: the locations of the operands and parameters in a result. *)
From Verif Require Import Base ModelUtils ModelVersion ModelError ModelTypes ModelOverload ModelFunctions ModelInstructionSet ModelAst ModelAnalyzer ModelSemantic ModelLocated ModelLexer ModelSyntactic
  SpecUtils SpecInstructions SpecAnalyzer SpecLocated SpecLexer SpecSyntax SpecReading SpecSites ProofsAnalyzer2 ProofsLocated ProofsLocated2 ProofsLocated3 PropertiesAnalyzer PropertiesSyntax.
Local Open Scope string_scope.

(** The analysis with locations is the analysis of ModelSemantic.v. *)
Theorem C81_same_analysis : forall keep st p, analyze_ast st p = map_outcome fst (lanalyze_ast keep st p).
Proof. exact erase_analyze. Qed.
(** C81: the statements that an analysis adds to the block come from statements of
    the program, and every operand, parameter and index has the location of the
    expression, item or range it comes from. *)
Theorem C81_locations : forall keep lm st p st' r ls q, ordinary lm st -> lanalyze_ast keep st p = Ok (st', r, ls) -> res_root r = Some q ->
  blk_statements (sp_block q) = (statements_of st ++ map erase_statement ls)%list /\ some_of (prog_statements p) ls.
Proof. exact analyze_of. Qed.
(** From a text, every operand and every parameter has a location in that text. *)
Theorem C81_in_text : forall keep lm file rtl data s st p st' r ls, ordinary lm st -> text_of data s -> utf8 s ->
  parse_string file rtl data = Ok (mkResult (Some p) []) -> lanalyze_ast keep st p = Ok (st', r, ls) ->
  Forall (fun x => Forall (fun v => exists l, lv_loc v = Some l /\ in_text file s l) (statement_values x)) ls.
Proof. exact values_in_text. Qed.

(** The parameter 1 of Rx is promoted to a double, the parameter of pow is folded,
    the operand p is an error. *)
Definition text_located : string := "version 3.0; qubit[3] q; pow(1+1).Rx(1) q[0:1]; H p; CNOT q[0], q[2]".
Definition where_is (v : lvalue) : option (N * N) := match lv_loc v with Some l => Some (column (first (loc_range l)), column (last (loc_range l))) | None => None end.
Lemma lok_case {A B C} (o : outcome error (A * B * C)) (Q : A -> B -> C -> Prop) :
  match o with Ok (a, b, c) => Q a b c | _ => False end -> exists a b c, o = Ok (a, b, c) /\ Q a b c.
Proof. destruct o as [[[a b] c]| | |]; try contradiction. eauto 6. Qed.
Example C81_case : forall lm keep, ordinary lm (fresh_analyzer lm) /\ text_of text_located text_located /\ utf8 text_located /\
  exists p st r ls, parse_string (Some "f") false text_located = Ok (mkResult (Some p) []) /\ lanalyze_ast keep (fresh_analyzer lm) p = Ok (st, r, ls) /\
    map (fun x => map where_is (statement_values x)) ls = [[Some (41, 42); Some (31, 32); Some (38, 39)]; [Some (59, 60); Some (65, 66)]]%N /\
    exists q, res_root r = Some q /\ List.length (res_errors r) = 1%nat.
Proof.
  intros lm keep. split; [apply analyses_ordinary, an_default, fresh_is_default|]. split; [text_case|]. split; [utf8_case|].
  destruct (tree_case (Some "f") text_located (fun p => match lanalyze_ast keep (fresh_analyzer lm) p with Ok (st, r, ls) =>
    map (fun x => map where_is (statement_values x)) ls = [[Some (41, 42); Some (31, 32); Some (38, 39)]; [Some (59, 60); Some (65, 66)]]%N /\
    match res_root r with Some q => List.length (res_errors r) = 1%nat | None => False end | _ => False end)) as (p & P & H).
  - destruct keep; vm_compute; split; reflexivity.
  - destruct (lanalyze_ast keep (fresh_analyzer lm) p) as [[[st r] ls]| | |] eqn:A; try contradiction. exists p, st, r, ls. split; [exact P|]. split; [exact A|]. destruct H as [H1 H2]. split; [exact H1|].
    destruct (res_root r) as [q|]; [|contradiction]. eauto.
Qed.
Print Assumptions C81_same_analysis. Print Assumptions C81_locations. Print Assumptions C81_in_text.
