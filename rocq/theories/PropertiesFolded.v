(** Property C85: a result can be written as a program. *)
From Coq Require Import SpecFloat.
From Verif Require Import Base ModelUtils ModelVersion ModelError ModelTypes ModelOverload ModelFunctions ModelInstructionSet ModelAst ModelAnalyzer ModelSemantic ModelLexer ModelSyntactic
  SpecUtils SpecError SpecTypes SpecFunctions SpecAnalyzer SpecRelocate SpecLexer SpecSyntax SpecReading SpecPrint SpecMachine SpecFolded
  ProofsAnalyzer2 ProofsAnalyzer3 ProofsRelocate ProofsFileName ProofsMachine2 ProofsFolded ProofsFolded2 PropertiesAnalyzer PropertiesSyntax PropertiesLayout PropertiesPrint PropertiesMachine.
Local Open Scope string_scope.

(** C85: if a program is analysed without errors, then the program that declares the
    variables of the result and lists its instructions, with literals for all values,
    has the same result. *)
Theorem C85_written : forall lm api st p st' q, machine_libm lm -> default_analyzer lm api = Ok st -> Forall plain (prog_statements p) -> machine_program p ->
  analyze_ast st p = Ok (st', mkResult (Some q) []) -> analyze_ast st (write_result q) = Ok (st', mkResult (Some q) []).
Proof. exact analyze_written. Qed.
(** That program can be written as a text, with all parentheses or with as few as
    possible; the text has the same result except for the locations. *)
Theorem C85_text : forall lm rtl api data file s q, machine_libm lm -> text_of data s -> utf8 s -> run lm rtl api data file = Ok (mkResult (Some q) []) ->
  writable_program (write_result q) /\
  forall everywhere file', analysed_as (run lm rtl api (print_program everywhere (write_result q)) file') = analysed_as (Ok (mkResult (Some q) [])).
Proof.
  intros lm rtl api data file s q Hlm T U R. unfold run in R. destruct (default_analyzer lm api) as [st| | |] eqn:D; try discriminate. cbn [bind] in R. unfold analyze_string in R.
  destruct (parse_string file rtl data) as [r|e|w|k] eqn:Pr; cbn [bind] in R; try discriminate. unfold analyze in R.
  destruct r as [[p|] [|e es]]; cbn [res_errors res_root] in R; try discriminate.
  destruct (analyze_ast st p) as [[st1 r1]| | |] eqn:A; try discriminate R. cbn [bind snd] in R. injection R as ->.
  pose proof (C50_parsed_writable file rtl data s p T U Pr) as W. pose proof (result_writable lm api st p st1 q Hlm D W A) as Wq. split; [exact Wq|]. intros everywhere file'.
  assert (Pl : Forall plain (prog_statements p)) by (destruct W; cbn [prog_statements]; eapply Forall_impl; try eassumption; intros; now apply writable_plain).
  pose proof (analyze_written lm api st p st1 q Hlm D Pl (machine_writable_program p W) A) as Aq.
  destruct (C50_every_program everywhere (write_result q) file' rtl Wq) as (p' & E & Rp). unfold run. rewrite D. cbn [bind]. unfold analyze_string. rewrite E. cbn [bind].
  destruct (default_analyzer_inv lm api st D) as (v & _ & _ & ->). pose proof (default_ordinary_any lm v 0) as O.
  pose proof (rel_analyze erase erase_compatible lm _ (mkResult (Some p') []) O) as A1. pose proof (rel_analyze erase erase_compatible lm _ (mkResult (Some (write_result q)) []) O) as A2.
  unfold relocate_result in A1 at 1, A2 at 1. cbn [res_root res_errors option_map map] in A1, A2. rewrite Rp, A2 in A1. unfold analyze at 1 in A1. cbn [res_errors res_root] in A1. rewrite Aq in A1.
  pose proof (analyze_not_err (mkAnalyzer v [ProofsFunctions.default_scope lm] 0) (mkResult (Some p') [])) as N1. unfold analysed_as.
  destruct (analyze _ (mkResult (Some p') [])) as [x1|e1| |]; cbn [omap bind map_outcome] in *; try congruence; try (now destruct (N1 e1)).
  injection A1 as _ A1. unfold relocate_analysis in A1. f_equal. destruct x1. cbn [snd] in *. unfold relocate_result. now f_equal.
Qed.

(** A declaration after an instruction, a range, a folded expression *)
Definition text_folded : string := "version 3; qubit[4] q; X q[1:2]; bit b; CRk(1 - 2 * 2) q[0], q[3]; b = measure q[1 + 2]".
Example C85_case : machine_libm same_libm /\ text_of text_folded text_folded /\ utf8 text_folded /\
  exists q, run same_libm false "3.0" text_folded None = Ok (mkResult (Some q) []) /\
    print_program false (write_result q) = "version 3 ; qubit [ 4 ] q ; bit b ; X q [ 1 , 2 ] ; CRk ( - 3 ) q [ 0 ] , q [ 3 ] ; b = measure q [ 3 ]".
Proof.
  split; [split; [auto|]; repeat (apply Forall_cons; [auto|]); apply Forall_nil|]. split; [text_case|]. split; [utf8_case|].
  assert (H : match run same_libm false "3.0" text_folded None with Ok (mkResult (Some q) []) =>
    print_program false (write_result q) = "version 3 ; qubit [ 4 ] q ; bit b ; X q [ 1 , 2 ] ; CRk ( - 3 ) q [ 0 ] , q [ 3 ] ; b = measure q [ 3 ]" | _ => False end) by (vm_compute; reflexivity).
  destruct (run same_libm false "3.0" text_folded None) as [[[q|] [|]]| | |]; try contradiction. exists q. now split.
Qed.
(** An infinite angle, a negative zero, the smallest integer and an angle that is not a number *)
Definition text_special : string :=
  "version 3.0; qubit[2] q; Rx(-1.0e308 * 10) q; Rx(0 * -1.0) q; CRk(-9223372036854775807 - 1) q[0], q[1]; Ry(1.0e308 * 10 * 0) q".
Example C85_special : text_of text_special text_special /\ utf8 text_special /\
  exists q, run same_libm false "3.0" text_special None = Ok (mkResult (Some q) []) /\
    flat_map (fun s => match s with SGateInstr _ (Gate _ _ _ ps _) _ _ => ps | _ => [] end) (prog_statements (write_result q)) =
      [EUnary None UMinus write_infinity; EUnary None UMinus (EFloat None (S754_zero false));
       EBinary None BSub (EUnary None UMinus (EInt None (2 ^ 63 - 1))) (EInt None 1); EBinary None BSub write_infinity write_infinity].
Proof.
  split; [text_case|]. split; [utf8_case|].
  assert (H : match run same_libm false "3.0" text_special None with Ok (mkResult (Some q) []) =>
    flat_map (fun s => match s with SGateInstr _ (Gate _ _ _ ps _) _ _ => ps | _ => [] end) (prog_statements (write_result q)) =
      [EUnary None UMinus write_infinity; EUnary None UMinus (EFloat None (S754_zero false));
       EBinary None BSub (EUnary None UMinus (EInt None (2 ^ 63 - 1))) (EInt None 1); EBinary None BSub write_infinity write_infinity] | _ => False end) by (vm_compute; reflexivity).
  destruct (run same_libm false "3.0" text_special None) as [[[q|] [|]]| | |]; try contradiction. exists q. now split.
Qed.
Print Assumptions C85_written. Print Assumptions C85_text.
