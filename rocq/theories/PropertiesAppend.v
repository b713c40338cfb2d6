(** Property C88: writing text behind a program. *)
From Verif Require Import Base ModelUtils ModelVersion ModelError ModelTypes ModelFunctions ModelAst ModelLexer ModelParser ModelAnalyzer ModelSemantic ModelSyntactic
  SpecUtils SpecLexer SpecSyntax SpecReading SpecAnalyzer SpecRelocate SpecAppend ProofsAnalyzer7 ProofsAppend PropertiesAnalyzer PropertiesSyntax.
Local Open Scope string_scope.

(** The program with the text [t] behind it has the statements of both, those of
    [t] as many lines further down as the program is long; *)
Theorem C88_programs : forall file rtl d t p1 p2,
  parse_string file rtl d = Ok (mkResult (Some p1) []) -> parse_string file rtl (as_program t) = Ok (mkResult (Some p2) []) ->
  parse_string file rtl (on_new_line d t) = Ok (mkResult (Some (append_programs p1 (relocate_program (lines_down (line_feeds d)) p2))) []).
Proof. intros file rtl d t p1 p2 P1 P2. pose proof (join_parse file rtl d t p1 P1) as J. cbv zeta in J. rewrite P2 in J. exact J. Qed.
(** ... if [t] is wrong the error is reported, as many lines further down; *)
Theorem C88_errors : forall file rtl d t p1 e,
  parse_string file rtl d = Ok (mkResult (Some p1) []) -> parse_string file rtl (as_program t) = Ok (mkResult None [e]) ->
  exists e', parse_string file rtl (on_new_line d t) = Ok (mkResult None [e']) /\ location e' = lines_down (line_feeds d) (location e).
Proof. intros file rtl d t p1 e P1 P2. pose proof (join_parse file rtl d t p1 P1) as J. cbv zeta in J. rewrite P2 in J. exact J. Qed.
(** ... if it cannot be decoded neither can both. *)
Theorem C88_throws : forall file rtl d t p1 w,
  parse_string file rtl d = Ok (mkResult (Some p1) []) -> parse_string file rtl (as_program t) = Throw w -> parse_string file rtl (on_new_line d t) = Throw w.
Proof. intros file rtl d t p1 e P1 P2. pose proof (join_parse file rtl d t p1 P1) as J. cbv zeta in J. rewrite P2 in J. exact J. Qed.
(** The text behind changes nothing in the analysis of the program before it. *)
Theorem C88_analysis : forall lm rtl api file d t p1 p2 r1 r,
  parse_string file rtl d = Ok (mkResult (Some p1) []) -> parse_string file rtl (as_program t) = Ok (mkResult (Some p2) []) ->
  run lm rtl api d file = Ok r1 -> run lm rtl api (on_new_line d t) file = Ok r ->
  exists sp1 sp, res_root r1 = Some sp1 /\ res_root r = Some sp /\ prefix_of (sp_variables sp1) (sp_variables sp) /\
    prefix_of (blk_statements (sp_block sp1)) (blk_statements (sp_block sp)) /\ prefix_of (res_errors r1) (res_errors r).
Proof.
  intros lm rtl api file d t p1 p2 r1 r P1 P2. pose proof (C88_programs file rtl d t p1 p2 P1 P2) as J. unfold run, analyze_string.
  destruct (default_analyzer lm api) as [st| | |]; cbn [bind]; try discriminate. rewrite P1, J. cbn [bind]. unfold analyze. cbn [res_errors res_root].
  destruct (analyze_ast st p1) as [[st1 q1]| | |] eqn:A1; cbn [bind]; try discriminate. intros [= <-].
  destruct (analyze_ast st (append_programs p1 _)) as [[st2 q2]| | |] eqn:A2; cbn [bind]; try discriminate. intros [= <-]. exact (appended _ _ _ _ _ _ _ A1 A2).
Qed.
Definition text_two_lines : string := "version 3.0" ++ LF ++ "qubit[2] q // " ++ byte_order_mark.
Definition text_more : string := "H q[0]" ++ LF ++ "X q[9]".
Definition text_faulty : string := "H q[0]" ++ LF ++ "X ]".
Example C88_case : forall lm,
  (exists p1 p2, parse_string None false text_two_lines = Ok (mkResult (Some p1) []) /\ parse_string None false (as_program text_more) = Ok (mkResult (Some p2) []) /\
    List.length (prog_statements p1) = 1%nat /\ List.length (prog_statements p2) = 2%nat) /\
  (exists r1 r, run lm false "3.0" text_two_lines None = Ok r1 /\ run lm false "3.0" (on_new_line text_two_lines text_more) None = Ok r /\ res_errors r1 = [] /\ List.length (res_errors r) = 1%nat) /\
  (exists e, parse_string None false (as_program text_faulty) = Ok (mkResult None [e]) /\ option_map (fun l => first (loc_range l)) (location e) = Some (mkIndex 3 3) /\
    option_map (fun l => first (loc_range l)) (lines_down (line_feeds text_two_lines) (location e)) = Some (mkIndex 4 3)) /\
  exists w, parse_string None false (as_program (String (ascii_of_N 255) "")) = Throw w.
Proof.
  intros lm. split; [do 2 eexists; split; [vm_compute; reflexivity|]; split; [vm_compute; reflexivity|]; split; reflexivity|]. split; [|split].
  - destruct (run lm false "3.0" text_two_lines None) as [r1| | |] eqn:E1; [|vm_compute in E1; discriminate E1..].
    destruct (run lm false "3.0" (on_new_line text_two_lines text_more) None) as [r| | |] eqn:E2; [|vm_compute in E2; discriminate E2..].
    exists r1, r. split; [reflexivity|]. split; [reflexivity|]. split.
    + vm_compute in E1. injection E1 as <-. reflexivity.
    + vm_compute in E2. injection E2 as <-. reflexivity.
  - eexists. split; [vm_compute; reflexivity|]. split; reflexivity.
  - eexists. vm_compute. reflexivity.
Qed.
Print Assumptions C88_programs. Print Assumptions C88_errors. Print Assumptions C88_throws. Print Assumptions C88_analysis.
