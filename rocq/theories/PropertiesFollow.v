(** Property C116: what follows a program sees only the variables of its result. *)
From Coq Require Import SpecFloat.
From Verif Require Import Base ModelUtils ModelVersion ModelError ModelTypes ModelOverload ModelFunctions ModelInstructionSet ModelAst ModelAnalyzer ModelSemantic ModelLexer ModelSyntactic
  SpecUtils SpecError SpecTypes SpecFunctions SpecInstructions SpecAnalyzer SpecHull SpecLexer SpecSyntax SpecReading SpecMachine SpecVersion SpecEvaluate SpecMeaning SpecRelocate SpecResize SpecFollow
  ProofsFunctions ProofsAnalyzer2 ProofsReading ProofsText ProofsEvaluate ProofsMeaning2 ProofsRelocate ProofsErase ProofsFollow PropertiesAnalyzer PropertiesSyntax PropertiesHull PropertiesMachine PropertiesMeaning PropertiesResize PropertiesJoin.
Local Open Scope string_scope.

(** C116: if the results of two accepted programs have the same variables, then the same
    statements may follow both of them, and they give the same instructions and variables there. *)
Theorem C116_follow : forall lm text api st p1 p2 ss st1 st2 st3 q1 q2 q, version_text text api -> version_same api [3; 0]%Z -> default_analyzer lm text = Ok st -> machine_libm lm ->
  grammar_program p2 -> machine_program p2 -> ordered_locations p2 -> grammar_program (going_on p1 ss) -> machine_program (going_on p1 ss) -> ordered_locations (going_on p1 ss) ->
  analyze_ast st p1 = Ok (st1, mkResult (Some q1) []) -> analyze_ast st p2 = Ok (st2, mkResult (Some q2) []) -> sp_variables q1 = sp_variables q2 ->
  analyze_ast st (going_on p1 ss) = Ok (st3, mkResult (Some q) []) ->
  exists r st4, analyze_ast st (going_on p2 ss) = Ok (st4, mkResult (Some r) []) /\ continued_alike q1 q q2 r.
Proof.
  intros lm text api st p1 p2 ss st1 st2 st3 q1 q2 q V S D L G2 M2 O2 G M O A1 A2 E A. destruct (going_on_first p1 ss G M O) as (G1 & M1 & O1). destruct (going_on_demands p1 ss p2 G M O G2 M2 O2) as (G' & M' & O').
  destruct (same_sequel lm api p1 p2 ss q1 q2 q) as (r & P & C); try assumption.
  - intros q' P. apply (C90_tree lm text api st p1 q' V S D L G1 M1 O1) in P. destruct P as (st' & P). rewrite A1 in P. now injection P.
  - apply (C90_tree lm text api st p2 q2 V S D L G2 M2 O2). eauto.
  - apply (C90_tree lm text api st _ q V S D L G M O). eauto.
  - apply (C90_tree lm text api st _ r V S D L G' M' O') in P. destruct P as (st4 & P). eauto.
Qed.

(** Every beginning of an accepted program is accepted. *)
Theorem C116_beginning : forall lm text api st p ss st' q, version_text text api -> version_same api [3; 0]%Z -> default_analyzer lm text = Ok st -> machine_libm lm ->
  grammar_program (going_on p ss) -> machine_program (going_on p ss) -> ordered_locations (going_on p ss) -> analyze_ast st (going_on p ss) = Ok (st', mkResult (Some q) []) ->
  exists st1 q1, analyze_ast st p = Ok (st1, mkResult (Some q1) []).
Proof.
  intros lm text api st p ss st' q V S D L G M O A. destruct (going_on_first p ss G M O) as (G1 & M1 & O1). destruct (beginning lm api p ss q O1) as (q1 & P); [apply (C90_tree lm text api st _ q V S D L G M O); eauto|].
  apply (C90_tree lm text api st p q1 V S D L G1 M1 O1) in P. destruct P as (st1 & P). eauto.
Qed.

(** The same for texts, up to locations *)
Theorem C116_texts : forall lm text api rtl f1 f2 f3 f4 data1 data2 data3 data4 s1 s2 s3 p1 p2 p3 p4 ss q1 q2 q, version_text text api -> version_same api [3; 0]%Z -> machine_libm lm ->
  text_of data1 s1 -> utf8 s1 -> text_of data2 s2 -> utf8 s2 -> text_of data3 s3 -> utf8 s3 ->
  parse_string f1 rtl data1 = Ok (mkResult (Some p1) []) -> parse_string f2 rtl data2 = Ok (mkResult (Some p2) []) -> parse_string f3 rtl data3 = Ok (mkResult (Some p3) []) -> parse_string f4 rtl data4 = Ok (mkResult (Some p4) []) ->
  relocate_program erase p3 = going_on (relocate_program erase p1) ss -> relocate_program erase p4 = going_on (relocate_program erase p2) ss ->
  run lm rtl text data1 f1 = Ok (mkResult (Some q1) []) -> run lm rtl text data2 f2 = Ok (mkResult (Some q2) []) -> sp_variables q1 = sp_variables q2 ->
  run lm rtl text data3 f3 = Ok (mkResult (Some q) []) ->
  exists r, run lm rtl text data4 f4 = Ok (mkResult (Some r) []) /\ continued_alike (relocate_sem_program erase q1) (relocate_sem_program erase q) (relocate_sem_program erase q2) (relocate_sem_program erase r).
Proof.
  intros lm text api rtl f1 f2 f3 f4 data1 data2 data3 data4 s1 s2 s3 p1 p2 p3 p4 ss q1 q2 q V S L T1 U1 T2 U2 T3 U3 P1 P2 P3 P4 R3 R4 A1 A2 E A3. pose proof (version_text_analyzer lm text api V S) as D.
  destruct (proj1 (run_erased lm text api f1 rtl data1 p1 (relocate_sem_program erase q1) V S P1)) as (e1 & st1 & B1 & E1); [eauto|]. rewrite (erased_itself _ _ _ _ _ B1) in E1. subst e1.
  destruct (proj1 (run_erased lm text api f2 rtl data2 p2 (relocate_sem_program erase q2) V S P2)) as (e2 & st2 & B2 & E2); [eauto|]. rewrite (erased_itself _ _ _ _ _ B2) in E2. subst e2.
  destruct (proj1 (run_erased lm text api f3 rtl data3 p3 (relocate_sem_program erase q) V S P3)) as (e3 & st3 & B3 & E3); [eauto|]. rewrite (erased_itself _ _ _ _ _ B3) in E3. subst e3.
  pose proof (grammar_relocated erase p3 (parsed_grammar f3 s3 p3 (proj1 (C64_tree f3 rtl data3 s3 p3 T3 U3) P3))) as G3. pose proof (machine_relocated erase p3 (C84_parsed f3 rtl data3 s3 p3 T3 U3 P3)) as M3. pose proof (ordered_erased p3) as O3. rewrite R3 in *.
  destruct (C116_follow lm text api _ (relocate_program erase p1) (relocate_program erase p2) ss st1 st2 st3 (relocate_sem_program erase q1) (relocate_sem_program erase q2) (relocate_sem_program erase q) V S D L
    (grammar_relocated erase p2 (parsed_grammar f2 s2 p2 (proj1 (C64_tree f2 rtl data2 s2 p2 T2 U2) P2))) (machine_relocated erase p2 (C84_parsed f2 rtl data2 s2 p2 T2 U2 P2)) (ordered_erased p2) G3 M3 O3 B1 B2) as (r & st4 & B4 & C); [cbn; now rewrite E|exact B3|].
  rewrite <- R4 in B4. destruct (proj2 (run_erased lm text api f4 rtl data4 p4 (relocate_sem_program erase r) V S P4)) as (r4 & A4 & E4); [eauto|]. exists r4. split; [exact A4|]. rewrite E4, (erased_itself _ _ _ _ _ B4). exact C.
Qed.

(** Two spellings of the same variables, with different instructions, and what follows *)
Definition text_first : string := "version 3.0; qubit[2] q; H q; bit[1] b".
Definition text_other : string := "version 3; qubit[2] q; bit[1] b; CNOT q[0], q[1]; asm(A) ''' x '''".
Definition text_first_on : string := "version 3.0; qubit[2] q; H q; bit[1] b; b = measure q[1]; qubit r; CNOT r, q[0]".
Definition text_other_on : string := "version 3; qubit[2] q; bit[1] b; CNOT q[0], q[1]; asm(A) ''' x '''; b = measure q[1]; qubit r; CNOT r, q[0]".
Definition shown_names (q : sem_program) : list string := map (fun s => match s with SemGateInstr _ _ g _ _ => sem_gate_name g | SemNonGate _ _ n _ _ _ => n | SemAsm _ n _ _ => n end) (blk_statements (sp_block q)).
Lemma trees_case f t1 t2 t3 t4 (P : program -> program -> program -> program -> Prop) :
  match parse_string f false t1, parse_string f false t2, parse_string f false t3, parse_string f false t4 with
  | Ok (mkResult (Some p1) []), Ok (mkResult (Some p2) []), Ok (mkResult (Some p3) []), Ok (mkResult (Some p4) []) => P p1 p2 p3 p4
  | _, _, _, _ => False
  end -> exists p1 p2 p3 p4, parse_string f false t1 = Ok (mkResult (Some p1) []) /\ parse_string f false t2 = Ok (mkResult (Some p2) []) /\
    parse_string f false t3 = Ok (mkResult (Some p3) []) /\ parse_string f false t4 = Ok (mkResult (Some p4) []) /\ P p1 p2 p3 p4.
Proof.
  destruct (parse_string f false t1) as [[[p1|] [|]]| | |], (parse_string f false t2) as [[[p2|] [|]]| | |], (parse_string f false t3) as [[[p3|] [|]]| | |], (parse_string f false t4) as [[[p4|] [|]]| | |]; try contradiction. eauto 10.
Qed.
Example C116_case : machine_libm same_libm /\ (text_of text_first text_first /\ utf8 text_first) /\ (text_of text_other text_other /\ utf8 text_other) /\ (text_of text_first_on text_first_on /\ utf8 text_first_on) /\
  exists p1 p2 p3 p4 ss, parse_string None false text_first = Ok (mkResult (Some p1) []) /\ parse_string None false text_other = Ok (mkResult (Some p2) []) /\
    parse_string None false text_first_on = Ok (mkResult (Some p3) []) /\ parse_string None false text_other_on = Ok (mkResult (Some p4) []) /\
    relocate_program erase p3 = going_on (relocate_program erase p1) ss /\ relocate_program erase p4 = going_on (relocate_program erase p2) ss /\
    exists q1 q2 q r st1 st2 st3 st4, analyze_ast (fresh_analyzer same_libm) p1 = Ok (st1, mkResult (Some q1) []) /\ analyze_ast (fresh_analyzer same_libm) p2 = Ok (st2, mkResult (Some q2) []) /\ sp_variables q1 = sp_variables q2 /\
      analyze_ast (fresh_analyzer same_libm) p3 = Ok (st3, mkResult (Some q) []) /\ analyze_ast (fresh_analyzer same_libm) p4 = Ok (st4, mkResult (Some r) []) /\
      shown_names q = ["H"; "measure"; "CNOT"] /\ shown_names r = ["CNOT"; "A"; "measure"; "CNOT"].
Proof.
  split; [split; [auto|]; repeat (apply Forall_cons; [auto|]); apply Forall_nil|].
  split; [split; [text_case|utf8_case]|]. split; [split; [text_case|utf8_case]|]. split; [split; [text_case|utf8_case]|].
  destruct (trees_case None text_first text_other text_first_on text_other_on (fun p1 p2 p3 p4 =>
      let ss := skipn 3 (prog_statements (relocate_program erase p3)) in
      relocate_program erase p3 = going_on (relocate_program erase p1) ss /\ relocate_program erase p4 = going_on (relocate_program erase p2) ss /\
      match analyze_ast (fresh_analyzer same_libm) p1 with Ok (_, mkResult (Some q1) []) => match analyze_ast (fresh_analyzer same_libm) p2 with Ok (_, mkResult (Some q2) []) =>
      match analyze_ast (fresh_analyzer same_libm) p3 with Ok (_, mkResult (Some q) []) => match analyze_ast (fresh_analyzer same_libm) p4 with Ok (_, mkResult (Some r) []) =>
        sp_variables q1 = sp_variables q2 /\ shown_names q = ["H"; "measure"; "CNOT"] /\ shown_names r = ["CNOT"; "A"; "measure"; "CNOT"]
      | _ => False end | _ => False end | _ => False end | _ => False end)) as (p1 & p2 & p3 & p4 & E1 & E2 & E3 & E4 & H).
  { vm_compute. repeat split; reflexivity. }
  cbn zeta in H. destruct H as (H1 & H2 & H3). exists p1, p2, p3, p4, (skipn 3 (prog_statements (relocate_program erase p3))). split; [exact E1|]. split; [exact E2|]. split; [exact E3|]. split; [exact E4|]. split; [exact H1|]. split; [exact H2|]. clear E1 E2 E3 E4 H1 H2.
  destruct (analyze_ast (fresh_analyzer same_libm) p1) as [[st1 [[q1|] [|]]]| | |]; try contradiction. destruct (analyze_ast (fresh_analyzer same_libm) p2) as [[st2 [[q2|] [|]]]| | |]; try contradiction.
  destruct (analyze_ast (fresh_analyzer same_libm) p3) as [[st3 [[q|] [|]]]| | |]; try contradiction. destruct (analyze_ast (fresh_analyzer same_libm) p4) as [[st4 [[r|] [|]]]| | |]; try contradiction.
  exists q1, q2, q, r, st1, st2, st3, st4. tauto.
Qed.
Print Assumptions C116_follow. Print Assumptions C116_beginning. Print Assumptions C116_texts.
