(** Property C109: a single qubit or bit is a register of one. *)
From Coq Require Import SpecFloat.
From Verif Require Import Base ModelUtils ModelVersion ModelError ModelTypes ModelOverload ModelFunctions ModelInstructionSet ModelAst ModelAnalyzer ModelSemantic ModelLexer ModelSyntactic
  SpecUtils SpecError SpecTypes SpecFunctions SpecInstructions SpecAnalyzer SpecHull SpecLexer SpecSyntax SpecReading SpecMachine SpecVersion SpecEvaluate SpecMeaning SpecRelocate SpecResize SpecSingle
  ProofsFunctions ProofsAnalyzer2 ProofsReading ProofsText ProofsEvaluate ProofsMeaning2 ProofsRelocate ProofsErase ProofsSingle PropertiesAnalyzer PropertiesSyntax PropertiesHull PropertiesMachine PropertiesMeaning PropertiesResize.
Local Open Scope string_scope.

(** C109: qubits and bits that are used without indices may be declared as registers of
    size 1 instead: the one program is accepted if and only if the other is, and the
    results are the same but for the types of these variables. *)
Theorem C109_single : forall lm text api st p q' single, version_text text api -> version_same api [3; 0]%Z -> default_analyzer lm text = Ok st -> machine_libm lm ->
  grammar_program p -> machine_program p -> ordered_locations p -> used_whole single p ->
  (exists st', analyze_ast st (widen_program single p) = Ok (st', mkResult (Some q') [])) <->
  (exists q st', analyze_ast st p = Ok (st', mkResult (Some q) []) /\ q' = widen_result single q).
Proof.
  intros lm text api st p q' single V S D L G M O U.
  rewrite (C90_tree lm text api st _ q' V S D L (grammar_widened single p G) (machine_widened single p M) (ordered_widened single p O)), (widened_program lm single api p U). split.
  - intros (q & P & E). apply (C90_tree lm text api st p q V S D L G M O) in P. destruct P as (st' & A). eauto.
  - intros (q & st' & A & E). exists q. split; [|exact E]. apply (C90_tree lm text api st p q V S D L G M O). eauto.
Qed.

(** The same for texts *)
Theorem C109_texts : forall lm text api f1 f2 rtl data1 data2 s1 p1 p2 b single, version_text text api -> version_same api [3; 0]%Z -> machine_libm lm -> text_of data1 s1 -> utf8 s1 ->
  parse_string f1 rtl data1 = Ok (mkResult (Some p1) []) -> parse_string f2 rtl data2 = Ok (mkResult (Some p2) []) ->
  relocate_program erase p2 = widen_program single (relocate_program erase p1) -> used_whole single p1 ->
  (exists q, run lm rtl text data2 f2 = Ok (mkResult (Some q) []) /\ relocate_sem_program erase q = b) <->
  (exists q, run lm rtl text data1 f1 = Ok (mkResult (Some q) []) /\ widen_result single (relocate_sem_program erase q) = b).
Proof.
  intros lm text api f1 f2 rtl data1 data2 s1 p1 p2 b single V S L T U P1 P2 R Us. pose proof (version_text_analyzer lm text api V S) as D.
  assert (Us' : used_whole single (relocate_program erase p1)).
  { intros s l l' n es Hs He. cbn [relocate_program prog_statements] in Hs. apply in_map_iff in Hs. destruct Hs as (s0 & <- & H0).
    assert (X : In (EIndex l (EIdent l' n) es) (map (relocate_expr erase) (operands_of s0))) by (destruct s0; exact He). apply in_map_iff in X. destruct X as (e & X & He').
    destruct e as [| | | |? b0 es0| | | |]; try discriminate X. rewrite relocate_index in X. injection X as _ X _. destruct b0; try discriminate X. injection X as _ ->. exact (Us _ _ _ _ _ H0 He'). }
  assert (K : forall q, _) by (intros q; exact (C109_single lm text api _ (relocate_program erase p1) q single V S D L (grammar_relocated erase p1 (parsed_grammar f1 s1 p1 (proj1 (C64_tree f1 rtl data1 s1 p1 T U) P1))) (machine_relocated erase p1 (C84_parsed f1 rtl data1 s1 p1 T U P1)) (ordered_erased p1) Us')).
  rewrite (run_erased lm text api f2 rtl data2 p2 b V S P2), R.
  assert (J : forall q, relocate_sem_program erase (widen_result single q) = widen_result single (relocate_sem_program erase q)).
  { intros q. unfold widen_result, relocate_sem_program, relocate_block. cbn [sp_api_version sp_version sp_version_loc sp_block sp_variables blk_statements blk_loc]. f_equal; [f_equal|]; rewrite !map_map; apply map_ext; intros []; reflexivity. }
  split.
  - intros (q & st' & A & E). destruct (proj1 (K q)) as (q1 & st1 & A1 & ->); [eauto|]. rewrite J in E.
    destruct (proj2 (run_erased lm text api f1 rtl data1 p1 (relocate_sem_program erase q1) V S P1)) as (q2 & A2 & E2); [eauto|]. exists q2. split; [exact A2|congruence].
  - intros (q & A & E). destruct (proj1 (run_erased lm text api f1 rtl data1 p1 (relocate_sem_program erase q) V S P1)) as (q2 & st2 & A2 & E2); [eauto|].
    destruct (proj2 (K (widen_result single q2))) as (st3 & A3); [eauto|]. exists (widen_result single q2), st3. split; [exact A3|]. rewrite J. congruence.
Qed.

(** The qubit q and the bit b become registers, the qubit r stays one. *)
Definition text_single : string := "version 3.0; qubit q; bit b; qubit r; qubit[2] t; H q; CNOT q, r; CNOT q, t[1]; b = measure q".
Definition text_widened : string := "version 3.0; qubit[1] q; bit[1] b; qubit r; qubit[2] t; H q; CNOT q, r; CNOT q, t[1]; b = measure q".
Definition widened_names (n : string) : bool := (n =? "q") || (n =? "b").
Example C109_case : machine_libm same_libm /\ text_of text_single text_single /\ utf8 text_single /\
  exists p1, parse_string None false text_single = Ok (mkResult (Some p1) []) /\ grammar_program p1 /\ machine_program p1 /\ ordered_locations p1 /\ used_whole widened_names p1 /\
    (exists p2, parse_string None false text_widened = Ok (mkResult (Some p2) []) /\ relocate_program erase p2 = widen_program widened_names (relocate_program erase p1)) /\
    (exists st' q, analyze_ast (fresh_analyzer same_libm) p1 = Ok (st', mkResult (Some q) []) /\
      map (fun x => (var_name (sv_var x), kind (var_type (sv_var x)), tsize (var_type (sv_var x)))) (sp_variables (widen_result widened_names q)) =
        [("q", TQubitArray, 1%Z); ("b", TBitArray, 1%Z); ("r", TQubit, 1%Z); ("t", TQubitArray, 2%Z)]).
Proof.
  split; [split; [auto|]; repeat (apply Forall_cons; [auto|]); apply Forall_nil|].
  assert (T : text_of text_single text_single) by text_case. assert (U : utf8 text_single) by utf8_case. split; [exact T|]. split; [exact U|].
  destruct (tree_case None text_single (fun p => (forall s l l' n es, In s (prog_statements p) -> In (EIndex l (EIdent l' n) es) (operands_of s) -> widened_names n = false) /\
      match parse_string None false text_widened with Ok (mkResult (Some p2) []) => relocate_program erase p2 = widen_program widened_names (relocate_program erase p) | _ => False end /\
      match analyze_ast (fresh_analyzer same_libm) p with Ok (_, mkResult (Some q) []) =>
        map (fun x => (var_name (sv_var x), kind (var_type (sv_var x)), tsize (var_type (sv_var x)))) (sp_variables (widen_result widened_names q)) =
          [("q", TQubitArray, 1%Z); ("b", TBitArray, 1%Z); ("r", TQubit, 1%Z); ("t", TQubitArray, 2%Z)] | _ => False end)) as (p & E & H1 & H2 & H3).
  { vm_compute. split; [|split; reflexivity].
    intros s l l' n es Hs He. repeat (destruct Hs as [<-|Hs]; [repeat (destruct He as [He|He]; [first [discriminate He|injection He as _ _ <- _; reflexivity]|]); destruct He|]). destruct Hs. }
  exists p. split; [exact E|]. split; [eapply parsed_grammar, (C64_tree None false _ _ p T U), E|]. split; [exact (C84_parsed None false _ _ p T U E)|]. split; [exact (C80_parsed None false _ _ p T U E)|].
  split; [exact H1|]. clear E. split.
  - clear H3. destruct (parse_string None false text_widened) as [[[p2|] [|]]| | |]; try contradiction. eauto.
  - clear H2. destruct (analyze_ast (fresh_analyzer same_libm) p) as [[st' [[q|] [|]]]| | |]; try contradiction. exists st', q. split; [reflexivity|exact H3].
Qed.
Print Assumptions C109_single. Print Assumptions C109_texts.
