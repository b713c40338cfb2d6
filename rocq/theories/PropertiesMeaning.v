(** Property C90: the meaning of programs. *)
From Coq Require Import SpecFloat.
From Verif Require Import Base ModelUtils ModelVersion ModelError ModelTypes ModelOverload ModelFunctions ModelInstructionSet ModelAst ModelAnalyzer ModelSemantic ModelLexer ModelSyntactic
  SpecUtils SpecError SpecTypes SpecFunctions SpecInstructions SpecAnalyzer SpecHull SpecLexer SpecSyntax SpecReading SpecMachine SpecVersion SpecEvaluate SpecMeaning
  ProofsFunctions ProofsAnalyzer2 ProofsReading ProofsText ProofsEvaluate ProofsMeaning2 PropertiesAnalyzer PropertiesSyntax PropertiesHull PropertiesMachine.
Local Open Scope string_scope.

(** C90: the analysis of a tree returns a result without errors exactly if the rules of
    SpecMeaning give the tree a meaning, and the result is that meaning. *)
Theorem C90_tree : forall lm text api st p q, version_text text api -> version_same api [3; 0]%Z -> default_analyzer lm text = Ok st -> machine_libm lm ->
  grammar_program p -> machine_program p -> ordered_locations p ->
  ((exists st', analyze_ast st p = Ok (st', mkResult (Some q) [])) <-> program_means lm api p q).
Proof. exact program_meaning. Qed.
(** A tree has at most one meaning. *)
Theorem C90_one_meaning : forall lm api p q q', version_same api [3; 0]%Z -> machine_libm lm ->
  grammar_program p -> machine_program p -> ordered_locations p -> program_means lm api p q -> program_means lm api p q' -> q = q'.
Proof. exact one_meaning. Qed.
(** From the text to the result: which texts are accepted, and with which result. *)
Theorem C90_text : forall lm text api file rtl data s q, version_text text api -> version_same api [3; 0]%Z -> machine_libm lm -> text_of data s -> utf8 s ->
  (run lm rtl text data file = Ok (mkResult (Some q) []) <-> exists p, text_means file s p /\ program_means lm api p q).
Proof.
  intros lm text api file rtl data s q V S L T U. pose proof (version_text_analyzer lm text api V S) as D.
  assert (K : forall p, parse_string file rtl data = Ok (mkResult (Some p) []) ->
    ((exists st', analyze_ast (mkAnalyzer api [default_scope lm] 0) p = Ok (st', mkResult (Some q) [])) <-> program_means lm api p q)).
  { intros p E. apply (C90_tree lm text api _ p q V S D L); [eapply parsed_grammar, (C64_tree file rtl data s p T U), E|exact (C84_parsed file rtl data s p T U E)|exact (C80_parsed file rtl data s p T U E)]. }
  unfold run, analyze_string. rewrite D. cbn [bind]. split.
  - intros E. destruct (parse_outcome file rtl data s T U) as (r & P & _). rewrite P in E. cbn [bind] in E.
    destruct r as [root es]. unfold analyze in E. cbn [res_errors res_root] in E. destruct es as [|e es]; [|discriminate]. destruct root as [p|]; [|discriminate].
    exists p. split; [now apply (C64_tree file rtl data s p T U)|]. apply (K p P). destruct (analyze_ast _ p) as [[st' r]| | |]; try discriminate. injection E as ->. eauto.
  - intros (p & M & H). apply (C64_tree file rtl data s p T U) in M. rewrite M. cbn [bind]. unfold analyze. cbn [res_errors res_root].
    apply (K p M) in H. destruct H as [st' ->]. reflexivity.
Qed.

Lemma run_case lm data (Q : sem_program -> Prop) : match run lm false "3" data None with Ok (mkResult (Some q) []) => Q q | _ => False end ->
  exists q, run lm false "3" data None = Ok (mkResult (Some q) []) /\ Q q.
Proof. destruct (run lm false "3" data None) as [[[q|] [|]]| | |]; try contradiction. eauto. Qed.
(** Modifiers, an angle computed from an integer, ranges, a measurement of elements, a
    parameter of a non-gate, assembly; and two texts without meaning: an index out of
    range, and a variable used before its declaration *)
Definition text_meaning : string :=
  "version 3; bit[2] b; qubit[4] q; ctrl.pow(1 + 1).Rx(true) q[0], q[3]; CNOT q[0:1], q[true + 1, 3]; b[0, 1] = measure q[2:3]; wait(3 / 2) q; asm(x) '''a'''".
Definition text_no_meaning : string := "version 3; qubit[4] q; X q[2:4]".
Definition text_no_meaning2 : string := "version 3; X q; qubit[4] q".
Example C90_case : version_text "3" [3]%Z /\ version_same [3]%Z [3; 0]%Z /\ machine_libm same_libm /\
  (text_of text_meaning text_meaning /\ utf8 text_meaning) /\
  (exists p q, text_means None text_meaning p /\ program_means same_libm [3]%Z p q /\
     exists b r one two l1 l2 l3 l4 l5 l6, sp_variables q = [mkSemVariable b []; mkSemVariable r []] /\
       b = mkVariable 0 "b" (mkType TBitArray 2) /\ r = mkVariable 1 "q" (mkType TQubitArray 4) /\
       as_double (QBool true) one /\ as_double (QInt 2) two /\
       blk_statements (sp_block q) =
         [ SemGateInstr l1 (mkInstruction "2q_Rx" [mkType TQubit 0; mkType TQubit 0])
             (SemGate l1 "ctrl" (Some (SemGate l2 "pow" (Some (SemGate l3 "Rx" None [VFloat one] [])) [VFloat two] [])) [] [])
             [VIndex r [0%Z]; VIndex r [3%Z]] [];
           SemGateInstr l4 (mkInstruction "CNOT" [mkType TQubitArray 0; mkType TQubitArray 0]) (SemGate l4 "CNOT" None [] []) [VIndex r [0; 1]%Z; VIndex r [2; 3]%Z] [];
           SemNonGate l5 (mkInstruction "measure" [mkType TBitArray 0; mkType TQubitArray 0]) "measure" [VIndex b [0; 1]%Z; VIndex r [2; 3]%Z] [] [];
           SemNonGate l6 (mkInstruction "wait" [mkType TQubitArray 0]) "wait" [VVar r] [VInt 1] [];
           SemAsm None "x" "a" [] ]) /\
  (exists p, text_means None text_no_meaning p /\ forall q, ~ program_means same_libm [3]%Z p q) /\
  (exists p, text_means None text_no_meaning2 p /\ forall q, ~ program_means same_libm [3]%Z p q).
Proof.
  assert (V : version_text "3" [3]%Z).
  { apply (vt_parts ["3"] [3]%Z); try discriminate; [repeat constructor; discriminate|]. constructor; [|constructor].
    apply (front_plain "" "" "3" ""); auto; try discriminate; try exact I. cbn. unfold digit, code_between. cbn. split; [lia|exact I]. }
  assert (S : version_same [3]%Z [3; 0]%Z) by (intros [|[|i]]; [reflexivity|reflexivity|destruct i; reflexivity]).
  assert (L : machine_libm same_libm) by (split; [auto|]; repeat (apply Forall_cons; [auto|]); apply Forall_nil).
  assert (T : text_of text_meaning text_meaning) by text_case. assert (U : utf8 text_meaning) by utf8_case.
  split; [exact V|]. split; [exact S|]. split; [exact L|]. split; [split; [exact T|exact U]|].
  assert (N : forall t, text_of t t -> utf8 t -> match run same_libm false "3" t None with Ok (mkResult (Some _) (_ :: _)) => True | _ => False end ->
    match parse_string None false t with Ok (mkResult (Some _) []) => True | _ => False end ->
    exists p, text_means None t p /\ forall q, ~ program_means same_libm [3]%Z p q).
  { intros t Tt Ut R P. destruct (tree_case None t (fun _ => True) P) as (p & E & _). apply (C64_tree None false t t p Tt Ut) in E. exists p. split; [exact E|].
    intros q M. assert (X : run same_libm false "3" t None = Ok (mkResult (Some q) [])) by (apply (C90_text same_libm "3" [3]%Z None false t t q V S L Tt Ut); exists p; split; [exact E|exact M]).
    rewrite X in R. destruct R. }
  split; [|split; (apply N; [text_case|utf8_case|vm_compute; exact I|vm_compute; exact I])].
  destruct (run_case same_libm text_meaning (fun q => exists l1 l2 l3 l4 l5 l6 b r, sp_variables q = [mkSemVariable b []; mkSemVariable r []] /\
       b = mkVariable 0 "b" (mkType TBitArray 2) /\ r = mkVariable 1 "q" (mkType TQubitArray 4) /\
       blk_statements (sp_block q) =
         [ SemGateInstr l1 (mkInstruction "2q_Rx" [mkType TQubit 0; mkType TQubit 0])
             (SemGate l1 "ctrl" (Some (SemGate l2 "pow" (Some (SemGate l3 "Rx" None [VFloat (float_of_bool true)] [])) [VFloat (float_of_Z 2)] [])) [] [])
             [VIndex r [0%Z]; VIndex r [3%Z]] [];
           SemGateInstr l4 (mkInstruction "CNOT" [mkType TQubitArray 0; mkType TQubitArray 0]) (SemGate l4 "CNOT" None [] []) [VIndex r [0; 1]%Z; VIndex r [2; 3]%Z] [];
           SemNonGate l5 (mkInstruction "measure" [mkType TBitArray 0; mkType TQubitArray 0]) "measure" [VIndex b [0; 1]%Z; VIndex r [2; 3]%Z] [] [];
           SemNonGate l6 (mkInstruction "wait" [mkType TQubitArray 0]) "wait" [VVar r] [VInt 1] [];
           SemAsm None "x" "a" [] ])) as (q & R & l1 & l2 & l3 & l4 & l5 & l6 & b & r & H1 & H2 & H3 & H4).
  { vm_compute. eexists _, _, _, _, _, _, _, _. split; [reflexivity|]. split; [reflexivity|]. split; [reflexivity|]. reflexivity. }
  apply (C90_text same_libm "3" [3]%Z None false _ _ q V S L T U) in R. destruct R as (p & M & P). exists p, q. split; [exact M|]. split; [exact P|].
  exists b, r, (float_of_bool true), (float_of_Z 2), l1, l2, l3, l4, l5, l6. split; [exact H1|]. split; [exact H2|]. split; [exact H3|].
  split; [now apply (as_double_is (QBool true))|]. split; [|exact H4]. apply (as_double_is (QInt 2)); [cbn; unfold fits; lia|reflexivity].
Qed.
Print Assumptions C90_one_meaning.
Print Assumptions C90_tree.
Print Assumptions C90_text.
