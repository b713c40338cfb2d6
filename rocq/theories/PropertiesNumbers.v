(** Property C108: numbers count by what they stand for. *)
From Coq Require Import SpecFloat.
From Verif Require Import Base ModelUtils ModelVersion ModelError ModelTypes ModelOverload ModelFunctions ModelInstructionSet ModelAst ModelAnalyzer ModelSemantic ModelLexer ModelSyntactic
  SpecUtils SpecError SpecTypes SpecFunctions SpecInstructions SpecAnalyzer SpecHull SpecLexer SpecSyntax SpecReading SpecMachine SpecVersion SpecEvaluate SpecMeaning SpecRelocate SpecNumbers
  ProofsFunctions ProofsAnalyzer2 ProofsAnalyzer3 ProofsReading ProofsText ProofsEvaluate ProofsEvaluate2 ProofsMeaning2 ProofsRelocate ProofsErase ProofsNumbers PropertiesAnalyzer PropertiesSyntax PropertiesHull PropertiesMachine PropertiesMeaning.
Local Open Scope string_scope.

(** C108: expressions that stand for the same number, as one of the type that is
    expected, may be written for each other in the parameters of gates, modifiers and
    other instructions and in indices: the analysis accepts the one program if and only if
    it accepts the other, and the results are the same. *)
Theorem C108_numbers : forall lm text api st p p' q, version_text text api -> version_same api [3; 0]%Z -> default_analyzer lm text = Ok st -> machine_libm lm ->
  grammar_program p -> machine_program p -> ordered_locations p -> grammar_program p' -> machine_program p' -> ordered_locations p' -> same_program lm p p' ->
  (exists st', analyze_ast st p = Ok (st', mkResult (Some q) [])) <-> (exists st', analyze_ast st p' = Ok (st', mkResult (Some q) [])).
Proof.
  intros lm text api st p p' q V S D L G M O G' M' O' R. rewrite (C90_tree lm text api st p q V S D L G M O), (C90_tree lm text api st p' q V S D L G' M' O').
  split; apply same_means; auto. now apply same_program_sym.
Qed.
(** The same for texts; the results may differ in locations. *)
Theorem C108_texts : forall lm text api f1 f2 rtl data1 data2 s1 s2 p1 p2 b, version_text text api -> version_same api [3; 0]%Z -> machine_libm lm ->
  text_of data1 s1 -> utf8 s1 -> text_of data2 s2 -> utf8 s2 ->
  parse_string f1 rtl data1 = Ok (mkResult (Some p1) []) -> parse_string f2 rtl data2 = Ok (mkResult (Some p2) []) ->
  same_program lm (relocate_program erase p1) (relocate_program erase p2) ->
  (exists q, run lm rtl text data1 f1 = Ok (mkResult (Some q) []) /\ relocate_sem_program erase q = b) <->
  (exists q, run lm rtl text data2 f2 = Ok (mkResult (Some q) []) /\ relocate_sem_program erase q = b).
Proof.
  intros lm text api f1 f2 rtl data1 data2 s1 s2 p1 p2 b V S L T1 U1 T2 U2 P1 P2 R. pose proof (version_text_analyzer lm text api V S) as D.
  rewrite (run_erased lm text api f1 rtl data1 p1 b V S P1), (run_erased lm text api f2 rtl data2 p2 b V S P2).
  assert (K : forall q, _) by (intros q; exact (C108_numbers lm text api _ _ _ q V S D L
    (grammar_relocated erase p1 (parsed_grammar f1 s1 p1 (proj1 (C64_tree f1 rtl data1 s1 p1 T1 U1) P1))) (machine_relocated erase p1 (C84_parsed f1 rtl data1 s1 p1 T1 U1 P1)) (ordered_erased p1)
    (grammar_relocated erase p2 (parsed_grammar f2 s2 p2 (proj1 (C64_tree f2 rtl data2 s2 p2 T2 U2) P2))) (machine_relocated erase p2 (C84_parsed f2 rtl data2 s2 p2 T2 U2 P2)) (ordered_erased p2) R)).
  split; intros (q & st' & A & E); [destruct (proj1 (K q) (ex_intro _ st' A)) as (st1 & A1)|destruct (proj2 (K q) (ex_intro _ st' A)) as (st1 & A1)]; eauto.
Qed.
(** In particular an integer may be written as the nearest float where a float is
    expected. *)
Theorem C108_integers_as_floats : forall lm l l' z f, as_double (QInt z) f -> same_number lm TFloat (EInt l z) (EFloat l' f).
Proof. exact integer_as_float. Qed.

(** A boolean and an integer for a float, an integer division for an index and for a
    duration, a power as an exponent *)
Definition text_numbers : string := "version 3.0; qubit[4] q; Rx(1) q[true]; pow(2).Ry(true) q[3 / 2:2]; wait(7 / 2) q; H q[1 + 2]".
Definition text_numbers2 : string := "version 3.0; qubit[4] q; Rx(1.0) q[1]; pow(1.0 + true).Ry(1) q[1:2]; wait(3) q; H q[3]".
Definition tree_of (t : string) : program := match parse_string None false t with Ok (mkResult (Some p) []) => p | _ => mkProgram [] None [] None end.
Ltac value_case := first
  [ apply ev_int | apply ev_float | apply ev_bool | apply ev_constant; constructor
  | eapply ev_binary; [value_case|value_case|apply (binary_call same_libm); [first [exact I|vm_compute; reflexivity|cbn; unfold fits; lia]|first [exact I|vm_compute; reflexivity|cbn; unfold fits; lia]|vm_compute; reflexivity]] ].
Ltac number_case q q' w := right; exists q, q', w; split; [value_case|split; [value_case|split]].
Example C108_case : parse_string None false text_numbers = Ok (mkResult (Some (tree_of text_numbers)) []) /\ parse_string None false text_numbers2 = Ok (mkResult (Some (tree_of text_numbers2)) []) /\
  (text_of text_numbers text_numbers /\ utf8 text_numbers /\ text_of text_numbers2 text_numbers2 /\ utf8 text_numbers2) /\ machine_libm same_libm /\
  same_program same_libm (relocate_program erase (tree_of text_numbers)) (relocate_program erase (tree_of text_numbers2)) /\
  match run same_libm false "3.0" text_numbers None with Ok (mkResult (Some q) []) => List.length (blk_statements (sp_block q)) = 4%nat | _ => False end.
Proof.
  split; [vm_compute; reflexivity|]. split; [vm_compute; reflexivity|]. split; [split; [text_case|]; split; [utf8_case|]; split; [text_case|utf8_case]|].
  split; [split; [auto|]; repeat (apply Forall_cons; [auto|]); apply Forall_nil|]. split; [|vm_compute; reflexivity].
  assert (F1 : as_double (QInt 1) (float_of_Z 1)) by (apply (as_double_is (QInt 1)); [cbn; unfold fits; lia|reflexivity]).
  assert (F2 : as_double (QInt 2) (float_of_Z 2)) by (apply (as_double_is (QInt 2)); [cbn; unfold fits; lia|reflexivity]).
  assert (F3 : as_double (QBool true) (float_of_Z 1)) by (apply (as_double_is (QBool true)); [exact I|reflexivity]).
  set (e1 := relocate_program erase (tree_of text_numbers)). set (e2 := relocate_program erase (tree_of text_numbers2)). vm_compute in e1, e2. subst e1 e2.
  split; [reflexivity|]. split; [reflexivity|]. cbn [prog_statements].
  constructor; [apply same_rest|]. constructor; [|constructor; [|constructor; [|constructor; [|constructor]]]].
  - apply same_gates.
    + apply same_named. intros ks a Hk. vm_compute in Hk. repeat (destruct Hk as [Hk|Hk]; [first [discriminate Hk|injection Hk as <- <-]|]); try destruct Hk.
      constructor; [|constructor]. number_case (QInt 1) (QFloat (float_of_Z 1)) (QFloat (float_of_Z 1)); constructor; [exact F1|constructor].
    + constructor; [|constructor]. apply same_elements. constructor; [|constructor]. apply same_item. number_case (QBool true) (QInt 1) (QInt 1); constructor; reflexivity.
  - apply same_gates.
    + apply same_power.
      * apply same_named. intros ks a Hk. vm_compute in Hk. repeat (destruct Hk as [Hk|Hk]; [first [discriminate Hk|injection Hk as <- <-]|]); try destruct Hk.
        constructor; [|constructor]. number_case (QBool true) (QInt 1) (QFloat (float_of_Z 1)); constructor; [exact F3|exact F1].
      * constructor; [|constructor]. number_case (QInt 2) (QFloat (float_of_Z 2)) (QFloat (float_of_Z 2)); constructor; [exact F2|constructor].
    + constructor; [|constructor]. apply same_elements. constructor; [|constructor]. apply same_range; [|now left]. number_case (QInt 1) (QInt 1) (QInt 1); constructor; reflexivity.
  - apply same_non_gates.
    + intros ks cs Hk. vm_compute in Hk. repeat (destruct Hk as [Hk|Hk]; [first [discriminate Hk|injection Hk as <- <-]|]); try destruct Hk.
      constructor; [|constructor]. number_case (QInt 3) (QInt 3) (QInt 3); constructor; reflexivity.
    + constructor; [apply same_expression|constructor].
  - apply same_gates.
    + apply same_named. intros ks a Hk. vm_compute in Hk. repeat (destruct Hk as [Hk|Hk]; [first [discriminate Hk|injection Hk as <- <-]|]); try destruct Hk. constructor.
    + constructor; [|constructor]. apply same_elements. constructor; [|constructor]. apply same_item. number_case (QInt 3) (QInt 3) (QInt 3); constructor; reflexivity.
Qed.
Print Assumptions C108_numbers. Print Assumptions C108_texts. Print Assumptions C108_integers_as_floats.
