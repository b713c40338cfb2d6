(** Property C111: two registers may be one. *)
From Coq Require Import SpecFloat.
From Verif Require Import Base ModelUtils ModelVersion ModelError ModelTypes ModelOverload ModelFunctions ModelInstructionSet ModelAst ModelAnalyzer ModelSemantic ModelLexer ModelSyntactic
  SpecUtils SpecError SpecTypes SpecFunctions SpecInstructions SpecAnalyzer SpecHull SpecLexer SpecSyntax SpecReading SpecMachine SpecVersion SpecEvaluate SpecMeaning SpecRelocate SpecResize SpecMerge
  ProofsFunctions ProofsAnalyzer2 ProofsReading ProofsText ProofsEvaluate ProofsMeaning2 ProofsRelocate ProofsErase ProofsMerge ProofsSplit PropertiesAnalyzer PropertiesSyntax PropertiesHull PropertiesMachine PropertiesMeaning PropertiesResize.
Local Open Scope string_scope.

(** C111: when two registers are declared one after the other and used by their elements
    only, the program in which they are one register is accepted as well, and its result
    is the first program's with the elements of the second register counted on from the
    first. *)
Theorem C111_merged : forall lm text api st st' p q a b m k before la lb lta ltb type behind, version_text text api -> version_same api [3; 0]%Z -> default_analyzer lm text = Ok st -> machine_libm lm ->
  grammar_program p -> machine_program p -> ordered_locations p ->
  two_registers a b m k p before la lb lta ltb type behind -> mergeable a b k behind -> a <> b -> fits (m + k) ->
  analyze_ast st p = Ok (st', mkResult (Some q) []) ->
  exists st'', analyze_ast st (one_register a b m k p before la lta type behind) = Ok (st'', mkResult (Some (merge_result a b m k (declared before) q)) []).
Proof.
  intros lm text api st st' p q a b m k before la lb lta ltb type behind V S D L G M O T U N F A.
  destruct (merged_demands a b m k F p before la lb lta ltb type behind T U G M O) as (G' & M' & O').
  apply (C90_tree lm text api st _ _ V S D L G' M' O'). apply merged_program with (lb := lb) (ltb := ltb); try assumption.
  apply (C90_tree lm text api st p q V S D L G M O). eauto.
Qed.
(** The other way round: a register used in two parts may be split, if the name of the
    second part is new. *)
Theorem C111_split : forall lm text api st st' p q' a b m k before la lb lta ltb type behind, version_text text api -> version_same api [3; 0]%Z -> default_analyzer lm text = Ok st -> machine_libm lm ->
  grammar_program p -> machine_program p -> ordered_locations p ->
  two_registers a b m k p before la lb lta ltb type behind -> mergeable a b k behind -> first_elements a m behind -> a <> b -> (0 < m)%Z -> (0 < k)%Z -> fits (m + k) ->
  ~ In b constant_names -> ~ In b (declared_names before) -> ~ In b (declared_names behind) ->
  analyze_ast st (one_register a b m k p before la lta type behind) = Ok (st', mkResult (Some q') []) ->
  exists st'' q, analyze_ast st p = Ok (st'', mkResult (Some q) []) /\ q' = merge_result a b m k (declared before) q.
Proof.
  intros lm text api st st' p q' a b m k before la lb lta ltb type behind V S D L G M O T U W N Km Kk F C N1 N2 A.
  destruct (merged_demands a b m k F p before la lb lta ltb type behind T U G M O) as (G' & M' & O').
  destruct (split_program lm a b m k Km Kk N api p before la lb lta ltb type behind q' T U W C N1 N2) as (q & P & E); [apply (C90_tree lm text api st _ _ V S D L G' M' O'); eauto|].
  apply (C90_tree lm text api st p q V S D L G M O) in P. destruct P as (st'' & P). eauto.
Qed.

(** The same for texts *)
Lemma erased_merged a b m k n q : relocate_sem_program erase (merge_result a b m k n q) = merge_result a b m k n (relocate_sem_program erase q).
Proof.
  unfold merge_result, relocate_sem_program, relocate_block. cbn [sp_api_version sp_version sp_version_loc sp_block sp_variables blk_statements blk_loc]. f_equal; [f_equal|].
  - rewrite !map_map. apply map_ext. intros x. destruct x; reflexivity.
  - induction (sp_variables q) as [|x xs IH]; [reflexivity|]. cbn [map filter]. change (sv_var (relocate_variable erase x)) with (sv_var x). destruct (negb (var_name (sv_var x) =? b)); cbn [map]; rewrite IH; reflexivity.
Qed.
Theorem C111_texts : forall lm text api f1 f2 rtl data1 data2 s1 p1 p2 q a b m k before la lb lta ltb type behind, version_text text api -> version_same api [3; 0]%Z -> machine_libm lm -> text_of data1 s1 -> utf8 s1 ->
  parse_string f1 rtl data1 = Ok (mkResult (Some p1) []) -> parse_string f2 rtl data2 = Ok (mkResult (Some p2) []) ->
  two_registers a b m k (relocate_program erase p1) before la lb lta ltb type behind -> mergeable a b k behind -> a <> b -> fits (m + k) ->
  relocate_program erase p2 = one_register a b m k (relocate_program erase p1) before la lta type behind ->
  run lm rtl text data1 f1 = Ok (mkResult (Some q) []) ->
  exists q', run lm rtl text data2 f2 = Ok (mkResult (Some q') []) /\ relocate_sem_program erase q' = merge_result a b m k (declared before) (relocate_sem_program erase q).
Proof.
  intros lm text api f1 f2 rtl data1 data2 s1 p1 p2 q a b m k before la lb lta ltb type behind V S L T U P1 P2 W Me N F R A. pose proof (version_text_analyzer lm text api V S) as D.
  destruct (proj1 (run_erased lm text api f1 rtl data1 p1 (relocate_sem_program erase q) V S P1)) as (q2 & st2 & A2 & E2); [eauto|].
  destruct (C111_merged lm text api _ st2 (relocate_program erase p1) q2 a b m k before la lb lta ltb type behind V S D L (grammar_relocated erase p1 (parsed_grammar f1 s1 p1 (proj1 (C64_tree f1 rtl data1 s1 p1 T U) P1))) (machine_relocated erase p1 (C84_parsed f1 rtl data1 s1 p1 T U P1)) (ordered_erased p1) W Me N F A2) as (st3 & A3).
  apply (run_erased lm text api f2 rtl data2 p2 _ V S P2). rewrite R. eexists _, st3. split; [exact A3|]. rewrite erased_merged. congruence.
Qed.
Theorem C111_split_in_texts : forall lm text api f1 f2 rtl data1 data2 s1 p1 p2 q' a b m k before la lb lta ltb type behind, version_text text api -> version_same api [3; 0]%Z -> machine_libm lm -> text_of data1 s1 -> utf8 s1 ->
  parse_string f1 rtl data1 = Ok (mkResult (Some p1) []) -> parse_string f2 rtl data2 = Ok (mkResult (Some p2) []) ->
  two_registers a b m k (relocate_program erase p1) before la lb lta ltb type behind -> mergeable a b k behind -> first_elements a m behind -> a <> b -> (0 < m)%Z -> (0 < k)%Z -> fits (m + k) ->
  ~ In b constant_names -> ~ In b (declared_names before) -> ~ In b (declared_names behind) ->
  relocate_program erase p2 = one_register a b m k (relocate_program erase p1) before la lta type behind ->
  run lm rtl text data2 f2 = Ok (mkResult (Some q') []) ->
  exists q, run lm rtl text data1 f1 = Ok (mkResult (Some q) []) /\ relocate_sem_program erase q' = merge_result a b m k (declared before) (relocate_sem_program erase q).
Proof.
  intros lm text api f1 f2 rtl data1 data2 s1 p1 p2 q' a b m k before la lb lta ltb type behind V S L T U P1 P2 W Me Fi N Km Kk F C N1 N2 R A. pose proof (version_text_analyzer lm text api V S) as D.
  destruct (proj1 (run_erased lm text api f2 rtl data2 p2 (relocate_sem_program erase q') V S P2)) as (q2 & st2 & A2 & E2); [eauto|]. rewrite R in A2.
  destruct (C111_split lm text api _ st2 (relocate_program erase p1) q2 a b m k before la lb lta ltb type behind V S D L (grammar_relocated erase p1 (parsed_grammar f1 s1 p1 (proj1 (C64_tree f1 rtl data1 s1 p1 T U) P1))) (machine_relocated erase p1 (C84_parsed f1 rtl data1 s1 p1 T U P1)) (ordered_erased p1) W Me Fi N Km Kk F C N1 N2 A2) as (st3 & q3 & A3 & E3).
  destruct (proj2 (run_erased lm text api f1 rtl data1 p1 (relocate_sem_program erase q3) V S P1)) as (q4 & A4 & E4); [eauto|]. exists q4. split; [exact A4|]. rewrite E4, <- erased_merged. congruence.
Qed.

(** The registers a and b, declared behind another variable and used in gates, a
    measurement and with a range; another variable follows them. *)
Definition text_two : string := "version 3.0; bit[2] c; qubit[2] a; qubit[3] b; qubit r; CNOT a[0], b[2]; H b[0:1]; X r; c[0, 1] = measure b[1, 2]".
Definition text_one : string := "version 3.0; bit[2] c; qubit[5] a; qubit r; CNOT a[0], a[4]; H a[2:3]; X r; c[0, 1] = measure a[3, 4]".
Example C111_case : machine_libm same_libm /\ text_of text_two text_two /\ utf8 text_two /\ fits (2 + 3) /\
  exists p1, parse_string None false text_two = Ok (mkResult (Some p1) []) /\ grammar_program p1 /\ machine_program p1 /\ ordered_locations p1 /\
    (exists before la lb lta ltb behind, two_registers "a" "b" 2 3 (relocate_program erase p1) before la lb lta ltb "qubit" behind /\ mergeable "a" "b" 3 behind /\ first_elements "a" 2 behind /\
      ~ In "b" constant_names /\ ~ In "b" (declared_names before) /\ ~ In "b" (declared_names behind) /\
      exists p2, parse_string None false text_one = Ok (mkResult (Some p2) []) /\ relocate_program erase p2 = one_register "a" "b" 2 3 (relocate_program erase p1) before la lta "qubit" behind) /\
    (exists st' q, analyze_ast (fresh_analyzer same_libm) p1 = Ok (st', mkResult (Some q) []) /\
      map (fun s => map (fun v => match v with VVar x => (var_name x, var_id x, []) | VIndex x zs => (var_name x, var_id x, zs) | _ => ("", 0%nat, []) end) (result_operands s)) (blk_statements (sp_block (merge_result "a" "b" 2 3 1 q))) =
        [[("a", 1%nat, [0%Z]); ("a", 1%nat, [4%Z])]; [("a", 1%nat, [2%Z; 3%Z])]; [("r", 2%nat, [])]; [("c", 0%nat, [0%Z; 1%Z]); ("a", 1%nat, [3%Z; 4%Z])]]).
Proof.
  split; [split; [auto|]; repeat (apply Forall_cons; [auto|]); apply Forall_nil|].
  assert (T : text_of text_two text_two) by text_case. assert (U : utf8 text_two) by utf8_case. split; [exact T|]. split; [exact U|]. split; [unfold fits, int64_min, int64_max; lia|].
  destruct (tree_case None text_two (fun p =>
      match prog_statements (relocate_program erase p) with
      | s0 :: SVariable la a (mkAstType lta t (Some m)) [] :: SVariable lb b (mkAstType ltb t' (Some k)) [] :: behind =>
          (a = "a" /\ b = "b" /\ t = "qubit" /\ t' = "qubit" /\ m = 2%Z /\ k = 3%Z) /\
          (forall s e, In s behind -> In e (operands_of s) -> mergeable_operand "a" "b" 3 e) /\
          (forall s e, In s behind -> In e (operands_of s) -> match e with EIndex _ (EIdent _ n) es => n = "a" -> Forall (entry_of_b 2) es | _ => True end) /\
          (existsb (String.eqb "b") constant_names || existsb (String.eqb "b") (declared_names [s0]) || existsb (String.eqb "b") (declared_names behind) = false) /\
          match parse_string None false text_one with Ok (mkResult (Some p2) []) => relocate_program erase p2 = one_register "a" "b" 2 3 (relocate_program erase p) [s0] la lta "qubit" behind | _ => False end
      | _ => False end /\
      match analyze_ast (fresh_analyzer same_libm) p with Ok (_, mkResult (Some q) []) =>
        map (fun s => map (fun v => match v with VVar x => (var_name x, var_id x, []) | VIndex x zs => (var_name x, var_id x, zs) | _ => ("", 0%nat, []) end) (result_operands s)) (blk_statements (sp_block (merge_result "a" "b" 2 3 1 q))) =
        [[("a", 1%nat, [0%Z]); ("a", 1%nat, [4%Z])]; [("a", 1%nat, [2%Z; 3%Z])]; [("r", 2%nat, [])]; [("c", 0%nat, [0%Z; 1%Z]); ("a", 1%nat, [3%Z; 4%Z])]] | _ => False end)) as (p & E & H1 & H2).
  { vm_compute. split; [|reflexivity]. split; [repeat split|]. split; [|split; [|split; reflexivity]].
    - intros s e Hs He. repeat (destruct Hs as [<-|Hs]; [cbn in He; repeat (destruct He as [<-|He]; [cbn; try (intros Eb; try discriminate Eb; repeat (apply Forall_cons; [cbn; try split; eexists _, _; (split; [reflexivity|split; [discriminate|reflexivity]])|]); apply Forall_nil); try (split; discriminate)|]); contradiction|]). contradiction.
    - intros s e Hs He. repeat (destruct Hs as [<-|Hs]; [cbn in He; repeat (destruct He as [<-|He]; [cbn; try (intros Eb; try discriminate Eb; repeat (apply Forall_cons; [cbn; try split; eexists _, _; (split; [reflexivity|split; [discriminate|reflexivity]])|]); apply Forall_nil); try exact I|]); contradiction|]). contradiction. }
  exists p. split; [exact E|]. split; [eapply parsed_grammar, (C64_tree None false _ _ p T U), E|]. split; [exact (C84_parsed None false _ _ p T U E)|]. split; [exact (C80_parsed None false _ _ p T U E)|]. clear E. split.
  - clear H2. unfold two_registers. destruct (prog_statements (relocate_program erase p)) as [|s0 [|[la a [lta t [m|]] [|]| | |] [|[lb b [ltb t' [k|]] [|]| | |] behind]]]; try contradiction.
    destruct H1 as ((-> & -> & -> & -> & -> & ->) & H1 & H2 & H4 & H3). exists [s0], la, lb, lta, ltb, behind. split; [reflexivity|]. split; [exact H1|]. split; [exact H2|].
    apply orb_false_iff in H4. destruct H4 as [H4 N3]. apply orb_false_iff in H4. destruct H4 as [N1 N2].
    assert (X : forall l, existsb (String.eqb "b") l = false -> ~ In "b" l) by (intros l H Y; assert (Z0 : existsb (String.eqb "b") l = true) by (apply existsb_exists; exists "b"; split; [exact Y|apply String.eqb_refl]); congruence).
    split; [exact (X _ N1)|]. split; [exact (X _ N2)|]. split; [exact (X _ N3)|].
    destruct (parse_string None false text_one) as [[[p2|] [|]]| | |]; try contradiction. eauto.
  - clear H1. destruct (analyze_ast (fresh_analyzer same_libm) p) as [[st' [[q|] [|]]]| | |]; try contradiction. exists st', q. split; [reflexivity|exact H2].
Qed.
Print Assumptions C111_merged. Print Assumptions C111_split. Print Assumptions C111_texts. Print Assumptions C111_split_in_texts.
