(** Property C107: ranges of indices and whole registers are abbreviations. *)
From Coq Require Import SpecFloat.
From Verif Require Import Base ModelUtils ModelVersion ModelError ModelTypes ModelOverload ModelFunctions ModelInstructionSet ModelAst ModelAnalyzer ModelSemantic ModelLexer ModelSyntactic
  SpecUtils SpecError SpecTypes SpecFunctions SpecInstructions SpecAnalyzer SpecHull SpecLexer SpecSyntax SpecReading SpecMachine SpecVersion SpecEvaluate SpecMeaning SpecRelocate SpecResize SpecSpelled
  ProofsFunctions ProofsAnalyzer2 ProofsAnalyzer3 ProofsReading ProofsText ProofsEvaluate ProofsMeaning2 ProofsRelocate ProofsErase ProofsSpelled PropertiesAnalyzer PropertiesSyntax PropertiesHull PropertiesMachine PropertiesMeaning PropertiesResize.
Local Open Scope string_scope.

(** C107: a range of literals in the indices of an operand may be replaced by the list of
    its numbers, or the other way round: the analysis accepts the one program if and only
    if it accepts the other, and the results are the same. *)
Theorem C107_ranges : forall lm text api st p p' q, version_text text api -> version_same api [3; 0]%Z -> default_analyzer lm text = Ok st -> machine_libm lm ->
  grammar_program p -> machine_program p -> ordered_locations p -> respelled_program spelled_operand p p' ->
  (exists st', analyze_ast st p = Ok (st', mkResult (Some q) [])) <-> (exists st', analyze_ast st p' = Ok (st', mkResult (Some q) [])).
Proof.
  intros lm text api st p p' q V S D L G M O R. destruct (respelled_demands _ p p' spelled_demands R (conj G (conj M O))) as (G' & M' & O').
  rewrite (C90_tree lm text api st p q V S D L G M O), (C90_tree lm text api st p' q V S D L G' M' O'). now apply spelled_program.
Qed.
(** Registers of known sizes that are operands as a whole may be replaced by the list of
    all their elements, or the other way round. The results differ in these operands, and
    in the types of the instructions, only. *)
Theorem C107_whole : forall lm text api st p p' q' size, version_text text api -> version_same api [3; 0]%Z -> default_analyzer lm text = Ok st -> machine_libm lm ->
  grammar_program p -> machine_program p -> ordered_locations p -> sizes_legal size -> sizes_declared size p -> respelled_program (listed_operand size) p p' ->
  (exists st', analyze_ast st p' = Ok (st', mkResult (Some q') [])) <->
  (exists q st', analyze_ast st p = Ok (st', mkResult (Some q) []) /\ q' = list_result size q).
Proof.
  intros lm text api st p p' q' size V S D L G M O Z De R. destruct (respelled_demands _ p p' (listed_demands size Z) R (conj G (conj M O))) as (G' & M' & O').
  rewrite (C90_tree lm text api st p' q' V S D L G' M' O'), (listed_program lm size Z api p p' R De). split.
  - intros (q & P & E). apply (C90_tree lm text api st p q V S D L G M O) in P. destruct P as (st' & P). eauto.
  - intros (q & st' & P & E). exists q. split; [|exact E]. apply (C90_tree lm text api st p q V S D L G M O). eauto.
Qed.

(** The same for texts: their trees differ in this way and in the locations, and the
    results then may differ in locations, too. *)
Theorem C107_ranges_in_texts : forall lm text api f1 f2 rtl data1 data2 s1 p1 p2 b, version_text text api -> version_same api [3; 0]%Z -> machine_libm lm -> text_of data1 s1 -> utf8 s1 ->
  parse_string f1 rtl data1 = Ok (mkResult (Some p1) []) -> parse_string f2 rtl data2 = Ok (mkResult (Some p2) []) ->
  respelled_program spelled_operand (relocate_program erase p1) (relocate_program erase p2) ->
  (exists q, run lm rtl text data1 f1 = Ok (mkResult (Some q) []) /\ relocate_sem_program erase q = b) <->
  (exists q, run lm rtl text data2 f2 = Ok (mkResult (Some q) []) /\ relocate_sem_program erase q = b).
Proof.
  intros lm text api f1 f2 rtl data1 data2 s1 p1 p2 b V S L T U P1 P2 R. pose proof (version_text_analyzer lm text api V S) as D.
  rewrite (run_erased lm text api f1 rtl data1 p1 b V S P1), (run_erased lm text api f2 rtl data2 p2 b V S P2).
  assert (K : forall q, _) by (intros q; exact (C107_ranges lm text api _ _ _ q V S D L (grammar_relocated erase p1 (parsed_grammar f1 s1 p1 (proj1 (C64_tree f1 rtl data1 s1 p1 T U) P1))) (machine_relocated erase p1 (C84_parsed f1 rtl data1 s1 p1 T U P1)) (ordered_erased p1) R)).
  split; intros (q & st' & A & E); [destruct (proj1 (K q) (ex_intro _ st' A)) as (st1 & A1)|destruct (proj2 (K q) (ex_intro _ st' A)) as (st1 & A1)]; eauto.
Qed.
Theorem C107_whole_in_texts : forall lm text api f1 f2 rtl data1 data2 s1 p1 p2 b size, version_text text api -> version_same api [3; 0]%Z -> machine_libm lm -> text_of data1 s1 -> utf8 s1 ->
  parse_string f1 rtl data1 = Ok (mkResult (Some p1) []) -> parse_string f2 rtl data2 = Ok (mkResult (Some p2) []) -> sizes_legal size -> sizes_declared size p1 ->
  respelled_program (listed_operand size) (relocate_program erase p1) (relocate_program erase p2) ->
  (exists q, run lm rtl text data2 f2 = Ok (mkResult (Some q) []) /\ relocate_sem_program erase q = b) <->
  (exists q, run lm rtl text data1 f1 = Ok (mkResult (Some q) []) /\ list_result size (relocate_sem_program erase q) = b).
Proof.
  intros lm text api f1 f2 rtl data1 data2 s1 p1 p2 b size V S L T U P1 P2 Z De R. pose proof (version_text_analyzer lm text api V S) as D.
  assert (De' : sizes_declared size (relocate_program erase p1)).
  { intros l n t an k Hs Ek. cbn [relocate_program prog_statements] in Hs. apply in_map_iff in Hs. destruct Hs as (s & E & Hs). destruct s as [l0 n0 t0 an0| | |]; try discriminate E. injection E as _ -> <- _. exact (De _ _ _ _ _ Hs Ek). }
  assert (K : forall q, _) by (intros q; exact (C107_whole lm text api _ _ _ q size V S D L (grammar_relocated erase p1 (parsed_grammar f1 s1 p1 (proj1 (C64_tree f1 rtl data1 s1 p1 T U) P1))) (machine_relocated erase p1 (C84_parsed f1 rtl data1 s1 p1 T U P1)) (ordered_erased p1) Z De' R)).
  rewrite (run_erased lm text api f2 rtl data2 p2 b V S P2).
  assert (J : forall q, relocate_sem_program erase (list_result size q) = list_result size (relocate_sem_program erase q)).
  { intros q. unfold list_result, relocate_sem_program, relocate_block. cbn [sp_api_version sp_version sp_version_loc sp_block sp_variables blk_statements blk_loc]. f_equal. f_equal. rewrite !map_map. apply map_ext. intros []; reflexivity. }
  split.
  - intros (q & st' & A & E). destruct (proj1 (K q)) as (q1 & st1 & A1 & ->); [eauto|]. rewrite J in E.
    destruct (proj2 (run_erased lm text api f1 rtl data1 p1 (relocate_sem_program erase q1) V S P1)) as (q2 & A2 & E2); [eauto|]. exists q2. split; [exact A2|congruence].
  - intros (q & A & E). destruct (proj1 (run_erased lm text api f1 rtl data1 p1 (relocate_sem_program erase q) V S P1)) as (q2 & st2 & A2 & E2); [eauto|].
    destruct (proj2 (K (list_result size q2))) as (st3 & A3); [eauto|]. exists (list_result size q2), st3. split; [exact A3|]. rewrite J. congruence.
Qed.

(** In the first program two ranges are spelled out: the result is the same. In the
    second q and b are listed: the operands of the measurement are then all elements of
    q and b. The program has other operands, which stay as they are. *)
Definition text_spelled : string := "version 3.0; qubit[3] q; bit[3] b; qubit[2] r; CNOT q[0:1], q[1:2]; b = measure q; H r; X q".
Definition listed_sizes (n : string) : option Z := if n =? "q" then Some 3%Z else if n =? "b" then Some 3%Z else None.
Example C107_case : version_text "3.0" [3; 0]%Z /\ machine_libm same_libm /\ sizes_legal listed_sizes /\
  exists p, parse_string None false text_spelled = Ok (mkResult (Some p) []) /\ grammar_program p /\ machine_program p /\ ordered_locations p /\
    respelled_program spelled_operand p (change_program spell_operand p) /\ respelled_program (listed_operand listed_sizes) p (change_program (list_operand listed_sizes) p) /\
    sizes_declared listed_sizes p /\
    (exists st' q, analyze_ast (fresh_analyzer same_libm) p = Ok (st', mkResult (Some q) []) /\
      map (fun s => map (fun v => match v with VVar x => (var_name x, []) | VIndex x zs => (var_name x, zs) | _ => ("", []) end) (result_operands s)) (blk_statements (sp_block (list_result listed_sizes q))) =
        [[("q", [0; 1]%Z); ("q", [1; 2]%Z)]; [("b", [0; 1; 2]%Z); ("q", [0; 1; 2]%Z)]; [("r", [])]; [("q", [0; 1; 2]%Z)]]) /\
    change_program spell_operand p <> p /\ change_program (list_operand listed_sizes) p <> p.
Proof.
  split. { apply (vt_parts ["3"; "0"] [3; 0]%Z); try discriminate; [repeat constructor; discriminate|].
    constructor; [apply (front_plain "" "" "3" ""); auto; try discriminate; try exact I; cbn; unfold digit, code_between; cbn; split; [lia|exact I]|].
    constructor; [apply (front_plain "" "" "0" ""); auto; try discriminate; try exact I; cbn; unfold digit, code_between; cbn; split; [lia|exact I]|constructor]. }
  split; [split; [auto|]; repeat (apply Forall_cons; [auto|]); apply Forall_nil|].
  split. { intros n z. unfold listed_sizes, fits. destruct (n =? "q"); [intros [= <-]; split; [reflexivity|cbn; lia]|]. destruct (n =? "b"); [intros [= <-]; split; [reflexivity|cbn; lia]|discriminate]. }
  assert (T : text_of text_spelled text_spelled) by text_case. assert (U : utf8 text_spelled) by utf8_case.
  destruct (tree_case None text_spelled (fun p => sizes_declared listed_sizes p /\
      match analyze_ast (fresh_analyzer same_libm) p with Ok (_, mkResult (Some q) []) => 
        map (fun s => map (fun v => match v with VVar x => (var_name x, []) | VIndex x zs => (var_name x, zs) | _ => ("", []) end) (result_operands s)) (blk_statements (sp_block (list_result listed_sizes q))) =
          [[("q", [0; 1]%Z); ("q", [1; 2]%Z)]; [("b", [0; 1; 2]%Z); ("q", [0; 1; 2]%Z)]; [("r", [])]; [("q", [0; 1; 2]%Z)]] | _ => False end /\
      change_program spell_operand p <> p /\ change_program (list_operand listed_sizes) p <> p)) as (p & E & H1 & H2 & H3).
  { vm_compute. split.
    - intros l n t an k Hs. repeat (destruct Hs as [Hs|Hs]; [first [discriminate Hs|injection Hs as <- <- <- <-; intros Ek; first [discriminate Ek|injection Ek as <-; reflexivity]]|]). destruct Hs.
    - split; [reflexivity|]. split; discriminate. }
  exists p. split; [exact E|]. split; [eapply parsed_grammar, (C64_tree None false _ _ p T U), E|]. split; [exact (C84_parsed None false _ _ p T U E)|]. split; [exact (C80_parsed None false _ _ p T U E)|].
  split; [apply changed_respelled, spell_spelled|]. split; [apply changed_respelled, list_listed|]. split; [exact H1|]. split; [|exact H3].
  clear H3 E. destruct (analyze_ast (fresh_analyzer same_libm) p) as [[st' [[q|] [|]]]| | |]; try contradiction. exists st', q. split; [reflexivity|exact H2].
Qed.
(** The same program as three texts *)
Definition text_ranges : string := "version 3.0; qubit[3] q; bit[3] b; qubit[2] r; CNOT q[0, 1], q[1, 2]; b = measure q; H r; X q".
Definition text_listed : string := "version 3.0; qubit[3] q; bit[3] b; qubit[2] r; CNOT q[0:1], q[1:2]; b[0:2] = measure q[0:2]; H r; X q[0:2]".
Definition tree_of (t : string) : program := match parse_string None false t with Ok (mkResult (Some p) []) => p | _ => mkProgram [] None [] None end.
Example C107_texts_case : parse_string None false text_spelled = Ok (mkResult (Some (tree_of text_spelled)) []) /\
  parse_string None false text_ranges = Ok (mkResult (Some (tree_of text_ranges)) []) /\ parse_string None false text_listed = Ok (mkResult (Some (tree_of text_listed)) []) /\
  text_of text_spelled text_spelled /\ utf8 text_spelled /\
  respelled_program spelled_operand (relocate_program erase (tree_of text_spelled)) (relocate_program erase (tree_of text_ranges)) /\
  respelled_program (listed_operand listed_sizes) (relocate_program erase (tree_of text_spelled)) (relocate_program erase (tree_of text_listed)).
Proof.
  split; [vm_compute; reflexivity|]. split; [vm_compute; reflexivity|]. split; [vm_compute; reflexivity|]. split; [text_case|]. split; [utf8_case|]. split.
  - replace (relocate_program erase (tree_of text_ranges)) with (change_program spell_operand (relocate_program erase (tree_of text_spelled))) by (vm_compute; reflexivity). apply changed_respelled, spell_spelled.
  - replace (relocate_program erase (tree_of text_listed)) with (change_program (list_operand listed_sizes) (relocate_program erase (tree_of text_spelled))) by (vm_compute; reflexivity). apply changed_respelled, list_listed.
Qed.
Print Assumptions C107_ranges. Print Assumptions C107_whole. Print Assumptions C107_ranges_in_texts. Print Assumptions C107_whole_in_texts.
