(** Property C106: registers may be declared with other sizes. *)
From Coq Require Import SpecFloat.
From Verif Require Import Base ModelUtils ModelVersion ModelError ModelTypes ModelOverload ModelFunctions ModelInstructionSet ModelAst ModelAnalyzer ModelSemantic ModelLexer ModelSyntactic
  SpecUtils SpecError SpecTypes SpecFunctions SpecInstructions SpecAnalyzer SpecHull SpecLexer SpecSyntax SpecReading SpecMachine SpecVersion SpecEvaluate SpecMeaning SpecRelocate SpecResize
  ProofsFunctions ProofsAnalyzer2 ProofsReading ProofsText ProofsEvaluate ProofsMeaning2 ProofsRelocate ProofsErase ProofsResize PropertiesAnalyzer PropertiesSyntax PropertiesHull PropertiesMachine PropertiesMeaning.
Local Open Scope string_scope.

(** C106: an accepted program stays accepted when registers that are used with indices
    only get other sizes, as long as the indices exist; the result is the same but for
    the sizes. *)
Theorem C106_resized : forall lm text api st p st' q size, version_text text api -> version_same api [3; 0]%Z -> default_analyzer lm text = Ok st -> machine_libm lm ->
  grammar_program p -> machine_program p -> ordered_locations p -> analyze_ast st p = Ok (st', mkResult (Some q) []) ->
  sizes_legal size -> used_with_indices size p -> large_enough size q ->
  exists st'', analyze_ast st (resize_program size p) = Ok (st'', mkResult (Some (resize_result size q)) []).
Proof.
  intros lm text api st p st' q size V S D L G M O A Z U E.
  apply (C90_tree lm text api st _ _ V S D L (grammar_resized size p G) (machine_resized size Z p M) (ordered_resized size p O)).
  apply program_resized; [exact Z| |exact U|exact E]. apply (C90_tree lm text api st p q V S D L G M O). eauto.
Qed.
(** In particular such registers may be made larger. *)
Theorem C106_larger : forall lm text api st p st' q size, version_text text api -> version_same api [3; 0]%Z -> default_analyzer lm text = Ok st -> machine_libm lm ->
  grammar_program p -> machine_program p -> ordered_locations p -> analyze_ast st p = Ok (st', mkResult (Some q) []) ->
  sizes_legal size -> used_with_indices size p -> grows size p ->
  exists st'', analyze_ast st (resize_program size p) = Ok (st'', mkResult (Some (resize_result size q)) []).
Proof.
  intros lm text api st p st' q size V S D L G M O A Z U E. eapply C106_resized; eauto.
  eapply grown_large_enough; [|exact E]. apply (C90_tree lm text api st p q V S D L G M O). eauto.
Qed.

(** The same for texts: their trees differ in the sizes and in locations. *)
Lemma erased_operands s v : In v (result_operands s) <-> In v (result_operands (relocate_sem_statement erase s)).
Proof. destruct s; cbn [result_operands relocate_sem_statement]; tauto. Qed.
Lemma large_enough_erased size q q' : relocate_sem_program erase q' = relocate_sem_program erase q -> large_enough size q -> large_enough size q'.
Proof.
  intros E L s x zs z Hs Hv Ez. assert (B : In (relocate_sem_statement erase s) (map (relocate_sem_statement erase) (blk_statements (sp_block q)))).
  { replace (map (relocate_sem_statement erase) (blk_statements (sp_block q))) with (map (relocate_sem_statement erase) (blk_statements (sp_block q'))) by exact (f_equal (fun q => blk_statements (sp_block q)) E). now apply in_map. }
  apply in_map_iff in B. destruct B as (s0 & E0 & H0). apply (L s0 x zs z H0); [|exact Ez]. apply (proj2 (erased_operands s0 _)). rewrite E0. exact (proj1 (erased_operands s _) Hv).
Qed.
Theorem C106_texts : forall lm text api f1 f2 rtl data1 data2 s1 p1 p2 q size, version_text text api -> version_same api [3; 0]%Z -> machine_libm lm -> text_of data1 s1 -> utf8 s1 ->
  parse_string f1 rtl data1 = Ok (mkResult (Some p1) []) -> parse_string f2 rtl data2 = Ok (mkResult (Some p2) []) ->
  relocate_program erase p2 = resize_program size (relocate_program erase p1) -> sizes_legal size -> used_with_indices size p1 ->
  run lm rtl text data1 f1 = Ok (mkResult (Some q) []) -> large_enough size q ->
  exists q', run lm rtl text data2 f2 = Ok (mkResult (Some q') []) /\ relocate_sem_program erase q' = resize_result size (relocate_sem_program erase q).
Proof.
  intros lm text api f1 f2 rtl data1 data2 s1 p1 p2 q size V S L T U P1 P2 E Z Us A La. pose proof (version_text_analyzer lm text api V S) as D.
  destruct (proj1 (run_erased lm text api f1 rtl data1 p1 (relocate_sem_program erase q) V S P1)) as (q1 & st1 & A1 & E1); [eauto|].
  assert (Us' : used_with_indices size (relocate_program erase p1)).
  { intros s l n Hs He. cbn [relocate_program prog_statements] in Hs. apply in_map_iff in Hs. destruct Hs as (s0 & <- & H0).
    assert (X : In (EIdent l n) (map (relocate_expr erase) (operands_of s0))) by (destruct s0; exact He). apply in_map_iff in X. destruct X as (e & X & He'). destruct e; try discriminate X. injection X as _ ->. exact (Us _ _ _ H0 He'). }
  destruct (C106_resized lm text api _ (relocate_program erase p1) st1 q1 size V S D L
    (grammar_relocated erase p1 (parsed_grammar f1 s1 p1 (proj1 (C64_tree f1 rtl data1 s1 p1 T U) P1))) (machine_relocated erase p1 (C84_parsed f1 rtl data1 s1 p1 T U P1)) (ordered_erased p1) A1 Z Us' (large_enough_erased size q q1 E1 La)) as (st2 & A2).
  rewrite <- E in A2. assert (J : relocate_sem_program erase (resize_result size q1) = resize_result size (relocate_sem_program erase q1)).
  { unfold resize_result, relocate_sem_program, relocate_block. cbn [sp_api_version sp_version sp_version_loc sp_block sp_variables blk_statements blk_loc]. f_equal; [f_equal|]; rewrite !map_map; apply map_ext; intros []; reflexivity. }
  apply (run_erased lm text api f2 rtl data2 p2 _ V S P2). exists (resize_result size q1), st2. split; [exact A2|]. rewrite J. now rewrite E1.
Qed.

(** The registers q and b get other sizes, one larger and one smaller; r is used as a
    whole and keeps its size. With a larger r the program would be rejected. *)
Definition text_resize : string := "version 3.0; qubit[3] q; bit[9] b; qubit[2] r; CNOT q[0,2], r; b[0:1] = measure q[1,2]; H r".
Definition new_sizes (n : string) : option Z := if n =? "q" then Some 10%Z else if n =? "b" then Some 2%Z else None.
Definition bad_sizes (n : string) : option Z := if n =? "r" then Some 3%Z else None.
Lemma analysed_case {A} (o : outcome error A) (Q : A -> Prop) : match o with Ok x => Q x | _ => False end -> exists x, o = Ok x /\ Q x.
Proof. destruct o; try contradiction. eauto. Qed.
Example C106_case : version_text "3.0" [3; 0]%Z /\ machine_libm same_libm /\ sizes_legal new_sizes /\
  exists p, parse_string None false text_resize = Ok (mkResult (Some p) []) /\ grammar_program p /\ machine_program p /\ ordered_locations p /\ used_with_indices new_sizes p /\
    (exists st' q, analyze_ast (fresh_analyzer same_libm) p = Ok (st', mkResult (Some q) []) /\ large_enough new_sizes q /\
      map (fun x => (var_name (sv_var x), tsize (var_type (sv_var x)))) (sp_variables (resize_result new_sizes q)) = [("q", 10%Z); ("b", 2%Z); ("r", 2%Z)]) /\
    (exists x, analyze_ast (fresh_analyzer same_libm) (resize_program bad_sizes p) = Ok x /\ List.length (res_errors (snd x)) = 1%nat).
Proof.
  split. { apply (vt_parts ["3"; "0"] [3; 0]%Z); try discriminate; [repeat constructor; discriminate|].
    constructor; [apply (front_plain "" "" "3" ""); auto; try discriminate; try exact I; cbn; unfold digit, code_between; cbn; split; [lia|exact I]|].
    constructor; [apply (front_plain "" "" "0" ""); auto; try discriminate; try exact I; cbn; unfold digit, code_between; cbn; split; [lia|exact I]|constructor]. }
  split; [split; [auto|]; repeat (apply Forall_cons; [auto|]); apply Forall_nil|].
  split. { intros n z. unfold new_sizes, fits. destruct (n =? "q"); [intros [= <-]; split; [reflexivity|cbn; lia]|]. destruct (n =? "b"); [intros [= <-]; split; [reflexivity|cbn; lia]|discriminate]. }
  assert (T : text_of text_resize text_resize) by text_case. assert (U : utf8 text_resize) by utf8_case.
  destruct (tree_case None text_resize (fun p => (forall s l n, In s (prog_statements p) -> In (EIdent l n) (operands_of s) -> new_sizes n = None) /\
      match analyze_ast (fresh_analyzer same_libm) p with Ok (_, mkResult (Some q) []) => large_enough new_sizes q /\
        map (fun x => (var_name (sv_var x), tsize (var_type (sv_var x)))) (sp_variables (resize_result new_sizes q)) = [("q", 10%Z); ("b", 2%Z); ("r", 2%Z)] | _ => False end /\
      match analyze_ast (fresh_analyzer same_libm) (resize_program bad_sizes p) with Ok x => List.length (res_errors (snd x)) = 1%nat | _ => False end)) as (p & E & H1 & H2 & H3).
  { vm_compute. split.
    - intros s l n Hs He. repeat (destruct Hs as [<-|Hs]; [repeat (destruct He as [He|He]; [first [discriminate He|injection He as _ <-; reflexivity]|]); destruct He|]). destruct Hs.
    - split; [|reflexivity]. split; [|reflexivity]. intros s x zs z Hs Hv Ez.
      repeat (destruct Hs as [<-|Hs]; [repeat (destruct Hv as [Hv|Hv]; [first [discriminate Hv|injection Hv as <- <-; cbn in Ez; first [discriminate Ez|injection Ez as <-; repeat constructor]]|]); destruct Hv|]). destruct Hs. }
  exists p. split; [exact E|]. split; [eapply parsed_grammar, (C64_tree None false _ _ p T U), E|]. split; [exact (C84_parsed None false _ _ p T U E)|]. split; [exact (C80_parsed None false _ _ p T U E)|].
  split; [exact H1|]. split; [|now apply analysed_case].
  clear H3 E. destruct (analyze_ast (fresh_analyzer same_libm) p) as [[st' [[q|] [|]]]| | |]; try contradiction. exists st', q. split; [reflexivity|exact H2].
Qed.
(** The text with the new sizes *)
Definition text_resized : string := "version 3.0; qubit[10] q; bit[2] b; qubit[2] r; CNOT q[0,2], r; b[0:1] = measure q[1,2]; H r".
Example C106_texts_case : match parse_string None false text_resize, parse_string None false text_resized with
  | Ok (mkResult (Some p1) []), Ok (mkResult (Some p2) []) => relocate_program erase p2 = resize_program new_sizes (relocate_program erase p1)
  | _, _ => False
  end.
Proof. vm_compute. reflexivity. Qed.
Print Assumptions C106_resized. Print Assumptions C106_larger. Print Assumptions C106_texts.
