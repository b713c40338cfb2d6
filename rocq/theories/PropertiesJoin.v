(** Property C112: programs may be written one behind the other. *)
From Coq Require Import SpecFloat.
From Verif Require Import Base ModelUtils ModelVersion ModelError ModelTypes ModelOverload ModelFunctions ModelInstructionSet ModelAst ModelAnalyzer ModelSemantic ModelLexer ModelSyntactic
  SpecUtils SpecError SpecTypes SpecFunctions SpecInstructions SpecAnalyzer SpecHull SpecLexer SpecSyntax SpecReading SpecMachine SpecVersion SpecEvaluate SpecMeaning SpecRelocate SpecResize SpecRename SpecJoin
  ProofsFunctions ProofsAnalyzer2 ProofsReading ProofsText ProofsEvaluate ProofsMeaning2 ProofsRelocate ProofsErase ProofsJoin PropertiesAnalyzer PropertiesSyntax PropertiesHull PropertiesMachine PropertiesMeaning PropertiesResize.
Local Open Scope string_scope.

(** C112: a program behind another one, whose variables it has nothing to do with, is
    accepted there if and only if both are accepted alone; the result is those of the two,
    one behind the other. *)
Theorem C112_joined : forall lm text api st p1 p2 q, version_text text api -> version_same api [3; 0]%Z -> default_analyzer lm text = Ok st -> machine_libm lm ->
  grammar_program p1 -> machine_program p1 -> ordered_locations p1 -> grammar_program p2 -> machine_program p2 -> ordered_locations p2 ->
  apart p1 p2 -> version_same (prog_version p2) (prog_version p1) ->
  (exists st', analyze_ast st (append_programs p1 p2) = Ok (st', mkResult (Some q) [])) <->
  (exists q1 q2 st1 st2, analyze_ast st p1 = Ok (st1, mkResult (Some q1) []) /\ analyze_ast st p2 = Ok (st2, mkResult (Some q2) []) /\ joined_results q1 q2 q).
Proof.
  intros lm text api st p1 p2 q V S D L G1 M1 O1 G2 M2 O2 A W. destruct (joined_demands p1 p2 G1 M1 O1 G2 M2 O2) as (G & M & O).
  rewrite (C90_tree lm text api st _ q V S D L G M O), (joined_program lm api p1 p2 q A W O1 O2). split.
  - intros (q1 & q2 & P1 & P2 & J). apply (C90_tree lm text api st p1 q1 V S D L G1 M1 O1) in P1. apply (C90_tree lm text api st p2 q2 V S D L G2 M2 O2) in P2. destruct P1 as (st1 & P1), P2 as (st2 & P2). eauto 8.
  - intros (q1 & q2 & st1 & st2 & P1 & P2 & J). exists q1, q2. split; [apply (C90_tree lm text api st p1 q1 V S D L G1 M1 O1); eauto|]. split; [apply (C90_tree lm text api st p2 q2 V S D L G2 M2 O2); eauto|exact J].
Qed.

(** The same for texts *)
Lemma erased_itself lm v p st' q : analyze_ast (mkAnalyzer v [default_scope lm] 0) (relocate_program erase p) = Ok (st', mkResult (Some q) []) -> relocate_sem_program erase q = q.
Proof.
  intros A. pose proof (rel_analyze_ast erase erase_compatible lm _ (relocate_program erase p) (default_ordinary_any lm v 0)) as R. rewrite erase_twice in R.
  change (relocate_analyzer erase (mkAnalyzer v [default_scope lm] 0)) with (mkAnalyzer v [default_scope lm] 0) in R. rewrite A in R.
  symmetry. exact (f_equal (fun o => match o with Ok (_, mkResult (Some x) _) => x | _ => q end) R).
Qed.
Theorem C112_texts : forall lm text api f1 f2 f3 rtl data1 data2 data3 s1 s2 p1 p2 p3 q, version_text text api -> version_same api [3; 0]%Z -> machine_libm lm ->
  text_of data1 s1 -> utf8 s1 -> text_of data2 s2 -> utf8 s2 ->
  parse_string f1 rtl data1 = Ok (mkResult (Some p1) []) -> parse_string f2 rtl data2 = Ok (mkResult (Some p2) []) -> parse_string f3 rtl data3 = Ok (mkResult (Some p3) []) ->
  relocate_program erase p3 = append_programs (relocate_program erase p1) (relocate_program erase p2) ->
  apart (relocate_program erase p1) (relocate_program erase p2) -> version_same (prog_version p2) (prog_version p1) ->
  (exists q', run lm rtl text data3 f3 = Ok (mkResult (Some q') []) /\ relocate_sem_program erase q' = q) <->
  (exists q1 q2, run lm rtl text data1 f1 = Ok (mkResult (Some q1) []) /\ run lm rtl text data2 f2 = Ok (mkResult (Some q2) []) /\
    joined_results (relocate_sem_program erase q1) (relocate_sem_program erase q2) q).
Proof.
  intros lm text api f1 f2 f3 rtl data1 data2 data3 s1 s2 p1 p2 p3 q V S L T1 U1 T2 U2 P1 P2 P3 R A W. pose proof (version_text_analyzer lm text api V S) as D.
  pose proof (C112_joined lm text api _ (relocate_program erase p1) (relocate_program erase p2) q V S D L
    (grammar_relocated erase p1 (parsed_grammar f1 s1 p1 (proj1 (C64_tree f1 rtl data1 s1 p1 T1 U1) P1))) (machine_relocated erase p1 (C84_parsed f1 rtl data1 s1 p1 T1 U1 P1)) (ordered_erased p1)
    (grammar_relocated erase p2 (parsed_grammar f2 s2 p2 (proj1 (C64_tree f2 rtl data2 s2 p2 T2 U2) P2))) (machine_relocated erase p2 (C84_parsed f2 rtl data2 s2 p2 T2 U2 P2)) (ordered_erased p2) A W) as J.
  rewrite <- R in J. rewrite (run_erased lm text api f3 rtl data3 p3 q V S P3). split.
  - intros (q0 & st0 & A0 & E0). rewrite (erased_itself _ _ _ _ _ A0) in E0. subst q0. destruct (proj1 J) as (q1 & q2 & st1 & st2 & A1 & A2 & Jq); [eauto|].
    destruct (proj2 (run_erased lm text api f1 rtl data1 p1 (relocate_sem_program erase q1) V S P1)) as (r1 & B1 & E1); [eauto|]. destruct (proj2 (run_erased lm text api f2 rtl data2 p2 (relocate_sem_program erase q2) V S P2)) as (r2 & B2 & E2); [eauto|].
    exists r1, r2. split; [exact B1|]. split; [exact B2|]. now rewrite E1, E2, (erased_itself _ _ _ _ _ A1), (erased_itself _ _ _ _ _ A2).
  - intros (r1 & r2 & B1 & B2 & Jq). destruct (proj1 (run_erased lm text api f1 rtl data1 p1 (relocate_sem_program erase r1) V S P1)) as (q1 & st1 & A1 & E1); [eauto|]. destruct (proj1 (run_erased lm text api f2 rtl data2 p2 (relocate_sem_program erase r2) V S P2)) as (q2 & st2 & A2 & E2); [eauto|].
    rewrite <- E1, <- E2, (erased_itself _ _ _ _ _ A1), (erased_itself _ _ _ _ _ A2) in Jq. destruct (proj2 J) as (st3 & A3); [eauto 8|]. exists q, st3. split; [exact A3|]. exact (erased_itself _ _ _ _ _ A3).
Qed.

(** Two programs of versions 3.0 and 3 *)
Definition text_upper : string := "version 3.0; qubit[2] q; bit[2] b; H q[0]; b = measure q".
Definition text_lower : string := "version 3; qubit r; X r; asm(A) ''' q '''; qubit[3] s; CNOT r, s[1]".
Definition text_both : string := "version 3.0; qubit[2] q; bit[2] b; H q[0]; b = measure q; qubit r; X r; asm(A) ''' q '''; qubit[3] s; CNOT r, s[1]".
Definition shown_operands (q : sem_program) : list (list (string * nat)) :=
  map (fun s => map (fun v => match v with VVar x | VIndex x _ => (var_name x, var_id x) | _ => ("", 0%nat) end) (result_operands s)) (blk_statements (sp_block q)).
Lemma not_listed n l : existsb (String.eqb n) l = false -> ~ In n l.
Proof. intros H Y. assert (X : existsb (String.eqb n) l = true) by (apply existsb_exists; exists n; split; [exact Y|apply String.eqb_refl]). congruence. Qed.
Example C112_case : machine_libm same_libm /\ (text_of text_upper text_upper /\ utf8 text_upper) /\ (text_of text_lower text_lower /\ utf8 text_lower) /\
  exists p1 p2 p3, parse_string None false text_upper = Ok (mkResult (Some p1) []) /\ parse_string None false text_lower = Ok (mkResult (Some p2) []) /\ parse_string None false text_both = Ok (mkResult (Some p3) []) /\
    (grammar_program p1 /\ machine_program p1 /\ ordered_locations p1) /\ (grammar_program p2 /\ machine_program p2 /\ ordered_locations p2) /\
    relocate_program erase p3 = append_programs (relocate_program erase p1) (relocate_program erase p2) /\
    apart p1 p2 /\ apart (relocate_program erase p1) (relocate_program erase p2) /\ version_same (prog_version p2) (prog_version p1) /\ prog_version p2 <> prog_version p1 /\
    exists st' q, analyze_ast (fresh_analyzer same_libm) p3 = Ok (st', mkResult (Some q) []) /\
      shown_operands q = [[("q", 0%nat)]; [("b", 1%nat); ("q", 0%nat)]; [("r", 2%nat)]; []; [("r", 2%nat); ("s", 3%nat)]].
Proof.
  split; [split; [auto|]; repeat (apply Forall_cons; [auto|]); apply Forall_nil|].
  assert (T1 : text_of text_upper text_upper) by text_case. assert (U1 : utf8 text_upper) by utf8_case. assert (T2 : text_of text_lower text_lower) by text_case. assert (U2 : utf8 text_lower) by utf8_case. do 2 (split; [split; assumption|]).
  pose (check := fun p1 p2 : program => forallb (fun n => negb (existsb (String.eqb n) (declared_names (prog_statements p2))) && forallb (fun s => negb (existsb (String.eqb n) (flat_map expr_names (statement_exprs s)))) (prog_statements p2)) (declared_names (prog_statements p1))).
  assert (Ch : forall p1 p2, check p1 p2 = true -> apart p1 p2).
  { intros p1 p2 H n Hn. unfold check in H. rewrite forallb_forall in H. specialize (H n Hn). apply andb_true_iff in H. destruct H as [H1 H2]. split; [apply not_listed; now destruct (existsb (String.eqb n) (declared_names (prog_statements p2)))|].
    rewrite forallb_forall in H2. apply Forall_forall. intros s Hs (e & He & Hne). specialize (H2 s Hs). apply negb_true_iff in H2. apply not_listed in H2. apply H2. apply in_flat_map. eauto. }
  destruct (tree_case None text_upper (fun p1 => match parse_string None false text_lower with Ok (mkResult (Some p2) []) => match parse_string None false text_both with Ok (mkResult (Some p3) []) =>
      relocate_program erase p3 = append_programs (relocate_program erase p1) (relocate_program erase p2) /\ check p1 p2 = true /\ check (relocate_program erase p1) (relocate_program erase p2) = true /\ prog_version p2 = [3]%Z /\ prog_version p1 = [3; 0]%Z /\
      match analyze_ast (fresh_analyzer same_libm) p3 with Ok (_, mkResult (Some q) []) => shown_operands q = [[("q", 0%nat)]; [("b", 1%nat); ("q", 0%nat)]; [("r", 2%nat)]; []; [("r", 2%nat); ("s", 3%nat)]] | _ => False end
      | _ => False end | _ => False end)) as (p1 & E1 & H).
  { vm_compute. repeat split. }
  destruct (parse_string None false text_lower) as [[[p2|] [|]]| | |] eqn:E2; try contradiction. destruct (parse_string None false text_both) as [[[p3|] [|]]| | |] eqn:E3; try contradiction.
  destruct H as (H1 & H2 & H3 & H4 & H5 & H6). exists p1, p2, p3. split; [exact E1|]. split; [reflexivity|]. split; [reflexivity|].
  split; [split; [eapply parsed_grammar, (C64_tree None false _ _ p1 T1 U1), E1|]; split; [exact (C84_parsed None false _ _ p1 T1 U1 E1)|exact (C80_parsed None false _ _ p1 T1 U1 E1)]|].
  split; [split; [eapply parsed_grammar, (C64_tree None false _ _ p2 T2 U2), E2|]; split; [exact (C84_parsed None false _ _ p2 T2 U2 E2)|exact (C80_parsed None false _ _ p2 T2 U2 E2)]|].
  clear E1 E2 E3. split; [exact H1|]. split; [now apply Ch|]. split; [now apply Ch|]. rewrite H4, H5. split; [intros [|[|i]]; try reflexivity; destruct i; reflexivity|]. split; [discriminate|]. clear H1 H2 H3 Ch.
  destruct (analyze_ast (fresh_analyzer same_libm) p3) as [[st' [[q|] [|]]]| | |]; try contradiction. exists st', q. split; [reflexivity|exact H6].
Qed.
Print Assumptions C112_joined. Print Assumptions C112_texts.
