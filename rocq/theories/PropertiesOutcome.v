(** Property C91: the result of the analysis of every program. *)
From Coq Require Import SpecFloat.
From Verif Require Import Base ModelUtils ModelVersion ModelError ModelTypes ModelOverload ModelFunctions ModelInstructionSet ModelAst ModelAnalyzer ModelSemantic ModelLexer ModelSyntactic
  SpecUtils SpecError SpecTypes SpecFunctions SpecInstructions SpecAnalyzer SpecHull SpecLexer SpecSyntax SpecReading SpecMachine SpecVersion SpecEvaluate SpecMeaning SpecOutcome
  ProofsFunctions ProofsAnalyzer2 ProofsReading ProofsText ProofsPipeline ProofsEvaluate ProofsMeaning2 ProofsOutcome3 PropertiesAnalyzer PropertiesSyntax PropertiesHull PropertiesMachine PropertiesMeaning.
Local Open Scope string_scope.

(** C91: the rules of SpecOutcome say what the analysis of a tree returns, with or
    without errors; it is undefined for the trees the rules give no result. *)
Theorem C91_tree : forall lm text api st p q es, version_text text api -> version_same api [3; 0]%Z -> default_analyzer lm text = Ok st -> machine_libm lm ->
  grammar_program p -> machine_program p -> ordered_locations p ->
  ((exists st', analyze_ast st p = Ok (st', mkResult (Some q) es)) <-> program_gives lm api p q es).
Proof. exact program_outcome. Qed.
Theorem C91_tree_undefined : forall lm text api st p, version_text text api -> version_same api [3; 0]%Z -> default_analyzer lm text = Ok st -> machine_libm lm ->
  grammar_program p -> machine_program p -> ordered_locations p ->
  ((exists k, analyze_ast st p = UB k) <-> forall q es, ~ program_gives lm api p q es).
Proof. intros lm text api st p T S D. rewrite (version_text_analyzer lm text api T S) in D. injection D as <-. now apply undefined_outcome. Qed.
(** The rules give at most one result, and a result without errors exactly if the program
    has a meaning (C90). *)
Theorem C91_one_result : forall lm api p q q' es es', version_same api [3; 0]%Z -> machine_libm lm ->
  grammar_program p -> machine_program p -> ordered_locations p -> program_gives lm api p q es -> program_gives lm api p q' es' -> q = q' /\ es = es'.
Proof. exact one_outcome. Qed.
Theorem C91_accepted : forall lm api p q, version_same api [3; 0]%Z -> machine_libm lm ->
  grammar_program p -> machine_program p -> ordered_locations p -> (program_gives lm api p q [] <-> program_means lm api p q).
Proof. exact outcome_meaning. Qed.

Section Text.
  Variables (lm : libm) (text : string) (api : version) (file : option string) (rtl : bool) (data s : string).
  Hypotheses (V : SpecVersion.version_text text api) (Sv : version_same api [3; 0]%Z) (L : machine_libm lm) (T : text_of data s) (U : utf8 s).
  Lemma read_text : (exists p, text_means file s p /\ grammar_program p /\ machine_program p /\ ordered_locations p /\
      run lm rtl text data file = bind (analyze_ast (mkAnalyzer api [default_scope lm] 0) p) (fun x => Ok (snd x))) \/
    ((forall p, ~ text_means file s p) /\ exists e, run lm rtl text data file = Ok (mkResult None [e])).
  Proof.
    pose proof (version_text_analyzer lm text api V Sv) as D.
    destruct (program_or_error file rtl data s T U) as [(p & E)|(e & E)].
    - left. pose proof E as M. apply (C64_tree file rtl data s p T U) in M. exists p. split; [exact M|]. split; [eapply parsed_grammar, M|].
      split; [exact (C84_parsed file rtl data s p T U E)|]. split; [exact (C80_parsed file rtl data s p T U E)|].
      unfold run, analyze_string. rewrite D. cbn [bind]. rewrite E. cbn [bind]. unfold analyze. cbn [res_errors res_root]. reflexivity.
    - right. split.
      + intros p M. apply (C64_tree file rtl data s p T U) in M. rewrite M in E. discriminate.
      + exists e. unfold run, analyze_string. rewrite D. cbn [bind]. rewrite E. reflexivity.
  Qed.
  Lemma text_result q es : run lm rtl text data file = Ok (mkResult (Some q) es) <-> exists p, text_means file s p /\ program_gives lm api p q es.
  Proof.
    destruct read_text as [(p & M & G & P & O & R)|(N & e & R)]; rewrite R.
    - split.
      + intros E. exists p. split; [exact M|]. apply (program_outcome_at lm api p q es Sv L G P O).
        destruct (analyze_ast _ p) as [[st' r]| | |]; try discriminate. cbn [bind snd] in E. injection E as ->. eauto.
      + intros (p' & M' & H). assert (p' = p) as ->.
        { apply (C64_tree file rtl data s p T U) in M. apply (C64_tree file rtl data s p' T U) in M'. congruence. }
        apply (program_outcome_at lm api p q es Sv L G P O) in H. destruct H as [st' ->]. reflexivity.
    - split; [discriminate|]. intros (p & M & _). destruct (N p M).
  Qed.
  Lemma text_undefined : (exists k, run lm rtl text data file = UB k) <-> exists p, text_means file s p /\ forall q es, ~ program_gives lm api p q es.
  Proof.
    destruct read_text as [(p & M & G & P & O & R)|(N & e & R)]; rewrite R.
    - split.
      + intros (k & E). exists p. split; [exact M|]. apply (undefined_outcome lm api p Sv L G P O).
        destruct (analyze_ast _ p) as [[st' r]| | |]; try discriminate. eauto.
      + intros (p' & M' & H). assert (p' = p) as ->.
        { apply (C64_tree file rtl data s p T U) in M. apply (C64_tree file rtl data s p' T U) in M'. congruence. }
        apply (undefined_outcome lm api p Sv L G P O) in H. destruct H as [k ->]. cbn [bind]. eauto.
    - split; [intros (k & E); discriminate|]. intros (p & M & _). destruct (N p M).
  Qed.
  Lemma text_syntax : (exists e, run lm rtl text data file = Ok (mkResult None [e])) <-> forall p, ~ text_means file s p.
  Proof.
    destruct read_text as [(p & M & G & P & O & R)|(N & e & R)]; rewrite R.
    - split; [|intros N; destruct (N p M)]. intros (e & E).
      destruct (default_total lm api p G) as [(st' & q & es & H)|(k & H)]; rewrite H in E; discriminate.
    - split; [intros _; exact N|eauto].
  Qed.
End Text.
(** From the text to the result: together the three theorems say what is returned for
    every text in UTF-8. *)
Theorem C91_text : forall lm text api file rtl data s q es, SpecVersion.version_text text api -> version_same api [3; 0]%Z -> machine_libm lm -> text_of data s -> utf8 s ->
  (run lm rtl text data file = Ok (mkResult (Some q) es) <-> exists p, text_means file s p /\ program_gives lm api p q es).
Proof. intros. now apply text_result. Qed.
Theorem C91_undefined : forall lm text api file rtl data s, SpecVersion.version_text text api -> version_same api [3; 0]%Z -> machine_libm lm -> text_of data s -> utf8 s ->
  ((exists k, run lm rtl text data file = UB k) <-> exists p, text_means file s p /\ forall q es, ~ program_gives lm api p q es).
Proof. intros. now apply text_undefined. Qed.
Theorem C91_syntax_error : forall lm text api file rtl data s, SpecVersion.version_text text api -> version_same api [3; 0]%Z -> machine_libm lm -> text_of data s -> utf8 s ->
  ((exists e, run lm rtl text data file = Ok (mkResult None [e])) <-> forall p, ~ text_means file s p).
Proof. intros. now apply text_syntax with (api := api). Qed.

Lemma result_case lm data (Q : sem_program -> list error -> Prop) : match run lm false "3" data None with Ok (mkResult (Some q) es) => Q q es | _ => False end ->
  exists q es, run lm false "3" data None = Ok (mkResult (Some q) es) /\ Q q es.
Proof. destruct (run lm false "3" data None) as [[[q|] es]| | |]; try contradiction. eauto. Qed.
Lemma ub_case lm data : match run lm false "3" data None with UB _ => True | _ => False end -> exists k, run lm false "3" data None = UB k.
Proof. destruct (run lm false "3" data None); try contradiction. eauto. Qed.
Lemma none_case lm data : match run lm false "3" data None with Ok (mkResult None [_]) => True | _ => False end -> exists e, run lm false "3" data None = Ok (mkResult None [e]).
Proof. destruct (run lm false "3" data None) as [[[q|] [|e [|e' es]]]| | |]; try contradiction. eauto. Qed.
(** A wrong version, a wrong size, a redeclaration, a wrong index, a wrong parameter; the
    register declared first is the one that is used. And a text whose result is undefined. *)
Definition text_faulty : string :=
  "version 2.1; bit[0] b; qubit[4] q; qubit[9] q; X q[1]; X q[4]; Rx(q) q[0]; Y q[2:3]; CNOT q[0], q[1:2]".
Definition text_undefined_result : string := "version 3; qubit q; Rx(1 / 0) q".
Example C91_case : SpecVersion.version_text "3" [3]%Z /\ version_same [3]%Z [3; 0]%Z /\ machine_libm same_libm /\
  (text_of text_faulty text_faulty /\ utf8 text_faulty) /\
  (exists p q es, text_means None text_faulty p /\ program_gives same_libm [3]%Z p q es /\
     exists q4 q9 l1 l2, sp_variables q = [mkSemVariable q4 []; mkSemVariable q9 []] /\
       q4 = mkVariable 1 "q" (mkType TQubitArray 4) /\ q9 = mkVariable 2 "q" (mkType TQubitArray 9) /\ sp_version q = [3]%Z /\
       blk_statements (sp_block q) =
         [ SemGateInstr l1 (mkInstruction "X" [mkType TQubit 0]) (SemGate l1 "X" None [] []) [VIndex q4 [1]%Z] [];
           SemGateInstr l2 (mkInstruction "Y" [mkType TQubitArray 0]) (SemGate l2 "Y" None [] []) [VIndex q4 [2; 3]%Z] [] ] /\
       map message es =
         [ "the only cQASM version supported is 3, but the cQASM file is version 2.1";
           "found bit array of size <= 0"; "trying to redeclare variable 'q'"; "index 4 out of range (size 4)";
           "failed to resolve 'Rx' with parameter type (qubit array)"; "qubit operands indices have different sizes" ]) /\
  (exists p, text_means None text_undefined_result p /\ forall q es, ~ program_gives same_libm [3]%Z p q es) /\
  (forall p, ~ text_means None "version 3; X" p).
Proof.
  destruct C90_case as (V & S & L & _).
  assert (T : text_of text_faulty text_faulty) by text_case. assert (U : utf8 text_faulty) by utf8_case.
  split; [exact V|]. split; [exact S|]. split; [exact L|]. split; [split; [exact T|exact U]|].
  split; [|split].
  - destruct (result_case same_libm text_faulty (fun q es => exists q4 q9 l1 l2, sp_variables q = [mkSemVariable q4 []; mkSemVariable q9 []] /\
       q4 = mkVariable 1 "q" (mkType TQubitArray 4) /\ q9 = mkVariable 2 "q" (mkType TQubitArray 9) /\ sp_version q = [3]%Z /\
       blk_statements (sp_block q) =
         [ SemGateInstr l1 (mkInstruction "X" [mkType TQubit 0]) (SemGate l1 "X" None [] []) [VIndex q4 [1]%Z] [];
           SemGateInstr l2 (mkInstruction "Y" [mkType TQubitArray 0]) (SemGate l2 "Y" None [] []) [VIndex q4 [2; 3]%Z] [] ] /\
       map message es =
         [ "the only cQASM version supported is 3, but the cQASM file is version 2.1";
           "found bit array of size <= 0"; "trying to redeclare variable 'q'"; "index 4 out of range (size 4)";
           "failed to resolve 'Rx' with parameter type (qubit array)"; "qubit operands indices have different sizes" ])) as (q & es & R & H).
    { vm_compute. eexists _, _, _, _. split; [reflexivity|]. split; [reflexivity|]. split; [reflexivity|]. split; [reflexivity|]. split; reflexivity. }
    apply (C91_text same_libm "3" [3]%Z None false _ _ q es V S L T U) in R. destruct R as (p & M & P). exists p, q, es. split; [exact M|]. split; [exact P|exact H].
  - apply (C91_undefined same_libm "3" [3]%Z None false text_undefined_result text_undefined_result V S L); [text_case|utf8_case|]. apply ub_case. vm_compute. exact I.
  - apply (C91_syntax_error same_libm "3" [3]%Z None false "version 3; X" "version 3; X" V S L); [text_case|utf8_case|].
    apply none_case. vm_compute. exact I.
Qed.
Print Assumptions C91_tree. Print Assumptions C91_tree_undefined. Print Assumptions C91_one_result. Print Assumptions C91_accepted.
Print Assumptions C91_text. Print Assumptions C91_undefined. Print Assumptions C91_syntax_error.
