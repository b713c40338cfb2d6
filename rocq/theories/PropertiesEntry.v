(** Property C95: what every entry point does with every text. *)
From Verif Require Import Base ModelUtils ModelVersion ModelError ModelTypes ModelOverload ModelFunctions ModelInstructionSet ModelAst ModelAnalyzer ModelSemantic ModelLexer ModelSyntactic ModelApi
  SpecUtils SpecError SpecTypes SpecFunctions SpecInstructions SpecAnalyzer SpecHull SpecLexer SpecSyntax SpecReading SpecMachine SpecVersion SpecApi SpecEvaluate SpecMeaning SpecOutcome SpecEntry
  ProofsFunctions ProofsAnalyzer2 ProofsEvaluate ProofsMeaning2 ProofsOutcome3 PropertiesAnalyzer PropertiesSyntax PropertiesApi PropertiesMachine PropertiesMeaning PropertiesOutcome.
Local Open Scope string_scope.

Section Texts.
  Variables (lm : libm) (text : string) (api : version) (rtl : bool) (data s : string).
  Hypotheses (V : SpecVersion.version_text text api) (Sv : version_same api [3; 0]%Z) (L : machine_libm lm) (T : text_of data s) (U : utf8 s).
  Lemma accepted_run file q : text_accepted lm api file s q <-> run lm rtl text data file = Ok (mkResult (Some q) []).
  Proof. symmetry. exact (C90_text lm text api file rtl data s q V Sv L T U). Qed.
  Lemma rejected_run file es : text_rejected lm api file s es <-> exists q, run lm rtl text data file = Ok (mkResult (Some q) es) /\ es <> [].
  Proof.
    split.
    - intros (p & q & M & G & N). exists q. split; [|exact N]. apply (C91_text lm text api file rtl data s q es V Sv L T U). eauto.
    - intros (q & R & N). apply (C91_text lm text api file rtl data s q es V Sv L T U) in R. destruct R as (p & M & G). exists p, q. auto.
  Qed.
  Lemma not_a_text_run file : not_a_text file s <-> exists e, run lm rtl text data file = Ok (mkResult None [e]).
  Proof. symmetry. exact (C91_syntax_error lm text api file rtl data s V Sv L T U). Qed.
  Lemma without_run file : text_without_result lm api file s <-> exists k, run lm rtl text data file = UB k.
  Proof. symmetry. exact (C91_undefined lm text api file rtl data s V Sv L T U). Qed.
  (** Every text is one of the four. *)
  Lemma four_texts file : (exists q, text_accepted lm api file s q) \/ (exists es, text_rejected lm api file s es) \/ not_a_text file s \/ text_without_result lm api file s.
  Proof.
    destruct (read_text lm text api file rtl data s V Sv T U) as [(p & M & G & P & O & R)|(N & e & R)]; [|now right; right; left].
    destruct (default_total lm api p G) as [(st' & q & es & H)|(k & H)]; rewrite H in R; cbn [bind snd] in R.
    - destruct es as [|e es]; [left; exists q; now apply accepted_run|]. right. left. exists (e :: es). apply rejected_run. exists q. split; [exact R|discriminate].
    - right. right. right. apply without_run. eauto.
  Qed.
End Texts.

(** C95: every text in UTF-8 is accepted, rejected, not a text of the language, or without
    result; *)
Theorem C95_cases : forall lm text api file data s, SpecVersion.version_text text api -> version_same api [3; 0]%Z -> machine_libm lm -> text_of data s -> utf8 s ->
  (exists q, text_accepted lm api file s q) \/ (exists es, text_rejected lm api file s es) \/ not_a_text file s \/ text_without_result lm api file s.
Proof. intros lm text api file data s V Sv L T U. exact (four_texts lm text api false data s V Sv L T U file). Qed.
(** cqasm::v3x::analyze_string returns the program, or prints the errors and throws; *)
Theorem C95_cpp : forall lm text api file rtl data s, SpecVersion.version_text text api -> version_same api [3; 0]%Z -> machine_libm lm -> text_of data s -> utf8 s ->
  (forall q, text_accepted lm api file s q <-> v3x_analyze_string lm rtl data file text = ("", Ok (Some q))) /\
  (forall es, text_rejected lm api file s es -> v3x_analyze_string lm rtl data file text = (lines (map what es), Throw "AnalysisFailed")) /\
  (not_a_text file s -> exists e, v3x_analyze_string lm rtl data file text = (what e, Throw "AnalysisFailed")) /\
  (text_without_result lm api file s <-> exists k, v3x_analyze_string lm rtl data file text = ("", UB k)).
Proof.
  intros lm text api file rtl data s V Sv L T U. split; [|split; [|split]].
  - intros q. rewrite (accepted_run lm text api rtl data s V Sv L T U). rewrite <- C68_cpp_returns. split; [|intros ->; reflexivity].
    intros E. pose proof E as R. apply C68_cpp_returns in R. rewrite <- (C68_cpp_silent lm rtl data file text), <- E; [now destruct (v3x_analyze_string _ _ _ _ _)|].
    intros root es R'. rewrite R in R'. now injection R' as _ <-.
  - intros es H. apply (rejected_run lm text api rtl data s V Sv L T U) in H. destruct H as (q & R & N). exact (C68_cpp_fails lm rtl data file text _ es R N).
  - intros H. apply (not_a_text_run lm text api rtl data s V Sv L T U) in H. destruct H as (e & R). exists e. exact (C68_cpp_fails lm rtl data file text _ [e] R ltac:(discriminate)).
  - rewrite (without_run lm text api rtl data s V Sv L T U). pose proof (version_text_analyzer lm text api V Sv) as D.
    unfold v3x_analyze_string, unwrap_analysis, run, analyze_string. rewrite D. cbn [bind].
    destruct (parse_string file rtl data) as [r| | |]; cbn [bind]; [|split; intros [x E]; discriminate|split; intros [x E]; discriminate|split; intros [x E]; injection E as ->; eauto].
    destruct (analyze _ r) as [[st' [root es]]| | |]; cbn [bind snd]; split; intros [x E]; try discriminate; try (injection E as ->; eauto).
    unfold unwrap in E. cbn [res_errors] in E. destruct es; discriminate.
Qed.
(** Python's analyze_string returns the program, written and read again, or the messages; *)
Theorem C95_python : forall (W : Type) lm text api rtl write_tree (read_tree : string -> W) data s file, SpecVersion.version_text text api -> version_same api [3; 0]%Z -> machine_libm lm -> text_of data s -> utf8 s ->
  (forall q, text_accepted lm api (named file) s q -> py_analyze_string lm rtl write_tree read_tree text data file = Ok (inl (read_tree (write_tree (Some q))))) /\
  (forall es, text_rejected lm api (named file) s es -> py_analyze_string lm rtl write_tree read_tree text data file = Ok (inr (map what es))) /\
  (not_a_text (named file) s -> exists e, py_analyze_string lm rtl write_tree read_tree text data file = Ok (inr [what e])) /\
  (text_without_result lm api (named file) s -> exists k, py_analyze_string lm rtl write_tree read_tree text data file = UB k).
Proof.
  intros W lm text api rtl write read data s file V Sv L T U. pose proof (C68_python_analyses W lm rtl write read text data file) as P. split; [|split; [|split]].
  - intros q H. apply (accepted_run lm text api rtl data s V Sv L T U) in H. now rewrite H in P.
  - intros es H. apply (rejected_run lm text api rtl data s V Sv L T U) in H. destruct H as (q & R & N). rewrite R in P. now destruct es.
  - intros H. apply (not_a_text_run lm text api rtl data s V Sv L T U) in H. destruct H as (e & R). exists e. now rewrite R in P.
  - intros H. apply (without_run lm text api rtl data s V Sv L T U) in H. destruct H as (k & R). exists k. now rewrite R in P.
Qed.
(** the JSON functions of Python and JavaScript return the program or the errors as
    JSON. *)
Theorem C95_json : forall lm api rtl signed dump data s file, SpecVersion.version_text "3.0" api -> version_same api [3; 0]%Z -> machine_libm lm -> text_of data s -> utf8 s ->
  let json := fun r => js_analyze_string_to_json rtl signed dump lm data file = r /\
    (let! st := v3x_analyzer lm "3.0" false in let! x := v3x_analyze_string_to_json rtl signed dump st data file in Ok (snd x)) = r in
  (forall q, text_accepted lm api (named file) s q -> json (Ok (dump q))) /\
  (forall es, text_rejected lm api (named file) s es -> json (Ok (errors_to_json signed es))) /\
  (not_a_text (named file) s -> exists e, json (Ok (errors_to_json signed [e]))).
Proof.
  intros lm api rtl signed dump data s file V Sv L T U json. split; [|split].
  - intros q H. apply (accepted_run lm "3.0" api rtl data s V Sv L T U) in H. exact (C68_json lm rtl signed dump data file _ H).
  - intros es H. apply (rejected_run lm "3.0" api rtl data s V Sv L T U) in H. destruct H as (q & R & N). unfold json. rewrite <- (C68_json_tells_errors _ dump signed (Some q) es N). exact (C68_json lm rtl signed dump data file _ R).
  - intros H. apply (not_a_text_run lm "3.0" api rtl data s V Sv L T U) in H. destruct H as (e & R). exists e. unfold json. rewrite <- (C68_json_tells_errors _ dump signed None [e] ltac:(discriminate)). exact (C68_json lm rtl signed dump data file _ R).
Qed.
(** Of each case there is a text. *)
Example C95_case : SpecVersion.version_text "3" [3]%Z /\ version_same [3]%Z [3; 0]%Z /\ machine_libm same_libm /\
  (exists q, text_accepted same_libm [3]%Z None text_meaning q) /\ (exists es, text_rejected same_libm [3]%Z None text_faulty es /\ List.length es = 6%nat) /\
  not_a_text None "version 3; X" /\ text_without_result same_libm [3]%Z None text_undefined_result.
Proof.
  destruct C90_case as (V & S & L & _ & (p & q & M & P & _) & _). destruct C91_case as (_ & _ & _ & _ & (p2 & q2 & es & M2 & P2 & x1 & x2 & x3 & x4 & _ & _ & _ & _ & _ & E) & W & N).
  split; [exact V|]. split; [exact S|]. split; [exact L|]. split; [exists q, p; auto|]. split; [|split; [exact N|exact W]].
  exists es. split; [|rewrite <- (map_length message es), E; reflexivity]. exists p2, q2. split; [exact M2|]. split; [exact P2|]. intros ->. discriminate.
Qed.
Print Assumptions C95_cases. Print Assumptions C95_cpp. Print Assumptions C95_python. Print Assumptions C95_json.
