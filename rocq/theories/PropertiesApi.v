(** Properties C68, C69: the entry points of the library. *)
From Verif Require Import Base ModelUtils ModelVersion ModelError ModelTypes ModelOverload ModelFunctions ModelAst ModelAnalyzer ModelSemantic ModelLexer ModelParser ModelSyntactic ModelApi
  SpecUtils SpecInstructions SpecAnalyzer SpecApi SpecLexer SpecSyntax SpecTree SpecReading ProofsAnalyzer2 ProofsAnalyzer3 ProofsAnalyzer7 ProofsPipeline ProofsApi PropertiesAnalyzer PropertiesSyntax.
Local Open Scope string_scope.

(** ** C68: all entry points report what the analysis of the text gives. *)

(** cqasm::v3x::analyze_string returns the program of an analysis without errors;
    otherwise it prints one line for each error and throws AnalysisFailed. *)
Theorem C68_cpp_returns : forall lm rtl data file api root,
  snd (v3x_analyze_string lm rtl data file api) = Ok root <-> run lm rtl api data file = Ok (mkResult root []).
Proof. exact v3x_string_ok. Qed.
Theorem C68_cpp_fails : forall lm rtl data file api root es, run lm rtl api data file = Ok (mkResult root es) -> es <> [] ->
  v3x_analyze_string lm rtl data file api = (lines (map what es), Throw "AnalysisFailed").
Proof. intros lm rtl data file api root [|e es] E N; [congruence|]. rewrite <- lines_join. eapply v3x_string_errors; eauto. Qed.

(** It prints nothing else. *)
Theorem C68_cpp_silent : forall lm rtl data file api, (forall root es, run lm rtl api data file = Ok (mkResult root es) -> es = []) ->
  fst (v3x_analyze_string lm rtl data file api) = "".
Proof.
  intros lm rtl data file api H. unfold v3x_analyze_string, unwrap_analysis. unfold run, analyze_string in H.
  destruct (parse_string file rtl data) as [r| | |]; cbn [bind]; try reflexivity. destruct (default_analyzer lm api) as [st| | |]; cbn [bind] in *; try reflexivity.
  destruct (analyze st r) as [[st' [root es]]| | |]; cbn [bind snd] in *; try reflexivity. now rewrite (H root es eq_refl).
Qed.

(** The Python functions return the tree, written and read again, if there is no
    error, and the messages otherwise; an empty file name is no file name. *)
Lemma file_named file : file_name_op file = named file.
Proof. destruct file; reflexivity. Qed.
Definition py_analyze_string {T : Type} (lm : libm) (rtl : bool) (write_tree : option sem_program -> string) (read_tree : string -> T) (max_version data file_name : string)
  : outcome error (T + list string) :=
  let! st := v3x_analyzer lm max_version false in
  let! x := v3x_analyze_string_ rtl write_tree st data file_name in Ok (py_unpack read_tree (snd x)).
Theorem C68_python_analyses : forall (T : Type) lm rtl write_tree (read_tree : string -> T) api data file,
  match run lm rtl api data (named file) with
  | Ok (mkResult root es) => py_analyze_string lm rtl write_tree read_tree api data file =
      Ok (match es with [] => inl (read_tree (write_tree root)) | _ => inr (map what es) end)
  | Err e => py_analyze_string lm rtl write_tree read_tree api data file = Err e
  | Throw w => py_analyze_string lm rtl write_tree read_tree api data file = Throw w
  | UB k => py_analyze_string lm rtl write_tree read_tree api data file = UB k
  end.
Proof.
  intros T lm rtl write read api data file. unfold py_analyze_string, run, v3x_analyze_string_, analyze_string. rewrite file_named. cbn [v3x_analyzer].
  destruct (default_analyzer lm api) as [st| | |]; cbn [bind]; try reflexivity. destruct (parse_string _ rtl data) as [r| | |]; cbn [bind]; try reflexivity.
  destruct (analyze st r) as [[st' [root es]]| | |]; cbn [bind fst snd]; try reflexivity. rewrite unpack_strings. destruct es; reflexivity.
Qed.
Theorem C68_python_parses : forall (T : Type) rtl write_tree (read_tree : string -> T) data file r,
  parse_string (named file) rtl data = Ok r ->
  (let! x := v3x_parse_string rtl write_tree data file in Ok (py_unpack read_tree x)) =
  Ok (match res_errors r with [] => inl (read_tree (write_tree (res_root r))) | es => inr (map what es) end).
Proof. intros T rtl write read data file r E. unfold v3x_parse_string. rewrite file_named, E. cbn [bind]. now rewrite unpack_strings. Qed.

(** The JSON functions return the tree if there is no error and the errors
    otherwise; those for JavaScript are the ones of Python. *)
Theorem C68_json : forall lm rtl signed dump data file r, run lm rtl "3.0" data (named file) = Ok r ->
  js_analyze_string_to_json rtl signed dump lm data file = to_json dump signed r /\
  (let! st := v3x_analyzer lm "3.0" false in let! x := v3x_analyze_string_to_json rtl signed dump st data file in Ok (snd x)) = to_json dump signed r.
Proof.
  intros lm rtl signed dump data file r. unfold js_analyze_string_to_json, run, v3x_analyze_string_to_json, analyze_string. rewrite !file_named. cbn [v3x_analyzer].
  destruct (default_analyzer lm "3.0") as [st| | |]; cbn [bind]; try discriminate. destruct (parse_string _ rtl data) as [x| | |]; cbn [bind]; try discriminate.
  destruct (analyze st x) as [[st' y]| | |]; cbn [bind fst snd]; try discriminate. intros [= <-]. split; destruct (to_json dump signed y); reflexivity.
Qed.
Theorem C68_parse_json : forall rtl signed dump data file r, parse_string (named file) rtl data = Ok r ->
  js_parse_string_to_json rtl signed dump data file = to_json dump signed r /\ v3x_parse_string_to_json rtl signed dump data file = to_json dump signed r.
Proof. intros rtl signed dump data file r E. unfold js_parse_string_to_json, v3x_parse_string_to_json. rewrite file_named, E. split; reflexivity. Qed.
Theorem C68_json_tells_errors : forall (R : Type) (dump : R -> string) signed root es, es <> [] ->
  to_json dump signed (mkResult root es) = Ok (errors_to_json signed es).
Proof. intros R dump signed root [|e es] N; [congruence|reflexivity]. Qed.

(** An analyzer object of Python is left as the analysis leaves it. *)
Theorem C68_python_analyzer : forall rtl write_tree signed dump st data file st' r, analyze_string rtl st data (named file) = Ok (st', r) ->
  (exists l, v3x_analyze_string_ rtl write_tree st data file = Ok (st', l)) /\
  (forall j, to_json dump signed r = Ok j -> v3x_analyze_string_to_json rtl signed dump st data file = Ok (st', j)).
Proof.
  intros rtl write signed dump st data file st' r. unfold analyze_string, v3x_analyze_string_, v3x_analyze_string_to_json. rewrite file_named.
  destruct (parse_string _ rtl data) as [x| | |]; cbn [bind]; try discriminate. intros E. rewrite E. cbn [bind fst snd]. split; [eauto|]. intros j J. now rewrite J.
Qed.

(** A file is analysed as its content is, without a file name. *)
Theorem C68_files : forall lm rtl signed path data,
  (forall api, v3x_analyze_file lm rtl path (Some data) api = v3x_analyze_string lm rtl data None api) /\
  (forall write st, v3x_analyze_file_ rtl write st path (Some data) = v3x_analyze_string_ rtl write st data "") /\
  (forall dump st, v3x_analyze_file_to_json rtl signed dump st path (Some data) = v3x_analyze_string_to_json rtl signed dump st data "") /\
  (forall write, v3x_parse_file rtl write path (Some data) = v3x_parse_string rtl write data "") /\
  (forall dump, v3x_parse_file_to_json rtl signed dump path (Some data) = v3x_parse_string_to_json rtl signed dump data "").
Proof. intros lm rtl signed path data. repeat split. Qed.
Theorem C68_missing_files : forall lm rtl signed path, exists e,
  (forall api, v3x_analyze_file lm rtl path None api = ("", Err e)) /\
  (forall write st, v3x_analyze_file_ rtl write st path None = Err e) /\ (forall dump st, v3x_analyze_file_to_json rtl signed dump st path None = Err e) /\
  (forall write, v3x_parse_file rtl write path None = Err e) /\ (forall dump, v3x_parse_file_to_json rtl signed dump path None = Err e) /\
  (forall st, analyze_file rtl st path None = Err e).
Proof. intros lm rtl signed path. eexists. repeat split. Qed.

(** An analyzer made without defaults rejects every instruction: each gives at
    least one error and leaves nothing in the program. *)
Theorem C68_without_defaults : forall lm v st p st' r, v3x_analyzer lm v true = Ok st -> analyze_ast st p = Ok (st', r) ->
  (exists sp, res_root r = Some sp /\ only_asm (blk_statements (sp_block sp))) /\
  (List.length (filter instruction_statement (prog_statements p)) <= List.length (res_errors r))%nat.
Proof. exact bare_analysis. Qed.
Theorem C68_versions : forall lm v, (exists st, v3x_analyzer lm v true = Ok st) <-> (exists st, v3x_analyzer lm v false = Ok st).
Proof. exact both_versions. Qed.

Definition text_asm : string := "version 3.0; asm(A) ''' nop '''; qubit q; H q".
Example C68_case : forall lm, (exists p, snd (v3x_analyze_string lm false text_rx None "3.0") = Ok (Some p)) /\
  (exists root e, run lm false "3.0" text_undeclared None = Ok (mkResult root [e]) /\
    v3x_analyze_string lm false text_undeclared None "3.0" = (what e, Throw "AnalysisFailed")) /\
  exists st, v3x_analyzer lm "3.0" true = Ok st /\
    match analyze_string false st text_asm None with
    | Ok (_, r) => (List.length (res_errors r) = 1)%nat /\ option_map (fun sp => List.length (blk_statements (sp_block sp))) (res_root r) = Some 1%nat
    | _ => False
    end.
Proof.
  intros lm. split; [|split].
  - assert (E : exists p, run lm false "3.0" text_rx None = Ok (mkResult (Some p) [])).
    { assert (H : match run lm false "3.0" text_rx None with Ok (mkResult (Some _) []) => True | _ => False end) by (vm_compute; exact I).
      destruct (run lm false "3.0" text_rx None) as [[[p|] [|]]| | |]; try contradiction. eauto. }
    destruct E as [p E]. exists p. now apply C68_cpp_returns.
  - assert (E : exists root e, run lm false "3.0" text_undeclared None = Ok (mkResult root [e])).
    { assert (H : match run lm false "3.0" text_undeclared None with Ok (mkResult _ [e]) => True | _ => False end) by (vm_compute; exact I).
      destruct (run lm false "3.0" text_undeclared None) as [[root [|e [|]]]| | |]; try contradiction. eauto. }
    destruct E as (root & e & E). exists root, e. split; [exact E|]. rewrite (C68_cpp_fails lm false text_undeclared None "3.0" root [e] E); [reflexivity|discriminate].
  - destruct (proj2 (C68_versions lm "3.0")) as [st E]; [exists (fresh_analyzer lm); apply fresh_is_default|]. exists st. split; [exact E|].
    assert (H : match (let! st := v3x_analyzer lm "3.0" true in analyze_string false st text_asm None) with
      | Ok (_, r) => (List.length (res_errors r) = 1)%nat /\ option_map (fun sp => List.length (blk_statements (sp_block sp))) (res_root r) = Some 1%nat
      | _ => False
      end) by (vm_compute; split; reflexivity).
    rewrite E in H. exact H.
Qed.
Print Assumptions C68_cpp_returns. Print Assumptions C68_cpp_fails. Print Assumptions C68_cpp_silent. Print Assumptions C68_python_analyses. Print Assumptions C68_python_parses.
Print Assumptions C68_json. Print Assumptions C68_python_analyzer. Print Assumptions C68_parse_json. Print Assumptions C68_json_tells_errors. Print Assumptions C68_files. Print Assumptions C68_missing_files.
Print Assumptions C68_without_defaults. Print Assumptions C68_versions.

(** ** C69: the errors of a file name the file. *)
Lemma reads_analyses lm rtl st : reads_texts lm rtl st -> analyses lm st /\ version_same (api_version st) [3; 0]%Z.
Proof.
  induction 1 as [st D|st data file st' r _ [A V] E].
  - split; [now apply an_default|]. destruct (default_analyzer_inv lm _ st D) as (v & _ & S & ->). exact S.
  - split; [eapply reached_by_texts; eauto|]. now rewrite (analyze_string_version _ _ _ _ _ _ E).
Qed.

(** Analyzer::analyze_file, with a default analyzer that may have analysed other
    files before *)
Theorem C69_analyzer : forall lm rtl st path data s st' r, reads_texts lm rtl st -> path <> "" -> text_of data s -> utf8 s ->
  analyze_file rtl st path (Some data) = Ok (st', r) -> Forall (names_file path) (res_errors r).
Proof.
  intros lm rtl st path data s st' r R N T U E. destruct (reads_analyses lm rtl st R) as [A V].
  eapply Forall_impl; [|exact (analysis_names_file lm rtl st data (Some path) s st' r (analyses_ordinary lm st A) V T U E)].
  intros e (l & L & F). exists l. split; [exact L|]. destruct path; [congruence|exact F].
Qed.
Example C69_case : forall lm, reads_texts lm false (fresh_analyzer lm) /\ text_of text_undeclared text_undeclared /\ utf8 text_undeclared /\
  exists st' r, analyze_file false (fresh_analyzer lm) "a/b.cq" (Some text_undeclared) = Ok (st', r) /\
    map what (res_errors r) = ["Error at a/b.cq:2:5..6: failed to resolve variable 'q'"].
Proof.
  intros lm. split; [apply rt_default, fresh_is_default|]. split; [text_case|]. split; [utf8_case|]. apply ok_case. vm_compute. reflexivity.
Qed.
(** The functions for C++ and Python forget the path: their results are the same
    for all, and the messages say that the file name is unknown. *)
Theorem C69_path_forgotten : forall lm rtl signed path path' data,
  (forall api, v3x_analyze_file lm rtl path (Some data) api = v3x_analyze_file lm rtl path' (Some data) api) /\
  (forall write st, v3x_analyze_file_ rtl write st path (Some data) = v3x_analyze_file_ rtl write st path' (Some data)) /\
  (forall dump st, v3x_analyze_file_to_json rtl signed dump st path (Some data) = v3x_analyze_file_to_json rtl signed dump st path' (Some data)) /\
  (forall write, v3x_parse_file rtl write path (Some data) = v3x_parse_file rtl write path' (Some data)) /\
  (forall dump, v3x_parse_file_to_json rtl signed dump path (Some data) = v3x_parse_file_to_json rtl signed dump path' (Some data)).
Proof. intros lm rtl signed path path' data. repeat split. Qed.
Theorem C69_refuted : exists data, forall lm rtl path, v3x_analyze_file lm rtl path (Some data) "3.0" =
  ("Error at <unknown file name>:2:5..6: failed to resolve variable 'q'", Throw "AnalysisFailed").
Proof. exists text_undeclared. intros lm rtl path. destruct rtl; vm_compute; reflexivity. Qed.
Print Assumptions C69_analyzer. Print Assumptions C69_path_forgotten. Print Assumptions C69_refuted.
