(** Properties C47, C54, C57: what does not change the tree of a text. *)
From Verif Require Import Base ModelUtils ModelVersion ModelError ModelTypes ModelFunctions ModelAst ModelLexer ModelParser ModelAnalyzer ModelSemantic ModelSyntactic SpecUtils SpecTypes SpecInstructions SpecAnalyzer SpecLexer SpecParser SpecSyntax SpecReading SpecRelocate SpecLayout
  ProofsLexer3 ProofsUtf8 ProofsAnalyzer2 ProofsAnalyzer3 ProofsRelocate ProofsLayout2 ProofsLayout5 ProofsLayout7 ProofsFileName PropertiesAnalyzer PropertiesSyntax.
Local Open Scope string_scope.

(** The result of parsing, and of the whole pipeline, without the locations *)
Definition parsed_as (m : outcome error (result program)) : outcome error (result program) := map_outcome (relocate_result erase (relocate_program erase)) m.
Definition analysed_as (m : outcome error (result sem_program)) : outcome error (result sem_program) := map_outcome (relocate_result erase (relocate_sem_program erase)) m.

Lemma same_but_blanks_bare a b : same_but_blanks a b -> bare a = bare b.
Proof.
  induction 1 as [|l a b I H IH|l a b I H IH|l a b H IH]; [reflexivity| | |]; unfold bare in *; cbn [filter].
  - apply ProofsSyntax.is_skipped_iff in I. rewrite I. exact IH.
  - apply ProofsSyntax.is_skipped_iff in I. rewrite I. exact IH.
  - destruct (is_skipped (lx_kind l)); cbn [negb map]; now rewrite IH.
Qed.
Lemma analysed_parsed lm rtl api f1 f2 s1 s2 : parsed_as (parse_string f1 rtl s1) = parsed_as (parse_string f2 rtl s2) -> analysed_as (run lm rtl api s1 f1) = analysed_as (run lm rtl api s2 f2).
Proof.
  intros E. unfold run. destruct (default_analyzer lm api) as [st| | |] eqn:D; cbn [bind]; try reflexivity.
  destruct (default_analyzer_inv lm api st D) as (v & _ & _ & ->). pose proof (default_ordinary_any lm v 0) as O. unfold analyze_string.
  destruct (parse_string f1 rtl s1) as [r1|e1|w1|k1], (parse_string f2 rtl s2) as [r2|e2|w2|k2]; try discriminate E; cbn [bind]; try (cbn in E |- *; congruence).
  unfold parsed_as in E. cbn [map_outcome] in E. injection E as E.
  assert (E' : relocate_result erase (relocate_program erase) r1 = relocate_result erase (relocate_program erase) r2) by (unfold relocate_result; now f_equal).
  pose proof (rel_analyze erase erase_compatible lm _ r1 O) as A1. pose proof (rel_analyze erase erase_compatible lm _ r2 O) as A2. rewrite E', A2 in A1. unfold analysed_as.
  pose proof (analyze_not_err (mkAnalyzer v [ProofsFunctions.default_scope lm] 0) r1) as N1.
  destruct (analyze _ r1) as [x1|e1| |], (analyze _ r2) as [x2|e2| |]; cbn [omap bind map_outcome] in *; try congruence; try (now destruct (N1 e1)).
  injection A1 as _ A1. unfold relocate_analysis in A1. f_equal. destruct x1, x2. cbn [snd] in *. unfold relocate_result. now f_equal.
Qed.

(** ** C47: blanks and comments do not matter. *)

(** Two texts whose tokens differ only in blanks and comments give the same tree
    or the same errors, but for the locations, and so does their analysis. *)
Theorem C47_same_tokens : forall f1 f2 rtl ls1 ls2, reads_as ls1 -> reads_as ls2 -> utf8 (spelled ls1) -> utf8 (spelled ls2) -> same_but_blanks ls1 ls2 ->
  parsed_as (parse_string f1 rtl (spelled ls1)) = parsed_as (parse_string f2 rtl (spelled ls2)) /\
  forall lm api, analysed_as (run lm rtl api (spelled ls1) f1) = analysed_as (run lm rtl api (spelled ls2) f2).
Proof.
  intros f1 f2 rtl ls1 ls2 T1 T2 U1 U2 B. assert (E : parsed_as (parse_string f1 rtl (spelled ls1)) = parsed_as (parse_string f2 rtl (spelled ls2))).
  { apply (same_tokens f1 f2 rtl _ _ ls1 ls2); auto. now apply same_but_blanks_bare. }
  split; [exact E|]. intros lm api. now apply analysed_parsed.
Qed.
(** In a program, the blanks and comments [g] at any place can be replaced by any
    others; the text is still read as the tokens it consists of. *)
Theorem C47_blanks_and_comments : forall file rtl l1 g g' l2 p, reads_as (l1 ++ g ++ l2)%list -> utf8 (spelled (l1 ++ g ++ l2)%list) -> utf8 (spelled g') ->
  fits l1 g l2 -> fits l1 g' l2 -> ~ Exists separates g -> ~ Exists separates g' ->
  parse_string file rtl (spelled (l1 ++ g ++ l2)%list) = Ok (mkResult (Some p) []) ->
  reads_as (l1 ++ g' ++ l2)%list /\
  (exists p', parse_string file rtl (spelled (l1 ++ g' ++ l2)%list) = Ok (mkResult (Some p') []) /\ relocate_program erase p' = relocate_program erase p) /\
  forall lm api, analysed_as (run lm rtl api (spelled (l1 ++ g' ++ l2)%list) file) = analysed_as (run lm rtl api (spelled (l1 ++ g ++ l2)%list) file).
Proof.
  intros file rtl l1 g g' l2 p T U Ug F F' S S' P. destruct (layout_changed file rtl l1 g g' l2 p T U Ug F F' ltac:(left; tauto) P) as (T' & p' & P' & E). split; [exact T'|]. split; [eauto|].
  intros lm api. apply analysed_parsed. rewrite P, P'. exact (f_equal (fun q => Ok (mkResult (Some q) [])) E).
Qed.

(** ** C54: a run of line ends and semicolons can be replaced by any other that is
    not empty, with any blanks and comments; at the ends of the text by none. *)
Theorem C54_separators : forall file rtl l1 g g' l2 p, reads_as (l1 ++ g ++ l2)%list -> utf8 (spelled (l1 ++ g ++ l2)%list) -> utf8 (spelled g') ->
  fits l1 g l2 -> fits l1 g' l2 -> same_separation l1 g g' l2 ->
  parse_string file rtl (spelled (l1 ++ g ++ l2)%list) = Ok (mkResult (Some p) []) ->
  reads_as (l1 ++ g' ++ l2)%list /\
  (exists p', parse_string file rtl (spelled (l1 ++ g' ++ l2)%list) = Ok (mkResult (Some p') []) /\ relocate_program erase p' = relocate_program erase p) /\
  forall lm api, analysed_as (run lm rtl api (spelled (l1 ++ g' ++ l2)%list) file) = analysed_as (run lm rtl api (spelled (l1 ++ g ++ l2)%list) file).
Proof.
  intros file rtl l1 g g' l2 p T U Ug F F' S P. destruct (layout_changed file rtl l1 g g' l2 p T U Ug F F' S P) as (T' & p' & P' & E). split; [exact T'|]. split; [eauto|].
  intros lm api. apply analysed_parsed. rewrite P, P'. exact (f_equal (fun q => Ok (mkResult (Some q) [])) E).
Qed.

(** The examples: "version 3.0; qubit q; H q" with the second "; " replaced. *)
Definition lexemes (s : string) : list lexeme := match lex s with Some (ls, _) => ls | None => [] end.
Definition head : list lexeme := lexemes "version 3.0; qubit q".
Definition tail : list lexeme := lexemes "H q /* done */".
Definition gap : list lexeme := lexemes "; ".
Definition gap2 : list lexeme := lexemes ("  // comment" ++ nl ++ ";/* another */").
Lemma reads_case ls : lex (spelled ls) = Some (ls, "") -> reads_as ls.
Proof. intros H. now apply lex_iff in H. Qed.
Definition layout_kindb (k : token_kind) : bool := match k with T_WHITE_SPACE | T_SINGLE_LINE_COMMENT | T_MULTI_LINE_COMMENT | T_NEW_LINE | T_SEMICOLON => true | _ => false end.
Lemma layout_case ls : lex (spelled ls) = Some (ls, "") -> forallb (fun l => layout_kindb (lx_kind l)) ls = true -> Forall layout ls.
Proof.
  intros H F. apply lex_iff in H. rewrite forallb_forall in F.
  assert (X : forall ls m s, tokenisation m s ls "" -> m = DefaultMode -> (forall l, In l ls -> layout_kindb (lx_kind l) = true) -> Forall layout ls).
  { clear. induction ls as [|l ls IH]; intros m s T -> K; [constructor|]. inversion T as [| |? k u v ? ? Fo M R Tv]; subst. pose proof (K _ (or_introl eq_refl)) as Kl. cbn [lx_kind] in Kl.
    constructor; [split; [destruct k; try discriminate Kl; cbn; auto 6|exact Fo]|]. eapply IH; [exact Tv|destruct k; try discriminate Kl; reflexivity|]. intros l Hl. apply K. now right. }
  eapply X; eauto.
Qed.
Definition runsb (x y : lexeme) : bool :=
  match lx_kind x, lx_kind y with
  | T_WHITE_SPACE, T_WHITE_SPACE => true
  | T_SINGLE_LINE_COMMENT, T_NEW_LINE => false
  | T_SINGLE_LINE_COMMENT, _ => true
  | T_DIVISION_OP, T_SINGLE_LINE_COMMENT => true
  | T_DIVISION_OP, T_MULTI_LINE_COMMENT => true
  | _, _ => false
  end.
Fixpoint apartb (ls : list lexeme) : bool := match ls with x :: ((y :: _) as r) => negb (runsb x y) && apartb r | _ => true end.
Lemma apart_case ls : apartb ls = true -> forall a x y b, ls = (a ++ x :: y :: b)%list -> ~ runs_into x y.
Proof.
  induction ls as [|z ls IH]; intros H a x y b E; [destruct a; discriminate|]. destruct a as [|z' a]; cbn [app] in E.
  - injection E as -> ->. cbn [apartb] in H. apply andb_true_iff in H. destruct H as [H _]. unfold runsb in H. intros [[K1 K2]|[[K1 K2]|[K1 K2]]]; rewrite K1 in H.
    + now rewrite K2 in H.
    + destruct (lx_kind y); try discriminate. now apply K2.
    + unfold comment_kinds in K2. destruct K2 as [K2|[K2|[]]]; rewrite <- K2 in H; discriminate.
  - injection E as -> ->. eapply IH; [|reflexivity]. cbn [apartb] in H. destruct (a ++ x :: y :: b)%list; [reflexivity|]. apply andb_true_iff in H. tauto.
Qed.
Example C54_case : reads_as (head ++ gap ++ tail)%list /\ utf8 (spelled (head ++ gap ++ tail)%list) /\ utf8 (spelled gap2) /\ fits head gap tail /\ fits head gap2 tail /\
  same_separation head gap gap2 tail /\
  (spelled (head ++ gap ++ tail)%list = "version 3.0; qubit q; H q /* done */")%string /\
  (spelled (head ++ gap2 ++ tail)%list = "version 3.0; qubit q  // comment" ++ nl ++ ";/* another */H q /* done */")%string /\
  match parse_string None false (spelled (head ++ gap ++ tail)%list) with Ok (mkResult (Some p) []) => List.length (prog_statements p) = 2%nat | _ => False end.
Proof.
  assert (Md : forall a x, head = (a ++ [x])%list -> ~ In (lx_kind x) [T_VERSION; T_VERSION_WHITE_SPACE]).
  { intros a x E. assert (Ex : x = mkLexeme T_IDENTIFIER "q") by (apply (f_equal (fun l => List.last l (mkLexeme T_EOF ""))) in E; rewrite last_last in E; rewrite <- E; vm_compute; reflexivity). rewrite Ex. cbn. intuition discriminate. }
  split; [apply reads_case; vm_compute; reflexivity|]. split; [utf8_case|]. split; [utf8_case|].
  split; [|split; [|split; [|split; [|split]]]].
  - split; [apply layout_case; vm_compute; reflexivity|exact Md|apply apart_case; vm_compute; reflexivity|left; vm_compute; discriminate].
  - split; [apply layout_case; vm_compute; reflexivity|exact Md|apply apart_case; vm_compute; reflexivity|left; vm_compute; discriminate].
  - left. split; intros _.
    + vm_compute. right; right; left. cbn; auto.
    + vm_compute. left. cbn; auto.
  - vm_compute; reflexivity.
  - vm_compute; reflexivity.
  - vm_compute; reflexivity.
Qed.
Example C47_case : same_but_blanks (lexemes "H q /* done */") (lexemes "  H q") /\ reads_as (lexemes "  H q").
Proof.
  split; [|apply reads_case; vm_compute; reflexivity]. vm_compute. apply sb_right; [cbn; auto|]. apply sb_both. apply sb_both. apply sb_both. apply sb_left; [cbn; auto|]. apply sb_left; [cbn; auto|]. constructor.
Qed.
Definition head3 : list lexeme := lexemes "version 3.0; qubit q; H".
Definition tail3 : list lexeme := lexemes "q".
Definition gap3 : list lexeme := lexemes " ".
Definition gap4 : list lexeme := lexemes "/* a */ /* b */".
Example C47_replace_case : reads_as (head3 ++ gap3 ++ tail3)%list /\ utf8 (spelled (head3 ++ gap3 ++ tail3)%list) /\ utf8 (spelled gap4) /\ fits head3 gap3 tail3 /\ fits head3 gap4 tail3 /\
  ~ Exists separates gap3 /\ ~ Exists separates gap4 /\
  (spelled (head3 ++ gap4 ++ tail3)%list = "version 3.0; qubit q; H/* a */ /* b */q")%string /\
  match parse_string None false (spelled (head3 ++ gap3 ++ tail3)%list) with Ok (mkResult (Some p) []) => List.length (prog_statements p) = 2%nat | _ => False end.
Proof.
  assert (Md : forall a x, head3 = (a ++ [x])%list -> ~ In (lx_kind x) [T_VERSION; T_VERSION_WHITE_SPACE]).
  { intros a x E. assert (Ex : x = mkLexeme T_IDENTIFIER "H") by (apply (f_equal (fun l => List.last l (mkLexeme T_EOF ""))) in E; rewrite last_last in E; rewrite <- E; vm_compute; reflexivity). rewrite Ex. cbn. intuition discriminate. }
  assert (Ns : forall ls, forallb (fun l => match lx_kind l with T_NEW_LINE | T_SEMICOLON => false | _ => true end) ls = true -> ~ Exists separates ls).
  { intros ls F E. rewrite forallb_forall in F. apply Exists_exists in E. destruct E as (l & Hl & S). specialize (F l Hl). unfold separates, separator_kinds in S. destruct S as [S|[S|[]]]; rewrite <- S in F; discriminate. }
  split; [apply reads_case; vm_compute; reflexivity|]. split; [utf8_case|]. split; [utf8_case|].
  split; [|split; [|split; [|split; [|split]]]].
  - split; [apply layout_case; vm_compute; reflexivity|exact Md|apply apart_case; vm_compute; reflexivity|left; vm_compute; discriminate].
  - split; [apply layout_case; vm_compute; reflexivity|exact Md|apply apart_case; vm_compute; reflexivity|left; vm_compute; discriminate].
  - apply Ns. vm_compute; reflexivity.
  - apply Ns. vm_compute; reflexivity.
  - vm_compute; reflexivity.
  - vm_compute; reflexivity.
Qed.
Print Assumptions C47_same_tokens. Print Assumptions C47_blanks_and_comments. Print Assumptions C54_separators.

(** ** C57: the file name only labels the output. *)

(** The result for the file name [f2] is the result for [f1] with [f2] in the
    locations, both of parsing and of the whole pipeline. *)
Theorem C57_parse : forall f1 f2 rtl data,
  parse_string f2 rtl data = map_outcome (relocate_result (in_file f2) (relocate_program (in_file f2))) (parse_string f1 rtl data).
Proof. exact parse_in_file. Qed.
Theorem C57_analyse : forall lm rtl api data f1 f2,
  run lm rtl api data f2 = map_outcome (relocate_result (in_file f2) (relocate_sem_program (in_file f2))) (run lm rtl api data f1).
Proof.
  intros lm rtl api data f1 f2. unfold run. destruct (default_analyzer lm api) as [st| | |] eqn:D; cbn [bind]; try reflexivity.
  destruct (default_analyzer_inv lm api st D) as (v & _ & _ & ->). pose proof (analyze_string_in_file lm _ rtl data f1 f2 (default_ordinary_any lm v 0)) as A.
  change (relocate_analyzer (in_file f2) (mkAnalyzer v [ProofsFunctions.default_scope lm] 0)) with (mkAnalyzer v [ProofsFunctions.default_scope lm] 0) in A. rewrite A.
  destruct (analyze_string rtl (mkAnalyzer v [ProofsFunctions.default_scope lm] 0) data f1); reflexivity.
Qed.
(** An analyzer that has analysed other programs: the locations it keeps change as
    well. *)
Theorem C57_used_analyzer : forall lm st rtl data f1 f2, analyses lm st ->
  analyze_string rtl (relocate_analyzer (in_file f2) st) data f2 =
  map_outcome (fun r => (relocate_analyzer (in_file f2) (fst r), relocate_result (in_file f2) (relocate_sem_program (in_file f2)) (snd r))) (analyze_string rtl st data f1).
Proof. intros lm st rtl data f1 f2 H. exact (analyze_string_in_file lm st rtl data f1 f2 (analyses_ordinary lm st H)). Qed.
Example C57_case : forall lm, exists r r' e l, run lm false "3.0" text_undeclared (Some "a.cq") = Ok (mkResult r [e]) /\ location e = Some l /\ file_name l = Some "a.cq" /\
  exists e', run lm false "3.0" text_undeclared (Some "b.cq") = Ok (mkResult r' [e']) /\ location e' = Some (mkRawLocation (Some "b.cq") (loc_range l)).
Proof. intros lm. do 4 eexists. split; [vm_compute; reflexivity|]. split; [vm_compute; reflexivity|]. split; [reflexivity|]. eexists. split; vm_compute; reflexivity. Qed.
Print Assumptions C57_parse. Print Assumptions C57_analyse. Print Assumptions C57_used_analyzer.
