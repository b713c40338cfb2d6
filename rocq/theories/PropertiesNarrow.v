(** Property C86: positions in 32 bits. *)
From Coq Require Import Nnat.
From Verif Require Import Base ModelUtils ModelVersion ModelError ModelTypes ModelOverload ModelFunctions ModelAst ModelAnalyzer ModelSemantic ModelLexer ModelParser ModelSyntactic
  SpecUtils SpecError SpecTypes SpecInstructions SpecAnalyzer SpecRelocate SpecLexer SpecSyntax SpecTree SpecReading SpecSites SpecLayout SpecNarrow
  ProofsUtils ProofsLexer3 ProofsUtf8 ProofsAnalyzer2 ProofsSyntax ProofsTree ProofsSites ProofsReading ProofsLayout7 ProofsNarrow PropertiesAnalyzer PropertiesSyntax PropertiesLayout.
Local Open Scope string_scope.

(** C86: in texts below 4 GiB the conversions of positions to 32 bits lose nothing.
    They are applied to the line of a token, its first column and the column behind
    it, for all tokens up to the first error; *)
Theorem C86_conversions : forall s ts t, below_4_gib s -> scanned s ts -> In t ts ->
  low_32 (tk_line t) = tk_line t /\ low_32 (tk_col t + 1) = (tk_col t + 1)%N /\
  low_32 (tk_col t + 1 + N.of_nat (String.length (tk_text t))) = (tk_col t + 1 + N.of_nat (String.length (tk_text t)))%N.
Proof. intros s ts t B S H. destruct (scanned_fits s ts t B S H) as (A1 & A2 & A3). now rewrite !low_small. Qed.
(** ... so that no location of a tree or of a syntax error changes when it is stored
    in 32 bits; *)
Theorem C86_parsed : forall file rtl data s r, text_of data s -> utf8 s -> below_4_gib s -> parse_string file rtl data = Ok r ->
  relocate_result stored_32 (relocate_program stored_32) r = r.
Proof. exact string_stored. Qed.
(** ... nor does one of the result of the analysis. *)
Theorem C86_analysed : forall lm rtl st data file s st' r, ordinary lm st -> relocate_analyzer stored_32 st = st ->
  text_of data s -> utf8 s -> below_4_gib s -> analyze_string rtl st data file = Ok (st', r) ->
  relocate_result stored_32 (relocate_sem_program stored_32) r = r /\ relocate_analyzer stored_32 st' = st'.
Proof. exact analysis_stored. Qed.

(** Longer texts have positions that do not fit: a program after 2^32 empty lines
    is on a line whose number is stored as 1. *)
Fixpoint empty_lines (n : nat) : string := match n with O => "" | S n => LF ++ empty_lines n end.
Definition line_lexemes (n : nat) : list lexeme := repeat (mkLexeme T_NEW_LINE LF) n.
Lemma spelled_lines n : spelled (line_lexemes n) = empty_lines n.
Proof. unfold spelled, line_lexemes. induction n as [|n IH]; [reflexivity|]. cbn [repeat]. rewrite ProofsTree.concat_cons, IH. reflexivity. Qed.
Lemma utf8_lines n : utf8 (empty_lines n).
Proof. induction n as [|n IH]; [constructor|]. cbn [empty_lines]. change LF with (encoding 10). apply utf8_next; [left; lia|exact IH]. Qed.
Lemma behind_lines c x y : is_lf c = false -> forall n a, a ++ String c x = empty_lines n ++ y -> exists a', a = empty_lines n ++ a'.
Proof.
  intros C. induction n as [|n IH]; intros a E; [exists a; reflexivity|]. cbn [empty_lines] in *. rewrite append_assoc in E. destruct a as [|d a]; cbn [LF String.append] in E.
  - injection E as -> _. discriminate C.
  - injection E as -> E. destruct (IH a E) as [a' ->]. exists a'. reflexivity.
Qed.
Lemma feeds_lines n : line_feeds (empty_lines n) = N.of_nat n.
Proof. induction n as [|n IH]; [reflexivity|]. cbn [empty_lines]. rewrite line_feeds_append, IH. change (line_feeds LF) with 1%N. lia. Qed.
Definition only_version : list lexeme := lexemes "version 3.0".
Lemma late_version n : exists p l, parse_string None false (empty_lines n ++ "version 3.0") = Ok (mkResult (Some p) []) /\
  prog_version_loc p = Some l /\ line (first (loc_range l)) = (N.of_nat n + 1)%N.
Proof.
  destruct (tree_case None "version 3.0" (fun p => prog_version p = [3; 0]%Z)) as (p & E & V); [vm_compute; reflexivity|].
  assert (Em : forall (a b : list lexeme) x, [] = (a ++ [x])%list -> False) by (intros a b x H; destruct a; discriminate).
  destruct (layout_changed None false [] [] (line_lexemes n) only_version p) as (_ & p' & E' & R).
  - apply reads_case. vm_compute. reflexivity.
  - utf8_case.
  - rewrite spelled_lines. apply utf8_lines.
  - split; [constructor|intros a x H; destruct (Em a [] x H)|apply apart_case; vm_compute; reflexivity|right; now left].
  - split; [|intros a x H; destruct (Em a [] x H)| |right; now left].
    + unfold line_lexemes. apply Forall_forall. intros x H. apply repeat_spec in H. subst x. split; [cbn; tauto|exact form_newline].
    + apply apart_case. unfold line_lexemes. induction n as [|n IH]; [vm_compute; reflexivity|]. cbn [repeat app] in *. destruct n; exact IH.
  - right. now left.
  - exact E.
  - cbn [app] in E'. assert (Sp : spelled (line_lexemes n ++ only_version) = empty_lines n ++ "version 3.0").
    { unfold spelled. rewrite concat_app. fold (spelled (line_lexemes n)). rewrite spelled_lines. reflexivity. }
    rewrite Sp in E'. assert (V' : prog_version p' = [3; 0]%Z) by (rewrite <- V; exact (f_equal prog_version R)).
    assert (U : utf8 (empty_lines n ++ "version 3.0")).
    { apply utf8_app; [apply utf8_lines|utf8_case]. }
    assert (T : text_of (empty_lines n ++ "version 3.0") (empty_lines n ++ "version 3.0")).
    { right. split; [reflexivity|]. intros [r H]. destruct n; discriminate H. }
    destruct (C53_locations None false _ _ p' T U E') as [P _]. unfold program_sites in P. apply Forall_cons_iff in P. destruct P as [[(a & t & b & Es & M & L) _] _]. cbn [fst snd] in *.
    exists p'. eexists. split; [exact E'|]. split; [exact L|]. cbn [loc_range first position line].
    rewrite V' in M. inversion M as [|x1 v1 x2 v2 I1 I2 Et]. subst.
    assert (Nx : exists c r, is_lf c = false /\ x1 ++ "." ++ x2 = String c r).
    { destruct x1 as [|c r]; [exists "."%char, x2; split; reflexivity|]. exists c, (r ++ "." ++ x2). split; [|reflexivity]. inversion I1 as [? D]. destruct D as [D _]. now apply digit_simple in D. }
    destruct Nx as (c & r & Cl & Ec). rewrite Ec in Es. change (String c r ++ b) with (String c (r ++ b)) in Es. symmetry in Es. destruct (behind_lines c (r ++ b) "version 3.0" Cl n a Es) as [a' ->].
    rewrite !append_assoc in Es.
    unfold line_of. rewrite line_feeds_append, feeds_lines. assert (Z : line_feeds a' = 0%N); [|lia].
    apply (f_equal line_feeds) in Es. rewrite !line_feeds_append, feeds_lines in Es. change (line_feeds "version 3.0") with 0%N in Es. lia.
Qed.
Theorem C86_limit : exists s p l, utf8 s /\ N.of_nat (String.length s) = (2 ^ 32 + 11)%N /\ parse_string None false s = Ok (mkResult (Some p) []) /\
  prog_version_loc p = Some l /\ line (first (loc_range l)) = (2 ^ 32 + 1)%N /\
  option_map (fun l => line (first (loc_range l))) (stored_32 (prog_version_loc p)) = Some 1%N.
Proof.
  destruct (late_version (N.to_nat (2 ^ 32))) as (p & l & E & L & Li). rewrite N2Nat.id in Li. exists (empty_lines (N.to_nat (2 ^ 32)) ++ "version 3.0"), p, l.
  split; [apply utf8_app; [apply utf8_lines|utf8_case]|]. split; [|split; [exact E|split; [exact L|split; [exact Li|]]]].
  - rewrite length_append, Nat2N.inj_add. assert (Q : forall n, String.length (empty_lines n) = n). { induction n as [|n IH]; [reflexivity|]. cbn. now rewrite IH. } rewrite Q, N2Nat.id. reflexivity.
  - rewrite L. cbn [stored_32 option_map loc_range first line index_32]. unfold index_32. cbn [line]. rewrite Li. reflexivity.
Qed.
Example C86_case : forall lm, ordinary lm (fresh_analyzer lm) /\ relocate_analyzer stored_32 (fresh_analyzer lm) = fresh_analyzer lm /\
  text_of text_undeclared text_undeclared /\ utf8 text_undeclared /\ below_4_gib text_undeclared /\
  exists st' r, analyze_string false (fresh_analyzer lm) text_undeclared (Some "f") = Ok (st', r) /\
    map location (res_errors r) = [Some (mkRawLocation (Some "f") (mkRawRange (mkIndex 2 5) (mkIndex 2 6)))].
Proof.
  intros lm. destruct C44_text_case as (T & U & C). destruct (C lm) as [O X]. split; [exact O|]. split; [reflexivity|]. split; [exact T|]. split; [exact U|]. split; [unfold below_4_gib; vm_compute; reflexivity|exact X].
Qed.
Print Assumptions C86_conversions. Print Assumptions C86_parsed. Print Assumptions C86_analysed. Print Assumptions C86_limit.
