(** Properties C05 (second half), C44-C46, C51-C53, C55, C63-C66: from texts to
    syntax trees and results. *)
From Verif Require Import Base ModelUtils ModelVersion ModelError ModelTypes ModelFunctions ModelAst ModelLexer ModelParser ModelAnalyzer ModelSemantic ModelSyntactic SpecUtils SpecTypes SpecInstructions SpecAnalyzer SpecLexer SpecParser SpecSyntax SpecLiteral SpecTree SpecReading SpecSites
  ProofsUtils ProofsLexer ProofsLexer2 ProofsLexer3 ProofsParser ProofsSyntax ProofsSyntax2 ProofsLiteral ProofsTree ProofsUtf8 ProofsReading ProofsSites ProofsText ProofsAnalyzer2 ProofsAnalyzer3 ProofsPipeline PropertiesAnalyzer.
Local Open Scope string_scope.

(** ** Texts of the examples *)
Definition nl : string := String (ascii_of_N 10) "".
Definition text_rx : string := "version 3.0; qubit q; Rx(0.5) q".
Definition text_asm : string := "version 3.0" ++ nl ++ "asm(x) '''{ 'a' }'''".
Definition text_big : string := "version 3.0; qubit[9223372036854775808] q".
Definition text_bad : string := "version 3.0; qubit q; H q q; X q".
Definition text_stray : string := "version 3.0; qubit q; # H q".
Definition text_undeclared : string := "version 3.0" ++ nl ++ "  H q".
Lemma plain_text_of s : strip_bom s = s -> text_of s s.
Proof. intros H. pose proof (strip_bom_text s) as T. now rewrite H in T. Qed.
Ltac text_case := apply plain_text_of; vm_compute; reflexivity.
Ltac utf8_case := apply valid_utf8_iff; vm_compute; reflexivity.

(** ** C05: the code of an assembly declaration is a piece of the text between
    triple quotes, verbatim. *)
Theorem C05_asm_verbatim : forall file rtl data s p l name code an, text_of data s -> utf8 s ->
  parse_string file rtl data = Ok (mkResult (Some p) []) -> In (SAsm l name code an) (prog_statements p) ->
  exists a b, s = a ++ ("'''" ++ code ++ "'''") ++ b /\ closes_first code "'''".
Proof. intros file rtl data s p l name code an T U E. apply (parse_reads file rtl data s p T U) in E. now apply (asm_verbatim file s p l name code an). Qed.
Example C05_asm_case : text_of text_asm text_asm /\ utf8 text_asm /\ exists p, parse_string None false text_asm = Ok (mkResult (Some p) []) /\
  In (SAsm None "x" "{ 'a' }" []) (prog_statements p).
Proof. split; [text_case|]. split; [utf8_case|]. eexists. split; [vm_compute; reflexivity|]. now left. Qed.
Print Assumptions C05_asm_verbatim.

(** ** C45: every text has exactly one tokenisation; it loses nothing; [lex] finds
    it. *)
Theorem C45_total_unique : forall s, exists ls rest, tokenisation DefaultMode s ls rest /\
  (forall ls' rest', tokenisation DefaultMode s ls' rest' -> ls' = ls /\ rest' = rest).
Proof.
  intros s. destruct (lex_total s) as (ls & rest & E). apply lex_iff in E. exists ls, rest. split; [exact E|]. intros ls' rest' H. exact (tokenisation_unique _ _ _ _ H _ _ E).
Qed.
Theorem C45_lossless : forall s ls rest, tokenisation DefaultMode s ls rest ->
  s = String.concat "" (map lx_text ls) ++ rest /\ Forall (fun l => lx_text l <> "") ls.
Proof.
  intros s ls rest H. split; [now apply tokenisation_lossless in H|now apply tokenisation_nonempty in H].
Qed.
Theorem C45_lexer : forall s ls rest, lex s = Some (ls, rest) <-> tokenisation DefaultMode s ls rest.
Proof. exact lex_iff. Qed.
(** If some of the text cannot be read there is exactly one error. It is not
    behind the place where reading stops, and exactly there unless the tokens read
    before already cannot begin a program. *)
Theorem C45_unreadable : forall file rtl data s ls rest read, text_of data s -> utf8 s ->
  tokenisation DefaultMode s ls rest -> rest <> "" -> s = read ++ rest ->
  exists e a b, parse_string file rtl data = Ok (mkResult None [e]) /\ read = a ++ b /\ location e <> None /\
    (forall l, location e = Some l -> first (loc_range l) = position a) /\
    (forall body, tokens_at "" ls body -> viable body -> b = "").
Proof. exact unreadable. Qed.
Example C45_case : text_of text_stray text_stray /\ utf8 text_stray /\
  (exists ls, lex text_stray = Some (ls, "# H q") /\ List.length ls = 10%nat) /\
  exists e, parse_string None false text_stray = Ok (mkResult None [e]) /\ option_map (fun l => first (loc_range l)) (location e) = Some (mkIndex 1 23).
Proof. split; [text_case|]. split; [utf8_case|]. split; [eexists; split; vm_compute; reflexivity|]. eexists. split; vm_compute; reflexivity. Qed.
Print Assumptions C45_total_unique. Print Assumptions C45_lossless. Print Assumptions C45_lexer. Print Assumptions C45_unreadable.

(** ** C46: each token is the longest piece of the remaining text with the form of
    some token; *)
Theorem C46_longest : forall m s l ls rest, tokenisation m s (l :: ls) rest -> exists v,
  s = lx_text l ++ v /\ form m (lx_kind l) (lx_text l) /\
  (forall k u w, s = u ++ w -> form m k u -> (String.length u <= String.length (lx_text l))%nat) /\
  tokenisation (mode_after m (lx_kind l)) v ls rest.
Proof. intros m s l ls rest H. inversion H; subst. eexists. cbn. eauto. Qed.
(** ... keywords are keywords and nothing else, and only when the whole word is
    one; *)
Theorem C46_keywords : forall s ls rest, tokenisation DefaultMode s ls rest ->
  Forall (fun l => reserved (lx_text l) <-> In (lx_kind l, lx_text l) words) ls.
Proof. intros s ls rest. apply keyword_iff. Qed.
(** ... and no other piece of text has the form of two kinds of tokens. *)
Theorem C46_unambiguous : forall m k k' s, form m k s -> form m k' s -> k <> k' ->
  reserved s /\ (k = T_IDENTIFIER \/ k' = T_IDENTIFIER).
Proof.
  intros m k k' s F F' N.
  assert (R : reserved s). { destruct (in_dec string_dec s (map snd words)) as [H|H]; [exact H|]. destruct N. apply (form_kind_unique m k k' s F F'); intros _; exact H. }
  split; [exact R|]. destruct (reserved_kind m k s F R) as [H|H]; [|now left]. destruct (reserved_kind m k' s F' R) as [H'|H']; [|now right]. destruct N.
  assert (X : Forall (fun p => Forall (fun q => snd p = snd q -> fst p = fst q) words) words) by (repeat constructor; intros E; try reflexivity; discriminate E).
  rewrite Forall_forall in X. specialize (X _ H). rewrite Forall_forall in X. exact (X _ H' eq_refl).
Qed.
Example C46_case : exists ls, lex "qubits qubit" = Some (ls, "") /\
  map (fun l => (lx_kind l, lx_text l)) ls = [(T_IDENTIFIER, "qubits"); (T_WHITE_SPACE, " "); (T_QUBIT_TYPE, "qubit")].
Proof. eexists. split; vm_compute; reflexivity. Qed.
Print Assumptions C46_longest. Print Assumptions C46_keywords. Print Assumptions C46_unambiguous.

(** ** C63: which texts are programs: those whose tokens are a sentence of the
    grammar, with all literals in range. *)
Theorem C63_accepted : forall file rtl data s, text_of data s -> utf8 s ->
  (exists p, parse_string file rtl data = Ok (mkResult (Some p) [])) <-> exists ts, tokens_of s ts /\ sentence ts /\ all_in_range ts.
Proof. exact accepted_iff. Qed.
Example C63_case : text_of text_rx text_rx /\ utf8 text_rx /\ exists p, parse_string None false text_rx = Ok (mkResult (Some p) []) /\ List.length (prog_statements p) = 2%nat.
Proof. split; [text_case|]. split; [utf8_case|]. eexists. split; vm_compute; reflexivity. Qed.
Print Assumptions C63_accepted.

(** ** C64: the program is the syntax tree of the text, which has at most one. *)
Theorem C64_tree : forall file rtl data s p, text_of data s -> utf8 s ->
  parse_string file rtl data = Ok (mkResult (Some p) []) <-> text_means file s p.
Proof. exact parse_reads. Qed.
Theorem C64_tree_unique : forall file s p q, utf8 s -> text_means file s p -> text_means file s q -> p = q.
Proof. exact text_means_unique. Qed.
Example C64_case : exists f, reads_double "0.5" f /\ exists l1 l2 l3 l4 l5 l6, text_means None text_rx (mkProgram [3; 0]%Z (Some l1)
  [ SVariable (Some l2) "q" (mkAstType (Some l3) "qubit" None) [];
    SGateInstr (Some l4) (Gate (Some l4) "Rx" None [EFloat (Some l5) f] []) [EIdent (Some l6) "q"] [] ] None).
Proof.
  assert (E : exists f, stod "0.5" = Some f) by (eexists; vm_compute; reflexivity). destruct E as [f E]. exists f. split.
  - apply (stod_reads DefaultMode); [|exact E]. change "0.5" with ("0" ++ "." ++ "5" ++ ""). constructor; [repeat split; cbv; discriminate..|left; discriminate|constructor].
  - eexists _, _, _, _, _, _. apply (parse_reads None false text_rx); [text_case|utf8_case|]. vm_compute in E. injection E as <-. vm_compute. reflexivity.
Qed.
Print Assumptions C64_tree. Print Assumptions C64_tree_unique.

(** ** C51, C55: integer literals are exact and at most 2^63-1; floating-point
    literals are correctly rounded and in the range of doubles. What trees contain
    is in C64, with [int_means] and [reads_double]; a sentence with a literal out
    of range is rejected with an error at such a literal. *)
Theorem C51_out_of_range : forall file rtl data s ts, text_of data s -> utf8 s ->
  tokens_of s ts -> sentence ts -> ~ all_in_range ts ->
  exists t k lit col, In t ts /\ literal_in t k lit col /\ ~ literal_in_range k lit /\
    parse_string file rtl data = Ok (mkResult None [out_of_range file k lit (tk_line t) col]).
Proof. exact out_of_range_reported. Qed.
Theorem C51_integers : forall s z, s <> "" -> digits s -> stoll s = Some z <-> (decimal s <= 2 ^ 63 - 1)%Z /\ z = decimal s.
Proof. exact stoll_digits. Qed.
Theorem C55_floats : forall s f, default_form T_FLOAT_LITERAL s ->
  (stod s = Some f <-> reads_double s f) /\ (stod s = None <-> ~ literal_in_range T_FLOAT_LITERAL s).
Proof. exact stod_floats. Qed.
Theorem C55_out_of_range : forall file rtl data s ts, text_of data s -> utf8 s -> tokens_of s ts -> sentence ts ->
  (exists t, In t ts /\ tk_kind t = T_FLOAT_LITERAL /\ ~ literal_in_range T_FLOAT_LITERAL (tk_text t)) ->
  exists e, parse_string file rtl data = Ok (mkResult None [e]).
Proof.
  intros file rtl data s ts T U To S (t & Ht & K & N). destruct (out_of_range_reported file rtl data s ts T U To S) as (t' & k & lit & col & _ & _ & _ & E); [|eauto].
  intros A. apply N. exact (A t _ _ _ Ht (lit_float t K)).
Qed.
Theorem C55_unique : forall s f g, reads_double s f -> reads_double s g -> f = g.
Proof. exact reads_double_unique. Qed.
Example C51_case : text_of text_big text_big /\ utf8 text_big /\
  parse_string None false text_big = Ok (mkResult None [out_of_range None T_INTEGER_LITERAL "9223372036854775808" 1 19]) /\
  stoll "9223372036854775807" = Some (2 ^ 63 - 1)%Z.
Proof. split; [text_case|]. split; [utf8_case|]. split; vm_compute; reflexivity. Qed.
Example C55_case : stod "1.0e400" = None /\ stod ".5" <> None.
Proof. split; vm_compute; [reflexivity|discriminate]. Qed.
Print Assumptions C51_out_of_range. Print Assumptions C51_integers. Print Assumptions C55_floats. Print Assumptions C55_out_of_range. Print Assumptions C55_unique.

(** ** C52: a program or exactly one error, for texts in UTF-8; other byte strings
    make an exception escape; so does a file that cannot be read. *)
Theorem C52_program_or_error : forall file rtl data s, text_of data s -> utf8 s ->
  (exists p, parse_string file rtl data = Ok (mkResult (Some p) [])) \/ (exists e, parse_string file rtl data = Ok (mkResult None [e])).
Proof. exact program_or_error. Qed.
Theorem C52_throws : forall file rtl data s, text_of data s -> (exists w, parse_string file rtl data = Throw w) <-> ~ utf8 s.
Proof. exact throws_iff. Qed.
Theorem C52_refuted : exists data, forall file rtl, exists w, parse_string file rtl data = Throw w.
Proof. exists (String (ascii_of_N 255) ""). intros file rtl. eexists. vm_compute. reflexivity. Qed.
Theorem C52_files : forall content path file rtl, parse_file content path file rtl =
  match content with Some data => parse_string file rtl data | None => Err (mk_error ("FileAntlrScanner couldn't access file '" ++ path ++ "'.")) end.
Proof. reflexivity. Qed.
Example C52_case : text_of text_bad text_bad /\ utf8 text_bad /\ exists e, parse_string None false text_bad = Ok (mkResult None [e]).
Proof. split; [text_case|]. split; [utf8_case|]. eexists. vm_compute. reflexivity. Qed.
Print Assumptions C52_program_or_error. Print Assumptions C52_throws. Print Assumptions C52_refuted. Print Assumptions C52_files.

(** ** C65: a text whose tokens are not a sentence is rejected at the first token
    that cannot continue a program. *)
Theorem C65_first_error : forall file rtl data s ts, text_of data s -> utf8 s -> scanned s ts -> ~ sentence ts ->
  exists t m, first_offending ts t /\ parse_string file rtl data = Ok (mkResult None [mkRawError m (at_token file t)]).
Proof. exact first_error. Qed.
Theorem C65_scanned : forall s, exists ts, scanned s ts /\ forall ts', scanned s ts' -> ts' = ts.
Proof. intros s. destruct (scanned_total s) as [ts H]. exists ts. split; [exact H|]. intros ts' H'. eapply scanned_unique; eauto. Qed.
Theorem C65_unique : forall ts t1 t2, first_offending ts t1 -> first_offending ts t2 -> t1 = t2.
Proof. exact first_offending_unique. Qed.
Lemma first_case s (Q : list token -> token -> Prop) :
  match tokenize s with Some ts => match parse_program ts with PErr (t :: w) => Q ts t | _ => False end | None => False end ->
  exists ts t, scanned s ts /\ first_offending ts t /\ Q ts t.
Proof.
  destruct (tokenize s) as [ts|] eqn:H; [|contradiction]. destruct (parse_program ts) as [r|[|t w]|] eqn:E; try contradiction. intros q. exists ts, t.
  split; [now apply scanned_tokenize|]. split; [|exact q]. destruct (parse_error_first _ _ E) as [(t' & w' & [= <- <-] & O)|[E' _]]; [exact O|discriminate].
Qed.
Example C65_case : exists ts t, scanned text_bad ts /\ first_offending ts t /\ (tk_text t = "q" /\ tk_col t = 26%N).
Proof. apply first_case. vm_compute. split; reflexivity. Qed.
Print Assumptions C65_first_error. Print Assumptions C65_scanned. Print Assumptions C65_unique.

(** ** C53: every located node of the tree is where its token is: the location is
    that of a piece of the text which is the token of the node, and is on one line;
    types with a size reach to their closing bracket. *)
Theorem C53_locations : forall file rtl data s p, text_of data s -> utf8 s -> parse_string file rtl data = Ok (mkResult (Some p) []) ->
  Forall (fun x => placed file s x /\ one_line x) (program_sites p) /\
  Forall (placed file s) (flat_map array_sites (prog_statements p)).
Proof. intros file rtl data s p T U E. apply (parse_reads file rtl data s p T U) in E. now apply program_placed. Qed.
(** Locations count from 1 and are ordered. *)
Theorem C53_ordered : forall file s x, placed file s x -> exists l, fst x = Some l /\ ordered_from_1 l.
Proof. exact placed_ordered. Qed.
Lemma tree_case file data (Q : program -> Prop) :
  match parse_string file false data with Ok (mkResult (Some p) []) => Q p | _ => False end ->
  exists p, parse_string file false data = Ok (mkResult (Some p) []) /\ Q p.
Proof. destruct (parse_string file false data) as [[[p|] [|]]| | |]; try contradiction. eauto. Qed.
Example C53_case : exists p, parse_string (Some "f") false text_rx = Ok (mkResult (Some p) []) /\
  map (fun x => option_map loc_range (fst x)) (program_sites p) =
    map (fun '(a, b) => Some (mkRawRange (mkIndex 1 a) (mkIndex 1 b))) [(9, 12); (20, 21); (14, 19); (23, 25); (23, 25); (26, 29); (31, 32)]%N.
Proof. apply tree_case. vm_compute. reflexivity. Qed.
Print Assumptions C53_locations. Print Assumptions C53_ordered.

(** ** C44: every error of the analysis of a text that parses is located in that
    text. *)
Theorem C44_errors_located : forall lm rtl st data file s p st' r, ordinary lm st -> version_same (api_version st) [3; 0]%Z ->
  text_of data s -> utf8 s -> parse_string file rtl data = Ok (mkResult (Some p) []) ->
  analyze_string rtl st data file = Ok (st', r) -> Forall (located (in_text file s)) (res_errors r).
Proof. exact text_errors_located. Qed.
Example C44_text_case : text_of text_undeclared text_undeclared /\ utf8 text_undeclared /\
  forall lm, ordinary lm (fresh_analyzer lm) /\ exists st' r, analyze_string false (fresh_analyzer lm) text_undeclared (Some "f") = Ok (st', r) /\
    map location (res_errors r) = [Some (mkRawLocation (Some "f") (mkRawRange (mkIndex 2 5) (mkIndex 2 6)))].
Proof.
  split; [text_case|]. split; [utf8_case|]. intros lm. split; [apply analyses_ordinary, an_default, fresh_is_default|]. apply ok_case. vm_compute. reflexivity.
Qed.
Print Assumptions C44_errors_located.

(** ** C66: the default analyzer analyses every text in UTF-8, after any texts it has
    analysed before: the result is the syntax error, a program with a list of
    errors, or undefined behaviour (see C21); nothing is thrown. *)
Inductive reads_texts (lm : libm) (rtl : bool) : analyzer -> Prop :=
| rt_default st : default_analyzer lm "3.0" = Ok st -> reads_texts lm rtl st
| rt_analyze st data file st' r : reads_texts lm rtl st -> analyze_string rtl st data file = Ok (st', r) -> reads_texts lm rtl st'.
Theorem C66_analysed : forall lm rtl st data file s, reads_texts lm rtl st -> text_of data s -> utf8 s ->
  (exists e, parse_string file rtl data = Ok (mkResult None [e]) /\ analyze_string rtl st data file = Ok (st, mkResult None [e])) \/
  (exists p, text_means file s p /\ ((exists st' sp es, analyze_string rtl st data file = Ok (st', mkResult (Some sp) es)) \/ exists k, analyze_string rtl st data file = UB k)).
Proof.
  intros lm rtl st data file s R. apply (text_analysed lm). induction R; [now constructor|]. eapply reached_by_texts; eauto.
Qed.
Theorem C66_throws : forall lm rtl st data file s, reads_texts lm rtl st -> text_of data s ->
  (exists w, analyze_string rtl st data file = Throw w) <-> ~ utf8 s.
Proof.
  intros lm rtl st data file s R T. split.
  - intros (w & E) U. destruct (C66_analysed lm rtl st data file s R T U) as [(e & _ & H)|(p & _ & [(st' & sp & es & H)|(k & H)])]; congruence.
  - intros N. apply (throws_iff file rtl) in T. apply T in N. destruct N as [w E]. exists w. unfold analyze_string. now rewrite E.
Qed.
Example C66_case : forall lm, reads_texts lm false (fresh_analyzer lm) /\ exists st' r, analyze_string false (fresh_analyzer lm) text_rx None = Ok (st', r) /\
  res_errors r = [] /\ option_map (fun sp => List.length (blk_statements (sp_block sp))) (res_root r) = Some 1%nat.
Proof. intros lm. split; [apply rt_default, fresh_is_default|]. apply ok_case. vm_compute. auto. Qed.
Print Assumptions C66_analysed. Print Assumptions C66_throws.
