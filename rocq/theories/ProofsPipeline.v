(** From texts to results: the properties of parsing and of analysing a text (C05,
    C44-C46, C51, C52, C55, C63-C66). *)
From Coq Require Import Lia.
From Verif Require Import Base ModelUtils ModelVersion ModelError ModelTypes ModelAst ModelLexer ModelParser ModelAnalyzer ModelSemantic ModelSyntactic SpecUtils SpecTypes SpecInstructions SpecAnalyzer SpecLexer SpecParser SpecSyntax SpecLiteral SpecTree SpecReading SpecSites
  ProofsUtils ProofsLexer ProofsLexer2 ProofsLexer3 ProofsParser ProofsParser4 ProofsParser5 ProofsSyntax ProofsSyntax2 ProofsTree ProofsReading ProofsSites ProofsText ProofsUtf8 ProofsAnalyzer3 ProofsAnalyzer4.
Local Open Scope string_scope.

(** ** C45, C46 *)
Lemma word_letters s : reserved s -> exists c s', s = String c s' /\ letter c.
Proof.
  unfold reserved. cbn. intros H. repeat (destruct H as [<-|H]; [eexists _, _; split; [reflexivity|left; cbv; split; discriminate]|]). destruct H.
Qed.
Lemma reserved_kind m k s : form m k s -> reserved s -> In (k, s) words \/ k = T_IDENTIFIER.
Proof.
  intros F R. destruct m; cbn [form] in F.
  - assert (S : forallb (fun p => forallb (fun w => negb (String.eqb (snd p) w)) (map snd words)) signs = true) by reflexivity.
    destruct F; auto; exfalso.
    + rewrite forallb_forall in S. specialize (S _ H). rewrite forallb_forall in S. specialize (S _ R). cbn [snd] in S. now rewrite String.eqb_refl in S.
    + destruct (word_letters _ R) as (c & s' & -> & L). destruct H0 as [B _]. destruct L as [L|[L|L]]; unfold code_between in *; destruct B as [->|B]; try (rewrite B in L); cbn in L; try lia; try discriminate; subst; discriminate.
    + destruct (word_letters _ R) as (c & s' & E & L). injection E as <- _. unfold letter, code_between in L. cbn in L. destruct L as [L|[L|L]]; try lia; discriminate.
    + destruct (word_letters _ R) as (c & s' & E & L). injection E as <- _. unfold letter, code_between in L. cbn in L. destruct L as [L|[L|L]]; try lia; discriminate.
    + destruct (word_letters _ R) as (c & s' & E & L). injection E as <- _. unfold letter, code_between in L. cbn in L. destruct L as [L|[L|L]]; try lia; discriminate.
    + destruct (word_letters _ R) as (c & s' & E & L). injection E as <- _. unfold letter, code_between in L. cbn in L. destruct L as [L|[L|L]]; try lia; discriminate.
    + destruct (word_letters _ R) as (c & s' & -> & L). destruct H0 as [B _]. unfold digit, letter, code_between in *. destruct L as [L|[L|L]]; try lia. subst c. cbn in B. lia.
    + destruct (word_letters _ R) as (c & s' & E & L). destruct a as [|x a].
      * injection E as <- _. unfold letter, code_between in L. cbn in L. destruct L as [L|[L|L]]; try lia; discriminate.
      * injection E as <- _. destruct H as [B _]. unfold digit, letter, code_between in *. destruct L as [L|[L|L]]; try lia. subst x. cbn in B. lia.
    + destruct (word_letters _ R) as (c & s' & E & L). injection E as <- _. unfold letter, code_between in L. cbn in L. destruct L as [L|[L|L]]; try lia; discriminate.
  - exfalso. destruct (word_letters _ R) as (c & s' & E & L). destruct F as [s0 _ B|s0 _ B|a b Na Da _ _].
    + subst s0. destruct B as [B _]. destruct L as [L|[L|L]]; unfold code_between in *; destruct B as [->|B]; try (rewrite B in L); cbn in L; try lia; try discriminate; subst; discriminate.
    + subst s0. destruct B as [B _]. unfold digit, letter, code_between in *. destruct L as [L|[L|L]]; try lia. subst c. cbn in B. lia.
    + destruct a as [|x a]; [congruence|]. injection E as <- _. destruct Da as [B _]. unfold digit, letter, code_between in *. destruct L as [L|[L|L]]; try lia. subst x. cbn in B. lia.
Qed.
Lemma keyword_iff m s ls rest : tokenisation m s ls rest -> Forall (fun l => reserved (lx_text l) <-> In (lx_kind l, lx_text l) words) ls.
Proof.
  induction 1 as [| |m k u v ls rest F Mx Nr T IH]; constructor; auto. cbn [lx_text lx_kind]. split.
  - intros R. destruct (reserved_kind m k u F R) as [H| ->]; [exact H|]. destruct (Nr eq_refl R).
  - intros H. unfold reserved. now apply (in_map snd) in H.
Qed.
Lemma first_viable ts t u v : first_offending ts t -> ts = (u ++ v)%list -> viable u -> In t v.
Proof.
  intros (u1 & w1 & E1 & V1 & N1) E V. rewrite E1 in E. destruct (app_eq_app _ _ _ _ E) as (q & [[E2 E3]|[E2 E3]]).
  - rewrite E3. apply in_or_app. right. now left.
  - destruct q as [|x q].
    + rewrite app_nil_r in E2. cbn in E3. rewrite <- E3. now left.
    + injection E3 as <- _. destruct N1. destruct V as (z & S). exists (q ++ z)%list. rewrite <- app_assoc. cbn [app]. rewrite E2, <- app_assoc in S. exact S.
Qed.
Lemma no_sentence_error body line col : ~ sentence (body ++ [mkToken T_ERROR "" line col]).
Proof. intros [p T]. destruct (program_end p body _ [] T) as [_ K]; [intros [_ N]; now apply N|discriminate K]. Qed.
Theorem unreadable file rtl data s ls rest read : text_of data s -> utf8 s -> tokenisation DefaultMode s ls rest -> rest <> "" -> s = read ++ rest ->
  exists e a b, parse_string file rtl data = Ok (mkResult None [e]) /\ read = a ++ b /\ location e <> None /\
    (forall l, location e = Some l -> first (loc_range l) = position a) /\
    (forall body, tokens_at "" ls body -> viable body -> b = "").
Proof.
  intros T U L N Es. destruct (parse_outcome file rtl data s T U) as (r & E & P).
  assert (exists body line col, tokens_at "" ls body /\ line = line_of read /\ column_of read = (col + 1)%N) as (body & line & col & Ta & P1 & P2).
  { destruct (tokenize_spec s) as (ls' & rest' & body & line & col & L' & Ta & _ & _ & P1 & P2). destruct (tokenisation_unique _ _ _ _ L _ _ L') as [<- <-].
    pose proof (tokenisation_lossless _ _ _ _ L) as Es'. rewrite Es in Es'. apply append_inj_r in Es'. subst read. eauto 6. }
  assert (Sc : scanned s (body ++ [mkToken T_ERROR "" line col])) by (eapply scanned_part; eauto).
  assert (NT : forall ts, tokens_of s ts -> False).
  { intros ts H. pose proof (scanned_unique _ _ _ (scanned_all s ts H) Sc) as ->. apply tokens_of_good in H. apply Forall_app in H. destruct H as [_ H]. inversion H as [|? ? G _]; subst. destruct G as [G|G]; [|discriminate].
    apply good_token_kind in G. now destruct G as [_ G]. }
  destruct P as [ts p H|ts t k lit c H|ts t m H S O]; try (destruct (NT _ H)). pose proof (scanned_unique _ _ _ H Sc) as ->.
  assert (X : exists a b, read = a ++ b /\ tk_line t = line_of a /\ (tk_col t + 1)%N = column_of a /\ (viable body -> b = "")).
  { destruct O as (u & w & Eu & V & Nv). destruct (app_eq_app _ _ _ _ Eu) as (q & [[E2 E3]|[E2 E3]]).
    - destruct q as [|x q].
      + cbn in E3. injection E3 as -> _. exists read, "". rewrite append_nil_r. cbn. auto.
      + injection E3 as -> E3. assert (Ht : In x body) by (rewrite E2; apply in_or_app; right; now left).
        pose proof (tokens_at_text "" ls body Ta "" x Ht) as (a & b & Ea & Q1 & Q2). cbn [String.append] in Ea. rewrite append_nil_r in Ea.
        pose proof (tokenisation_lossless _ _ _ _ L) as Es'. rewrite Es in Es'. apply append_inj_r in Es'. subst read. exists a, (tk_text x ++ b). split; [exact Ea|]. split; [exact Q1|]. split; [exact Q2|].
        intros Vb. destruct Nv. destruct Vb as (z & Sz). exists (q ++ z)%list. rewrite E2, <- app_assoc in Sz. rewrite <- app_assoc. exact Sz.
    - destruct q as [|x q].
      + cbn in E3. injection E3 as <- _. exists read, "". rewrite append_nil_r. cbn. auto.
      + destruct q; discriminate E3. }
  destruct X as (a & b & Eab & Q1 & Q2 & Q3). exists (mkRawError m (at_token file t)), a, b. split; [exact E|]. split; [exact Eab|]. split; [discriminate|]. split.
  - intros l [= <-]. cbn. unfold position. congruence.
  - intros body' Ta' V. apply Q3. rewrite (tokens_at_unique _ _ _ Ta _ Ta'). exact V.
Qed.

(** ** C51, C52, C63-C65 *)
Lemma in_range_means file s ts : tokens_of s ts -> sentence ts -> all_in_range ts -> utf8 s -> exists p, text_means file s p.
Proof.
  intros To S A U. assert (T : text_of (byte_order_mark ++ s) s) by now left.
  destruct (parse_outcome file false _ s T U) as (r & E & P). destruct P as [ts' p _ _ _ M|ts' t k lit c To' _ Ht L N|ts' t m Sc NS _]; [eauto| |].
  - rewrite (tokens_of_unique _ _ _ To To') in A. destruct (N (A t k lit c Ht L)).
  - destruct NS. now rewrite (scanned_unique _ _ _ Sc (scanned_all s ts To)).
Qed.
Theorem accepted_iff file rtl data s : text_of data s -> utf8 s ->
  (exists p, parse_string file rtl data = Ok (mkResult (Some p) [])) <-> exists ts, tokens_of s ts /\ sentence ts /\ all_in_range ts.
Proof.
  intros T U. split.
  - intros (p & E). destruct (parse_outcome file rtl data s T U) as (r & E' & P). rewrite E in E'. injection E' as <-. inversion P; subst. eauto.
  - intros (ts & To & S & A). destruct (in_range_means file s ts To S A U) as [p M]. exists p. now apply (parse_reads file rtl data s p T U).
Qed.
Theorem out_of_range_reported file rtl data s ts : text_of data s -> utf8 s -> tokens_of s ts -> sentence ts -> ~ all_in_range ts ->
  exists t k lit col, In t ts /\ literal_in t k lit col /\ ~ literal_in_range k lit /\ parse_string file rtl data = Ok (mkResult None [out_of_range file k lit (tk_line t) col]).
Proof.
  intros T U To S N. destruct (parse_outcome file rtl data s T U) as (r & E & P). destruct P as [ts' p To' _ A _|ts' t k lit c To' _ Ht L Nr|ts' t m Sc NS _].
  - destruct N. now rewrite (tokens_of_unique _ _ _ To To').
  - rewrite (tokens_of_unique _ _ _ To To'). exists t, k, lit, c. auto.
  - destruct NS. now rewrite (scanned_unique _ _ _ Sc (scanned_all s ts To)).
Qed.
Theorem program_or_error file rtl data s : text_of data s -> utf8 s ->
  (exists p, parse_string file rtl data = Ok (mkResult (Some p) [])) \/ (exists e, parse_string file rtl data = Ok (mkResult None [e])).
Proof. intros T U. destruct (parse_outcome file rtl data s T U) as (r & E & P). rewrite E. destruct P; eauto. Qed.
Theorem throws_iff file rtl data s : text_of data s -> (exists w, parse_string file rtl data = Throw w) <-> ~ utf8 s.
Proof.
  intros T. split; [|now apply parse_not_utf8]. intros (w & E) U. destruct (program_or_error file rtl data s T U) as [(p & E')|(e & E')]; congruence.
Qed.
Theorem first_error file rtl data s ts : text_of data s -> utf8 s -> scanned s ts -> ~ sentence ts ->
  exists t m, first_offending ts t /\ parse_string file rtl data = Ok (mkResult None [mkRawError m (at_token file t)]).
Proof.
  intros T U Sc N. destruct (parse_outcome file rtl data s T U) as (r & E & P). destruct P as [ts' p To' S _ _|ts' t k lit c To' S _ _ _|ts' t m Sc' _ O].
  - destruct N. now rewrite (scanned_unique _ _ _ Sc (scanned_all s ts' To')).
  - destruct N. now rewrite (scanned_unique _ _ _ Sc (scanned_all s ts' To')).
  - rewrite (scanned_unique _ _ _ Sc Sc'). eauto.
Qed.

(** ** C05 *)
Theorem asm_verbatim file s p l name code an : text_means file s p -> In (SAsm l name code an) (prog_statements p) ->
  exists a b, s = a ++ ("'''" ++ code ++ "'''") ++ b /\ closes_first code "'''".
Proof.
  intros (ts & c & To & Tp & _ & M) H. inversion M as [v x cs ss Mv Ms]; subst. inversion Tp as [seps v' n' ss' rest F Kv Kn Tb]; subst. cbn [prog_statements] in H.
  remember (seps ++ v' :: v :: rest)%list as all eqn:Eall. assert (D : incl rest all) by (intros y Hy; rewrite Eall; apply in_or_app; right; right; now right). clear Eall M Mv Kv Kn F Tp.
  revert ss Ms D H. induction Tb as [seps' eof F' Ke|seps' st ts ss ts' F' Ne Ts Tb IH]; intros ss0 Ms D H; inversion Ms as [|? st' ? ss1 M1 M2]; subst; [destruct H|destruct H as [->|H]].
  - inversion M1; subst. inversion Ts as [| | | | | | |t o nm c' cd K1 K2 K3 K4 K5]; subst.
    assert (Hc : In code0 all) by (apply D, in_or_app; right; apply in_or_app; left; cbn; auto 6).
    destruct (tokens_of_text s all code0 To Hc) as (a & b & Es & _ & _). destruct (good_all s all To code0 Hc) as [m Fm]; [unfold is in K5; congruence|]. unfold is in K5. rewrite K5 in Fm.
    match goal with H : tk_text code0 = _ |- _ => rename H into Et end. exists a, b. rewrite <- Et. split; [exact Es|].
    destruct m; cbn [form] in Fm; inversion Fm; subst; try (match goal with HI : In _ _ |- _ => cbn in HI; intuition discriminate end).
    match goal with H : _ = tk_text code0 |- _ => rewrite Et in H; apply (append_inj_l "'''"), append_inj_r in H; subst; assumption end.
  - apply (IH ss1 M2); [|exact H]. intros y Hy. apply D, in_or_app. right. apply in_or_app. now right.
Qed.

(** ** C44, C66 *)
Theorem text_errors_located lm rtl st data file s p st' r : ordinary lm st -> version_same (api_version st) [3; 0]%Z -> text_of data s -> utf8 s ->
  parse_string file rtl data = Ok (mkResult (Some p) []) -> analyze_string rtl st data file = Ok (st', r) -> Forall (located (in_text file s)) (res_errors r).
Proof.
  intros O V T U E A. unfold analyze_string in A. rewrite E in A. cbn [bind analyze res_errors res_root] in A. apply (parse_reads file rtl data s p T U) in E.
  destruct (parsed_located file s p E) as [L1 L2]. eapply program_located; eauto. eapply parsed_grammar; eauto.
Qed.
Theorem text_analysed lm rtl st data file s : analyses lm st -> text_of data s -> utf8 s ->
  (exists e, parse_string file rtl data = Ok (mkResult None [e]) /\ analyze_string rtl st data file = Ok (st, mkResult None [e])) \/
  (exists p, text_means file s p /\ ((exists st' sp es, analyze_string rtl st data file = Ok (st', mkResult (Some sp) es)) \/ exists k, analyze_string rtl st data file = UB k)).
Proof.
  intros A T U. unfold analyze_string. destruct (program_or_error file rtl data s T U) as [(p & E)|(e & E)].
  - right. rewrite E. cbn [bind analyze res_errors res_root]. apply (parse_reads file rtl data s p T U) in E. exists p. split; [exact E|]. apply (analysis_total lm); [exact A|]. eapply parsed_grammar; eauto.
  - left. exists e. rewrite E. cbn. auto.
Qed.
Theorem reached_by_texts lm rtl st data file st' r : analyses lm st -> analyze_string rtl st data file = Ok (st', r) -> analyses lm st'.
Proof.
  intros A H. unfold analyze_string in H. apply bind_ok in H. destruct H as (x & Hp & H).
  pose proof (strip_bom_text data) as T.
  assert (U : utf8 (strip_bom data)). { apply valid_utf8_iff. destruct (valid_utf8 (strip_bom data)) eqn:V; [reflexivity|]. unfold parse_string, scan in Hp. rewrite V in Hp. discriminate Hp. }
  destruct (program_or_error file rtl data _ T U) as [(p & E)|(e & E)]; rewrite E in Hp; injection Hp as <-.
  - apply (parse_reads file rtl data _ p T U) in E. cbn in H. eapply an_analyze; eauto. eapply parsed_grammar; eauto.
  - cbn in H. now injection H as <- _.
Qed.

(** ** C51, C53, C55 *)
Lemma stoll_digits s z : s <> "" -> digits s -> stoll s = Some z <-> (decimal s <= 2 ^ 63 - 1)%Z /\ z = decimal s.
Proof.
  intros _ D. rewrite stoll_decimal by exact D. fold max_int. destruct (Z.leb_spec (decimal s) max_int) as [H|H]; split.
  - intros [= <-]. auto.
  - intros [_ ->]. reflexivity.
  - discriminate.
  - intros [L _]. lia.
Qed.
Lemma stod_floats s f : default_form T_FLOAT_LITERAL s ->
  (stod s = Some f <-> reads_double s f) /\ (stod s = None <-> ~ literal_in_range T_FLOAT_LITERAL s).
Proof.
  intros F. split; [now apply (stod_reads DefaultMode)|]. pose proof (stod_fits DefaultMode s F) as H. cbn [literal_in_range]. rewrite <- H. destruct (stod s); split; intros A; try discriminate; try reflexivity; [destruct A; discriminate|]. intros B. now destruct B.
Qed.
