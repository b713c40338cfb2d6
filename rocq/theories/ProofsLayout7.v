(** Texts whose layout is changed have the same tree (C47, C54). *)
From Coq Require Import ZArith Lia ZifyBool ZifyN ZifyNat.
From Verif Require Import Base ModelUtils ModelError ModelAst ModelLexer ModelParser ModelSyntactic SpecUtils SpecLexer SpecParser SpecSyntax SpecReading SpecLayout SpecRelocate
  ProofsUtils ProofsLexer ProofsLexer2 ProofsLexer3 ProofsParser3 ProofsParser4 ProofsSyntax ProofsSyntax2 ProofsTree ProofsUtf8 ProofsReading ProofsRelocate ProofsLayout1 ProofsLayout2 ProofsLayout3 ProofsLayout4 ProofsLayout5 ProofsLayout6.
Local Open Scope string_scope.

(** ** UTF-8 *)
Definition high (c : ascii) : Prop := (128 <= N_of_ascii c)%N.
Lemma sextet_high n : high (ascii_of_N (sextet n)).
Proof. unfold high, sextet. dm n 64%N. rewrite N_ascii_embedding by lia. lia. Qed.
Lemma encoding_shape n : exists c e, encoding n = String c e /\ all_bytes high e.
Proof.
  unfold encoding. destruct (n <? 128)%N; [|destruct (n <? 2048)%N; [|destruct (n <? 65536)%N]]; cbn [bytes fold_right]; eexists; eexists; (split; [reflexivity|]);
    cbn [all_bytes]; auto using sextet_high.
Qed.
Lemma utf8_app a b : utf8 a -> utf8 b -> utf8 (a ++ b).
Proof. induction 1 as [|n s Sc U IH]; intros Ub; [exact Ub|]. rewrite append_assoc. constructor; auto. Qed.
Definition ascii_start (b : string) : Prop := match b with EmptyString => True | String c _ => (N_of_ascii c < 128)%N end.
Lemma utf8_split a b : utf8 (a ++ b) -> ascii_start b -> utf8 a /\ utf8 b.
Proof.
  intros U Hb. remember (a ++ b) as s eqn:E. revert a E. induction U as [|n s Sc U IH]; intros a E.
  - destruct a; [|discriminate]. cbn in E. subst b. split; constructor.
  - destruct (encoding_shape n) as (c & e & En & He). destruct a as [|x a].
    + cbn [append] in E. split; [constructor|]. rewrite <- E. now constructor.
    + destruct (Nat.le_gt_cases (String.length (encoding n)) (String.length (String x a))) as [L|L].
      * destruct (append_prefix _ _ _ _ E L) as (a' & Ea & ->). rewrite Ea. destruct (IH a' eq_refl) as [U1 U2]. split; [now constructor|exact U2].
      * exfalso. destruct (append_prefix _ _ _ _ (eq_sym E) ltac:(lia)) as (e' & Ee & ->). rewrite Ee in L. destruct e' as [|d e']; [rewrite append_nil_r in L; lia|].
        rewrite En in Ee. cbn [append] in Ee. injection Ee as _ Ee. rewrite Ee in He. apply all_bytes_append in He. destruct He as [_ [Hd _]]. cbn in Hb. unfold high in Hd. lia.
Qed.
Lemma form_ascii m k u : form m k u -> ascii_start u.
Proof.
  assert (D : forall c, digit c -> (N_of_ascii c < 128)%N) by (unfold digit, code_between; lia).
  destruct m; cbn [form]; intros H.
  - inversion H as [k' s' I|k' s' I|s' N B|s' B|s' C| | |s' N Ds|a b e Da Db N He|c s' Lc B|s' C]; subst; try (cbn; lia).
    + assert (X : forallb (fun e => match snd e with EmptyString => true | String c _ => (N_of_ascii c <? 128)%N end) signs = true) by reflexivity. rewrite forallb_forall in X. specialize (X _ I). cbn in X. destruct u; cbn; [exact Logic.I|lia].
    + assert (X : forallb (fun e => match snd e with EmptyString => true | String c _ => (N_of_ascii c <? 128)%N end) words = true) by reflexivity. rewrite forallb_forall in X. specialize (X _ I). cbn in X. destruct u; cbn; [exact Logic.I|lia].
    + destruct u as [|c u]; [exact I|]. destruct B as [[->|B] _]; cbn; lia.
    + destruct u as [|c u]; [exact I|]. apply D, Ds.
    + destruct a as [|c a]; cbn; [lia|]. apply D, Da.
    + cbn. unfold letter, code_between in Lc. destruct Lc as [Lc|[Lc| ->]]; [lia|lia|cbn; lia].
  - inversion H as [s' N B|s' N Ds|a b Na Da Nb Db]; subst.
    + destruct u as [|c u]; [exact I|]. destruct B as [[->|B] _]; cbn; lia.
    + destruct u as [|c u]; [exact I|]. apply D, Ds.
    + destruct a as [|c a]; cbn; [lia|]. apply D, Da.
Qed.
Lemma reads_ascii m s ls : tokenisation m s ls "" -> ascii_start s.
Proof. intros H. inversion H as [| |? k u v ls' ? F]; subst; [exact I|congruence|]. pose proof (form_ascii _ _ _ F) as A. pose proof (form_nonempty _ _ _ F). destruct u; [congruence|exact A]. Qed.
Lemma ascii_text s : ascii_start s -> text_of s s.
Proof. intros A. right. split; [reflexivity|]. intros [r ->]. cbn in A. lia. Qed.

(** ** Tokens *)
Definition eof0 : token := mkToken T_EOF "" 0 0.
Definition bare (ls : list lexeme) : list token := map (fun l => mkToken (lx_kind l) (lx_text l) 0 0) (filter (fun l => negb (is_skipped (lx_kind l))) ls).
Lemma bare_app a b : bare (a ++ b)%list = (bare a ++ bare b)%list.
Proof. unfold bare. now rewrite filter_app, map_app. Qed.
Lemma tokens_at_bare before ls ts : tokens_at before ls ts -> map unplaced ts = bare ls.
Proof.
  unfold bare. induction 1 as [|before l ls ts I T IH|before l ls ts line col I E1 E2 T IH]; [reflexivity| |]; cbn [filter].
  - apply is_skipped_iff in I. rewrite I. exact IH.
  - assert (is_skipped (lx_kind l) = false) as -> by (destruct (is_skipped (lx_kind l)) eqn:S; [apply is_skipped_iff in S; contradiction|reflexivity]). cbn [negb map]. now rewrite IH.
Qed.
Lemma tokenize_bare s ls : tokenisation DefaultMode s ls "" -> exists ts, tokenize s = Some ts /\ tokens_of s ts /\ map unplaced ts = (bare ls ++ [eof0])%list.
Proof.
  intros L. destruct (tokenize_spec s) as (ls' & rest & body & line & col & L' & T & G & E & P). destruct (tokenisation_unique _ _ _ _ L _ _ L') as [<- <-]. exists (body ++ [end_token "" line col])%list. split; [exact E|]. split.
  - apply tokenize_tokens_of. split; [exact E|]. eauto.
  - rewrite map_app, (tokens_at_bare _ _ _ T). reflexivity.
Qed.
Lemma strip_ascii s : ascii_start s -> strip_bom s = s.
Proof. intros A. exact (text_of_unique _ _ _ (strip_bom_text s) (ascii_text s A)). Qed.

(** Texts with the same tokens are read alike. *)
Theorem same_tokens file1 file2 rtl s1 s2 ls1 ls2 : utf8 s1 -> utf8 s2 -> tokenisation DefaultMode s1 ls1 "" -> tokenisation DefaultMode s2 ls2 "" -> bare ls1 = bare ls2 ->
  map_outcome (relocate_result erase (relocate_program erase)) (parse_string file1 rtl s1) = map_outcome (relocate_result erase (relocate_program erase)) (parse_string file2 rtl s2).
Proof.
  intros U1 U2 T1 T2 E. destruct (tokenize_bare _ _ T1) as (ts1 & K1 & _ & B1). destruct (tokenize_bare _ _ T2) as (ts2 & K2 & _ & B2).
  pose proof (strip_ascii _ (reads_ascii _ _ _ T1)) as S1. pose proof (strip_ascii _ (reads_ascii _ _ _ T2)) as S2.
  apply (parse_unplaced file1 file2 rtl s1 s2 ts1 ts2); rewrite ?S1, ?S2; auto; try (now apply valid_utf8_iff). congruence.
Qed.

(** Texts whose tokens have the same trees *)
Lemma unplaced_kind t : tk_kind (unplaced t) = tk_kind t. Proof. reflexivity. Qed.
Lemma parse_bare s ls ts c r : tokenisation DefaultMode s ls "" -> tokenize s = Some ts -> parse_program ts = POk c r ->
  program_tokens (map_cprogram unplaced c) (bare ls ++ [eof0])%list /\ binds_program (map_cprogram unplaced c).
Proof.
  intros T K P. destruct (tokenize_bare _ _ T) as (ts' & K' & O & B). assert (ts' = ts) as -> by congruence.
  apply tokenize_tokens_of in O. destruct O as [_ (b & e & E & G & Ke)].
  pose proof (map_program unplaced unplaced_kind ts) as M. rewrite P in M. cbn [pmap] in M. rewrite B in M.
  assert (Gb : Forall good_token (bare ls)).
  { assert (Eb : map unplaced b = bare ls) by (rewrite E, map_app in B; apply app_inj_tail in B; tauto). rewrite <- Eb. apply Forall_map. exact G. }
  apply parse_body in M; [|exact Gb|intros [X _]; now apply X]. tauto.
Qed.
Lemma same_trees file rtl s1 s2 ls1 ls2 p : utf8 s1 -> utf8 s2 -> tokenisation DefaultMode s1 ls1 "" -> tokenisation DefaultMode s2 ls2 "" ->
  (forall c, program_tokens c (bare ls1 ++ [eof0])%list -> program_tokens c (bare ls2 ++ [eof0])%list) ->
  parse_string file rtl s1 = Ok (mkResult (Some p) []) -> exists p', parse_string file rtl s2 = Ok (mkResult (Some p') []) /\ relocate_program erase p' = relocate_program erase p.
Proof.
  intros U1 U2 T1 T2 C. destruct (tokenize_bare _ _ T1) as (ts1 & K1 & O1 & B1). destruct (tokenize_bare _ _ T2) as (ts2 & K2 & O2 & B2).
  pose proof (strip_ascii _ (reads_ascii _ _ _ T1)) as S1. pose proof (strip_ascii _ (reads_ascii _ _ _ T2)) as S2.
  unfold parse_string, scan. rewrite S1, S2, (proj2 (valid_utf8_iff _) U1), (proj2 (valid_utf8_iff _) U2), K1, K2. cbn [negb].
  destruct (parse_program ts1) as [c1 r1|r1|] eqn:P1; try discriminate.
  destruct (parse_bare _ _ _ _ _ T1 K1 P1) as [Tp Bp]. apply C in Tp.
  destruct (program_complete _ _ Tp Bp) as (eof & _ & P2). rewrite <- B2 in P2. rewrite (map_program unplaced unplaced_kind ts2) in P2.
  destruct (parse_program ts2) as [c2 r2|r2|]; try discriminate. cbn [pmap] in P2.
  assert (E2 : map_cprogram unplaced c2 = map_cprogram unplaced c1) by congruence.
  assert (A : forall c, alike erase erase (relocate_program erase) (relocate_program erase) (visit_cprogram None rtl (map_cprogram unplaced c)) (visit_cprogram file rtl c)) by (intros c; apply alike_cprogram; reflexivity).
  pose proof (A c1) as A1. pose proof (A c2) as A2. rewrite E2 in A2. unfold alike in A1, A2. rewrite A1 in A2.
  destruct (visit_cprogram file rtl c1) as [q1| | |]; intros H; try discriminate. injection H as <-. cbn [omap] in A2. destruct (visit_cprogram file rtl c2) as [q2| | |]; try discriminate. exists q2. split; [reflexivity|]. cbn [omap] in A2. congruence.
Qed.
Lemma accepted_bare file rtl s ls p : utf8 s -> tokenisation DefaultMode s ls "" -> parse_string file rtl s = Ok (mkResult (Some p) []) -> exists c, program_tokens c (bare ls ++ [eof0])%list /\ binds_program c.
Proof.
  intros U T. destruct (tokenize_bare _ _ T) as (ts & K & O & B). pose proof (strip_ascii _ (reads_ascii _ _ _ T)) as S.
  unfold parse_string, scan. rewrite S, (proj2 (valid_utf8_iff _) U), K. cbn [negb]. destruct (parse_program ts) as [c r|r|] eqn:P; try discriminate. intros _. eexists. exact (parse_bare _ _ _ _ _ T K P).
Qed.

(** ** Changing the layout at one place *)
Lemma tokens_no_quote ls : Forall (fun t => tk_kind t <> T_TRIPLE_QUOTE) (bare ls) -> Forall (fun l => lx_kind l <> T_TRIPLE_QUOTE) ls.
Proof.
  intros H. apply Forall_forall. intros l Hl K. rewrite Forall_forall in H. apply (H (mkToken (lx_kind l) (lx_text l) 0 0)); [|exact K].
  unfold bare. apply in_map_iff. exists l. split; [reflexivity|]. apply filter_In. split; [exact Hl|]. now rewrite K.
Qed.
Lemma modes_version ls : forall m s b rest, tokenisation m s (ls ++ b)%list rest -> modes m ls = VersionMode -> ls <> [] ->
  exists a x, ls = (a ++ [x])%list /\ In (lx_kind x) [T_VERSION; T_VERSION_WHITE_SPACE].
Proof.
  induction ls as [|l ls IH]; intros m s b rest T Hb Ne; [congruence|]. cbn [app] in T. inversion T as [| |? k u v ? ? F M R Tv]; subst. cbn [modes fold_left lx_kind] in Hb. destruct ls as [|l' ls].
  - exists [], (mkLexeme k u). split; [reflexivity|]. cbn [lx_kind]. cbn in Hb. destruct m; cbn [form] in F.
    + destruct k; try discriminate Hb. cbn; auto.
    + inversion F; subst; cbn in *; auto; discriminate.
  - destruct (IH _ _ _ _ Tv Hb ltac:(discriminate)) as (a & x & E & K). exists (mkLexeme k u :: a), x. split; [now rewrite E|exact K].
Qed.
Lemma layout_bare g : Forall layout g -> Forall separator (bare g) /\ (bare g = [] <-> ~ Exists separates g).
Proof.
  intros H. induction H as [|l g [K F] Hg [IH1 IH2]]; [split; [constructor|split; [intros _ H; inversion H|reflexivity]]|].
  unfold bare in *. cbn [filter]. cbn in K. unfold comment_kinds, separator_kinds in K. cbn in K.
  assert (Cs : is_skipped (lx_kind l) = true /\ ~ separates l \/ is_skipped (lx_kind l) = false /\ separates l).
  { unfold separates, separator_kinds. destruct K as [<-|[<-|[<-|[<-|[<-|[]]]]]]; cbn; intuition discriminate. }
  destruct Cs as [[-> Ns]|[-> Ss]]; cbn [negb map].
  - split; [exact IH1|]. rewrite IH2. split; intros N E; [inversion E; contradiction|apply N; now right].
  - split; [constructor; [|exact IH1]|split; [discriminate|intros N; destruct N; now left]]. unfold separator, one_of. cbn [tk_kind]. exact Ss.
Qed.
Lemma adjacent_bare a y z b ls : (ls = a ++ y :: z :: b)%list -> is_skipped (lx_kind y) = false -> is_skipped (lx_kind z) = false ->
  exists A B, bare ls = (A ++ mkToken (lx_kind y) (lx_text y) 0 0 :: mkToken (lx_kind z) (lx_text z) 0 0 :: B)%list.
Proof. intros -> Hy Hz. exists (bare a), (bare b). rewrite bare_app. unfold bare at 2. cbn [filter]. rewrite Hy, Hz. reflexivity. Qed.

Lemma replaced_reads l1 g g' l2 : reads_as (l1 ++ g ++ l2)%list -> ok false (bare (l1 ++ g ++ l2) ++ [eof0])%list = true -> fits l1 g l2 -> fits l1 g' l2 -> reads_as (l1 ++ g' ++ l2)%list.
Proof.
  unfold reads_as. intros T O [Lg Mg _ _] [Lg' _ Pg' Ag'].
  assert (Md : modes DefaultMode l1 = DefaultMode).
  { destruct l1 as [|x l1]; [reflexivity|]. destruct (modes DefaultMode (x :: l1)) eqn:E; [reflexivity|]. exfalso.
    destruct (modes_version _ _ _ _ _ T E ltac:(discriminate)) as (a & y & Ea & Ky). exact (Mg a y Ea Ky). }
  rewrite !spelled_app in *. destruct (tokenisation_app _ _ _ _ _ T) as (t & Et & T2). rewrite Md in T2. apply append_inj_l in Et. subst t.
  destruct (tokenisation_app _ _ _ _ _ T2) as (t & Et & T3). rewrite (layout_modes _ _ Lg) in T3. apply append_inj_l in Et. subst t.
  assert (Q : Forall (fun l => lx_kind l <> T_TRIPLE_QUOTE) l1).
  { apply ok_no_quote in O. apply Forall_app in O. destruct O as [O _]. apply tokens_no_quote in O. apply Forall_app in O. tauto. }
  assert (Tg : tokenisation DefaultMode (spelled (g' ++ l2)%list) (g' ++ l2)%list "").
  { apply layout_reads; auto. intros a y z b E. apply (Pg' (l1 ++ a)%list y z b). now rewrite E, <- app_assoc. }
  rewrite <- spelled_app. apply (splice l1 DefaultMode _ _ _ _ T Md Tg Q Pg').
  - intros a y z b E Ky Kz.
    destruct (adjacent_bare a y z (b ++ g ++ l2) (l1 ++ g ++ l2)%list) as (A & B & EB); [rewrite E, <- app_assoc; reflexivity|now rewrite Ky|destruct Kz as [<-|[<-|[]]]; reflexivity|].
    rewrite EB, <- app_assoc in O. cbn [app] in O. exact (ok_pair _ _ _ _ _ O Ky Kz).
  - destruct Ag' as [N|[->|[->|[A|A]]]]; auto.
    + destruct g' as [|x g']; [congruence|]. right; right; right. inversion Lg'; subst. exists x, (g' ++ l2)%list. auto.
    + rewrite app_nil_r. destruct g' as [|x g']; [auto|]. right; right; right. inversion Lg'; subst. eauto.
    + destruct A as (x & b & -> & Hx). right; right; right. destruct g' as [|y g']; [exists x, b; auto|]. inversion Lg'; subst. exists y, (g' ++ x :: b)%list. auto.
Qed.
Theorem layout_changed file rtl l1 g g' l2 p : reads_as (l1 ++ g ++ l2)%list -> utf8 (spelled (l1 ++ g ++ l2)%list) -> utf8 (spelled g') ->
  fits l1 g l2 -> fits l1 g' l2 -> same_separation l1 g g' l2 ->
  parse_string file rtl (spelled (l1 ++ g ++ l2)%list) = Ok (mkResult (Some p) []) ->
  reads_as (l1 ++ g' ++ l2)%list /\
  exists p', parse_string file rtl (spelled (l1 ++ g' ++ l2)%list) = Ok (mkResult (Some p') []) /\ relocate_program erase p' = relocate_program erase p.
Proof.
  intros T U Ug Fg Fg' Sp P.
  pose proof (accepted_bare _ _ _ _ _ U T P) as O.
  destruct O as [c [Tc _]]. pose proof (program_ok _ _ Tc) as O. pose proof (replaced_reads l1 g g' l2 T O Fg Fg') as T'. split; [exact T'|].
  destruct (layout_bare g (fits_layout _ _ _ Fg)) as [S1 N1]. destruct (layout_bare g' (fits_layout _ _ _ Fg')) as [S2 N2].
  apply (same_trees file rtl (spelled (l1 ++ g ++ l2)%list) _ (l1 ++ g ++ l2)%list (l1 ++ g' ++ l2)%list); auto.
  - rewrite !spelled_app in *. unfold reads_as in T. rewrite !spelled_app in T. destruct (tokenisation_app _ _ _ _ _ T) as (t & Et & T2). apply append_inj_l in Et. subst t.
    destruct (tokenisation_app _ _ _ _ _ T2) as (t & Et & T3). apply append_inj_l in Et. subst t.
    destruct (utf8_split _ _ U (reads_ascii _ _ _ T2)) as [U1 U2]. destruct (utf8_split _ _ U2 (reads_ascii _ _ _ T3)) as [_ U3]. apply utf8_app; [exact U1|]. now apply utf8_app.
  - intros c' Tc'. rewrite !bare_app in *. rewrite <- !app_assoc in *. apply (swap_program c' (bare l1) (bare g)); auto.
    + intros E. apply app_eq_nil in E. now destruct E.
    + destruct Sp as [Sp|[->| ->]]; [|auto|right; right; exists eof0; reflexivity]. left. rewrite N1, N2. tauto.
Qed.
