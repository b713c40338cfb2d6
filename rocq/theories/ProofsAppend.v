(** Texts written behind each other (C88). *)
From Coq Require Import ZArith Lia ZifyBool ZifyN ZifyNat.
From Verif Require Import Base ModelUtils ModelVersion ModelError ModelTypes ModelAst ModelLexer ModelParser ModelSyntactic SpecUtils SpecLexer SpecParser SpecSyntax SpecReading SpecAnalyzer SpecRelocate SpecAppend
  ProofsUtils ProofsLexer ProofsLexer2 ProofsLexer3 ProofsParser3 ProofsParser4 ProofsParser5 ProofsSyntax ProofsSyntax2 ProofsTree ProofsUtf8 ProofsReading ProofsRelocate ProofsLayout1 ProofsLayout2 ProofsLayout3 ProofsLayout4 ProofsLayout5 ProofsLayout6 ProofsLayout7 SpecLayout.
Local Open Scope string_scope.

(** ** Lexemes *)
Lemma line_splice ls1 : forall m r lsx rest, tokenisation m (spelled ls1) ls1 "" -> modes m ls1 = DefaultMode -> tokenisation DefaultMode (LF ++ r) lsx rest ->
  Forall (fun l => lx_kind l <> T_TRIPLE_QUOTE) ls1 ->
  (forall a y z b, (ls1 = a ++ y :: z :: b)%list -> lx_kind y = T_DIVISION_OP -> ~ In (lx_kind z) [T_PRODUCT_OP; T_POWER_OP]) ->
  tokenisation m (spelled ls1 ++ LF ++ r) (ls1 ++ lsx)%list rest.
Proof.
  induction ls1 as [|l ls1 IH]; intros m r lsx rest T Md T' Q Sr.
  - cbn [modes fold_left] in Md. subst m. exact T'.
  - cbn [app] in *. inversion T as [| |? k u v ? ? F M R Tv]; subst.
    match goal with E : _ ++ v = _ |- _ => rename E into Ev end. rewrite spelled_cons in *. cbn [lx_text] in *. apply append_inj_l in Ev. subst v.
    cbn [modes fold_left lx_kind] in Md. inversion Q as [|? ? Ql Qr]; subst. cbn [lx_kind] in Ql.
    rewrite append_assoc. apply tok_next; [exact F| |exact R|].
    + apply (stays m k u (spelled ls1) "" (LF ++ r) F); [now rewrite append_nil_r|exact Ql| | |].
      * right; left. exists (ascii_of_N 10), r. split; reflexivity.
      * intros _. split; [|split].
        -- intros _ c r' [= <- _] [B|B]; discriminate B.
        -- intros _ c r' [= <- _]. left. reflexivity.
        -- intros _ c r' [= <- _]. split; discriminate.
      * intros -> r' E. destruct ls1 as [|z ls1]; [discriminate E|]. inversion Tv as [| |? k' u' v' ? ? F']; subst. rewrite spelled_cons in E. pose proof (form_nonempty _ _ _ F') as N. cbn [lx_text] in E.
        destruct u' as [|c u']; [congruence|]. injection E as -> _. apply (Sr [] _ _ ls1 eq_refl eq_refl). cbn [lx_kind]. eapply star_first. exact F'.
    + apply IH; auto. intros a y z b E. apply (Sr (mkLexeme k u :: a) y z b). now rewrite E.
Qed.
Definition newline_lexeme : lexeme := mkLexeme T_NEW_LINE LF.
Lemma newline_reads t ls rest : tokenisation DefaultMode t ls rest -> tokenisation DefaultMode (LF ++ t) (newline_lexeme :: ls) rest.
Proof.
  intros T. apply tok_next; [exact form_newline| |discriminate|exact T].
  apply maximal_iff. intros k e w E Ne F. destruct e as [|d e]; [congruence|].
  assert (L : (1 < String.length (LF ++ String d e))%nat) by (cbn; lia).
  destruct (form_cases DefaultMode k _ F L) as [[U _]|[[_ [B _]]|[[_ (s & Es & _)]|[[_ (b & Es & _)]|[[_ Es]|[_ (b & Es & _)]]]]]]; try discriminate Es.
  - discriminate U.
  - destruct B as [B|B]; discriminate B.
Qed.

(** ** Tokens *)
Notation place := ModelLexer.place.
Definition down (k : N) (t : token) : token := mkToken (tk_kind t) (tk_text t) (tk_line t + k) (tk_col t).
Lemma advance_down k s : forall line col, advance s (line + k) col = (fst (advance s line col) + k, snd (advance s line col))%N.
Proof.
  induction s as [|c s IH]; intros line col; cbn [advance]; [reflexivity|].
  destruct (Ascii.eqb c newline); [|destruct (is_continuation c); apply IH]. rewrite <- IH. f_equal. lia.
Qed.
Lemma place_down k ls rest : forall line col, place ls rest (line + k) col = map (down k) (place ls rest line col).
Proof.
  induction ls as [|l ls IH]; intros line col; cbn [place]; [reflexivity|]. rewrite advance_down. destruct (advance (lx_text l) line col) as [line' col']. cbn [fst snd].
  destruct (is_skipped (lx_kind l)); cbn [map]; now rewrite IH.
Qed.
Lemma advance_append a : forall b line col, advance (a ++ b) line col = advance b (fst (advance a line col)) (snd (advance a line col)).
Proof.
  induction a as [|c a IH]; intros b line col; cbn [append advance fst snd]; [reflexivity|]. destruct (Ascii.eqb c newline); [apply IH|]. destruct (is_continuation c); apply IH.
Qed.
Lemma advance_line s : forall line col, fst (advance s line col) = (line + line_feeds s)%N.
Proof.
  induction s as [|c s IH]; intros line col; cbn [advance line_feeds fst]; [lia|]. destruct (Ascii.eqb c newline) eqn:E.
  - apply Ascii.eqb_eq in E. subst c. rewrite IH. change (is_lf newline) with true. cbv iota. lia.
  - assert (is_lf c = false) as ->. { destruct (is_lf c) eqn:L; [|reflexivity]. exfalso. destruct c as [[] [] [] [] [] [] [] []]; try discriminate L; discriminate E. }
    destruct (is_continuation c); rewrite IH; lia.
Qed.
Lemma place_app ls1 ls2 rest : forall line col, exists body, (forall rest', place ls1 rest' line col = body ++ [end_token rest' (fst (advance (spelled ls1) line col)) (snd (advance (spelled ls1) line col))])%list /\
  place (ls1 ++ ls2) rest line col = (body ++ place ls2 rest (fst (advance (spelled ls1) line col)) (snd (advance (spelled ls1) line col)))%list.
Proof.
  induction ls1 as [|l ls1 IH]; intros line col; cbn [app place].
  - exists []. split; reflexivity.
  - rewrite spelled_cons, advance_append. destruct (advance (lx_text l) line col) as [line' col']. cbn [fst snd]. destruct (IH line' col') as (body & E1 & E2).
    destruct (is_skipped (lx_kind l)); [exists body; auto|]. exists (mkToken (lx_kind l) (lx_text l) line col :: body). split; [intros rest'|]; cbn [app]; now rewrite ?E1, ?E2.
Qed.

(** The version is only at the beginning. *)
Definition no_version (t : token) : Prop := tk_kind t <> T_VERSION.
Ltac nv := match goal with
  | H : is _ ?t |- no_version ?t => unfold no_version; rewrite H; discriminate
  | H : one_of _ ?t |- no_version ?t => unfold no_version, one_of in *; cbn in H; intros NV; rewrite NV in H; intuition discriminate
  end.
Ltac nvs := repeat match goal with
  | |- Forall no_version (_ ++ _) => apply Forall_app; split
  | |- Forall no_version (_ :: _) => constructor; [try nv|]
  | |- Forall no_version [] => constructor
  end; auto.
Lemma expr_no_version :
  (forall e u, expr_tokens e u -> Forall no_version u) /\ (forall es u, exprs_tokens es u -> Forall no_version u) /\
  (forall i u, entry_tokens i u -> Forall no_version u) /\ (forall is u, entries_tokens is u -> Forall no_version u).
Proof. apply expr_tokens_mutind; intros; nvs. Qed.
Ltac nve := repeat match goal with
  | H : expr_tokens _ _ |- _ => apply (proj1 expr_no_version) in H
  | H : exprs_tokens _ _ |- _ => apply (proj1 (proj2 expr_no_version)) in H
  end.
Lemma params_no_version ps u : params_tokens ps u -> Forall no_version u.
Proof. intros H. inversion H; subst; nve; nvs. Qed.
Lemma gate_no_version g u : gate_tokens g u -> Forall no_version u.
Proof. induction 1; nve; try match goal with H : params_tokens _ _ |- _ => apply params_no_version in H end; nvs. Qed.
Lemma statement_no_version s u : statement_tokens s u -> Forall no_version u.
Proof.
  intros H. inversion H; subst; nve; repeat match goal with H : params_tokens _ _ |- _ => apply params_no_version in H | H : gate_tokens _ _ |- _ => apply gate_no_version in H end; nvs.
  match goal with H : type_tokens _ _ |- _ => inversion H; subst end; nvs.
Qed.
Lemma separators_no_version S : Forall separator S -> Forall no_version S.
Proof. apply Forall_impl. intros t H. unfold separator in H. nv. Qed.
Lemma block_no_version ss u : block_tokens ss u -> Forall no_version u.
Proof.
  induction 1 as [seps eof F Ke|seps s ts ss ts' F N Ts Tb IH]; apply separators_no_version in F; nvs. eapply statement_no_version; eauto.
Qed.
Lemma modes_tokens ls : forall m s b rest, tokenisation m s (ls ++ b)%list rest -> modes m ls = VersionMode ->
  (m = VersionMode /\ bare ls = []) \/ exists A t, bare ls = (A ++ [t])%list /\ tk_kind t = T_VERSION.
Proof.
  induction ls as [|l ls IH]; intros m s b rest T E; [left; auto|]. cbn [app] in T. inversion T as [| |? k u v ? ? F M R Tv]; subst. cbn [modes fold_left lx_kind] in E.
  change (fold_left (fun m l => mode_after m (lx_kind l)) ls (mode_after m k)) with (modes (mode_after m k) ls) in E.
  destruct (IH _ _ _ _ Tv E) as [[Em Eb]|(A & t & Eb & Kt)].
  - unfold bare in *. cbn [filter lx_kind]. destruct m.
    + assert (k = T_VERSION) as -> by (destruct k; try discriminate Em; reflexivity). cbn [is_skipped negb map]. right. rewrite Eb. exists [], (mkToken T_VERSION u 0 0). auto.
    + cbn [form] in F. inversion F; subst; try discriminate Em. left. split; [reflexivity|exact Eb].
  - right. unfold bare in *. cbn [filter lx_kind]. destruct (negb (is_skipped k)); [|eauto]. cbn [map lx_text]. rewrite Eb. exists (mkToken k u 0 0 :: A), t. split; [reflexivity|exact Kt].
Qed.
Lemma sentence_modes ls c : program_tokens c (bare ls ++ [eof0])%list -> tokenisation DefaultMode (spelled ls) ls "" -> modes DefaultMode ls = DefaultMode.
Proof.
  intros T L. destruct (modes DefaultMode ls) eqn:E; [reflexivity|]. exfalso.
  destruct (modes_tokens ls DefaultMode (spelled ls) [] "" ltac:(now rewrite app_nil_r) E) as [[X _]|(A & t & Eb & Kt)]; [discriminate X|].
  inversion T as [seps v n ss ts F Kv Kn Tb Ec Et]. subst c. rewrite Eb, <- app_assoc in Et. cbn [app] in Et.
  pose proof (block_no_version _ _ Tb) as Nb. pose proof (block_end _ _ Tb) as Ne. destruct (exists_last Ne) as (w & x & Ew). subst ts.
  assert (Et' : ((seps ++ v :: n :: w) ++ [x])%list = ((A ++ [t]) ++ [eof0])%list) by (rewrite <- !app_assoc; exact Et). apply app_inj_tail in Et'. destruct Et' as [Et' _].
  destruct w as [|y w].
  - replace (seps ++ [v; n])%list with ((seps ++ [v]) ++ [n])%list in Et' by (rewrite <- app_assoc; reflexivity). apply app_inj_tail in Et'. destruct Et' as [_ <-]. rewrite Kn in Kt. discriminate Kt.
  - destruct (@exists_last token (y :: w) ltac:(discriminate)) as (q & z & Eq). rewrite Eq in Et', Nb. replace (seps ++ v :: n :: q ++ [z])%list with ((seps ++ v :: n :: q) ++ [z])%list in Et' by (rewrite <- app_assoc; reflexivity).
    apply app_inj_tail in Et'. destruct Et' as [_ <-]. apply Forall_app in Nb. destruct Nb as [Nb _]. apply Forall_app in Nb. destruct Nb as [_ Nb]. inversion Nb; subst. contradiction.
Qed.
Lemma join_tokens s1 ls1 c t2 ls2 rest : tokenisation DefaultMode s1 ls1 "" -> program_tokens c (bare ls1 ++ [eof0])%list -> tokenisation DefaultMode t2 ls2 rest ->
  exists body eof nl, tokenize s1 = Some (body ++ [eof])%list /\ is T_NEW_LINE nl /\
    tokenize (s1 ++ LF ++ t2) = Some (body ++ nl :: map (down (line_feeds s1)) (place ls2 rest 2 0))%list.
Proof.
  intros T1 Tc T2. pose proof (tokenisation_text _ _ _ _ T1) as Es. rewrite append_nil_r in Es. subst s1. pose proof (program_ok _ _ Tc) as O.
  assert (T : tokenisation DefaultMode (spelled ls1 ++ LF ++ t2) (ls1 ++ newline_lexeme :: ls2)%list rest).
  { apply line_splice; auto using newline_reads.
    - eapply sentence_modes; eauto.
    - apply ok_no_quote in O. apply Forall_app in O. destruct O as [O _]. now apply tokens_no_quote in O.
    - intros a y z b E Ky Kz. destruct (adjacent_bare a y z b ls1 E) as (A & B & EB); [now rewrite Ky|destruct Kz as [<-|[<-|[]]]; reflexivity|].
      rewrite EB, <- app_assoc in O. cbn [app] in O. exact (ok_pair _ _ _ _ _ O Ky Kz). }
  destruct (place_app ls1 (newline_lexeme :: ls2) rest 1 0) as (body & E1 & E2). set (L := advance (spelled ls1) 1 0) in *.
  exists body, (end_token "" (fst L) (snd L)), (mkToken T_NEW_LINE LF (fst L) (snd L)). split; [|split; [reflexivity|]].
  - unfold tokenize. rewrite (proj2 (lex_iff _ _ _) T1). now rewrite E1.
  - unfold tokenize. rewrite (proj2 (lex_iff _ _ _) T). f_equal. rewrite E2. f_equal. change (place (newline_lexeme :: ls2) rest (fst L) (snd L)) with (mkToken T_NEW_LINE LF (fst L) (snd L) :: place ls2 rest (fst L + 1) 0). f_equal.
    rewrite <- place_down. f_equal. subst L. rewrite advance_line. lia.
Qed.

(** ** Sentences *)
Section MapTokens.
  Variable phi : token -> token.
  Hypothesis kind_phi : forall t, tk_kind (phi t) = tk_kind t.
  Lemma is_phi k t : is k t -> is k (phi t).
  Proof. unfold is. now rewrite kind_phi. Qed.
  Lemma one_of_phi l t : one_of l t -> one_of l (phi t).
  Proof. unfold one_of. now rewrite kind_phi. Qed.
  Lemma separators_phi S : Forall separator S -> Forall separator (map phi S).
  Proof. intros H. apply Forall_map. revert H. apply Forall_impl. intros t. apply one_of_phi. Qed.
  Ltac mt := intros; cbn [map_cexpr map_centry map_cparams map_cgate map_ctype map_cstatement option_map map fst snd ct_keyword ct_size]; rewrite ?map_app; cbn [map]; rewrite ?map_app; cbn [map]; econstructor; eauto using is_phi, one_of_phi.
  Lemma map_expr_tokens :
    (forall e u, expr_tokens e u -> expr_tokens (map_cexpr phi e) (map phi u)) /\ (forall es u, exprs_tokens es u -> exprs_tokens (map (map_cexpr phi) es) (map phi u)) /\
    (forall i u, entry_tokens i u -> entry_tokens (map_centry phi i) (map phi u)) /\ (forall is u, entries_tokens is u -> entries_tokens (map (map_centry phi) is) (map phi u)).
  Proof. apply expr_tokens_mutind; mt. Qed.
  Lemma map_expr_tokens1 e u : expr_tokens e u -> expr_tokens (map_cexpr phi e) (map phi u). Proof. apply map_expr_tokens. Qed.
  Lemma map_exprs_tokens es u : exprs_tokens es u -> exprs_tokens (map (map_cexpr phi) es) (map phi u). Proof. apply map_expr_tokens. Qed.
  Hint Resolve map_expr_tokens1 map_exprs_tokens is_phi one_of_phi : core.
  Lemma map_params_tokens ps u : params_tokens ps u -> params_tokens (map_cparams phi ps) (map phi u).
  Proof. intros H. inversion H; subst; mt. Qed.
  Hint Resolve map_params_tokens : core.
  Lemma map_gate_tokens g u : gate_tokens g u -> gate_tokens (map_cgate phi g) (map phi u).
  Proof. induction 1; mt. Qed.
  Lemma map_type_tokens t u : type_tokens t u -> type_tokens (map_ctype phi t) (map phi u).
  Proof. intros H. inversion H; subst; mt. Qed.
  Hint Resolve map_gate_tokens map_type_tokens : core.
  Lemma map_statement_tokens s u : statement_tokens s u -> statement_tokens (map_cstatement phi s) (map phi u).
  Proof. intros H. inversion H; subst; mt. Qed.
  Lemma map_block_tokens ss u : block_tokens ss u -> block_tokens (map (map_cstatement phi) ss) (map phi u).
  Proof.
    induction 1 as [seps eof F Ke|seps s ts ss ts' F N Ts Tb IH]; rewrite !map_app; cbn [map].
    - apply bt_end; [now apply separators_phi|now apply is_phi].
    - apply bt_statement; [now apply separators_phi|destruct seps; [congruence|discriminate]|now apply map_statement_tokens|exact IH].
  Qed.
End MapTokens.

(** Another separator in front *)
Lemma block_separator ss n n' x : block_tokens ss (n :: x) -> separator n -> separator n' -> x <> [] -> block_tokens ss (n' :: x).
Proof. intros T S S' N. apply (swap_block ss (n :: x) T [] [n] x [n']); auto. left. split; discriminate. Qed.
(** Blocks behind each other *)
Lemma block_append ss1 ts : block_tokens ss1 ts -> forall b eof n x ss2, ts = (b ++ [eof])%list -> separator n -> block_tokens ss2 (n :: x) -> block_tokens (ss1 ++ ss2) (b ++ n :: x).
Proof.
  induction 1 as [seps eof' F Ke|seps s ts ss ts' F N Ts Tb IH]; intros b eof n x ss2 E Sn T2; cbn [app].
  - apply app_inj_tail in E. destruct E as [<- _]. clear Ke eof' eof.
    inversion T2 as [seps2 eof F2 Ke E1 E2|seps2 s ts ss ts' F2 N Ts Tb E1 E2].
    + destruct seps2 as [|m seps2]; cbn [app] in E2; injection E2 as <- <-.
      * exfalso. unfold is in Ke. unfold separator, one_of in Sn. rewrite Ke in Sn. cbn in Sn. intuition discriminate.
      * rewrite app_assoc. apply bt_end; [now apply Forall_app|exact Ke].
    + destruct seps2 as [|m seps2]; [congruence|]. cbn [app] in E2. injection E2 as <- <-. subst ss2.
      rewrite app_assoc. apply bt_statement; auto; [now apply Forall_app|destruct seps; discriminate].
  - pose proof (block_end _ _ Tb) as Ne. destruct (exists_last Ne) as (w & y & Ew). subst ts'. rewrite !app_assoc in E. apply app_inj_tail in E. destruct E as [<- ->].
    rewrite <- !app_assoc. apply bt_statement; auto. eapply IH; eauto.
Qed.
(** What is behind a separator is a block. *)
Lemma block_rest ss ts : block_tokens ss ts -> forall a n x, ts = (a ++ n :: x)%list -> separator n -> exists ss2, block_tokens ss2 (n :: x).
Proof.
  induction 1 as [seps eof F Ke|seps s ts ss ts' F N Ts Tb IH]; intros a n x E Sn.
  - apply app_split in E. destruct E as [(y & -> & E)|(y & -> & Ny & E)].
    + exists []. apply Forall_app in F. destruct F as [_ F]. rewrite E. now apply bt_end.
    + destruct y as [|z [|]]; [congruence| |discriminate E]. discriminate E.
  - apply app_split in E. destruct E as [(y & -> & E)|(y & -> & Ny & E)].
    + apply Forall_app in F. destruct F as [_ F]. destruct y as [|z y].
      * cbn [app] in E. destruct (statement_no_separator _ _ Ts) as [Nt Ft]. destruct ts as [|t ts]; [congruence|]. injection E as -> _. inversion Ft; subst. contradiction.
      * exists (s :: ss). rewrite E. apply bt_statement; auto. discriminate.
    + apply app_split in E. destruct E as [(z & -> & E)|(z & -> & Nz & E)].
      * destruct (statement_no_separator _ _ Ts) as [Nt Ft]. apply Forall_app in Ft. destruct Ft as [_ Ft]. destruct z as [|w z].
        -- cbn [app] in E. apply (IH [] n x); auto.
        -- injection E as -> _. inversion Ft; subst. contradiction.
      * apply (IH z n x); auto.
Qed.
Lemma sentence_rest S v n b nl x : sentence (S ++ v :: n :: b ++ nl :: x) -> Forall separator S -> is T_VERSION v -> separator nl -> exists ss, block_tokens ss (nl :: x).
Proof.
  intros [p T] FS Kv Sn. inversion T as [seps v' n' ss ts F Kv' Kn' Tb Ep E].
  assert (Nv : not_separator v) by (apply (kind_not_separator T_VERSION); [exact Kv|exact I]). assert (Nv' : not_separator v') by (apply (kind_not_separator T_VERSION); [exact Kv'|exact I]).
  destruct (separators_prefix _ _ _ _ _ F Nv E) as (z & -> & E'). apply Forall_app in FS. destruct FS as [_ FS]. destruct z as [|y z].
  - injection E' as _ _ E'. exact (block_rest _ _ Tb b nl x E' Sn).
  - injection E' as <- _. inversion FS; subst. contradiction.
Qed.
Section Join.
  Variables (c1 : cprogram) (body : list token) (eof nl : token).
  Hypothesis T1 : program_tokens c1 (body ++ [eof])%list.
  Hypothesis Snl : separator nl.
  Lemma join_program ss x : block_tokens ss (nl :: x) -> program_tokens (mkCProgram (cp_version c1) (cp_statements c1 ++ ss)) (body ++ nl :: x)%list.
  Proof.
    intros T. inversion T1 as [seps v n ss1 ts F Kv Kn Tb Ec E]. cbn [cp_version cp_statements]. pose proof (block_end _ _ Tb) as Ne. destruct (exists_last Ne) as (b & y & ->).
    assert (E' : ((seps ++ v :: n :: b) ++ [y] = body ++ [eof])%list) by (rewrite <- E, <- app_assoc; reflexivity). apply app_inj_tail in E'. destruct E' as [<- <-].
    rewrite <- app_assoc. cbn [app]. constructor; auto. eapply block_append; eauto.
  Qed.
  Lemma join_rest x : sentence (body ++ nl :: x) -> exists ss, block_tokens ss (nl :: x).
  Proof.
    intros Se. inversion T1 as [seps v n ss1 ts F Kv Kn Tb Ec E]. pose proof (block_end _ _ Tb) as Ne. destruct (exists_last Ne) as (b & y & ->).
    assert (E' : ((seps ++ v :: n :: b) ++ [y] = body ++ [eof])%list) by (rewrite <- E, <- app_assoc; reflexivity). apply app_inj_tail in E'. destruct E' as [<- <-].
    rewrite <- app_assoc in Se. cbn [app] in Se. eapply sentence_rest; eauto.
  Qed.
  Definition goes_on (u : list token) : Prop := exists z ss, block_tokens ss (nl :: u ++ z).
  Lemma join_viable u : viable (body ++ nl :: u) <-> goes_on u.
  Proof.
    unfold viable, goes_on. split; intros (z & H).
    - rewrite <- app_assoc in H. cbn [app] in H. exists z. now apply join_rest.
    - destruct H as (ss & H). exists z. rewrite <- app_assoc. cbn [app]. exists (mkCProgram (cp_version c1) (cp_statements c1 ++ ss)). exact (join_program ss (u ++ z) H).
  Qed.
  Lemma viable_prefix u v : viable (u ++ v) -> viable u.
  Proof. intros (z & Z). exists (v ++ z)%list. now rewrite app_assoc. Qed.
  Lemma join_offending x t : first_offending (body ++ nl :: x) t <-> exists u w, x = (u ++ t :: w)%list /\ goes_on u /\ ~ goes_on (u ++ [t]).
  Proof.
    assert (G : goes_on []). { exists [eof0], []. apply (bt_end [nl]); [auto|reflexivity]. }
    split.
    - intros (u & w & E & V & N). change (nl :: x)%list with ([nl] ++ x)%list in E. rewrite app_assoc in E. apply app_split in E. destruct E as [(y & E & E')|(y & E & Ny & E')].
      + destruct y as [|a y].
        * exists [], w. cbn [app] in E'. rewrite <- E'. split; [reflexivity|]. split; [exact G|]. intros Gt. apply N. rewrite app_nil_r in E. rewrite <- E, <- app_assoc. cbn [app]. now apply join_viable.
        * injection E' as <- E'. destruct N. apply (viable_prefix (u ++ [t]) y). rewrite <- app_assoc. cbn [app]. rewrite <- E. now apply join_viable.
      + exists y, w. split; [exact E'|]. rewrite E, <- app_assoc in V. rewrite E, <- !app_assoc in N. cbn [app] in V, N. rewrite join_viable in V, N. auto.
    - intros (u & w & -> & V & N). exists (body ++ nl :: u)%list, w. rewrite <- app_assoc. cbn [app]. split; [reflexivity|]. rewrite <- app_assoc. cbn [app]. rewrite !join_viable. auto.
  Qed.
End Join.
Lemma goes_on_map phi nl nl' u : (forall t, tk_kind (phi t) = tk_kind t) -> separator nl -> separator nl' -> goes_on nl u -> goes_on nl' (map phi u).
Proof.
  intros K S S' (z & ss & T). exists (map phi z), (map (map_cstatement phi) ss). apply (map_block_tokens phi K) in T. cbn [map] in T. rewrite map_app in T.
  refine (block_separator _ (phi nl) nl' _ T (one_of_phi phi K _ _ S) S' _). intros E. rewrite <- map_app in E. apply map_eq_nil in E.
  rewrite <- map_app, E in T. cbn [map] in T. inversion T as [seps e F Ke E1 E2|seps s ts ss' ts' F Ne Ts Tb E1 E2].
  - destruct seps as [|? [|]]; try discriminate E2. injection E2 as ->. unfold is in Ke. rewrite K in Ke. unfold separator, one_of in S. rewrite Ke in S. cbn in S. intuition discriminate.
  - destruct seps as [|? seps]; [congruence|]. injection E2 as _ E2. apply app_eq_nil in E2. destruct E2 as [_ E2]. apply app_eq_nil in E2. destruct E2 as [_ E2]. now apply block_end in Tb.
Qed.
Definition up (k : N) (t : token) : token := mkToken (tk_kind t) (tk_text t) (tk_line t - k) (tk_col t).
Lemma up_down k u : map (up k) (map (down k) u) = u.
Proof. rewrite map_map. rewrite <- (map_id u) at 2. apply map_ext. intros [kd tx l c]. unfold up, down. cbn. f_equal. lia. Qed.
Lemma goes_on_down k nl nl' u : separator nl -> separator nl' -> goes_on nl u <-> goes_on nl' (map (down k) u).
Proof.
  intros S S'. split; intros H.
  - apply (goes_on_map (down k) nl); auto.
  - apply (goes_on_map (up k) nl' nl) in H; auto. now rewrite up_down in H.
Qed.
Lemma offending_down k nl nl' x t : separator nl -> separator nl' ->
  (exists u w, x = (u ++ t :: w)%list /\ goes_on nl u /\ ~ goes_on nl (u ++ [t])) -> exists u w, map (down k) x = (u ++ down k t :: w)%list /\ goes_on nl' u /\ ~ goes_on nl' (u ++ [down k t]).
Proof.
  intros S S' (u & w & -> & G & N). exists (map (down k) u), (map (down k) w). rewrite map_app. split; [reflexivity|].
  rewrite (goes_on_down k nl nl') in G by auto. rewrite (goes_on_down k nl nl') in N by auto. rewrite map_app in N. auto.
Qed.

(** ** Trees *)
Lemma mapM_app {A B} (f : A -> outcome error B) a : forall b, mapM f (a ++ b) = let! x := mapM f a in let! y := mapM f b in Ok (x ++ y)%list.
Proof.
  induction a as [|x a IH]; intros b; cbn [app mapM bind]; [destruct (mapM f b); reflexivity|]. destruct (f x); cbn [bind]; try reflexivity. rewrite IH. destruct (mapM f a); cbn [bind]; try reflexivity.
  destruct (mapM f b); reflexivity.
Qed.
Lemma down_index_max k a b : index_max (index_down k a) (index_down k b) = index_down k (index_max a b).
Proof.
  unfold index_max, index_ltb, index_down. cbn [line column]. replace (line a + k <? line b + k)%N with (line a <? line b)%N by lia. replace (line a + k =? line b + k)%N with (line a =? line b)%N by lia.
  destruct (_ || _); reflexivity.
Qed.
Lemma down_index_min k a b : index_min (index_down k a) (index_down k b) = index_down k (index_min a b).
Proof.
  unfold index_min, index_ltb, index_down. cbn [line column]. replace (line b + k <? line a + k)%N with (line b <? line a)%N by lia. replace (line b + k =? line a + k)%N with (line b =? line a)%N by lia.
  destruct (_ || _); reflexivity.
Qed.
Lemma down_mk k f l1 c1 l2 c2 : Some (mk_location f (mk_range (mkIndex (l1 + k) c1) (mkIndex (l2 + k) c2))) = lines_down k (Some (mk_location f (mk_range (mkIndex l1 c1) (mkIndex l2 c2)))).
Proof.
  cbn [lines_down option_map]. unfold mk_location, mk_range. cbn [file_name loc_range first last]. do 2 f_equal.
  change (mkIndex (l1 + k) c1) with (index_down k (mkIndex l1 c1)). change (mkIndex (l2 + k) c2) with (index_down k (mkIndex l2 c2)). now rewrite down_index_max.
Qed.
Section Trees.
  Variables (file : option string) (rtl : bool) (k : N).
  Notation g := (lines_down k).
  Lemma down_statement s : visit_cstatement file rtl (map_cstatement (down k) s) = omap g (relocate_statement g) (visit_cstatement file rtl s).
  Proof.
    assert (H : alike same g (relocate_statement same) (relocate_statement g) (visit_cstatement file rtl (map_cstatement (down k) s)) (visit_cstatement file rtl s)).
    { apply alike_cstatement; try reflexivity.
      - intros t. unfold same, token_loc, down. cbn [tk_line tk_col tk_text]. apply down_mk.
      - intros t d n. unfold same, ProofsLayout2.place, down. cbn [tk_line tk_col tk_text]. apply down_mk.
      - intros t c. unfold same, expand_loc. unfold token_loc at 1. unfold down at 1 2 3 4 5. cbn [tk_line tk_col tk_text]. unfold token_loc. unfold lines_down, option_map, expand_to_include, mk_location, mk_range, down.
        cbn [file_name loc_range first last tk_line tk_col tk_text]. do 2 f_equal.
        repeat match goal with |- context [mkIndex (?l + k) ?c] => change (mkIndex (l + k) c) with (index_down k (mkIndex l c)) end. now rewrite !down_index_max, down_index_min. }
    unfold alike in H. rewrite (omap_relocate_same _ _ relocate_statement_same) in H. exact H.
  Qed.
  Lemma down_statements ss : mapM (visit_cstatement file rtl) (map (map_cstatement (down k)) ss) = omap g (map (relocate_statement g)) (mapM (visit_cstatement file rtl) ss).
  Proof.
    induction ss as [|s ss IH]; cbn [map mapM]; [reflexivity|]. rewrite down_statement, IH. destruct (visit_cstatement file rtl s); cbn [omap bind]; try reflexivity.
    destruct (mapM (visit_cstatement file rtl) ss); reflexivity.
  Qed.
  Lemma join_visit c1 p1 v ss : visit_cprogram file rtl c1 = Ok p1 -> visit_cversion file v = Ok [3%Z] ->
    visit_cprogram file rtl (mkCProgram (cp_version c1) (cp_statements c1 ++ map (map_cstatement (down k)) ss)) =
    omap g (fun p2 => append_programs p1 (relocate_program g p2)) (visit_cprogram file rtl (mkCProgram v ss)).
  Proof.
    unfold visit_cprogram. cbn [cp_version cp_statements]. intros V1 ->. cbn [bind]. destruct (visit_cversion file (cp_version c1)); cbn [bind] in *; try discriminate V1.
    rewrite mapM_app, down_statements. destruct (mapM (visit_cstatement file rtl) (cp_statements c1)); cbn [bind] in *; try discriminate V1. injection V1 as <-.
    destruct (mapM (visit_cstatement file rtl) ss); reflexivity.
  Qed.
End Trees.

(** ** Texts *)
Lemma accepted_inv file rtl d p : parse_string file rtl d = Ok (mkResult (Some p) []) -> exists ls body eof c, let s := strip_bom d in
  utf8 s /\ tokenisation DefaultMode s ls "" /\ tokenize s = Some (body ++ [eof])%list /\ Forall good_token body /\ program_tokens c (body ++ [eof])%list /\ binds_program c /\
  visit_cprogram file rtl c = Ok p /\ exists c', program_tokens c' (bare ls ++ [eof0])%list.
Proof.
  cbv zeta. unfold parse_string, scan. set (s := strip_bom d). destruct (valid_utf8 s) eqn:U; cbn [negb]; [|discriminate]. apply valid_utf8_iff in U.
  destruct (tokenize_spec s) as (ls & rest & body & line & col & L & Ta & G & Et & P). rewrite Et. destruct (parse_program (body ++ [end_token rest line col])) as [c r|r|] eqn:Pp; try discriminate.
  destruct (visit_cprogram file rtl c) as [q| | |] eqn:V; try discriminate. intros [= <-]. pose proof Pp as Pp'. apply parse_body in Pp; [|exact G|apply end_not_plain]. destruct Pp as (-> & Ke & Tp & B).
  assert (rest = "") as -> by (destruct rest; [reflexivity|discriminate Ke]).
  exists ls, body, (end_token "" line col), c. do 7 (split; [solve [auto]|]). exists (map_cprogram unplaced c). exact (proj1 (parse_bare s ls _ c _ L Et Pp')).
Qed.
Lemma strip_append d t : ascii_start (strip_bom d) -> strip_bom (d ++ LF ++ t) = strip_bom d ++ LF ++ t.
Proof.
  intros A. apply (text_of_unique (d ++ LF ++ t)); [apply strip_bom_text|]. destruct (strip_bom_text d) as [E|[E N]].
  - left. rewrite E at 1. now rewrite append_assoc.
  - rewrite <- E in *. apply ascii_text. destruct d; [cbn; lia|exact A].
Qed.
Lemma strip_line_feeds d : line_feeds (strip_bom d) = line_feeds d.
Proof. destruct (strip_bom_text d) as [E|[E _]]; [rewrite E at 2|rewrite E at 2; reflexivity]. rewrite line_feeds_append. reflexivity. Qed.

Definition version_lexemes : list lexeme := [mkLexeme T_VERSION "version"; mkLexeme T_VERSION_WHITE_SPACE " "; mkLexeme T_VERSION_NUMBER "3"].
Definition version_tokens : list token := [mkToken T_VERSION "version" 1 0; mkToken T_VERSION_NUMBER "3" 1 8].
Lemma header_tokens t2 ls2 rest : tokenisation DefaultMode t2 ls2 rest -> exists nl, is T_NEW_LINE nl /\ tokenize (as_program t2) = Some (version_tokens ++ nl :: place ls2 rest 2 0)%list.
Proof.
  intros T2. destruct (join_tokens "version 3" version_lexemes (mkCProgram (mkToken T_VERSION_NUMBER "3" 0 0) []) t2 ls2 rest) as (body & eof & nl & Et & Kn & E); [apply lex_iff; reflexivity| |exact T2|].
  - apply (pg []); [constructor|reflexivity|reflexivity|]. apply (bt_end []); [constructor|reflexivity].
  - exists nl. split; [exact Kn|]. unfold as_program, on_new_line. rewrite E. assert (Eb : body = version_tokens).
    { change (tokenize "version 3") with (Some (version_tokens ++ [mkToken T_EOF "" 1 9])%list) in Et. apply (f_equal (fun o => match o with Some l => l | None => [] end)) in Et. apply app_inj_tail in Et. now destruct Et. }
    rewrite Eb. do 3 f_equal. rewrite <- (map_id (place ls2 rest 2 0)) at 2. apply map_ext. intros [kd tx l c]. unfold down. cbn. f_equal. lia.
Qed.

Lemma utf8_line s t : utf8 s -> utf8 (s ++ LF ++ t) <-> utf8 t.
Proof.
  intros U. split; intros H.
  - apply utf8_split in H; [|cbn; lia]. destruct H as [_ H]. apply valid_utf8_iff. apply valid_utf8_iff in H. exact H.
  - apply utf8_app; [exact U|]. change (LF ++ t) with (encoding 10 ++ t). constructor; [left; lia|exact H].
Qed.
Lemma good_down k ts : Forall good_token ts -> Forall good_token (map (down k) ts).
Proof. intros H. apply Forall_map. exact H. Qed.

Theorem join_parse file rtl d1 t2 p1 : parse_string file rtl d1 = Ok (mkResult (Some p1) []) -> let k := line_feeds d1 in
  match parse_string file rtl (as_program t2) with
  | Ok (mkResult (Some p2) []) => parse_string file rtl (on_new_line d1 t2) = Ok (mkResult (Some (append_programs p1 (relocate_program (lines_down k) p2))) [])
  | Ok (mkResult None [e]) => exists e', parse_string file rtl (on_new_line d1 t2) = Ok (mkResult None [e']) /\ location e' = lines_down k (location e)
  | Throw w => parse_string file rtl (on_new_line d1 t2) = Throw w
  | _ => False
  end.
Proof.
  cbv zeta. intros P1. destruct (accepted_inv _ _ _ _ P1) as (ls1 & body & eof & c1 & U1 & L1 & Et1 & G1 & Tp1 & B1 & V1 & c' & Tc'). cbv zeta in *.
  rewrite <- strip_line_feeds. set (s1 := strip_bom d1) in *. set (k := line_feeds s1).
  assert (Sj : strip_bom (on_new_line d1 t2) = s1 ++ LF ++ t2) by (apply strip_append; exact (reads_ascii _ _ _ L1)).
  assert (Sh : strip_bom (as_program t2) = as_program t2) by (apply strip_ascii; cbn; lia).
  assert (Uj : valid_utf8 (s1 ++ LF ++ t2) = valid_utf8 (as_program t2)).
  { apply eq_iff_eq_true. rewrite !valid_utf8_iff. unfold as_program, on_new_line. rewrite (utf8_line s1), (utf8_line "version 3"); [tauto| |exact U1]. apply valid_utf8_iff. reflexivity. }
  unfold parse_string, scan. rewrite Sj, Sh, Uj. destruct (valid_utf8 (as_program t2)); cbn [negb]; [|reflexivity].
  destruct (lex_total t2) as (ls2 & rest & L2). apply lex_iff in L2.
  destruct (header_tokens t2 ls2 rest L2) as (nlh & Kh & Eh). destruct (join_tokens s1 ls1 c' t2 ls2 rest L1 Tc' L2) as (body' & eof' & nl & Et1' & Kn & Ej).
  rewrite Et1 in Et1'. injection Et1' as Eb. apply app_inj_tail in Eb. destruct Eb as [<- <-]. fold k in Ej. set (x := place ls2 rest 2 0) in *. rewrite Eh, Ej.
  assert (Snl : separator nl) by (unfold separator, one_of; rewrite Kn; cbn; auto). assert (Snh : separator nlh) by (unfold separator, one_of; rewrite Kh; cbn; auto).
  assert (Xn : x <> []). { subst x. destruct (place_app ls2 [] rest 2 0) as (b & E & _). rewrite E. destruct b; discriminate. }
  (* the tokens of both texts are good *)
  destruct (tokenize_spec (as_program t2)) as (lsh & resth & bh & lh & ch & _ & _ & Gh & Eh' & _). rewrite Eh in Eh'. injection Eh' as Eh'.
  destruct (tokenize_spec (s1 ++ LF ++ t2)) as (lsj & restj & bj & lj & cj & _ & _ & Gj & Ej' & _). rewrite Ej in Ej'. injection Ej' as Ej'.
  pose proof (end_not_plain resth lh ch) as Nh. pose proof (end_not_plain restj lj cj) as Nj. set (eh := end_token resth lh ch) in *. set (ej := end_token restj lj cj) in *.
  change (version_tokens ++ nlh :: x = bh ++ [eh])%list in Eh'.
  destruct (parse_program (version_tokens ++ nlh :: x)) as [hc r|r|] eqn:Pp; [| |destruct (program_fuel _ Pp)].
  - (* the second text is a program *)
    pose proof (map_program (down k) (fun _ => eq_refl) (version_tokens ++ nlh :: x)) as M. rewrite Pp in M. cbn [pmap] in M. rewrite Eh', map_app in M. cbn [map] in M.
    apply parse_body in M; [|now apply good_down|exact Nh]. destruct M as (_ & _ & Tm & Bm).
    replace (map (down k) bh ++ [down k eh])%list with (map (down k) (version_tokens ++ nlh :: x)) in Tm by (rewrite Eh', map_app; reflexivity).
    rewrite Eh' in Pp. apply parse_body in Pp; [|exact Gh|exact Nh]. destruct Pp as (_ & _ & Th & Bh). rewrite <- Eh' in Th.
    assert (Hc : exists ss, hc = mkCProgram (mkToken T_VERSION_NUMBER "3" 1 8) ss /\ block_tokens (map (map_cstatement (down k)) ss) (nl :: map (down k) x) /\ Forall binds_statement (map (map_cstatement (down k)) ss)).
    { inversion Th as [seps v n ss ts F Kv Kw Tb Ec E]. destruct seps as [|a seps]; [|injection E as -> _; inversion F as [|? ? Sa]; subst; unfold separator, one_of in Sa; cbn in Sa; intuition discriminate].
      cbn [app version_tokens] in E. injection E as _ -> ->. exists ss. split; [reflexivity|]. split.
      - apply (block_separator _ (down k nlh)); auto; [|intros X; apply map_eq_nil in X; contradiction]. apply (map_block_tokens (down k) (fun _ => eq_refl)) in Tb. exact Tb.
      - subst hc. exact Bm. }
    destruct Hc as (ss & -> & Tb & Bs).
    pose proof (join_program c1 body eof nl Tp1 Snl _ _ Tb) as Tj.
    destruct (program_complete _ _ Tj) as (e & _ & Pj); [apply Forall_app; split; [exact B1|exact Bs]|]. rewrite Pj.
    rewrite (join_visit file rtl k c1 p1 (mkToken T_VERSION_NUMBER "3" 1 8) ss V1 eq_refl).
    destruct (visit_cprogram file rtl (mkCProgram (mkToken T_VERSION_NUMBER "3" 1 8) ss)) as [p2|e2|w|u] eqn:V2; cbn [omap]; [reflexivity| | |].
    + eexists. split; [reflexivity|]. reflexivity.
    + reflexivity.
    + exfalso. assert (Ge : Forall good_or_eof (version_tokens ++ nlh :: x)).
      { destruct (program_plain _ _ Th) as (u1 & x1 & E1 & _ & Kx). rewrite Eh' in E1 |- *. apply app_inj_tail in E1. destruct E1 as [_ E1].
        apply Forall_app. split; [apply Forall_impl with (2 := Gh); intros t H; now left|]. constructor; [right; congruence|constructor]. }
      pose proof (program_over file rtl _ _ Th Ge) as O. rewrite V2 in O. exact O.
  - (* it is not *)
    assert (Sn : ~ sentence (version_tokens ++ nlh :: x)).
    { intros [p Hp]. destruct (program_arrange _ _ Hp) as (p' & Hp' & B). destruct (program_complete _ _ Hp' B) as (e & _ & X). congruence. }
    rewrite Eh' in Sn. destruct (not_sentence_parse _ _ Gh Nh Sn) as (t & w & Pt & O). rewrite Eh' in Pp. rewrite Pp in Pt. injection Pt as ->. rewrite <- Eh' in O.
    assert (T0 : program_tokens (mkCProgram (mkToken T_VERSION_NUMBER "3" 1 8) []) (version_tokens ++ [eof0])%list).
    { apply (pg []); [constructor|reflexivity|reflexivity|]. apply (bt_end []); [constructor|reflexivity]. }
    apply (join_offending _ _ _ nlh T0 Snh) in O. apply (offending_down k nlh nl x t Snh Snl) in O. apply (join_offending _ _ _ nl Tp1 Snl) in O.
    assert (Sj' : ~ sentence (body ++ nl :: map (down k) x)).
    { destruct O as (u & z & E & _ & N). rewrite E. intros Se. apply N. exists z. rewrite <- app_assoc. exact Se. }
    rewrite Ej' in Sj'. destruct (not_sentence_parse _ _ Gj Nj Sj') as (t' & w' & Pt & O'). rewrite <- Ej' in Pt, O'. rewrite Pt. pose proof (first_offending_unique _ _ _ O O') as <-.
    eexists. split; [reflexivity|]. cbn [antlr_error]. unfold syntax_error, mk_error_range. cbn [location down tk_line tk_col tk_text tk_kind]. apply down_mk.
Qed.
