(** Printed programs are read back (C48-C50). *)
From Coq Require Import SpecFloat ZifyBool ZifyN ZifyNat.
From Verif Require Import Base ModelUtils ModelVersion ModelError ModelTypes ModelAst ModelLexer ModelParser ModelSyntactic
  SpecUtils SpecTypes SpecLexer SpecParser SpecSyntax SpecLiteral SpecReading SpecRelocate SpecLayout SpecPrint
  ProofsUtils ProofsVersion ProofsLexer ProofsLexer2 ProofsLexer3 ProofsParser ProofsParser2 ProofsParser3 ProofsParser4 ProofsParser5 ProofsParser6 ProofsParser7 ProofsParser8
  ProofsSyntax ProofsSyntax2 ProofsUtf8 ProofsReading ProofsRelocate
  ProofsLayout1 ProofsLayout2 ProofsLayout3 ProofsLayout4 ProofsLayout5 ProofsLayout7 ProofsPrint1 ProofsPrint2.
Local Open Scope string_scope.

Section Style.
  Variables (everywhere : bool) (file : option string) (rtl : bool).
  Notation pe := (print_expr everywhere).
  Notation paren := (parenthesised everywhere).
  Notation tree := (tree everywhere).
  Notation core := (core everywhere).

  (** ** Operands after a name *)
  Lemma core_not_parens e c : core e <> CParens c.
  Proof. destruct e as [| | | |? []|? ? []| | |]; discriminate. Qed.
  Lemma like_core : forall e, starts_like_params (core e) -> like_params everywhere e = true.
  Proof.
    fix IH 1. intros e. destruct e as [| | | |? []|? ? []| |? o a b|? a b c]; try (cbn; contradiction).
    - cbn [ProofsPrint2.core starts_like_params like_params]. rewrite tree_eq. destruct (paren (left_level o) a).
      + unfold one_of. destruct o; cbn; intuition discriminate.
      + intros H. apply IH. destruct (core a) eqn:E; try exact H. exfalso. exact (core_not_parens _ _ E).
    - cbn [ProofsPrint2.core starts_like_params like_params]. rewrite tree_eq. destruct (paren 1 a); cbn [negb andb]; [cbn; contradiction|]. apply IH.
  Qed.
  Definition operand_tree (after_name : bool) (e : expr) : cexpr :=
    if (after_name && negb (paren 0 e) && like_params everywhere e)%bool then CParens (tree 0 e) else tree 0 e.
  Lemma operand_not_like e : ~ starts_like_params (operand_tree true e).
  Proof.
    unfold operand_tree. rewrite tree_eq. destruct (paren 0 e); cbn [negb andb]; [cbn; auto|]. destruct (like_params everywhere e) eqn:L; [cbn; auto|]. intros H. apply like_core in H. congruence.
  Qed.
  Lemma operand_tokens b e : writable e -> expr_tokens (operand_tree b e) (map tok (print_operand everywhere b e)).
  Proof.
    intros W. pose proof (proj1 (tree_tokens everywhere) e W 0%nat) as T. unfold operand_tree, print_operand. destruct (b && _ && _)%bool; [|exact T]. cbn [map]. rewrite map_app. now apply et_parens.
  Qed.
  Lemma operand_binds b e : writable e -> binds 0 (operand_tree b e).
  Proof.
    intros W. pose proof (proj1 (tree_binds everywhere) e W 0%nat ltac:(lia)) as T. unfold operand_tree. destruct (b && _ && _)%bool; [|exact T]. apply b_parens; [lia|exact T].
  Qed.
  Lemma operand_means b e : writable e -> means file rtl (operand_tree b e) e.
  Proof. intros W. pose proof (proj1 (tree_means everywhere file rtl) e W 0%nat) as T. unfold operand_tree. destruct (b && _ && _)%bool; exact T. Qed.
  Lemma operand_fine b e : writable e -> Forall fine (print_operand everywhere b e).
  Proof.
    intros W. pose proof (proj1 (print_fine everywhere) e W 0%nat) as T. unfold print_operand. destruct (b && _ && _)%bool; [|exact T]. constructor; [fixed|]. apply Forall_app. split; [exact T|]. constructor; [fixed|constructor].
  Qed.

  (** ** Parameters and gates *)
  Lemma printed_params ps : all_writable ps -> exists c, params_tokens c (map tok (print_params everywhere ps)) /\ binds_params c /\ Forall fine (print_params everywhere ps) /\
    (c = None <-> ps = []) /\ exists ps', visit_cparams file rtl c = Ok ps' /\ map (relocate_expr erase) ps' = map (relocate_expr erase) ps.
  Proof.
    intros W. destruct ps as [|e ps].
    - exists None. split; [constructor|]. split; [exact I|]. split; [constructor|]. split; [tauto|]. exists []. auto.
    - exists (Some (map (tree 0) (e :: ps))). split; [|split; [|split; [|split]]].
      + unfold print_params, print_exprs. cbn [map]. rewrite map_app. apply pt_some; [reflexivity| |reflexivity]. apply (proj1 (proj2 (tree_tokens everywhere)) (e :: ps) W). discriminate.
      + apply (tree_binds everywhere); exact W.
      + unfold print_params, print_exprs. constructor; [fixed|]. apply Forall_app. split; [apply separated_fine, (print_fine everywhere); exact W|]. constructor; [fixed|constructor].
      + split; discriminate.
      + apply (tree_means everywhere file rtl). exact W.
  Qed.
  Lemma printed_gate g : writable_gate g -> exists c, gate_tokens c (map tok (print_gate everywhere g)) /\ binds_gate c /\ Forall fine (print_gate everywhere g) /\
    (without_params c -> bare_gate g = true) /\ exists g', visit_cgate file rtl c = Ok g' /\ relocate_gate erase g' = relocate_gate erase g.
  Proof.
    induction 1 as [l g _ (c & T & B & F & P & g' & V & E)|l g _ (c & T & B & F & P & g' & V & E)|l g e _ (c & T & B & F & P & g' & V & E) We|l n ps Hn Wp].
    - exists (CInv (tok (mkLexeme T_INV "inv")) c). cbn [print_gate]. change ("inv" =? "pow") with false. change ("inv" =? "inv") with true. cbv iota. split; [|split; [|split; [|split]]].
      + cbn [map]. apply gt_inv; [reflexivity|reflexivity|exact T].
      + exact B.
      + constructor; [fixed|]. constructor; [fixed|exact F].
      + exact P.
      + cbn [visit_cgate]. rewrite V. cbn [bind]. eexists. split; [reflexivity|]. cbn [relocate_gate option_map]. now rewrite E.
    - exists (CCtrl (tok (mkLexeme T_CTRL "ctrl")) c). cbn [print_gate]. change ("ctrl" =? "pow") with false. change ("ctrl" =? "inv") with false. cbv iota. split; [|split; [|split; [|split]]].
      + cbn [map]. apply gt_ctrl; [reflexivity|reflexivity|exact T].
      + exact B.
      + constructor; [fixed|]. constructor; [fixed|exact F].
      + exact P.
      + cbn [visit_cgate]. rewrite V. cbn [bind]. eexists. split; [reflexivity|]. cbn [relocate_gate option_map]. now rewrite E.
    - exists (CPow (tok (mkLexeme T_POW "pow")) (tree 0 e) c). cbn [print_gate]. change ("pow" =? "pow") with true. cbv iota. unfold print_params, print_exprs. cbn [map separated app]. rewrite <- app_assoc. cbn [app]. split; [|split; [|split; [|split]]].
      + rewrite map_app. cbn [map]. apply gt_pow; try reflexivity; [apply (tree_tokens everywhere); exact We|exact T].
      + split; [apply (tree_binds everywhere); [exact We|lia]|exact B].
      + constructor; [fixed|]. constructor; [fixed|]. apply Forall_app. split; [apply (print_fine everywhere); exact We|]. constructor; [fixed|]. constructor; [fixed|exact F].
      + exact P.
      + cbn [visit_cgate]. rewrite V. cbn [bind]. destruct (proj1 (tree_means everywhere file rtl) e We 0%nat) as (e' & Ve & Ee). rewrite Ve. cbn [bind]. eexists. split; [reflexivity|]. cbn [relocate_gate option_map map]. now rewrite E, Ee.
    - destruct (printed_params ps Wp) as (cp & T & B & F & N & ps' & V & E). exists (CNamed (tok (word n)) cp). cbn [print_gate]. split; [|split; [|split; [|split]]].
      + cbn [map]. apply gt_named; [reflexivity|exact T].
      + exact B.
      + constructor; [now apply word_fine|exact F].
      + cbn [without_params bare_gate]. intros H. apply N in H. now subst.
      + cbn [visit_cgate]. rewrite V. cbn [bind]. eexists. split; [reflexivity|]. cbn [relocate_gate option_map map tok word tk_text lx_text]. now rewrite E.
  Qed.

  (** ** Statements *)
  Lemma operands_tokens b es : all_writable es -> es <> [] -> exists cs, exprs_tokens cs (map tok (print_operands everywhere b es)) /\ binds_all cs /\ Forall fine (print_operands everywhere b es) /\
    (b = true -> match cs with c :: _ => ~ starts_like_params c | [] => True end) /\ exists es', visit_cexprs file rtl cs = Ok es' /\ map (relocate_expr erase) es' = map (relocate_expr erase) es.
  Proof.
    intros W N. destruct W as [|e es We Ws]; [congruence|]. exists (operand_tree b e :: map (tree 0) es). unfold print_operands. pose proof (operand_tokens b e We) as T. split; [|split; [|split; [|split]]].
    - destruct es as [|e2 es]; [now apply es_one|]. cbn [map]. rewrite separated_app, map_app. cbn [map]. apply es_more; [exact T|reflexivity|]. apply (proj1 (proj2 (tree_tokens everywhere)) (e2 :: es) Ws). discriminate.
    - constructor; [now apply operand_binds|apply (tree_binds everywhere); exact Ws].
    - apply separated_fine. constructor; [now apply operand_fine|apply (print_fine everywhere); exact Ws].
    - intros ->. apply operand_not_like.
    - destruct (operand_means b e We) as (e' & Ve & Ee). destruct (proj1 (proj2 (tree_means everywhere file rtl)) es Ws) as (es' & Vs & Es). exists (e' :: es'). unfold visit_cexprs. cbn [mapM]. rewrite Ve, Vs. split; [reflexivity|]. cbn [map]. now rewrite Ee, Es.
  Qed.
  Lemma printed_statement s : writable_statement s -> exists c, statement_tokens c (map tok (print_statement everywhere s)) /\ binds_statement c /\ Forall fine (print_statement everywhere s) /\
    exists s', visit_cstatement file rtl c = Ok s' /\ relocate_statement erase s' = relocate_statement erase s.
  Proof.
    destruct 1 as [l n l' t size Hn Ht Hs|l g ops Wg N Wo|l b q ps Wb Wq Wp|l q d Wq Wd|l n q Hn Wq|l n code Hn Hc Hu].
    - cbn [print_statement]. unfold print_type. cbn [ty_name ty_size].
      assert (K : exists k, (if t =? "qubit" then T_QUBIT_TYPE else T_BIT_TYPE) = k /\ In k [T_QUBIT_TYPE; T_BIT_TYPE] /\ fine (mkLexeme k t) /\ match k with T_QUBIT_TYPE => "qubit" | _ => "bit" end = t).
      { destruct Ht as [-> | ->]; eexists; (split; [reflexivity|]); (split; [cbn; auto|]); (split; [fixed|reflexivity]). }
      destruct K as (k & -> & Ik & Fk & Ek). destruct size as [z|].
      + specialize (Hs z eq_refl). exists (CVariable (mkCType (tok (mkLexeme k t)) (Some (tok (number z), tok (mkLexeme T_CLOSE_BRACKET "]")))) (tok (word n))). split; [|split; [exact I|split]].
        * cbn [map app]. apply (st_variable _ [_; _; _; _]); [apply tt_array; try reflexivity; exact Ik|reflexivity].
        * constructor; [exact Fk|]. constructor; [fixed|]. constructor; [apply number_fine|]. constructor; [fixed|]. constructor; [now apply word_fine|constructor].
        * cbn [visit_cstatement]. unfold visit_ctype. cbn [ct_size ct_keyword tok number tk_kind tk_text tk_line tk_col lx_kind lx_text]. unfold get_int_value. rewrite number_reads by exact Hs. cbn [bind]. eexists. split; [reflexivity|]. cbn [relocate_statement map]. unfold relocate_type. cbn [ty_loc ty_name ty_size]. now rewrite Ek.
      + exists (CVariable (mkCType (tok (mkLexeme k t)) None) (tok (word n))). split; [|split; [exact I|split]].
        * cbn [map app]. apply (st_variable _ [_]); [apply tt_plain; exact Ik|reflexivity].
        * constructor; [exact Fk|]. constructor; [now apply word_fine|constructor].
        * cbn [visit_cstatement]. unfold visit_ctype. cbn [ct_size ct_keyword tok tk_kind lx_kind bind]. eexists. split; [reflexivity|]. cbn [relocate_statement map]. unfold relocate_type. cbn [ty_loc ty_name ty_size]. now rewrite Ek.
    - destruct (printed_gate g Wg) as (cg & T & B & F & P & g' & V & E). destruct (operands_tokens (bare_gate g) ops Wo N) as (cs & T' & B' & F' & P' & ops' & V' & E').
      exists (CGateInstr cg cs). cbn [print_statement]. split; [|split; [|split]].
      + rewrite map_app. now apply st_gate.
      + split; [exact B|]. split; [exact B'|]. intros H. apply P', P, H.
      + apply Forall_app. auto.
      + cbn [visit_cstatement]. rewrite V. cbn [bind]. rewrite V'. cbn [bind]. eexists. split; [reflexivity|]. cbn [relocate_statement map]. now rewrite E, E'.
    - destruct (printed_params ps Wp) as (cp & T & B & F & Np & ps' & V & E). set (a := match ps with [] => true | _ => false end). cbn [print_statement]. fold a.
      exists (CMeasure (tok (mkLexeme T_MEASURE "measure")) (tree 0 b) cp (operand_tree a q)). split; [|split; [|split]].
      + rewrite map_app. cbn [map]. rewrite map_app. apply st_measure; try reflexivity; [apply (tree_tokens everywhere); exact Wb|exact T|now apply operand_tokens].
      + split; [apply (tree_binds everywhere); [exact Wb|lia]|]. split; [exact B|]. split; [now apply operand_binds|]. intros H. apply Np in H. subst ps. apply operand_not_like.
      + apply Forall_app. split; [apply (print_fine everywhere); exact Wb|]. constructor; [fixed|]. constructor; [fixed|]. apply Forall_app. split; [exact F|now apply operand_fine].
      + destruct (proj1 (tree_means everywhere file rtl) b Wb 0%nat) as (b' & Vb & Eb). destruct (operand_means a q Wq) as (q' & Vq & Eq). cbn [visit_cstatement]. rewrite V. cbn [bind]. rewrite Vb. cbn [bind]. rewrite Vq. cbn [bind]. eexists. split; [reflexivity|]. cbn [relocate_statement map]. now rewrite E, Eb, Eq.
    - destruct (proj1 (tree_means everywhere file rtl) q Wq 0%nat) as (q' & Vq & Eq). destruct (proj1 (tree_means everywhere file rtl) d Wd 0%nat) as (d' & Vd & Ed).
      exists (CWait (tok (mkLexeme T_WAIT "wait")) (tree 0 d) (tree 0 q)). cbn [print_statement]. unfold print_params, print_exprs. cbn [map separated app]. rewrite <- app_assoc. cbn [app]. split; [|split; [|split]].
      + rewrite map_app. cbn [map]. apply st_wait; try reflexivity; apply (tree_tokens everywhere); assumption.
      + split; apply (tree_binds everywhere); try assumption; lia.
      + constructor; [fixed|]. constructor; [fixed|]. apply Forall_app. split; [apply (print_fine everywhere); exact Wd|]. constructor; [fixed|apply (print_fine everywhere); exact Wq].
      + cbn [visit_cstatement]. rewrite Vd. cbn [bind]. rewrite Vq. cbn [bind]. eexists. split; [reflexivity|]. cbn [relocate_statement map]. now rewrite Ed, Eq.
    - destruct (proj1 (tree_means everywhere file rtl) q Wq 0%nat) as (q' & Vq & Eq). pose proof (proj1 (tree_tokens everywhere) q Wq 0%nat) as T. pose proof (proj1 (tree_binds everywhere) q Wq 0%nat ltac:(lia)) as B. pose proof (proj1 (print_fine everywhere) q Wq 0%nat) as F.
      cbn [print_statement print_params app]. destruct Hn as [<-|[<-|[<-|[]]]].
      + exists (CReset (tok (mkLexeme T_RESET "reset")) (tree 0 q)). split; [apply st_reset; [reflexivity|exact T]|]. split; [exact B|]. split; [constructor; [fixed|exact F]|]. cbn [visit_cstatement]. rewrite Vq. cbn [bind]. eexists. split; [reflexivity|]. cbn [relocate_statement map]. now rewrite Eq.
      + exists (CInit (tok (mkLexeme T_INIT "init")) (tree 0 q)). split; [apply st_init; [reflexivity|exact T]|]. split; [exact B|]. split; [constructor; [fixed|exact F]|]. cbn [visit_cstatement]. rewrite Vq. cbn [bind]. eexists. split; [reflexivity|]. cbn [relocate_statement map]. now rewrite Eq.
      + exists (CBarrier (tok (mkLexeme T_BARRIER "barrier")) (tree 0 q)). split; [apply st_barrier; [reflexivity|exact T]|]. split; [exact B|]. split; [constructor; [fixed|exact F]|]. cbn [visit_cstatement]. rewrite Vq. cbn [bind]. eexists. split; [reflexivity|]. cbn [relocate_statement map]. now rewrite Eq.
    - exists (CAsm (tok (word n)) (tok (mkLexeme T_RAW_TEXT_STRING ("'''" ++ code ++ "'''")))). cbn [print_statement]. split; [|split; [exact I|split]].
      + cbn [map]. apply st_asm; reflexivity.
      + constructor; [fixed|]. constructor; [fixed|]. constructor; [now apply word_fine|]. constructor; [fixed|]. constructor; [|constructor].
        split; [now apply form_raw|]. split; [discriminate|]. split; [reflexivity|]. split; [cbn; intuition discriminate|]. cbn [lx_text]. apply utf8_app; [apply ascii_utf8, asciib_iff; reflexivity|]. apply utf8_app; [exact Hu|apply ascii_utf8, asciib_iff; reflexivity].
      + cbn [visit_cstatement tok tk_text lx_text word]. rewrite remove_triple_quotes_wrapped. cbn [bind]. eexists. split; reflexivity.
  Qed.
  Lemma printed_block ss : Forall writable_statement ss -> exists cs, block_tokens cs (map tok (print_block everywhere ss) ++ [eof0])%list /\ Forall binds_statement cs /\ Forall fine (print_block everywhere ss) /\
    exists ss', mapM (visit_cstatement file rtl) cs = Ok ss' /\ map (relocate_statement erase) ss' = map (relocate_statement erase) ss.
  Proof.
    induction 1 as [|s ss Ws _ (cs & T & B & F & ss' & V & E)].
    - exists []. split; [apply (bt_end []); [constructor|reflexivity]|]. split; [constructor|]. split; [constructor|]. exists []. auto.
    - destruct (printed_statement s Ws) as (c & Tc & Bc & Fc & s' & Vc & Ec). exists (c :: cs). unfold print_block. cbn [flat_map]. fold (print_block everywhere ss). split; [|split; [|split]].
      + rewrite map_app. cbn [map]. rewrite <- app_assoc. apply (bt_statement [tok semicolon]); [|discriminate|exact Tc|exact T]. constructor; [right; left; reflexivity|constructor].
      + now constructor.
      + cbn [app]. constructor; [fixed|]. apply Forall_app. auto.
      + cbn [mapM]. rewrite Vc, V. cbn [bind]. eexists. split; [reflexivity|]. cbn [map]. now rewrite Ec, E.
  Qed.
End Style.

(** ** The text *)
Lemma maximal_end m u : maximal m u "".
Proof. apply maximal_iff. intros k e w E Ne. destruct e; [congruence|discriminate E]. Qed.
Definition spaced (ws : list lexeme) : list lexeme := flat_map (fun w => [space; w]) ws.
Lemma after_cons w ws : after_spaces (w :: ws) = " " ++ lx_text w ++ after_spaces ws.
Proof. unfold after_spaces. cbn [map]. destruct ws as [|w' ws]; [cbn; now rewrite append_nil_r|]. cbn [map String.concat]. cbn [String.append]. f_equal. Qed.
Lemma after_stops ws : after_spaces ws = "" \/ exists r, after_spaces ws = String " " r.
Proof. destruct ws as [|w ws]; [now left|right]. rewrite after_cons. cbn. eauto. Qed.
Lemma spaces_stay m k u ws : form m k u -> ~ In k [T_WHITE_SPACE; T_VERSION_WHITE_SPACE; T_SINGLE_LINE_COMMENT; T_TRIPLE_QUOTE] -> maximal m u (after_spaces ws).
Proof.
  intros F N. change (after_spaces ws) with ("" ++ after_spaces ws). apply (stays m k u "" "").
  - exact F.
  - apply maximal_end.
  - intros ->. apply N. cbn. auto.
  - destruct (after_stops ws) as [->|[r ->]]; [now left|]. right; left. eexists _, _. split; reflexivity.
  - intros _. split; [|split].
    + intros [<-|[<-|[]]]; exfalso; apply N; cbn; auto.
    + intros ->. exfalso; apply N; cbn; auto.
    + intros _ c r E. destruct (after_stops ws) as [E'|[r' E']]; rewrite E' in E; [discriminate|]. injection E as <- <-. split; discriminate.
  - intros _ r. discriminate.
Qed.
Lemma space_stays m k x : k = T_WHITE_SPACE /\ m = DefaultMode \/ k = T_VERSION_WHITE_SPACE /\ m = VersionMode -> (forall c r, x = String c r -> ~ blank c) -> maximal m " " x.
Proof.
  intros K B. assert (A : all_bytes blank " ") by (split; [now left|exact I]).
  change x with ("" ++ x). apply (stays m k " " "" ""); [|apply maximal_end| | | |].
  - destruct K as [[-> ->]|[-> ->]]; constructor; try exact A; discriminate.
  - destruct K as [[-> ->]|[-> ->]]; discriminate.
  - right; right; right. split; [reflexivity|]. intros [H _]. discriminate H.
  - intros _. split; [intros _; exact B|]. split; intros ->; exfalso; destruct K as [[K _]|[K _]]; discriminate K.
  - intros -> r. discriminate.
Qed.
Lemma fine_not_blank w c r : fine w -> lx_text w = String c r -> ~ blank c.
Proof.
  intros (F & _ & S & _) E B. rewrite E in F. destruct (blank_first DefaultMode _ _ _ B F) as [K _]. destruct K as [K|[K|[]]]; rewrite <- K in S; discriminate S.
Qed.
Lemma spaced_reads ws : Forall fine ws -> tokenisation DefaultMode (after_spaces ws) (spaced ws) "".
Proof.
  induction 1 as [|w ws F _ IH]; [constructor|]. rewrite after_cons. cbn [spaced flat_map app]. destruct w as [k u]. pose proof F as (Fo & R & S & V & _). cbn [lx_kind lx_text] in *.
  assert (Nu : u <> "") by exact (form_nonempty DefaultMode _ _ Fo).
  apply tok_next.
  - apply form_blank; [discriminate|]. split; [now left|exact I].
  - apply (space_stays DefaultMode T_WHITE_SPACE); [auto|]. intros c r E. destruct u as [|c' u]; [congruence|]. injection E as -> _. exact (fine_not_blank _ _ _ F eq_refl).
  - discriminate.
  - cbn [mode_after]. apply tok_next.
    + exact Fo.
    + apply (spaces_stay DefaultMode k u ws Fo). intros [K|[K|[K|[K|[]]]]]; subst k; try discriminate S. apply V. cbn. auto.
    + exact R.
    + replace (mode_after DefaultMode k) with DefaultMode by (destruct k; try reflexivity; exfalso; apply V; cbn; auto). exact IH.
Qed.
Lemma bare_spaced ws : Forall fine ws -> bare (spaced ws) = map tok ws.
Proof.
  induction 1 as [|w ws F _ IH]; [reflexivity|]. cbn [spaced flat_map map]. rewrite bare_app. fold (spaced ws). rewrite IH. destruct w as [k u], F as (_ & _ & S & _). cbn [lx_kind] in S. unfold bare. cbn [filter lx_kind]. rewrite S. reflexivity.
Qed.
Lemma after_utf8 ws : Forall fine ws -> utf8 (after_spaces ws).
Proof.
  induction 1 as [|w ws F _ IH]; [constructor|]. rewrite after_cons. apply utf8_app; [apply ascii_utf8, asciib_iff; reflexivity|]. apply utf8_app; [apply F|exact IH].
Qed.

(** ** The version *)
Lemma version_reads file v : (exists x, v = [x] /\ integer x) \/ (exists x y, v = [x; y] /\ integer x /\ integer y) ->
  version_form T_VERSION_NUMBER (version_text v) /\ utf8 (version_text v) /\ (forall line col, visit_cversion file (mkToken T_VERSION_NUMBER (version_text v) line col) = Ok v) /\
  exists c r, version_text v = String c r /\ ~ blank c.
Proof.
  assert (D : forall n, exists c r, dec_N n = String c r /\ ~ blank c).
  { intros n. pose proof (dec_digits n) as H. pose proof (dec_N_nonempty n) as N. destruct (dec_N n) as [|c r]; [congruence|]. exists c, r. split; [reflexivity|]. destruct H as [H _]. unfold digit, code_between, blank in *. intros [-> |B]; [cbn in H|]; lia. }
  intros [(x & -> & Hx)|(x & y & -> & Hx & Hy)]; cbn [version_text].
  - split; [apply form_major; [apply dec_N_nonempty|apply dec_digits]|]. split; [apply ascii_utf8, digits_ascii, dec_digits|]. split; [|apply D].
    intros line col. unfold visit_cversion. cbn [tk_text]. rewrite split_version_plain by apply dec_digits. unfold get_int_value. rewrite number_reads by exact Hx. reflexivity.
  - split; [apply form_major_minor; (apply dec_N_nonempty || apply dec_digits)|]. split; [apply ascii_utf8; repeat apply app_ascii; try (apply digits_ascii, dec_digits); now apply asciib_iff|]. split.
    + intros line col. unfold visit_cversion. cbn [tk_text]. rewrite split_version_dot by apply dec_digits. unfold get_int_value. rewrite !number_reads by assumption. reflexivity.
    + destruct (D (Z.to_N x)) as (c & r & -> & B). cbn [String.append]. eauto.
Qed.

(** ** Programs *)
Theorem printed_program everywhere file rtl p : writable_program p ->
  exists p', parse_string file rtl (print_program everywhere p) = Ok (mkResult (Some p') []) /\ relocate_program erase p' = relocate_program erase p.
Proof.
  intros W. assert (K : exists v l ss l', p = mkProgram v l ss l' /\ Forall writable_statement ss /\ ((exists x, v = [x] /\ integer x) \/ (exists x y, v = [x; y] /\ integer x /\ integer y))).
  { destruct W as [x l ss l' Hx Hs|x y l ss l' Hx Hy Hs]; eexists _, _, _, _; (split; [reflexivity|]); (split; [exact Hs|]); [left|right]; eauto. }
  clear W. destruct K as (v & l & ss & l' & -> & Ws & Hv). destruct (version_reads None v Hv) as (Fv & Uv & Vv & cv & rv & Ev & Bv).
  destruct (printed_block everywhere None rtl ss Ws) as (cs & T & B & F & ss' & V & E).
  set (ws := print_block everywhere ss) in *. set (vt := version_text v) in *.
  set (s := print_program everywhere (mkProgram v l ss l')). set (ls := mkLexeme T_VERSION "version" :: mkLexeme T_VERSION_WHITE_SPACE " " :: mkLexeme T_VERSION_NUMBER vt :: spaced ws).
  assert (Es : s = "version" ++ " " ++ vt ++ after_spaces ws) by reflexivity.
  assert (Tk : tokenisation DefaultMode s ls "").
  { rewrite Es. apply tok_next.
    - apply form_word. cbn. auto.
    - replace (" " ++ vt ++ after_spaces ws) with (after_spaces [mkLexeme T_VERSION_NUMBER (vt ++ after_spaces ws)]) by reflexivity. apply (spaces_stay DefaultMode T_VERSION); [apply form_word; cbn; auto|]. cbn. intuition discriminate.
    - discriminate.
    - cbn [mode_after]. apply tok_next.
      + apply form_version_blank; [discriminate|]. split; [now left|exact I].
      + apply (space_stays VersionMode T_VERSION_WHITE_SPACE); [auto|]. intros c r X. rewrite Ev in X. injection X as <- _. exact Bv.
      + discriminate.
      + cbn [mode_after]. apply tok_next.
        * exact Fv.
        * apply (spaces_stay VersionMode T_VERSION_NUMBER); [exact Fv|]. cbn. intuition discriminate.
        * discriminate.
        * cbn [mode_after]. now apply spaced_reads. }
  assert (U : utf8 s).
  { rewrite Es. apply utf8_app; [apply ascii_utf8, asciib_iff; reflexivity|]. apply utf8_app; [apply ascii_utf8, asciib_iff; reflexivity|]. apply utf8_app; [exact Uv|now apply after_utf8]. }
  set (c := mkCProgram (tok (mkLexeme T_VERSION_NUMBER vt)) cs).
  assert (Tp : program_tokens c (bare ls ++ [eof0])%list).
  { subst ls. change (bare (mkLexeme T_VERSION "version" :: mkLexeme T_VERSION_WHITE_SPACE " " :: mkLexeme T_VERSION_NUMBER vt :: spaced ws)) with (tok (mkLexeme T_VERSION "version") :: tok (mkLexeme T_VERSION_NUMBER vt) :: bare (spaced ws)).
    rewrite bare_spaced by exact F. cbn [app]. apply (pg []); [constructor|reflexivity|reflexivity|exact T]. }
  assert (Bp : binds_program c) by exact B.
  destruct (tokenize_bare _ _ Tk) as (ts & Kz & O & Bz). pose proof (strip_ascii _ (reads_ascii _ _ _ Tk)) as S.
  unfold parse_string, scan. rewrite S, (proj2 (valid_utf8_iff _) U), Kz. cbn [negb].
  destruct (program_complete _ _ Tp Bp) as (eof & _ & P2). rewrite <- Bz in P2. rewrite (map_program unplaced unplaced_kind ts) in P2.
  destruct (parse_program ts) as [c2 r2|r2|]; try discriminate. cbn [pmap] in P2.
  assert (E2 : map_cprogram unplaced c2 = c) by congruence.
  assert (A : alike erase erase (relocate_program erase) (relocate_program erase) (visit_cprogram None rtl (map_cprogram unplaced c2)) (visit_cprogram file rtl c2)) by (apply alike_cprogram; reflexivity).
  rewrite E2 in A. unfold alike in A. assert (Vc : visit_cprogram None rtl c = Ok (mkProgram v (token_loc None (cp_version c)) ss' None)).
  { unfold visit_cprogram. subst c. cbn [cp_version cp_statements]. unfold tok. cbn [lx_kind lx_text]. subst vt. rewrite Vv. cbn [bind]. rewrite V. reflexivity. }
  rewrite Vc in A. destruct (visit_cprogram file rtl c2) as [q| | |]; cbn [omap] in A; try discriminate A. exists q. split; [reflexivity|].
  assert (A' : relocate_program erase q = relocate_program erase (mkProgram v (token_loc None (cp_version c)) ss' None)) by congruence. rewrite A'. unfold relocate_program. cbn [prog_version prog_version_loc prog_statements prog_block_loc]. now rewrite E.
Qed.
