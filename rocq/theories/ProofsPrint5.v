(** No text for a tree has fewer parentheses than the printed one (C49). *)
From Coq Require Import ZArith Lia.
From Verif Require Import Base ModelUtils ModelVersion ModelError ModelTypes ModelAst ModelLexer ModelParser ModelSyntactic
  SpecUtils SpecTypes SpecLexer SpecParser SpecSyntax SpecLiteral SpecTree SpecReading SpecRelocate SpecPrint
  ProofsExpr ProofsLayout2 ProofsReading ProofsPrint2.
Local Open Scope string_scope.

Lemma print_relocate everywhere f e : forall p, print_expr everywhere p (relocate_expr f e) = print_expr everywhere p e.
Proof.
  apply (expr_ind_full (fun e => forall p, print_expr everywhere p (relocate_expr f e) = print_expr everywhere p e)
    (fun i => print_entry everywhere (relocate_entry f i) = print_entry everywhere i)); clear e; try reflexivity.
  - intros l e idx He Hi p. rewrite relocate_index, !print_expr_eq. cbn [words_of]. rewrite He. replace (map (print_entry everywhere) (map (relocate_entry f) idx)) with (map (print_entry everywhere) idx); [reflexivity|].
    rewrite map_map. apply map_ext_in. intros i I. rewrite Forall_forall in Hi. now rewrite Hi.
  - intros l n args Ha p. cbn [relocate_expr option_map]. rewrite !print_expr_eq. cbn [words_of]. replace (map (print_expr everywhere 0) (map (relocate_expr f) args)) with (map (print_expr everywhere 0) args); [reflexivity|].
    rewrite map_map. apply map_ext_in. intros i I. rewrite Forall_forall in Ha. now rewrite Ha.
  - intros l op e He p. cbn [relocate_expr]. rewrite !print_expr_eq. cbn [words_of]. now rewrite He.
  - intros l op e1 e2 H1 H2 p. cbn [relocate_expr]. rewrite !print_expr_eq. cbn [words_of]. now rewrite H1, H2.
  - intros l c e1 e2 Hc H1 H2 p. cbn [relocate_expr]. rewrite !print_expr_eq. cbn [words_of]. now rewrite Hc, H1, H2.
  - intros l e He. rewrite relocate_item. exact (He 0%nat).
  - intros l e1 e2 H1 H2. rewrite relocate_range. change (print_entry everywhere (IRange l e1 e2)) with (print_expr everywhere 0 e1 ++ colon :: print_expr everywhere 0 e2)%list.
    change (print_entry everywhere (IRange (f l) (relocate_expr f e1) (relocate_expr f e2))) with (print_expr everywhere 0 (relocate_expr f e1) ++ colon :: print_expr everywhere 0 (relocate_expr f e2))%list. now rewrite H1, H2.
Qed.

Notation pr := (print_expr false).
Definition wc (ws : list lexeme) : nat := parentheses (map lx_kind ws).
Definition tc (ts : list token) : nat := parentheses (map tk_kind ts).
Lemma wc_app a b : wc (a ++ b) = (wc a + wc b)%nat. Proof. unfold wc, parentheses. now rewrite map_app, count_occ_app. Qed.
Lemma tc_app a b : tc (a ++ b) = (tc a + tc b)%nat. Proof. unfold tc, parentheses. now rewrite map_app, count_occ_app. Qed.
Definition opens (k : token_kind) : nat := match k with T_OPEN_PARENS => 1 | _ => 0 end.
Lemma wc_cons w ws : wc (w :: ws) = (opens (lx_kind w) + wc ws)%nat.
Proof. unfold wc, parentheses. cbn [map]. destruct (token_kind_eq_dec (lx_kind w) T_OPEN_PARENS) as [E|N]; [rewrite count_occ_cons_eq by exact E; now rewrite E|]. rewrite count_occ_cons_neq by exact N. destruct (lx_kind w); reflexivity || congruence. Qed.
Lemma tc_cons t ts : tc (t :: ts) = (opens (tk_kind t) + tc ts)%nat.
Proof. unfold tc, parentheses. cbn [map]. destruct (token_kind_eq_dec (tk_kind t) T_OPEN_PARENS) as [E|N]; [rewrite count_occ_cons_eq by exact E; now rewrite E|]. rewrite count_occ_cons_neq by exact N. destruct (tk_kind t); reflexivity || congruence. Qed.
Lemma wc_nil : wc [] = 0%nat. Proof. reflexivity. Qed.
Lemma tc_nil : tc [] = 0%nat. Proof. reflexivity. Qed.

Lemma print_zero e : pr 0 e = words_of false e.
Proof. rewrite print_expr_eq. unfold parenthesised. cbn [andb orb]. destruct (level e); reflexivity. Qed.
Lemma print_wc p e : wc (pr p e) = ((if (level e <? p)%nat then 1 else 0) + wc (pr 0 e))%nat.
Proof.
  rewrite print_zero, print_expr_eq. unfold parenthesised. cbn [andb]. rewrite orb_false_r. destruct (level e <? p)%nat; [|reflexivity]. rewrite wc_cons, wc_app. cbn [wc_cons]. cbn. lia.
Qed.
Lemma print_mono p q e : (p <= q)%nat -> (wc (pr p e) <= wc (pr q e))%nat.
Proof. intros H. rewrite (print_wc p), (print_wc q). destruct (Nat.ltb_spec (level e) p), (Nat.ltb_spec (level e) q); lia. Qed.
Lemma binary_opens o : opens (lx_kind (binary_word o)) = 0%nat. Proof. destruct o; reflexivity. Qed.

Section File.
  Variables (file : option string).
  Notation fm := reads_double.
  Lemma binary_level t o n : In (tk_kind t, o) binary_meaning -> row n (tk_kind t) -> S n = precedence o /\ (is T_POWER_OP t <-> o = BPow).
  Proof.
    unfold is. intros M R. unfold binary_meaning in M. cbn in M.
    repeat (destruct M as [M|M]; [injection M as E <-; rewrite <- E in *; unfold row in R; (do 12 (destruct n as [|n]; [cbn in R; (intuition discriminate) || (split; [reflexivity|split; congruence])|])); cbn in R; destruct n; contradiction|]). contradiction.
  Qed.
  Lemma zero_of k t : is k t -> opens k = 0%nat -> opens (tk_kind t) = 0%nat. Proof. unfold is. now intros -> ->. Qed.
  Lemma fewest :
    (forall c ts, expr_tokens c ts -> forall p e, binds p c -> expr_means file fm c e -> (wc (pr p e) <= tc ts)%nat) /\
    (forall cs ts, exprs_tokens cs ts -> forall es, binds_all cs -> exprs_mean file fm cs es -> (wc (separated comma (map (pr 0) es)) <= tc ts)%nat /\ es <> []) /\
    (forall c ts, entry_tokens c ts -> forall cs es, binds_entries (c :: cs) -> entries_mean file fm (c :: cs) es -> exists i es', es = i :: es' /\ (wc (print_entry false i) <= tc ts)%nat /\ binds_entries cs /\ entries_mean file fm cs es') /\
    (forall cs ts, entries_tokens cs ts -> forall es, binds_entries cs -> entries_mean file fm cs es -> (wc (separated comma (map (print_entry false) es)) <= tc ts)%nat /\ es <> []).
  Proof.
    assert (leaf : forall p e w, (p <= 13)%nat -> pr 0 e = [w] -> level e = 13%nat -> opens (lx_kind w) = 0%nat -> wc (pr p e) = 0%nat).
    { intros p e w Hp E L O. rewrite print_wc, E, L, wc_cons, O. destruct (Nat.ltb_spec 13 p); [lia|reflexivity]. }
    apply expr_tokens_mutind.
    - intros o e ts c Ko T IH Kc p x B M. inversion M; subst. inversion B; subst. rewrite tc_cons, tc_app, Ko. cbn [opens]. pose proof (IH 0%nat x ltac:(assumption) ltac:(assumption)). rewrite print_wc. destruct (_ <? _)%nat; lia.
    - intros t e ts K T IH p x B M. inversion B; subst. rewrite tc_cons. inversion M; subst.
      + pose proof (IH 13%nat x ltac:(assumption) ltac:(assumption)). pose proof (print_mono p 13 x ltac:(assumption)). lia.
      + match goal with H : expr_means _ _ e ?y |- _ => pose proof (IH 13%nat y ltac:(assumption) H) end. rewrite print_wc, print_zero. cbn [level words_of]. rewrite wc_cons. destruct (Nat.ltb_spec 13 p); [lia|]. destruct op; cbn [unary_word lx_kind opens]; lia.
    - intros t e1 e2 ts1 ts2 K T1 IH1 T2 IH2 p x B M. rewrite tc_app, tc_cons. inversion M as [| | |? o ? y1 ? y2 Im M1 M2| | | | | | | |]; subst. rewrite print_wc, print_zero. cbn [level words_of]. rewrite wc_app, wc_cons, binary_opens.
      inversion B as [|? n ? ? ? Kp R L B1 B2|? n ? ? ? Kp R L B1 B2| | | | | | | |]; subst.
      + assert (R' : row n (tk_kind t)) by (rewrite Kp; exact R). destruct (binary_level t o n Im R') as [E X]. apply X in Kp. subst o. pose proof (IH1 _ _ B1 M1). pose proof (IH2 _ _ B2 M2). rewrite E in *. cbn [left_level right_level]. destruct (Nat.ltb_spec (precedence BPow) p); lia.
      + destruct (binary_level t o n Im R) as [E X]. assert (N : o <> BPow) by tauto. pose proof (IH1 _ _ B1 M1). pose proof (IH2 _ _ B2 M2). rewrite E in *.
        assert (left_level o = precedence o /\ right_level o = S (precedence o)) as [-> ->] by (destruct o; auto; congruence). destruct (Nat.ltb_spec (precedence o) p); lia.
    - intros t colon e1 e2 e3 ts1 ts2 ts3 K Kc T1 IH1 T2 IH2 T3 IH3 p x B M. inversion B; subst. inversion M; subst. rewrite tc_app, tc_cons, tc_app, tc_cons. rewrite print_zero. cbn [words_of]. rewrite wc_app, wc_cons, wc_app, wc_cons. cbn [lx_kind SpecPrint.colon opens].
      repeat match goal with H : expr_means _ _ ?c ?y, I : forall p e, binds p ?c -> _, Bc : binds ?q ?c |- _ => pose proof (I q y Bc H); clear H end. lia.
    - intros name o c Kn Ko Kc p x B M. inversion M; subst; [|congruence]. rewrite print_wc, print_zero. cbn [level words_of]. rewrite !wc_cons, !tc_cons, Ko. inversion B; subst. destruct (Nat.ltb_spec 13 p); [lia|]. cbn [lx_kind word opening closing opens]. rewrite wc_nil. lia.
    - intros name o args ts c Kn Ko T IH Kc p x B M. inversion M as [| | | | | |? ? ? N Ms| | | | |]; subst; [inversion T|]. inversion B; subst. rewrite print_wc, print_zero. cbn [level words_of]. rewrite !wc_cons, !tc_cons, wc_app, tc_app, Ko. destruct (IH _ ltac:(assumption) Ms) as [H _]. destruct (Nat.ltb_spec 13 p); [lia|]. rewrite wc_cons, wc_nil. cbn [lx_kind word opening closing opens]. lia.
    - intros name o idx ts c Kn Ko T IH Kc p x B M. inversion M as [| | | | | | |? ? ? Ms| | | |]; subst. inversion B; subst. rewrite print_wc, print_zero. cbn [level words_of]. rewrite wc_app, !tc_cons, wc_cons, wc_app, tc_app. destruct (IH _ ltac:(assumption) Ms) as [H _]. destruct (Nat.ltb_spec 13 p); [lia|].
      rewrite (leaf 13%nat (EIdent None (tk_text name)) (word (tk_text name))); auto. rewrite wc_cons, wc_nil. cbn [lx_kind opens]. lia.
    - intros t K p x B M. inversion B; subst. inversion M; subst. rewrite (leaf p _ (word (tk_text t))); auto; lia.
    - intros t K p x B M. inversion B; subst. inversion M; subst. erewrite (leaf p); eauto; try reflexivity; lia.
    - intros t K p x B M. inversion B; subst. inversion M; subst. erewrite (leaf p); eauto; try reflexivity; lia.
    - intros t K p x B M. inversion B; subst. inversion M; subst. erewrite (leaf p); eauto; try reflexivity; lia.
    - intros e ts T IH es B M. inversion M as [|? ? ? ? M1 M2]; subst. inversion M2; subst. inversion B; subst. split; [|discriminate]. cbn [map separated]. auto.
    - intros e ts comma es ts' T IH K Ts IHs x B M. inversion M as [|? e' ? es' M1 M2]; subst. inversion B; subst. split; [|discriminate]. destruct (IHs _ ltac:(assumption) M2) as [H N]. destruct es' as [|y es']; [congruence|]. cbn [map]. rewrite separated_app, wc_app, wc_cons, tc_app, tc_cons. pose proof (IH 0%nat e' ltac:(assumption) M1). cbn [map] in H. cbn [SpecPrint.comma lx_kind opens]. lia.
    - intros e ts T IH cs es B M. inversion M as [|? e' ? ? M1 M2|]; subst. inversion B; subst. eexists _, _. split; [reflexivity|]. split; [exact (IH 0%nat _ ltac:(assumption) M1)|auto].
    - intros e1 e2 ts1 colon ts2 T1 IH1 K T2 IH2 cs es B M. inversion M as [| |? x1 ? x2 ? ? M1 M2 M3]; subst. inversion B; subst. eexists _, _. split; [reflexivity|]. split; [|auto].
      change (print_entry false (IRange None x1 x2)) with (pr 0 x1 ++ SpecPrint.colon :: pr 0 x2)%list. rewrite wc_app, wc_cons, tc_app, tc_cons. pose proof (IH1 0%nat _ ltac:(assumption) M1). pose proof (IH2 0%nat _ ltac:(assumption) M2). cbn [SpecPrint.colon lx_kind opens]. lia.
    - intros i ts T IH es B M. destruct (IH _ _ B M) as (j & es' & -> & H & _ & M'). inversion M'; subst. split; [|discriminate]. exact H.
    - intros i ts comma es ts' T IH K Ts IHs x B M. destruct (IH _ _ B M) as (j & es' & -> & H & B' & M'). destruct (IHs _ B' M') as [H' N]. destruct es' as [|y es']; [congruence|]. split; [|discriminate]. cbn [map]. rewrite separated_app, wc_app, wc_cons, tc_app, tc_cons. cbn [map] in H'. cbn [SpecPrint.comma lx_kind opens]. lia.
  Qed.
End File.

Theorem fewest_parentheses file s p e l lb : utf8 s -> text_means file s p -> relocate_program erase p = mkProgram [3; 0]%Z l [SNonGate None "reset" [relocate_expr erase e] [] []] lb ->
  exists ts, tokens_of s ts /\ (parentheses (map lx_kind (print_expr false 0 e)) <= parentheses (map tk_kind ts))%nat.
Proof.
  intros U (ts & c & To & Tp & Bp & M) E. exists ts. split; [exact To|]. inversion M as [v x cs ss Mv Ms]; subst. inversion Tp as [seps v' n' ss' rest F Kv Kn Tb]; subst.
  unfold relocate_program in E. cbn [prog_version prog_version_loc prog_statements prog_block_loc] in E. injection E as _ _ Es _. destruct ss as [|st [|st2 ss]]; try discriminate Es. injection Es as Es.
  inversion Ms as [|cst ? ? ? M1 M2]; subst. inversion M2; subst. inversion Bp as [|? ? B1 _]; subst. inversion Tb as [|seps1 ? ts1 ? ts2 F1 _ T1 Tb']; subst.
  change (wc (pr 0 e) <= tc (seps ++ v' :: v :: seps1 ++ ts1 ++ ts2))%nat. rewrite tc_app, !tc_cons, !tc_app.
  enough (wc (pr 0 e) <= tc ts1)%nat by lia. destruct M1; try discriminate Es; injection Es; intros; try discriminate.
  inversion T1; subst. rewrite tc_cons. match goal with Hm : expr_means _ _ ?c ?x, Ht : expr_tokens ?c _, H : relocate_expr erase ?x = _ |- _ => pose proof (proj1 (fewest file) _ _ Ht 0%nat x B1 Hm) as L; rewrite <- (print_relocate false erase x 0%nat), H, print_relocate in L end. lia.
Qed.
