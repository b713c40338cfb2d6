(** The parse trees of printed expressions (C48-C50). *)
From Coq Require Import SpecFloat ZifyBool ZifyN ZifyNat.
From Verif Require Import Base ModelUtils ModelVersion ModelError ModelTypes ModelAst ModelLexer ModelParser ModelSyntactic
  SpecUtils SpecTypes SpecLexer SpecParser SpecSyntax SpecLiteral SpecReading SpecRelocate SpecLayout SpecPrint
  ProofsUtils ProofsVersion ProofsLexer ProofsLexer2 ProofsParser ProofsSyntax ProofsSyntax2 ProofsRelocate ProofsLayout1 ProofsLayout2 ProofsLayout7 ProofsPrint1.
Local Open Scope string_scope.

Scheme writable_mind := Minimality for writable Sort Prop
with all_writable_mind := Minimality for all_writable Sort Prop
with writable_entries_mind := Minimality for writable_entries Sort Prop.
Combined Scheme writable_mutind from writable_mind, all_writable_mind, writable_entries_mind.

Definition tok (w : lexeme) : token := mkToken (lx_kind w) (lx_text w) 0 0.
(** A word that can stand in a text *)
Definition fine (w : lexeme) : Prop :=
  default_form (lx_kind w) (lx_text w) /\ (lx_kind w = T_IDENTIFIER -> ~ reserved (lx_text w)) /\
  is_skipped (lx_kind w) = false /\ ~ In (lx_kind w) [T_VERSION; T_TRIPLE_QUOTE] /\ utf8 (lx_text w).

Lemma ascii_utf8 s : all_bytes (fun c => N_of_ascii c < 128)%N s -> utf8 s.
Proof.
  induction s as [|c s IH]; [constructor|]. intros [H1 H2]. replace (String c s) with (encoding (N_of_ascii c) ++ s).
  - constructor; [|auto]. unfold scalar_value. lia.
  - unfold encoding. destruct (N.ltb_spec (N_of_ascii c) 128); [|lia]. cbn. now rewrite ascii_N_embedding.
Qed.
Lemma all_impl (P Q : ascii -> Prop) s : (forall c, P c -> Q c) -> all_bytes P s -> all_bytes Q s.
Proof. intros H. induction s as [|c s IH]; [auto|]. intros [H1 H2]. split; auto. Qed.
Lemma digits_ascii s : digits s -> all_bytes (fun c => N_of_ascii c < 128)%N s.
Proof. apply all_impl. unfold digit, code_between. lia. Qed.
Fixpoint asciib (s : string) : bool := match s with EmptyString => true | String c s' => (N_of_ascii c <? 128)%N && asciib s' end.
Lemma asciib_iff s : asciib s = true -> all_bytes (fun c => N_of_ascii c < 128)%N s.
Proof. induction s as [|c s IH]; [cbn; auto|]. cbn [asciib]. intros H. apply andb_true_iff in H. destruct H as [H1 H2]. split; [lia|auto]. Qed.
Lemma signs_fine : forallb (fun x => asciib (snd x)) (signs ++ words) = true. Proof. reflexivity. Qed.
Lemma sign_utf8 k s : In (k, s) (signs ++ words)%list -> utf8 s.
Proof. intros H. apply ascii_utf8, asciib_iff. pose proof signs_fine as F. rewrite forallb_forall in F. exact (F _ H). Qed.
Lemma fixed_fine k s : existsb (fun x => token_kind_beq (fst x) k && (snd x =? s)) (signs ++ words)%list = true -> ~ In k [T_VERSION; T_TRIPLE_QUOTE; T_IDENTIFIER] ->
  is_skipped k = false -> fine (mkLexeme k s).
Proof.
  intros H N S. apply existsb_exists in H. destruct H as ([k' s'] & I & E). cbn [fst snd] in E. apply andb_true_iff in E. destruct E as [E1 E2].
  apply kind_eqb in E1. apply String.eqb_eq in E2. subst k' s'. split; [|split; [|split; [|split]]]; cbn [lx_kind lx_text].
  - apply in_app_or in I. destruct I; [now apply form_sign|now apply form_word].
  - intros ->. exfalso. apply N. cbn. auto.
  - exact S.
  - intros [K|[K|[]]]; apply N; cbn; auto.
  - now apply (sign_utf8 k).
Qed.
Ltac fixed := apply fixed_fine; [reflexivity|cbn; intuition discriminate|reflexivity].
Lemma word_fine n : usable n -> fine (word n).
Proof.
  intros [F R]. split; [exact F|]. split; [auto|]. split; [reflexivity|]. split; [cbn; intuition discriminate|]. apply ascii_utf8. cbn [word lx_text]. inversion F as [? ? I|? ? I| | | | | | | |c s L A|]; subst.
  - exfalso. clear -I. cbn in I. intuition discriminate.
  - exfalso. clear -I. cbn in I. intuition discriminate.
  - split; [unfold letter, code_between in L; destruct L as [L|[L| ->]]; cbn; lia|]. revert A. apply all_impl. intros c0 [[L0|[L0| ->]]|L0]; unfold digit, code_between in *; cbn; lia.
Qed.
Lemma number_fine z : fine (number z).
Proof.
  split; [apply number_form|]. split; [discriminate|]. split; [reflexivity|]. split; [cbn; intuition discriminate|]. apply ascii_utf8, digits_ascii, dec_digits.
Qed.
Lemma app_ascii a b : all_bytes (fun c => N_of_ascii c < 128)%N a -> all_bytes (fun c => N_of_ascii c < 128)%N b -> all_bytes (fun c => N_of_ascii c < 128)%N (a ++ b).
Proof. intros HA HB. induction a as [|c a IH]; [exact HB|]. destruct HA. split; auto. Qed.
Lemma float_fine f : fine (mkLexeme T_FLOAT_LITERAL (float_text f)).
Proof.
  split; [apply float_form|]. split; [discriminate|]. split; [reflexivity|]. split; [cbn; intuition discriminate|]. apply ascii_utf8. cbn [lx_text].
  assert (Z : all_bytes (fun c => N_of_ascii c < 128)%N "0.") by (now apply asciib_iff). destruct f as [s|s| |s m e]; [exact Z|exact Z|exact Z|]. unfold float_text. destruct (0 <=? e)%Z.
  - apply app_ascii; [apply digits_ascii, dec_digits|now apply asciib_iff].
  - apply app_ascii; [apply digits_ascii, dec_digits|]. apply app_ascii; [now apply asciib_iff|apply digits_ascii, dec_digits].
Qed.

Section Style.
  Variable everywhere : bool.
  Notation pe := (print_expr everywhere).
  Notation paren := (parenthesised everywhere).

  Definition words_of (e : expr) : list lexeme :=
    match e with
    | EBool _ b => [mkLexeme T_BOOLEAN_LITERAL (if b then "true" else "false")]
    | EInt _ z => [number z]
    | EFloat _ f => [mkLexeme T_FLOAT_LITERAL (float_text f)]
    | EIdent _ name => [word name]
    | EIndex _ b is => (pe 13 b ++ mkLexeme T_OPEN_BRACKET "[" :: separated comma (map (print_entry everywhere) is) ++ [mkLexeme T_CLOSE_BRACKET "]"])%list
    | ECall _ name None => [word name; opening; closing]
    | ECall _ name (Some args) => (word name :: opening :: separated comma (map (pe 0) args) ++ [closing])%list
    | EUnary _ o a => unary_word o :: pe 13 a
    | EBinary _ o a b => (pe (left_level o) a ++ binary_word o :: pe (right_level o) b)%list
    | ETernary _ a b c => (pe 1 a ++ mkLexeme T_TERNARY_CONDITIONAL_OP "?" :: pe 0 b ++ colon :: pe 0 c)%list
    end.
  Lemma print_expr_eq p e : pe p e = if paren p e then (opening :: words_of e ++ [closing])%list else words_of e.
  Proof. destruct e as [| | | | |? ? []| | |]; reflexivity. Qed.

  Fixpoint tree (p : nat) (e : expr) : cexpr :=
    let c :=
      match e with
      | EBool _ b => CBool (tok (mkLexeme T_BOOLEAN_LITERAL (if b then "true" else "false")))
      | EInt _ z => CInt (tok (number z))
      | EFloat _ f => CFloat (tok (mkLexeme T_FLOAT_LITERAL (float_text f)))
      | EIdent _ n => CIdent (tok (word n))
      | EIndex _ (EIdent _ n) is => CIndex (tok (word n)) (map entry_tree is)
      | EIndex _ _ is => CIndex (tok (word "")) (map entry_tree is)
      | ECall _ n None => CCall (tok (word n)) []
      | ECall _ n (Some es) => CCall (tok (word n)) (map (tree 0) es)
      | EUnary _ o a => CUnary (tok (unary_word o)) (tree 13 a)
      | EBinary _ o a b => CBinary (tok (binary_word o)) (tree (left_level o) a) (tree (right_level o) b)
      | ETernary _ a b c => CTernary (tok (mkLexeme T_TERNARY_CONDITIONAL_OP "?")) (tree 1 a) (tree 0 b) (tree 0 c)
      end in
    if paren p e then CParens c else c
  with entry_tree (i : index_entry) : centry :=
    match i with IItem _ e => CItem (tree 0 e) | IRange _ a b => CRange (tree 0 a) (tree 0 b) end.
  Definition core (e : expr) : cexpr :=
    match e with
    | EBool _ b => CBool (tok (mkLexeme T_BOOLEAN_LITERAL (if b then "true" else "false")))
    | EInt _ z => CInt (tok (number z))
    | EFloat _ f => CFloat (tok (mkLexeme T_FLOAT_LITERAL (float_text f)))
    | EIdent _ n => CIdent (tok (word n))
    | EIndex _ (EIdent _ n) is => CIndex (tok (word n)) (map entry_tree is)
    | EIndex _ _ is => CIndex (tok (word "")) (map entry_tree is)
    | ECall _ n None => CCall (tok (word n)) []
    | ECall _ n (Some es) => CCall (tok (word n)) (map (tree 0) es)
    | EUnary _ o a => CUnary (tok (unary_word o)) (tree 13 a)
    | EBinary _ o a b => CBinary (tok (binary_word o)) (tree (left_level o) a) (tree (right_level o) b)
    | ETernary _ a b c => CTernary (tok (mkLexeme T_TERNARY_CONDITIONAL_OP "?")) (tree 1 a) (tree 0 b) (tree 0 c)
    end.
  Lemma tree_eq p e : tree p e = if paren p e then CParens (core e) else core e.
  Proof. destruct e as [| | | |? []|? ? []| | |]; reflexivity. Qed.

  (** ** Tokens *)
  Lemma separated_app sep x y r : separated sep (x :: y :: r) = (x ++ sep :: separated sep (y :: r))%list. Proof. reflexivity. Qed.
  Lemma paren_tokens p e : expr_tokens (core e) (map tok (words_of e)) -> expr_tokens (tree p e) (map tok (pe p e)).
  Proof.
    intros H. rewrite tree_eq, print_expr_eq. destruct (paren p e); [|exact H]. cbn [map]. rewrite map_app. now apply et_parens.
  Qed.
  Lemma binary_word_row o : row (pred (precedence o)) (lx_kind (binary_word o)).
  Proof. destruct o; cbn; auto 10. Qed.
  Lemma tree_tokens :
    (forall e, writable e -> forall p, expr_tokens (tree p e) (map tok (pe p e))) /\
    (forall es, all_writable es -> es <> [] -> exprs_tokens (map (tree 0) es) (map tok (separated comma (map (pe 0) es)))) /\
    (forall is, writable_entries is -> is <> [] -> entries_tokens (map entry_tree is) (map tok (separated comma (map (print_entry everywhere) is)))).
  Proof.
    apply writable_mutind; try (intros; apply paren_tokens).
    - apply et_bool. reflexivity.
    - apply et_int. reflexivity.
    - apply et_float. reflexivity.
    - apply et_ident. reflexivity.
    - cbn [words_of core]. rewrite print_expr_eq. change (paren 13 (EIdent l' n)) with (everywhere && false)%bool. rewrite andb_false_r. cbn [words_of app map]. rewrite map_app. apply et_index; auto; reflexivity.
    - apply et_call_empty; reflexivity.
    - cbn [words_of core map]. rewrite map_app. apply et_call; auto; reflexivity.
    - cbn [words_of core map]. apply et_unary; auto. destruct o; cbn; auto.
    - cbn [words_of core]. rewrite map_app. cbn [map]. apply et_binary; auto. unfold one_of. cbn [tok tk_kind]. destruct o; cbn; auto 30.
    - cbn [words_of core]. rewrite map_app. cbn [map]. rewrite map_app. cbn [map]. apply et_ternary; auto; reflexivity.
    - contradiction.
    - intros e es _ He _ Hs _. destruct es as [|e' es]; [apply es_one, He|]. cbn [map]. rewrite separated_app, map_app. cbn [map]. apply es_more; [apply He|reflexivity|apply Hs; discriminate].
    - contradiction.
    - intros l e is _ He _ Hs _. destruct is as [|i is]; [apply is_one; cbn [entry_tree]; apply en_item, He|]. cbn [map]. rewrite separated_app, map_app. cbn [map]. apply is_more; [apply en_item, He|reflexivity|apply Hs; discriminate].
    - intros l a b is _ Ha _ Hb _ Hs _. assert (E : entry_tokens (entry_tree (IRange l a b)) (map tok (print_entry everywhere (IRange l a b)))).
      { change (print_entry everywhere (IRange l a b)) with (pe 0 a ++ colon :: pe 0 b)%list. rewrite map_app. cbn [map]. apply (en_range _ _ _ _ _ (Ha 0%nat)); [reflexivity|apply Hb]. }
      destruct is as [|i is]; [now apply is_one|]. cbn [map]. rewrite separated_app, map_app. cbn [map]. apply is_more; [exact E|reflexivity|apply Hs; discriminate].
  Qed.

  (** ** Precedence *)
  Lemma paren_binds p e : (p <= 13)%nat -> (forall q, (q <= level e)%nat -> binds q (core e)) -> binds p (tree p e).
  Proof.
    intros L H. rewrite tree_eq. destruct (paren p e) eqn:P; [apply b_parens; [exact L|apply H; lia]|]. unfold parenthesised in P. apply orb_false_iff in P. destruct P as [P _]. apply H. lia.
  Qed.
  Lemma tree_binds :
    (forall e, writable e -> forall p, (p <= 13)%nat -> binds p (tree p e)) /\
    (forall es, all_writable es -> binds_all (map (tree 0) es)) /\
    (forall is, writable_entries is -> binds_entries (map entry_tree is)).
  Proof.
    apply writable_mutind; try (intros; apply paren_binds; [assumption|intros q Q; cbn [level core] in * ]).
    - now apply b_bool.
    - now apply b_int.
    - now apply b_float.
    - now apply b_ident.
    - now apply b_index.
    - apply b_call; [assumption|constructor].
    - now apply b_call.
    - apply b_unary; auto.
    - pose proof (binary_word_row o) as R. destruct o; (eapply b_power; [reflexivity|exact R|exact Q|apply H0; cbn; lia|apply H2; cbn; lia]) ||
        (eapply b_binary; [discriminate|exact R|exact Q|apply H0; cbn; lia|apply H2; cbn; lia]).
    - assert (q = 0)%nat as -> by lia. apply b_ternary; auto with arith.
    - constructor.
    - intros e es _ He _ Hs. cbn [map]. constructor; [apply He; lia|exact Hs].
    - constructor.
    - intros l e is _ He _ Hs. cbn [map entry_tree]. constructor; [apply He; lia|exact Hs].
    - intros l a b is _ Ha _ Hb _ Hs. cbn [map entry_tree]. constructor; [apply Ha; lia|apply Hb; lia|exact Hs].
  Qed.

  (** ** Words *)
  Lemma separated_fine l : Forall (Forall fine) l -> Forall fine (separated comma l).
  Proof.
    induction 1 as [|x l H _ IH]; [constructor|]. destruct l as [|y l]; [exact H|]. rewrite separated_app. apply Forall_app. split; [exact H|]. constructor; [fixed|exact IH].
  Qed.
  Lemma paren_fine p e : Forall fine (words_of e) -> Forall fine (pe p e).
  Proof. intros H. rewrite print_expr_eq. destruct (paren p e); [|exact H]. constructor; [fixed|]. apply Forall_app. split; [exact H|]. constructor; [fixed|constructor]. Qed.
  Lemma print_fine :
    (forall e, writable e -> forall p, Forall fine (pe p e)) /\
    (forall es, all_writable es -> Forall (Forall fine) (map (pe 0) es)) /\
    (forall is, writable_entries is -> Forall (Forall fine) (map (print_entry everywhere) is)).
  Proof.
    apply writable_mutind; try (intros; apply paren_fine; cbn [words_of]).
    - constructor; [destruct b; fixed|constructor].
    - constructor; [apply number_fine|constructor].
    - constructor; [apply float_fine|constructor].
    - constructor; [now apply word_fine|constructor].
    - apply Forall_app. split; [apply paren_fine; constructor; [now apply word_fine|constructor]|]. constructor; [fixed|]. apply Forall_app. split; [now apply separated_fine|]. constructor; [fixed|constructor].
    - constructor; [now apply word_fine|]. constructor; [fixed|]. constructor; [fixed|constructor].
    - constructor; [now apply word_fine|]. constructor; [fixed|]. apply Forall_app. split; [now apply separated_fine|]. constructor; [fixed|constructor].
    - constructor; [destruct o; fixed|auto].
    - apply Forall_app. split; [auto|]. constructor; [destruct o; fixed|auto].
    - apply Forall_app. split; [auto|]. constructor; [fixed|]. apply Forall_app. split; [auto|]. constructor; [fixed|auto].
    - constructor.
    - intros e es _ He _ Hs. cbn [map]. constructor; auto.
    - constructor.
    - intros l e is _ He _ Hs. cbn [map]. constructor; [apply He|auto].
    - intros l a b is _ Ha _ Hb _ Hs. cbn [map]. constructor; [|auto]. change (print_entry everywhere (IRange l a b)) with (pe 0 a ++ colon :: pe 0 b)%list. apply Forall_app. split; [auto|]. constructor; [fixed|auto].
  Qed.

  (** ** Meaning *)
  Variables (file : option string) (rtl : bool).
  Notation visit := (visit_cexpr file rtl).
  Definition means (c : cexpr) (e : expr) : Prop := exists e', visit c = Ok e' /\ relocate_expr erase e' = relocate_expr erase e.
  Lemma paren_means p e : means (core e) e -> means (tree p e) e.
  Proof. intros H. rewrite tree_eq. destruct (paren p e); exact H. Qed.
  Lemma both_values {A B} (a : outcome error A) (b : outcome error B) x y : a = Ok x -> b = Ok y -> both rtl a b = Ok (x, y).
  Proof. intros -> ->. unfold both. destruct rtl; reflexivity. Qed.
  Lemma visit_index t idx : visit (CIndex t idx) = (let! is := mapM (visit_centry file rtl) idx in Ok (EIndex (token_loc file t) (EIdent None (tk_text t)) is)).
  Proof. reflexivity. Qed.
  Lemma visit_item e : visit_centry file rtl (CItem e) = (let! e' := visit e in Ok (IItem None e')).
  Proof. reflexivity. Qed.
  Lemma visit_range a b : visit_centry file rtl (CRange a b) = (let! p := both rtl (visit a) (visit b) in Ok (IRange None (fst p) (snd p))).
  Proof. reflexivity. Qed.
  Lemma visit_call t e es : visit (CCall t (e :: es)) = (let! es := mapM visit (e :: es) in Ok (ECall (token_loc file t) (tk_text t) (Some es))).
  Proof. reflexivity. Qed.
  Lemma tree_means :
    (forall e, writable e -> forall p, means (tree p e) e) /\
    (forall es, all_writable es -> exists es', mapM visit (map (tree 0) es) = Ok es' /\ map (relocate_expr erase) es' = map (relocate_expr erase) es) /\
    (forall is, writable_entries is -> exists is', mapM (visit_centry file rtl) (map entry_tree is) = Ok is' /\ map (relocate_entry erase) is' = map (relocate_entry erase) is).
  Proof.
    apply writable_mutind; try (intros; apply paren_means; unfold means; cbn [core]; try rewrite visit_index; cbn [tok lx_text lx_kind tk_kind tk_text tk_line tk_col word number]).
    - cbn [visit_cexpr tok tk_kind tk_text lx_kind lx_text]. eexists. split; [reflexivity|]. destruct b; reflexivity.
    - cbn [visit_cexpr tok number word lx_text lx_kind tk_text tk_line tk_col]. unfold get_int_value. rewrite number_reads by assumption. cbn [bind]. eexists. split; [reflexivity|]. reflexivity.
    - cbn [visit_cexpr tok number word lx_text lx_kind tk_text tk_line tk_col]. unfold get_float_value. rewrite float_reads by assumption. cbn [bind]. eexists. split; [reflexivity|]. reflexivity.
    - eexists. split; reflexivity.
    - destruct H2 as (is' & V & E). rewrite V. cbn [bind]. eexists. split; [reflexivity|]. rewrite !relocate_index, E. reflexivity.
    - eexists. split; reflexivity.
    - destruct H2 as (es' & V & E). destruct es as [|e0 es]; [contradiction|]. cbn [map] in *. rewrite visit_call, V. cbn [bind]. eexists. split; [reflexivity|]. cbn [relocate_expr option_map]. cbn [tok tk_text word lx_text]. rewrite E. reflexivity.
    - destruct (H0 13%nat) as (a' & V & E). destruct o; cbn [unary_word lx_kind visit_cexpr tk_kind]; rewrite V; cbn [bind]; (eexists; split; [reflexivity|]); cbn [relocate_expr]; now rewrite E.
    - cbn [visit_cexpr tok tk_kind tk_text lx_kind lx_text]. destruct (H0 (left_level o)) as (a' & Va & Ea). destruct (H2 (right_level o)) as (b' & Vb & Eb). rewrite (both_values _ _ _ _ Va Vb).
      cbn [tk_kind]. replace (binop_of_token (lx_kind (binary_word o))) with (Some o) by (destruct o; reflexivity). cbn [bind fst snd]. eexists. split; [reflexivity|]. cbn [relocate_expr]. now rewrite Ea, Eb.
    - cbn [visit_cexpr tok tk_kind tk_text lx_kind lx_text]. destruct (H0 1%nat) as (a' & Va & Ea). destruct (H2 0%nat) as (b' & Vb & Eb). destruct (H4 0%nat) as (c' & Vc & Ec). rewrite (both_values _ _ _ _ Va (both_values _ _ _ _ Vb Vc)).
      cbn [bind fst snd]. eexists. split; [reflexivity|]. cbn [relocate_expr]. now rewrite Ea, Eb, Ec.
    - exists []. split; reflexivity.
    - intros e es _ He _ (es' & V & E). destruct (He 0%nat) as (e' & Ve & Ee). cbn [map mapM]. rewrite Ve, V. cbn [bind]. eexists. split; [reflexivity|]. cbn [map]. now rewrite Ee, E.
    - exists []. split; reflexivity.
    - intros l e is _ He _ (is' & V & E). destruct (He 0%nat) as (e' & Ve & Ee). cbn [map entry_tree mapM]. rewrite visit_item, Ve. cbn [bind]. rewrite V. cbn [bind]. eexists. split; [reflexivity|]. cbn [map]. rewrite !relocate_item. now rewrite Ee, E.
    - intros l a b is _ Ha _ Hb _ (is' & V & E). destruct (Ha 0%nat) as (a' & Va & Ea). destruct (Hb 0%nat) as (b' & Vb & Eb). cbn [map entry_tree mapM]. rewrite visit_range, (both_values _ _ _ _ Va Vb). cbn [bind]. rewrite V. cbn [bind fst snd]. eexists. split; [reflexivity|]. cbn [map]. rewrite !relocate_range. now rewrite Ea, Eb, E.
  Qed.
End Style.
