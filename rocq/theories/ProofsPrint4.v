(** Every parsed program can be printed (C50). *)
From Coq Require Import ZArith Lia.
From Verif Require Import Base ModelUtils ModelVersion ModelError ModelTypes ModelAst ModelLexer ModelParser ModelSyntactic
  SpecUtils SpecTypes SpecLexer SpecParser SpecSyntax SpecLiteral SpecTree SpecReading SpecPrint
  ProofsUtils ProofsLexer ProofsLexer2 ProofsLexer3 ProofsParser ProofsParser4 ProofsParser5 ProofsSyntax ProofsSyntax2 ProofsLiteral ProofsTree ProofsUtf8 ProofsReading ProofsText ProofsLayout3 ProofsLayout7.
Local Open Scope string_scope.

Definition sound (t : token) : Prop :=
  (is T_EOF t \/ good_token t) /\ (is T_IDENTIFIER t -> ~ reserved (tk_text t)) /\ (forall body, tk_text t = "'''" ++ body ++ "'''" -> utf8 body).
Lemma form_name m s : form m T_IDENTIFIER s -> default_form T_IDENTIFIER s.
Proof. destruct m; [auto|]. intros H. inversion H. Qed.
Lemma sound_name t : sound t -> is T_IDENTIFIER t -> usable (tk_text t).
Proof. intros ([K'|[m F]] & N & _) K; [congruence|]. rewrite K in F. split; [now apply (form_name m)|auto]. Qed.
Lemma int_means_integer s z : int_means s z -> integer z.
Proof. intros [s' D L]. split; [now apply decimal_nonneg|exact L]. Qed.
Lemma form_code m s : form m T_RAW_TEXT_STRING s -> forall body, s = "'''" ++ body ++ "'''" -> closes_first body "'''".
Proof. intros F body E. apply form_raw_text in F. destruct F as (b & Eb & C). rewrite Eb in E. apply append_inj_l in E. apply append_inj_r in E. now subst. Qed.

Section Program.
  Variable file : option string.
  Notation fm := reads_double.

  Lemma expr_writable :
    (forall c ts, expr_tokens c ts -> Forall sound ts -> forall e, expr_means file fm c e -> writable e) /\
    (forall cs ts, exprs_tokens cs ts -> Forall sound ts -> forall es, exprs_mean file fm cs es -> all_writable es /\ es <> []) /\
    (forall c ts, entry_tokens c ts -> Forall sound ts -> forall cs es, entries_mean file fm (c :: cs) es -> exists i es', es = i :: es' /\ (writable_entries es' -> writable_entries es) /\ entries_mean file fm cs es') /\
    (forall cs ts, entries_tokens cs ts -> Forall sound ts -> forall es, entries_mean file fm cs es -> writable_entries es /\ es <> []).
  Proof.
    apply expr_tokens_mutind.
    - intros o e ts c Ko T IH Kc S x M. inversion S as [|? ? _ S']; subst. apply Forall_app in S'. inversion M; subst. apply IH; tauto.
    - intros t e ts K T IH S x M. inversion S as [|? ? _ S']; subst. inversion M; subst; [auto|]. constructor. auto.
    - intros t e1 e2 ts1 ts2 K T1 IH1 T2 IH2 S x M. apply Forall_app in S. destruct S as [S1 S2]. inversion S2; subst. inversion M; subst. constructor; auto.
    - intros t colon e1 e2 e3 ts1 ts2 ts3 K Kc T1 IH1 T2 IH2 T3 IH3 S x M. apply Forall_app in S. destruct S as [S1 S2]. inversion S2 as [|? ? _ S3]; subst. apply Forall_app in S3. destruct S3 as [S3 S4]. inversion S4; subst. inversion M; subst. constructor; auto.
    - intros name o c Kn Ko Kc S x M. inversion S as [|? ? St _]; subst. inversion M; subst; [|congruence]. constructor. now apply sound_name.
    - intros name o args ts c Kn Ko T IH Kc S x M. inversion S as [|? ? St S']; subst. inversion S' as [|? ? _ S2]; subst. apply Forall_app in S2. destruct S2 as [S2 _]. inversion M as [| | | | | |? ? ? N Ms| | | | |]; subst; [inversion T|]. destruct (IH S2 _ Ms). constructor; auto. now apply sound_name.
    - intros name o idx ts c Kn Ko T IH Kc S x M. inversion S as [|? ? St S']; subst. inversion S' as [|? ? _ S2]; subst. apply Forall_app in S2. destruct S2 as [S2 _]. inversion M as [| | | | | | |? ? ? Ms| | | |]; subst. destruct (IH S2 _ Ms). constructor; auto. now apply sound_name.
    - intros t K S x M. inversion S; subst. inversion M; subst. constructor. now apply sound_name.
    - intros t K S x M. inversion M; subst. constructor.
    - intros t K S x M. inversion M; subst. constructor. now apply (int_means_integer (tk_text t)).
    - intros t K S x M. inversion M as [| | | | | | | | | | |? ? (y & _ & _ & Fi & Sg & _)]; subst. now constructor.
    - intros e ts T IH S es M. inversion M as [|? ? ? ? M1 M2]; subst. inversion M2; subst. split; [|discriminate]. constructor; [auto|constructor].
    - intros e ts comma es ts' T IH K Ts IHs S x M. apply Forall_app in S. destruct S as [S1 S2]. inversion S2; subst. inversion M as [|? ? ? ? M1 M2]; subst. split; [|discriminate]. constructor; [auto|]. now apply IHs.
    - intros e ts T IH S cs es M. inversion M as [|? e' ? ? M1 M2|]; subst. eexists _, _. split; [reflexivity|]. split; [|exact M2]. intros W. constructor; auto.
    - intros e1 e2 ts1 colon ts2 T1 IH1 K T2 IH2 S cs es M. apply Forall_app in S. destruct S as [S1 S2]. inversion S2; subst. inversion M as [| |? x1 ? x2 ? ? M1 M2 M3]; subst. eexists _, _. split; [reflexivity|]. split; [|exact M3]. intros W. constructor; auto.
    - intros i ts T IH S es M. destruct (IH S _ _ M) as (j & es' & -> & W & M'). inversion M'; subst. split; [|discriminate]. apply W. constructor.
    - intros i ts comma es ts' T IH K Ts IHs S x M. apply Forall_app in S. destruct S as [S1 S2]. inversion S2; subst. destruct (IH S1 _ _ M) as (j & es' & -> & W & M'). split; [|discriminate]. apply W. now apply IHs.
  Qed.
  Lemma params_writable ps ts : params_tokens ps ts -> Forall sound ts -> forall es, params_mean file fm ps es -> all_writable es.
  Proof.
    intros T S es M. destruct T as [|o cs ts c Ko T Kc]; inversion M; subst; [constructor|]. inversion S as [|? ? _ S']; subst. apply Forall_app in S'. eapply expr_writable; [exact T|tauto|assumption].
  Qed.
  Lemma gate_writable g ts : gate_tokens g ts -> Forall sound ts -> forall g', gate_means file fm g g' -> writable_gate g'.
  Proof.
    induction 1 as [t dot g ts K Kd T IH|t o e ts c dot g ts' K Ko Te Kc Kd T IH|t dot g ts K Kd T IH|t ps ts K Tp]; intros S g' M; inversion M; subst; inversion S as [|? ? St S']; subst.
    - inversion S'; subst. constructor. auto.
    - inversion S' as [|? ? _ S2]; subst. apply Forall_app in S2. destruct S2 as [S2 S3]. inversion S3 as [|? ? _ S4]; subst. inversion S4; subst. constructor; [auto|]. eapply expr_writable; eassumption.
    - inversion S'; subst. constructor. auto.
    - constructor; [now apply sound_name|]. eapply params_writable; eassumption.
  Qed.
  Ltac ew := match goal with |- writable ?e => match goal with H : expr_means _ _ ?c e, T : expr_tokens ?c _ |- _ => eapply (proj1 expr_writable _ _ T); [eassumption|exact H] end end.
  Lemma statement_writable st ts : statement_tokens st ts -> Forall sound ts -> forall st', statement_means file fm st st' -> writable_statement st'.
  Proof.
    destruct 1 as [ty ts name T K|g ts es ts' T Te|e1 ts1 eq t ps ts2 e2 ts3 T1 Ke Kt Tp T2|t e ts K T|t e ts K T|t e ts K T|t o p ts c e ts' K Ko Tp Kc T|t o name c code K Ko Kn Kc Kr]; intros S st' M; inversion M; subst.
    - apply Forall_app in S. destruct S as [S1 S2]. inversion S2; subst. match goal with H : type_means _ _ _ |- _ => inversion H as [t nm I|t nm i z close I Mi]; subst end.
      + constructor; [now apply sound_name| |discriminate]. destruct I as [I|[I|[]]]; injection I as _ <-; auto.
      + constructor; [now apply sound_name| |]; [destruct I as [I|[I|[]]]; injection I as _ <-; auto|]. intros z' [= <-]. now apply (int_means_integer (tk_text i)).
    - apply Forall_app in S. destruct S as [S1 S2]. match goal with H : exprs_mean _ _ _ _ |- _ => destruct (proj1 (proj2 expr_writable) _ _ Te S2 _ H) end. constructor; auto. eapply gate_writable; eassumption.
    - apply Forall_app in S. destruct S as [S1 S2]. inversion S2 as [|? ? _ S3]; subst. inversion S3 as [|? ? _ S4]; subst. apply Forall_app in S4. destruct S4 as [S4 S5]. constructor; [ew|ew|]. eapply params_writable; eassumption.
    - inversion S; subst. apply wst_other; [cbn; auto|ew].
    - inversion S; subst. apply wst_other; [cbn; auto|ew].
    - inversion S; subst. apply wst_other; [cbn; auto|ew].
    - inversion S as [|? ? _ S1]; subst. inversion S1 as [|? ? _ S2]; subst. apply Forall_app in S2. destruct S2 as [S2 S3]. inversion S3; subst. constructor; ew.
    - inversion S as [|? ? _ S1]; subst. inversion S1 as [|? ? _ S2]; subst. inversion S2 as [|? ? Sn S3]; subst. inversion S3 as [|? ? _ S4]; subst. inversion S4 as [|? ? Sc _]; subst.
      destruct Sc as (G & _ & U). constructor; [now apply sound_name| |now apply U]. destruct G as [G|[m F]]; [congruence|]. rewrite Kr in F. now apply (form_code m _ F).
  Qed.
  Lemma block_writable ss u : block_tokens ss u -> Forall sound u -> forall ss', Forall2 (statement_means file fm) ss ss' -> Forall writable_statement ss'.
  Proof.
    induction 1 as [seps eof F K|seps s ts ss ts' F Ne T _ IH]; intros S ss' M; inversion M; subst; constructor; apply Forall_app in S; destruct S as [_ S]; apply Forall_app in S; destruct S as [S1 S2].
    - eapply statement_writable; eassumption.
    - now apply IH.
  Qed.
End Program.

Lemma tokens_sound s ts : utf8 s -> tokens_of s ts -> Forall sound ts.
Proof.
  intros U T. apply Forall_forall. intros t It. split; [|split].
  - pose proof (tokens_of_good _ _ T) as G. rewrite Forall_forall in G. specialize (G t It). unfold good_or_eof in G. unfold is. tauto.
  - intros K. now apply (tokens_of_names s ts).
  - intros body E. destruct (tokens_of_text s ts t T It) as (a & b & Es & _). rewrite E in Es. rewrite Es in U.
    apply utf8_split in U; [|cbn; reflexivity]. destruct U as [_ U]. rewrite !append_assoc in U. apply valid_utf8_iff in U. cbn [String.append] in U.
    change (valid_utf8 (String "'" (String "'" (String "'" (body ++ String "'" (String "'" (String "'" b))))))) with (valid_utf8 (body ++ String "'" (String "'" (String "'" b)))) in U.
    apply valid_utf8_iff in U. apply utf8_split in U; [tauto|cbn; reflexivity].
Qed.
Theorem parsed_writable file s p : utf8 s -> text_means file s p -> writable_program p.
Proof.
  intros U (ts & c & To & Tp & _ & M). pose proof (tokens_sound _ _ U To) as S. inversion M as [v x cs ss Mv Ms]; subst. inversion Tp as [seps v' n' ss' rest F Kv Kn Tb]; subst.
  apply Forall_app in S. destruct S as [_ S]. inversion S as [|? ? _ S1]; subst. inversion S1 as [|? ? _ S2]; subst. pose proof (block_writable _ _ _ Tb S2 _ Ms) as W.
  inversion Mv as [a z Mi|a z b y Ma Mb]; subst; constructor; auto; eapply int_means_integer; eassumption.
Qed.
