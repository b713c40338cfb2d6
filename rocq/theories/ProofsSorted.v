(** The errors of a text come in the order of the text (C105). *)
From Coq Require Import ZArith Lia ZifyBool ZifyN ZifyNat.
From Verif Require Import Base ModelUtils ModelVersion ModelError ModelTypes ModelAst ModelLexer ModelParser ModelAnalyzer ModelSemantic ModelSyntactic ModelApi SpecUtils SpecTypes SpecPlace SpecInstructions SpecAnalyzer SpecError SpecVersion SpecLexer SpecParser SpecSyntax SpecLiteral SpecTree SpecReading SpecSites
  SpecSorted ProofsUtils ProofsLexer ProofsLexer2 ProofsLexer3 ProofsParser ProofsParser2 ProofsParser3 ProofsParser4 ProofsParser5 ProofsSyntax ProofsSyntax2 ProofsTree ProofsReading ProofsSites ProofsText ProofsAnalyzer ProofsAnalyzer4 SpecDiagnosis ProofsDiagnosis ProofsDiagnosis2 ProofsDiagnosis3 ProofsDiagnosis4 ProofsAnalyzer2 ProofsVersion.
Local Open Scope string_scope.

(** ** The locations of a statement are those of its tokens *)
Section From.
  Variables (file : option string) (all : list token).
  Notation here x := (exists t, In t all /\ ~ In (tk_kind t) (T_EOF :: wild) /\ fst (x : site) = at_token file t).
  Lemma token_from t k (P : string -> Prop) : In t all -> is k t -> ~ In k (T_EOF :: wild) -> here (at_token file t, P).
  Proof. intros Ht K W. exists t. unfold is in K. rewrite K. auto. Qed.
  Ltac tame := cbn; intuition discriminate.
  Notation means := (expr_means file reads_double).
  Definition sites_from (l : list site) : Prop := Forall (fun x => here x) l.
  Lemma incl2 (a b : list token) : incl (a ++ b) all -> incl a all /\ incl b all.
  Proof. intros H. split; intros x Hx; apply H, in_or_app; auto. Qed.
  Lemma incl1 a (b : list token) : incl (a :: b) all -> In a all /\ incl b all.
  Proof. intros H. split; [apply H; now left|intros x Hx; apply H; now right]. Qed.
  Lemma exprs_from :
    (forall c ts, expr_tokens c ts -> incl ts all -> forall e, means c e -> sites_from (expr_sites e)) /\
    (forall cs ts, exprs_tokens cs ts -> incl ts all -> forall es, exprs_mean file reads_double cs es -> sites_from (flat_map expr_sites es)) /\
    (forall c ts, entry_tokens c ts -> incl ts all -> forall cs es, entries_mean file reads_double (c :: cs) es -> exists i es', es = i :: es' /\ sites_from (entry_sites i) /\ entries_mean file reads_double cs es') /\
    (forall cs ts, entries_tokens cs ts -> incl ts all -> forall es, entries_mean file reads_double cs es -> sites_from (flat_map entry_sites es)).
  Proof.
    unfold sites_from. apply expr_tokens_mutind.
    - intros o e ts c Ko T IH Kc I x M. inversion M; subst. apply incl1 in I. destruct I as [_ I]. apply incl2 in I. apply IH; tauto.
    - intros t e ts K T IH I x M. apply incl1 in I. destruct I as [It I]. inversion M; subst; [now apply IH|]. cbn [expr_sites]. constructor; [|now apply IH].
      unfold unary_meaning in *. cbn [In] in *. match goal with H : _ \/ _ |- _ => destruct H as [H|[H|[H|[]]]]; injection H as Hk <- end; symmetry in Hk; (eapply token_from; [exact It|exact Hk|tame]).
    - intros t e1 e2 ts1 ts2 K T1 IH1 T2 IH2 I x M. apply incl2 in I. destruct I as [J1 I]. apply incl1 in I. destruct I as [It I]. inversion M; subst. cbn [expr_sites]. constructor; [|apply Forall_app; split; auto].
      unfold binary_meaning in *. cbn [In] in *. match goal with H : _ \/ _ |- _ => rename H into Hm end. repeat (destruct Hm as [Hm|Hm]; [injection Hm as Hk <-; symmetry in Hk; eapply token_from; [exact It|exact Hk|tame]|]). destruct Hm.
    - intros t colon e1 e2 e3 ts1 ts2 ts3 K Kc T1 IH1 T2 IH2 T3 IH3 I x M. apply incl2 in I. destruct I as [J1 I]. apply incl1 in I. destruct I as [It I]. apply incl2 in I. destruct I as [J2 I]. apply incl1 in I. destruct I as [_ I].
      inversion M; subst. cbn [expr_sites]. constructor; [|apply Forall_app; split; auto; apply Forall_app; split; auto]. eapply token_from; [exact It|exact K|tame].
    - intros name o c Kn Ko Kc I x M. apply incl1 in I. destruct I as [It _]. inversion M; subst; [|congruence]. cbn [expr_sites]. constructor; [|constructor]. eapply token_from; [exact It|exact Kn|tame].
    - intros name o args ts c Kn Ko T IH Kc I x M. apply incl1 in I. destruct I as [It I]. apply incl1 in I. destruct I as [_ I]. apply incl2 in I. destruct I as [I _]. inversion M; subst; [inversion T|]. cbn [expr_sites]. constructor; [eapply token_from; [exact It|exact Kn|tame]|]. now apply IH.
    - intros name o idx ts c Kn Ko T IH Kc I x M. apply incl1 in I. destruct I as [It I]. apply incl1 in I. destruct I as [_ I]. apply incl2 in I. destruct I as [I _]. inversion M; subst. cbn [expr_sites]. constructor; [|now apply IH].
      eapply token_from; [exact It|exact Kn|tame].
    - intros t K I x M. apply incl1 in I. destruct I as [It _]. inversion M; subst. cbn [expr_sites]. constructor; [eapply token_from; [exact It|exact K|tame]|constructor].
    - intros t K I x M. apply incl1 in I. destruct I as [It _]. inversion M; subst. cbn [expr_sites]. constructor; [eapply token_from; [exact It|exact K|tame]|constructor].
    - intros t K I x M. apply incl1 in I. destruct I as [It _]. inversion M; subst. cbn [expr_sites]. constructor; [eapply token_from; [exact It|exact K|tame]|constructor].
    - intros t K I x M. apply incl1 in I. destruct I as [It _]. inversion M; subst. cbn [expr_sites]. constructor; [eapply token_from; [exact It|exact K|tame]|constructor].
    - intros e ts T IH I es M. inversion M as [|? ? ? ? M1 M2]; subst. inversion M2; subst. cbn [flat_map]. rewrite app_nil_r. now apply IH.
    - intros e ts comma es ts' T IH K Ts IHs I x M. apply incl2 in I. destruct I as [J1 I]. apply incl1 in I. destruct I as [_ I]. inversion M; subst. cbn [flat_map]. apply Forall_app. split; auto.
    - intros e ts T IH I cs es M. inversion M; subst. do 2 eexists. split; [reflexivity|]. split; [|eassumption]. cbn [entry_sites]. now apply IH.
    - intros e1 e2 ts1 colon ts2 T1 IH1 K T2 IH2 I cs es M. apply incl2 in I. destruct I as [J1 I]. apply incl1 in I. destruct I as [_ I]. inversion M; subst. do 2 eexists. split; [reflexivity|]. split; [|eassumption].
      cbn [entry_sites]. apply Forall_app. split; auto.
    - intros i ts T IH I es M. destruct (IH I _ _ M) as (j & es' & -> & Si & M'). inversion M'; subst. cbn [flat_map]. now rewrite app_nil_r.
    - intros i ts comma es ts' T IH K Ts IHs I x M. apply incl2 in I. destruct I as [J1 I]. apply incl1 in I. destruct I as [_ I]. destruct (IH J1 _ _ M) as (j & es' & -> & Si & M'). cbn [flat_map]. apply Forall_app. split; auto.
  Qed.
  Definition one_from := proj1 exprs_from.
  Definition list_from := proj1 (proj2 exprs_from).
  Ltac parts I := repeat match type of I with
    | incl (_ ++ _) _ => let J := fresh "J" in apply incl2 in I; destruct I as [J I]
    | incl (_ :: _) _ => let J := fresh "J" in apply incl1 in I; destruct I as [J I]
    end.
  Ltac one := match goal with Hm : expr_means _ _ ?c ?e |- _ (expr_sites ?e) => match goal with Ht : expr_tokens c _ |- _ => apply (one_from _ _ Ht); [assumption|exact Hm] end end.
  Ltac tok := eapply token_from; [eassumption|eassumption|tame].
  Lemma params_from ps ts : params_tokens ps ts -> incl ts all -> forall es, params_mean file reads_double ps es -> sites_from (flat_map expr_sites es).
  Proof. intros T I es M. destruct T; inversion M; subst; [constructor|]. parts I. eapply list_from; eauto. Qed.
  Lemma gate_from g ts : gate_tokens g ts -> incl ts all -> forall g', gate_means file reads_double g g' -> sites_from (gate_sites g') /\ forall P, here (at_token file (first_token g), P).
  Proof.
    induction 1 as [t dot g ts K Kd T IH|t o e ts c dot g ts' K Ko Te Kc Kd T IH|t dot g ts K Kd T IH|t ps ts K Tp]; intros I g' M; inversion M; subst; parts I; cbn [first_token gate_word gate_sites flat_map].
    - split; [|intros P; tok]. constructor; [tok|]. rewrite app_nil_r. now apply IH.
    - split; [|intros P; tok]. constructor; [tok|]. apply Forall_app. split; [now apply IH|]. rewrite app_nil_r. one.
    - split; [|intros P; tok]. constructor; [tok|]. rewrite app_nil_r. now apply IH.
    - split; [|intros P; tok]. constructor; [tok|]. cbn [app]. eapply params_from; eauto.
  Qed.
  Lemma statement_from st ts : statement_tokens st ts -> incl ts all -> forall st', statement_means file reads_double st st' -> sites_from (statement_sites st').
  Proof.
    intros T I st' M.
    destruct T; inversion M; subst st'; parts I; cbn [statement_sites array_sites flat_map]; rewrite ?app_nil_r.
    - constructor; [tok|]. match goal with H : type_means _ _ _ |- _ => rename H into Mt end. match goal with H : type_tokens _ _ |- _ => destruct H as [t K|t o i c K Ko Ki Kc] end; inversion Mt; subst; cbn [ty_size ty_loc ty_name]; [|constructor].
      constructor; [|constructor]. parts J. unfold type_meaning in *. cbn [In] in *. match goal with H : _ \/ _ \/ False |- _ => destruct H as [H|[H|[]]]; injection H as Hk <- end; symmetry in Hk; (eapply token_from; [|exact Hk|tame]); auto.
    - match goal with H : gate_means _ _ _ _, H' : gate_tokens _ _ |- _ => destruct (gate_from _ _ H' J _ H) as [X1 X2] end. constructor; [apply X2|]. apply Forall_app. split; [exact X1|]. eapply list_from; eauto.
    - constructor; [tok|]. apply Forall_app. split; [apply Forall_app; split; one|]. eapply params_from; eauto.
    - constructor; [tok|]. one.
    - constructor; [tok|]. one.
    - constructor; [tok|]. one.
    - constructor; [tok|]. apply Forall_app. split; one.
    - constructor.
  Qed.
End From.

(** ** Tokens in a piece of the text *)
Lemma token_in_piece before ls ts : tokens_at before ls ts -> forall t, In t ts ->
  exists a b, String.concat "" (map lx_text ls) = a ++ tk_text t ++ b /\ tk_line t = line_of (before ++ a) /\ column_of (before ++ a) = (tk_col t + 1)%N.
Proof.
  induction 1 as [before|before l ls ts I T IH|before l ls ts ln col I E1 E2 T IH]; intros t Ht; [destruct Ht| |].
  - destruct (IH t Ht) as (a & b & Ec & P1 & P2). exists (lx_text l ++ a), b. rewrite concat_cons, Ec, !append_assoc. rewrite append_assoc in P1, P2. auto.
  - destruct Ht as [<-|Ht].
    + exists "", (String.concat "" (map lx_text ls)). rewrite concat_cons, append_nil_r. cbn [tk_text tk_line tk_col String.append]. auto.
    + destruct (IH t Ht) as (a & b & Ec & P1 & P2). exists (lx_text l ++ a), b. rewrite concat_cons, Ec, !append_assoc. rewrite append_assoc in P1, P2. auto.
Qed.
Lemma site_inside file before ls ts t l : tokens_at before ls ts -> In t ts -> simple (tk_text t) -> tk_text t <> "" -> at_token file t = Some l ->
  inside file before (String.concat "" (map lx_text ls)) l.
Proof.
  intros T Ht Si Ne E. destruct (token_in_piece _ _ _ T t Ht) as (a & b & Ec & P1 & P2). exists a, (tk_text t), b. unfold at_token, span in E. injection E as <-. cbn [file_name loc_range first last line column].
  rewrite <- (append_assoc before a (tk_text t)), (position_append (before ++ a)) by exact Si. unfold position. rewrite <- P1, P2. split; [exact Ec|]. split; [reflexivity|]. repeat (split; [reflexivity|]).
  destruct (tk_text t); [congruence|]. cbn [String.length]. lia.
Qed.

(** ** The layout of a program *)
Inductive laid_out (file : option string) : string -> list statement -> string -> Prop :=
| laid_none before rest : laid_out file before [] rest
| laid_statement before gap t st ss rest : statement_located (inside file (before ++ gap) t) st ->
    laid_out file (before ++ gap ++ t) ss rest -> laid_out file before (st :: ss) (gap ++ t ++ rest).

Lemma block_laid_out file s all : tokens_of s all -> forall cs ts, block_tokens cs ts -> incl ts all -> forall ss, Forall2 (statement_means file reads_double) cs ss ->
  forall before ls, tokens_at before ls ts -> laid_out file before ss (String.concat "" (map lx_text ls)).
Proof.
  intros To cs ts Tb. induction Tb as [seps eof F Ke|seps st ts ss ts' F Ne Ts Tb IH]; intros I ss0 M before ls T.
  - inversion M; subst. constructor.
  - inversion M as [|? st' ? ss1 M1 M2]; subst ss0.
    destruct (tokens_at_split _ _ _ T seps (ts ++ ts')%list eq_refl) as (l1 & l' & -> & T1 & T').
    destruct (tokens_at_split _ _ _ T' ts ts' eq_refl) as (l2 & l3 & -> & T2 & T3). rewrite !concat_app.
    assert (Is : incl ts all) by (intros y Hy; apply I, in_or_app; right; apply in_or_app; now left).
    constructor; [|rewrite <- append_assoc; apply IH; auto; intros y Hy; apply I, in_or_app; right; apply in_or_app; now right].
    destruct (statement_known file s all To st ts Ts Is st' M1) as (K & _ & N). split; [|exact N].
    apply Forall_forall. intros o Hl. destruct o as [lo|]; [|exact Logic.I]. destruct (K lo Hl) as [P HP].
    pose proof (statement_from file ts st ts Ts (incl_refl ts) st' M1) as Fr. unfold sites_from in Fr. rewrite Forall_forall in Fr. destruct (Fr _ HP) as (t & It & Wt & Et). cbn [fst] in Et.
    assert (Fm : exists m, form m (tk_kind t) (tk_text t)) by (apply (good_all s all To); [now apply Is|intros X; apply Wt; rewrite X; now left]). destruct Fm as [m Fm].
    cbn [loc_holds]. eapply site_inside; [exact T2|exact It| | |now symmetry].
    + apply (form_simple m _ _ Fm). intros X. apply Wt. now right.
    + intros X. rewrite X in Fm. exact (form_nonempty m _ "" Fm eq_refl).
Qed.
Lemma program_laid_out file s p : text_means file s p ->
  exists head rest lv, s = head ++ rest /\ prog_version_loc p = Some lv /\ inside file "" head lv /\ laid_out file head (prog_statements p) rest.
Proof.
  intros (ts & c & To & Tp & _ & M). inversion M as [v x cs ss Mv Ms]; subst. inversion Tp as [seps v' n' ss' rest F Kv Kn Tb]; subst. cbn [prog_statements prog_version_loc].
  pose proof To as To'. destruct To' as (ls & body & line & col & L & T & P1 & P2 & Ets). pose proof (tokenisation_lossless _ _ _ _ L) as Es. rewrite append_nil_r in Es.
  assert (A : tokens_at "" (ls ++ [mkLexeme T_EOF ""])%list (body ++ [mkToken T_EOF "" line col])%list) by (apply tokens_at_eof; [exact T|..]; cbn [String.append]; rewrite <- Es; auto).
  assert (Es' : s = String.concat "" (map lx_text (ls ++ [mkLexeme T_EOF ""]))) by (rewrite concat_app; cbn; rewrite append_nil_r; exact Es).
  rewrite <- Ets in A. change (v' :: v :: rest)%list with ([v'; v] ++ rest)%list in *. rewrite app_assoc in A.
  destruct (tokens_at_split _ _ _ A _ _ eq_refl) as (l1 & l2 & El & A1 & A2). rewrite El, concat_app in Es'.
  exists (String.concat "" (map lx_text l1)), (String.concat "" (map lx_text l2)).
  assert (Iv : In v (seps ++ [v'; v])%list) by (apply in_or_app; right; right; now left).
  destruct (at_token file v) as [lv|] eqn:Ev; [|discriminate Ev]. exists lv. split; [exact Es'|]. split; [reflexivity|].
  assert (Fm : exists m, form m (tk_kind v) (tk_text v)) by (apply (good_all s _ To); [rewrite app_assoc; apply in_or_app; now left|unfold is in Kn; rewrite Kn; discriminate]). destruct Fm as [m Fm]. unfold is in Kn. rewrite Kn in Fm.
  split.
  - eapply site_inside; [exact A1|exact Iv| | |exact Ev].
    + apply (form_simple m _ _ Fm). cbn. intuition discriminate.
    + intros X. rewrite X in Fm. exact (form_nonempty m _ "" Fm eq_refl).
  - eapply block_laid_out; [exact To|exact Tb| |exact Ms|exact A2]. intros y Hy. apply in_or_app. right. apply in_or_app. now right.
Qed.

(** ** The errors *)
Lemma block_shares lm file st ss st' es : block_run st ss st' es -> ordinary lm st -> Forall grammar_statement ss -> forall before rest, laid_out file before ss rest ->
  exists ess, es = List.concat ess /\ List.length ess = List.length ss /\ shares file before ess rest.
Proof.
  induction 1 as [|st s st1 es1 ss st2 es2 H _ IH]; intros Ho Hg before rest L.
  - exists []. split; [reflexivity|]. split; [reflexivity|constructor].
  - inversion Hg as [|? ? G1 G2]; subst. inversion L as [|? gap t ? ? rest' [L1 L2] L']; subst.
    destruct (IH (ordinary_extends _ _ _ Ho (effect_extends _ _ _ _ (statement_effect _ _ _ _ H))) G2 _ _ L') as (ess & -> & El & S).
    exists (es1 :: ess). split; [reflexivity|]. split; [cbn [List.length]; now rewrite El|]. constructor; [|exact S].
    destruct (statement_reported lm st Ho s st1 es1 G1 H) as [->|(m & q & -> & _)]; [now left|right].
    assert (W : Forall (located (inside file (before ++ gap) t)) [mkRawError m q]) by (eapply statement_where; eauto). inversion W as [|? ? (l & E1 & E2) _]; subst. exists (mkRawError m q), l. auto.
Qed.
Lemma text_shares lm file s st p st' r : ordinary lm st -> version_same (api_version st) [3; 0]%Z -> text_means file s p -> analyze_ast st p = Ok (st', r) ->
  exists ess, res_errors r = List.concat ess /\ List.length ess = S (List.length (prog_statements p)) /\ shares file "" ess s.
Proof.
  intros Ho Hv M E. destruct (program_laid_out file s p M) as (head & rest & lv & -> & Elv & Il & L). pose proof (parsed_grammar _ _ _ M) as G.
  apply analyze_ast_inv in E. destruct E as (v & es1 & es2 & q & rest' & Ev & B & _ & -> & _). cbn [res_errors].
  destruct (block_shares lm file _ _ _ _ B Ho G head rest L) as (ess & -> & El & S).
  exists (es1 :: ess). split; [reflexivity|]. split; [cbn [List.length]; now rewrite El|].
  change (head ++ rest) with ("" ++ head ++ rest). apply shares_piece; [|exact S].
  destruct (visit_version_spec (api_version st) (prog_version p) (prog_version_loc p) Hv) as [V1 V2].
  destruct (version_eqb (prog_version p) (api_version st)) eqn:Eq.
  - apply version_eqb_iff in Eq. rewrite (V1 Eq) in Ev. injection Ev as _ <-. now left.
  - assert (Nq : ~ version_same (prog_version p) (api_version st)) by (rewrite <- version_eqb_iff, Eq; discriminate).
    destruct (V2 Nq) as (e & Ev' & Le). rewrite Ev' in Ev. injection Ev as _ <-. right. exists (error_context (prog_version_loc p) e), lv. split; [reflexivity|]. split; [|exact Il].
    unfold error_context. rewrite Le, Elv. reflexivity.
Qed.

(** ** Shares are in order *)
Definition begins_at_or_after (before : string) (file : option string) (e : error) : Prop :=
  exists l, location e = Some l /\ file_name l = (match file with Some "" => None | _ => file end) /\ at_or_before (position before) (first (loc_range l)).
Lemma at_or_before_trans a b c : at_or_before a b -> at_or_before b c -> at_or_before a c.
Proof. unfold at_or_before. lia. Qed.
Lemma position_later a t : at_or_before (position a) (position (a ++ t)).
Proof. pose proof (position_ordered a t) as H. cbv zeta in H. exact H. Qed.
Lemma shares_after file before ess rest : shares file before ess rest -> Forall (begins_at_or_after before file) (List.concat ess).
Proof.
  induction 1 as [|before gap t es ess rest H _ IH]; [constructor|]. cbn [List.concat]. apply Forall_app. split.
  - destruct H as [->|(e & l & -> & El & a & m & b & _ & Ef & E1 & _)]; [constructor|]. constructor; [|constructor]. exists l. split; [exact El|]. split; [exact Ef|]. rewrite E1, append_assoc. apply position_later.
  - eapply Forall_impl; [|exact IH]. intros e (l & El & Ef & O). exists l. split; [exact El|]. split; [exact Ef|]. eapply at_or_before_trans; [apply position_later|exact O].
Qed.
Lemma shares_sorted file before ess rest : shares file before ess rest -> forall u e1 v e2 w, List.concat ess = (u ++ e1 :: v ++ e2 :: w)%list -> comes_before e1 e2.
Proof.
  induction 1 as [|before gap t es ess rest H S IH]; intros u e1 v e2 w E; cbn [List.concat] in E; [destruct u; discriminate E|].
  destruct H as [->|(e & l & -> & El & a & m & b & Et & Ef & E1 & E2 & Ln & Cl)]; [eapply IH; exact E|].
  destruct u as [|x u]; cbn [app] in E.
  - injection E as <- E. pose proof (shares_after _ _ _ _ S) as F. rewrite E in F. apply Forall_app in F. destruct F as [_ F]. inversion F as [|? ? (l2 & El2 & Ef2 & O) _]; subst.
    exists l, l2. split; [exact El|]. split; [exact El2|]. split; [congruence|]. split; [|auto]. eapply at_or_before_trans; [|exact O]. rewrite E2. 
    replace (before ++ gap ++ a ++ m ++ b) with (((before ++ gap) ++ a ++ m) ++ b) by (rewrite !append_assoc; reflexivity). apply position_later.
  - injection E as _ E. eapply IH; exact E.
Qed.
