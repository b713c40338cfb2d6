(** What analysis can rely on in a parsed program (C44, C60, C66). *)
From Coq Require Import ZArith Lia.
From Verif Require Import Base ModelUtils ModelVersion ModelError ModelTypes ModelAst ModelLexer ModelParser ModelAnalyzer ModelSemantic ModelSyntactic SpecUtils SpecTypes SpecInstructions SpecAnalyzer SpecLexer SpecParser SpecSyntax SpecLiteral SpecTree SpecReading SpecSites
  ProofsUtils ProofsLexer ProofsLexer2 ProofsLexer3 ProofsParser ProofsParser4 ProofsParser5 ProofsSyntax ProofsSyntax2 ProofsTree ProofsReading ProofsSites.
Local Open Scope string_scope.

(** Identifiers are not reserved words. *)
Lemma tokenisation_names m s ls rest : tokenisation m s ls rest -> Forall (fun l => lx_kind l = T_IDENTIFIER -> ~ reserved (lx_text l)) ls.
Proof. induction 1; constructor; auto. Qed.
Lemma tokens_at_names before ls ts : tokens_at before ls ts -> Forall (fun l => lx_kind l = T_IDENTIFIER -> ~ reserved (lx_text l)) ls ->
  Forall (fun t => is T_IDENTIFIER t -> ~ reserved (tk_text t)) ts.
Proof. induction 1; intros F; inversion F; subst; auto. Qed.
Lemma tokens_of_names s ts t : tokens_of s ts -> In t ts -> is T_IDENTIFIER t -> ~ reserved (tk_text t).
Proof.
  intros (ls & body & line & col & L & T & P1 & P2 & ->) Ht K. apply in_app_or in Ht. destruct Ht as [Ht|[<-|[]]]; [|discriminate K].
  pose proof (tokens_at_names _ _ _ T (tokenisation_names _ _ _ _ L)) as F. rewrite Forall_forall in F. now apply F.
Qed.

Definition known (l : list loc) (x : list site) : Prop := forall a, In (Some a) l -> exists P, In (Some a, P) x.
Lemma known_app l1 l2 x1 x2 : known l1 x1 -> known l2 x2 -> known (l1 ++ l2) (x1 ++ x2).
Proof. intros H1 H2 a Ha. apply in_app_or in Ha. destruct Ha as [Ha|Ha]; [destruct (H1 a Ha) as [P HP]|destruct (H2 a Ha) as [P HP]]; exists P; apply in_or_app; auto. Qed.
Lemma known_cons l P ls x : known ls x -> known (l :: ls) ((l, P) :: x).
Proof. intros H a [->|Ha]; [exists P; now left|]. destruct (H a Ha) as [Q HQ]. exists Q. now right. Qed.
Lemma known_none ls x : known ls x -> known (None :: ls) x.
Proof. intros H a [Ha|Ha]; [discriminate|auto]. Qed.
Lemma known_nil x : known [] x.
Proof. intros a []. Qed.

Section Program.
  Variables (file : option string) (s : string) (all : list token).
  Hypothesis all_of : tokens_of s all.
  Notation means := (expr_means file reads_double).
  Notation all_mean := (exprs_mean file reads_double).

  Lemma exprs_known :
    (forall c ts, expr_tokens c ts -> forall e, means c e -> known (expr_locs e) (expr_sites e) /\ indexed_expr e = true) /\
    (forall cs ts, exprs_tokens cs ts -> forall es, all_mean cs es -> known (flat_map expr_locs es) (flat_map expr_sites es) /\ forallb indexed_expr es = true) /\
    (forall c ts, entry_tokens c ts -> forall cs es, entries_mean file reads_double (c :: cs) es -> exists i es', es = i :: es' /\ known (entry_locs i) (entry_sites i) /\ indexed_entry i = true /\ entries_mean file reads_double cs es') /\
    (forall cs ts, entries_tokens cs ts -> forall es, entries_mean file reads_double cs es -> known (flat_map entry_locs es) (flat_map entry_sites es) /\ forallb indexed_entry es = true /\ es <> []).
  Proof.
    apply expr_tokens_mutind.
    - intros o e ts c Ko T IH Kc x M. inversion M; subst. auto.
    - intros t e ts K T IH x M. inversion M; subst; [auto|]. cbn [expr_locs expr_sites expr_loc indexed_expr]. edestruct IH as [I1 I2]; [eassumption|]. split; [now apply known_cons|exact I2].
    - intros t e1 e2 ts1 ts2 K T1 IH1 T2 IH2 x M. inversion M; subst. cbn [expr_locs expr_sites expr_loc indexed_expr]. edestruct IH1 as [I1 I2]; [eassumption|]. edestruct IH2 as [J1 J2]; [eassumption|].
      split; [apply known_cons; now apply known_app|]. now rewrite I2, J2.
    - intros t colon e1 e2 e3 ts1 ts2 ts3 K Kc T1 IH1 T2 IH2 T3 IH3 x M. inversion M; subst. cbn [expr_locs expr_sites expr_loc indexed_expr]. edestruct IH1 as [I1 I2]; [eassumption|]. edestruct IH2 as [J1 J2]; [eassumption|]. edestruct IH3 as [L1 L2]; [eassumption|].
      split; [apply known_cons; apply known_app; [|apply known_app]; assumption|]. now rewrite I2, J2, L2.
    - intros name o c Kn Ko Kc x M. inversion M; subst; [|congruence]. split; [apply known_cons; apply known_nil|reflexivity].
    - intros name o args ts c Kn Ko T IH Kc x M. inversion M; subst; [inversion T|]. cbn [expr_locs expr_sites expr_loc indexed_expr]. edestruct IH as [I1 I2]; [eassumption|]. split; [now apply known_cons|exact I2].
    - intros name o idx ts c Kn Ko T IH Kc x M. inversion M; subst. cbn [expr_locs expr_sites expr_loc indexed_expr app]. edestruct IH as (I1 & I2 & I3); [eassumption|].
      split; [apply known_cons; now apply known_none|]. rewrite I2. destruct es; [congruence|reflexivity].
    - intros t K x M. inversion M; subst. split; [apply known_cons, known_nil|reflexivity].
    - intros t K x M. inversion M; subst. split; [apply known_cons, known_nil|reflexivity].
    - intros t K x M. inversion M; subst. split; [apply known_cons, known_nil|reflexivity].
    - intros t K x M. inversion M; subst. split; [apply known_cons, known_nil|reflexivity].
    - intros e ts T IH es M. inversion M as [|? ? ? ? M1 M2]; subst. inversion M2; subst. cbn [flat_map forallb]. rewrite !app_nil_r. destruct (IH _ M1) as [I1 ->]. auto.
    - intros e ts comma es ts' T IH K Ts IHs x M. inversion M as [|? ? ? ? M1 M2]; subst. cbn [flat_map forallb]. destruct (IH _ M1) as [I1 ->], (IHs _ M2) as [J1 ->]. split; [now apply known_app|reflexivity].
    - intros e ts T IH cs es M. inversion M as [|? e' ? ? M1 M2|]; subst. exists (IItem None e'). eexists. split; [reflexivity|]. cbn [entry_locs entry_sites indexed_entry]. destruct (IH _ M1) as [I1 I2]. split; [now apply known_none|]. auto.
    - intros e1 e2 ts1 colon ts2 T1 IH1 K T2 IH2 cs es M. inversion M as [| |? x1 ? x2 ? ? M1 M2 M3]; subst. exists (IRange None x1 x2). eexists. split; [reflexivity|]. cbn [entry_locs entry_sites indexed_entry].
      destruct (IH1 _ M1) as [I1 ->], (IH2 _ M2) as [J1 ->]. split; [apply known_none; now apply known_app|]. auto.
    - intros i ts T IH es M. destruct (IH _ _ M) as (j & es' & -> & I1 & I2 & M'). inversion M'; subst. cbn [flat_map forallb]. rewrite !app_nil_r, I2. split; [exact I1|]. split; [reflexivity|discriminate].
    - intros i ts comma es ts' T IH K Ts IHs x M. destruct (IH _ _ M) as (j & es' & -> & I1 & I2 & M'). destruct (IHs _ M') as (J1 & J2 & J3). cbn [flat_map forallb]. rewrite I2, J2. split; [now apply known_app|]. split; [reflexivity|discriminate].
  Qed.
  Definition one_known := proj1 exprs_known.
  Definition list_known := proj1 (proj2 exprs_known).
  Lemma params_known ps ts : params_tokens ps ts -> forall es, params_mean file reads_double ps es -> known (flat_map expr_locs es) (flat_map expr_sites es) /\ forallb indexed_expr es = true.
  Proof. intros T es M. destruct T; inversion M; subst; [split; [apply known_nil|reflexivity]|]. eapply list_known; eauto. Qed.
  Lemma gate_known g ts : gate_tokens g ts -> incl ts all -> forall g', gate_means file reads_double g g' ->
    known (gate_locs g') (gate_sites g') /\ forallb indexed_expr (gate_exprs g') = true /\ grammar_gate g' /\ plain_gate g'.
  Proof.
    induction 1 as [t dot g ts K Kd T IH|t o e ts c dot g ts' K Ko Te Kc Kd T IH|t dot g ts K Kd T IH|t ps ts K Tp]; intros I g' M; inversion M; subst.
    - edestruct IH as (I1 & I2 & I3 & I4); [intros x Hx; apply I; right; now right|eassumption|]. cbn [gate_locs gate_sites gate_exprs flat_map plain_gate app annotation_exprs]. rewrite ?app_nil_r.
      split; [now apply known_cons|]. split; [exact I2|]. split; [apply gg_modified; [cbn; auto|exact I3]|auto].
    - edestruct IH as (I1 & I2 & I3 & I4); [intros x Hx; apply I; right; right; apply in_or_app; right; right; now right|eassumption|]. cbn [gate_locs gate_sites gate_exprs flat_map plain_gate app annotation_exprs]. rewrite ?app_nil_r.
      match goal with H : means _ _ |- _ => destruct (one_known _ _ Te _ H) as [J1 J2] end.
      split; [apply known_cons; now apply known_app|]. split; [|split; [apply gg_modified; [cbn; auto|exact I3]|auto]]. rewrite forallb_app. cbn [forallb]. now rewrite J2, I2.
    - edestruct IH as (I1 & I2 & I3 & I4); [intros x Hx; apply I; right; now right|eassumption|]. cbn [gate_locs gate_sites gate_exprs flat_map plain_gate app annotation_exprs]. rewrite ?app_nil_r.
      split; [now apply known_cons|]. split; [exact I2|]. split; [apply gg_modified; [cbn; auto|exact I3]|auto].
    - match goal with H : params_mean _ _ _ _ |- _ => destruct (params_known _ _ Tp _ H) as [J1 J2] end. cbn [gate_locs gate_sites gate_exprs flat_map plain_gate app annotation_exprs]. rewrite ?app_nil_r.
      split; [now apply known_cons|]. split; [exact J2|]. split; [|auto].
      assert (N : ~ reserved (tk_text t)) by (apply (tokens_of_names s all); auto; apply I; now left). unfold reserved in N.
      apply gg_named; intros Hn; apply N; revert Hn; cbn; intuition.
  Qed.
  Ltac one_k H1 H2 := match goal with Hm : expr_means _ _ ?c ?e, Ht : expr_tokens ?c _ |- _ => destruct (one_known _ _ Ht _ Hm) as [H1 H2]; clear Hm end.
  Lemma statement_known st ts : statement_tokens st ts -> incl ts all -> forall st', statement_means file reads_double st st' ->
    known (statement_locs st') (statement_sites st') /\ grammar_statement st' /\ (match st' with SAsm _ _ _ _ => True | _ => statement_loc st' <> None end).
  Proof.
    intros T I st' M. destruct T; inversion M; subst st'; unfold grammar_statement, statement_locs; cbn [statement_sites statement_loc statement_exprs SpecAnalyzer.plain flat_map annotation_exprs app]; cbv zeta; rewrite ?app_nil_r.
    - split; [apply known_cons; apply known_nil|]. split; [|discriminate]. split; [reflexivity|]. split; [reflexivity|exact Logic.I].
    - assert (I' : incl ts all) by (intros x Hx; apply I, in_or_app; now left).
      match goal with H : gate_means _ _ _ _, H' : gate_tokens _ _ |- _ => destruct (gate_known _ _ H' I' _ H) as (I1 & I2 & I3 & I4) end.
      match goal with H : exprs_mean _ _ _ _, H' : exprs_tokens _ _ |- _ => destruct (list_known _ _ H' _ H) as (J1 & J2) end.
      split; [apply known_cons; now apply known_app|]. split; [|discriminate]. rewrite forallb_app, I2, J2. auto.
    - one_k A1 A2. one_k B1 B2. match goal with H : params_mean _ _ _ _, H' : params_tokens _ _ |- _ => destruct (params_known _ _ H' _ H) as (J1 & J2) end.
      split; [|split; [|discriminate]].
      + apply known_cons. apply known_app; [|exact J1]. apply known_app; assumption.
      + split; [reflexivity|]. cbn [forallb]. rewrite A2, B2, J2. split; [reflexivity|]. split; [cbn; auto|]. split; [discriminate|]. intros _ N. destruct (N eq_refl).
    - one_k A1 A2. split; [now apply known_cons|]. split; [|discriminate]. cbn [forallb]. rewrite A2. split; [reflexivity|]. split; [reflexivity|]. split; [cbn; tauto|]. split; [intros X; discriminate X|reflexivity].
    - one_k A1 A2. split; [now apply known_cons|]. split; [|discriminate]. cbn [forallb]. rewrite A2. split; [reflexivity|]. split; [reflexivity|]. split; [cbn; tauto|]. split; [intros X; discriminate X|reflexivity].
    - one_k A1 A2. split; [now apply known_cons|]. split; [|discriminate]. cbn [forallb]. rewrite A2. split; [reflexivity|]. split; [reflexivity|]. split; [cbn; tauto|]. split; [intros X; discriminate X|reflexivity].
    - one_k A1 A2. one_k B1 B2. split; [apply known_cons; now apply known_app|]. split; [|discriminate]. cbn [forallb]. rewrite A2, B2. split; [reflexivity|]. split; [reflexivity|]. split; [cbn; tauto|]. split; [reflexivity|]. intros X. destruct (X eq_refl).
    - split; [apply known_none, known_nil|]. split; [|exact Logic.I]. split; [reflexivity|]. split; [reflexivity|exact Logic.I].
  Qed.
End Program.

(** A parsed program has the shape analysis expects, and its locations are in
    the text. *)
Theorem parsed_grammar file s p : text_means file s p -> grammar_program p.
Proof.
  intros (ts & c & To & Tp & _ & M). inversion M as [v x cs ss Mv Ms]; subst. inversion Tp as [seps v' n' ss' rest F Kv Kn Tb]; subst. unfold grammar_program. cbn [prog_statements].
  remember (seps ++ v' :: v :: rest)%list as all eqn:Eall. assert (D : incl rest all) by (intros y Hy; rewrite Eall; apply in_or_app; right; right; now right). clear Eall M Mv Kv Kn F Tp.
  revert ss Ms D. induction Tb as [seps' eof F' Ke|seps' st ts ss ts' F' Ne Ts Tb IH]; intros ss0 Ms D; inversion Ms as [|? st' ? ss1 M1 M2]; subst; constructor.
  - apply (statement_known file s all To st ts Ts); [intros y Hy; apply D, in_or_app; right; apply in_or_app; now left|exact M1].
  - apply IH; [exact M2|]. intros y Hy. apply D, in_or_app. right. apply in_or_app. now right.
Qed.
Theorem parsed_located file s p : text_means file s p -> Forall (statement_located (in_text file s)) (prog_statements p) /\ exists l, prog_version_loc p = Some l /\ in_text file s l.
Proof.
  intros Tm. destruct (program_placed file s p Tm) as [Pl _]. unfold program_sites in Pl. inversion Pl as [|? ? [(a & t & b & Es & _ & Ea) _] Pl']; subst. cbn [fst] in Ea. split; [|eexists; split; [exact Ea|]; exists a, t, b; auto].
  destruct Tm as (ts & c & To & Tp & _ & M). inversion M as [v x cs ss Mv Ms]; subst. inversion Tp as [seps v' n' ss' rest F Kv Kn Tb]; subst. cbn [prog_statements] in *.
  remember (seps ++ v' :: v :: rest)%list as all eqn:Eall. assert (D : incl rest all) by (intros y Hy; rewrite Eall; apply in_or_app; right; right; now right). clear Eall M Mv Kv Kn F Tp Ea Pl.
  revert ss Ms D Pl'. induction Tb as [seps' eof F' Ke|seps' st ts ss ts' F' Ne Ts Tb IH]; intros ss0 Ms D Pl; inversion Ms as [|? st' ? ss1 M1 M2]; subst; constructor.
  - cbn [flat_map] in Pl. apply Forall_app in Pl. destruct Pl as [Pl _]. rewrite Forall_forall in Pl.
    destruct (statement_known file (a ++ t ++ b) all To st ts Ts) with (st' := st') as (K & _ & N); [intros y Hy; apply D, in_or_app; right; apply in_or_app; now left|exact M1|].
    split; [|exact N]. apply Forall_forall. intros [l|] Hl; [|exact I]. destruct (K l Hl) as [P HP]. destruct (Pl _ HP) as [(a' & t' & b' & Es' & _ & E') _]. cbn [fst] in E'. injection E' as ->. exists a', t', b'. auto.
  - cbn [flat_map] in Pl. apply Forall_app in Pl. destruct Pl as [_ Pl]. apply IH; [exact M2| |exact Pl]. intros y Hy. apply D, in_or_app. right. apply in_or_app. now right.
Qed.
