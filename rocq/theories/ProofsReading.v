(** The reading of whole texts: literals, errors, syntax trees (C45, C51, C52,
    C55, C63-C65). *)
From Coq Require Import Reals SpecFloat ZArith Lia Lra ZifyBool ZifyN ZifyNat.
From Flocq Require Import Core IEEE754.BinarySingleNaN.
From Verif Require Import Base ModelUtils ModelVersion ModelError ModelTypes ModelAst ModelLexer ModelParser ModelSyntactic SpecUtils SpecTypes SpecLexer SpecParser SpecSyntax SpecLiteral SpecTree SpecReading
  ProofsUtils ProofsFloat ProofsIeee ProofsLexer ProofsLexer2 ProofsLexer3 ProofsParser ProofsParser2 ProofsParser3 ProofsParser4 ProofsParser5 ProofsParser6 ProofsParser8 ProofsSyntax ProofsSyntax2 ProofsLiteral ProofsTree ProofsUtf8.
Local Open Scope string_scope.

(** ** Floating-point literals *)
Lemma exponent_has_value e : exponent e -> exists x, exponent_value e x.
Proof.
  intros H. destruct H as [|e sign d He [->|[->| ->]] D N]; [exists 0%Z; constructor| | |]; eexists.
  - apply ev_plain; assumption.
  - apply ev_plus; assumption.
  - apply ev_minus; assumption.
Qed.
Lemma float_form_value m s : form m T_FLOAT_LITERAL s -> exists x, literal_value s x.
Proof.
  destruct m; cbn; intros F; inversion F; subst.
  - cbn in H. intuition discriminate.
  - cbn in H. intuition discriminate.
  - destruct (exponent_has_value e H2) as [x Hx]. eexists. constructor; eauto.
Qed.
Lemma real_of_inj f g : finite_double f -> finite_double g -> sign_SF f = sign_SF g -> real_of f = real_of g -> f = g.
Proof.
  intros Ff Fg Sg E. destruct (finite_double_B f Ff) as (x & <- & Fx & Rx), (finite_double_B g Fg) as (y & <- & Fy & Ry).
  f_equal. apply B2R_Bsign_inj; auto; [congruence|]. clear -Sg. now destruct x, y.
Qed.
Lemma stod_reads m s f : form m T_FLOAT_LITERAL s -> stod s = Some f <-> reads_double s f.
Proof.
  intros F. split.
  - intros E. destruct (float_form_value m s F) as [x L]. destruct (stod_spec s x L) as [R V]. destruct (V f E) as (Fi & Sg & Re). exists x. split; [exact L|]. split; [apply R; congruence|auto].
  - intros (x & L & D & Fi & Sg & Re). destruct (stod_spec s x L) as [R V]. destruct (stod s) as [g|] eqn:E; [|apply R in D; congruence].
    destruct (V g eq_refl) as (Fi' & Sg' & Re'). f_equal. apply real_of_inj; auto; congruence.
Qed.
Lemma stod_fits m s : form m T_FLOAT_LITERAL s -> stod s <> None <-> exists x, literal_value s x /\ double_range x.
Proof.
  intros F. split.
  - intros N. destruct (float_form_value m s F) as [x L]. exists x. split; [exact L|]. now apply (stod_spec s x L).
  - intros (x & L & D). now apply (stod_spec s x L).
Qed.
Lemma reads_double_unique s f g : reads_double s f -> reads_double s g -> f = g.
Proof.
  intros (x & L & D & Fi & Sg & Re) (y & L' & D' & Fi' & Sg' & Re').
  destruct (stod_spec s x L) as [R V], (stod_spec s y L') as [R' V']. destruct (stod s) as [h|] eqn:E; [|apply R in D; congruence].
  destruct (V h eq_refl) as (Fh & Sh & Rh), (V' h eq_refl) as (_ & _ & Rh'). transitivity h; [|symmetry]; apply real_of_inj; auto; congruence.
Qed.

(** ** Literals of tokens *)
Lemma literal_fits_range t k s col : good_or_eof t -> literal_in t k s col -> literal_fits k s <-> literal_in_range k s.
Proof.
  intros G L. destruct L; cbn; try tauto. destruct G as [[m F]|K]; [|congruence]. rewrite H in F. exact (stod_fits m _ F).
Qed.
Lemma literals_fit_range ts : Forall good_or_eof ts -> Forall literals_fit ts <-> all_in_range ts.
Proof.
  rewrite !Forall_forall. intros G. split.
  - intros F t k s col Ht L. apply (literal_fits_range t k s col (G t Ht) L). exact (F t Ht k s col L).
  - intros A t Ht k s col L. apply (literal_fits_range t k s col (G t Ht) L). exact (A t k s col Ht L).
Qed.
Lemma syntax_error_at file line col text m k : m <> "" -> syntax_error file line col (String.length text) m = mkRawError m (at_token file (mkToken k text line col)).
Proof.
  intros N. rewrite <- (token_loc_at file). unfold syntax_error, mk_error_range, token_loc, non_empty_message. destruct (String.eqb_spec m ""); [congruence|reflexivity].
Qed.
Lemma range_error_spec file t e : good_or_eof t -> range_error file t e <->
  exists k s col, literal_in t k s col /\ ~ literal_in_range k s /\ e = out_of_range file k s (tk_line t) col.
Proof.
  intros G. unfold range_error. split; intros (k & s & col & L & N & ->); exists k, s, col; (split; [exact L|]); pose proof (literal_fits_range t k s col G L) as [F1 F2]; (split; [tauto|]).
  - apply (syntax_error_at file (tk_line t) col "" _ k); discriminate.
  - symmetry. apply (syntax_error_at file (tk_line t) col "" _ k); discriminate.
Qed.

(** ** Scanned texts *)
Lemma scanned_tokenize s ts : scanned s ts <-> tokenize s = Some ts.
Proof.
  destruct (tokenize_spec s) as (ls & rest & body & line & col & L & Ta & G & E & P1 & P2). split.
  - intros [ts' H|ls' rest' body' read line' col' L' N Es Ta' P1' P2'].
    + now apply tokenize_tokens_of in H.
    + rewrite E. destruct (tokenisation_unique _ _ _ _ L _ _ L') as [-> ->]. rewrite <- (tokens_at_unique _ _ _ Ta _ Ta').
      pose proof (tokenisation_lossless _ _ _ _ L') as Es'. rewrite Es' in Es. apply append_inj_r in Es. subst read. unfold end_token. destruct rest'; [congruence|]. do 4 f_equal; lia || congruence.
  - intros H. rewrite E in H. injection H as <-. destruct rest as [|c rest].
    + apply scanned_all. apply tokenize_tokens_of. split; [exact E|]. exists body, (end_token "" line col). auto.
    + eapply (scanned_part s ls (String c rest) body); eauto; [discriminate|]. apply (tokenisation_lossless _ _ _ _ L).
Qed.
Lemma scanned_total s : exists ts, scanned s ts.
Proof. destruct (tokenize_spec s) as (ls & rest & body & line & col & _ & _ & _ & E & _). eexists. apply scanned_tokenize. exact E. Qed.
Lemma scanned_unique s ts ts' : scanned s ts -> scanned s ts' -> ts = ts'.
Proof. rewrite !scanned_tokenize. congruence. Qed.

(** ** The place of syntax errors *)
Lemma first_offending_unique ts t1 t2 : first_offending ts t1 -> first_offending ts t2 -> t1 = t2.
Proof.
  assert (V : forall u v, viable (u ++ v) -> viable u) by (intros u v (z & Z); exists (v ++ z)%list; now rewrite app_assoc).
  assert (X : forall u1 w1 u2 w2 (a b : token), (u1 ++ a :: w1 = u2 ++ b :: w2)%list -> viable u2 -> ~ viable (u1 ++ [a])%list -> exists q, u1 = (u2 ++ q)%list /\ (b :: w2 = q ++ a :: w1)%list).
  { intros u1 w1 u2 w2 a b E V2 N1. destruct (app_eq_app _ _ _ _ E) as (q & [[E1 E2]|[E1 E2]]); [eauto|]. destruct q as [|x q].
    - rewrite app_nil_r in E1. subst u2. exists []. rewrite app_nil_r. auto.
    - injection E2 as <- _. destruct N1. apply (V (u1 ++ [a])%list q). rewrite <- app_assoc. cbn [app]. now rewrite <- E1. }
  intros (u1 & w1 & E1 & V1 & N1) (u2 & w2 & E2 & V2 & N2). rewrite E1 in E2. destruct (X _ _ _ _ _ _ E2 V2 N1) as (q & -> & Eq). destruct (X _ _ _ _ _ _ (eq_sym E2) V1 N2) as (q' & E' & _).
  rewrite <- (app_nil_r u2) in E' at 1. rewrite <- app_assoc in E'. apply app_inv_head in E'. destruct q; [|discriminate E']. cbn in Eq. congruence.
Qed.
Lemma parse_error_first ts r : parse_program ts = PErr r -> (exists t w, r = t :: w /\ first_offending ts t) \/ (r = [] /\ viable ts).
Proof.
  intros H. destruct (program_viable _ _ H) as (u & E & p & z & T). destruct r as [|t w].
  - right. split; [reflexivity|]. rewrite app_nil_r in E. subst u. exists z. now exists p.
  - left. exists t, w. split; [reflexivity|]. exists u, w. split; [exact E|]. split; [exists z; now exists p|].
    rewrite E in H. intros (z' & p' & T'). apply (program_dead u t w H). now exists p', z'.
Qed.
(** No program goes on after its end or after an error. *)
Lemma program_end p u t z : program_tokens p (u ++ t :: z) -> ~ plain t -> z = [] /\ tk_kind t = T_EOF.
Proof.
  intros T N. apply program_plain in T. destruct T as (v & x & E & P & K). destruct z as [|a z].
  - apply app_inj_tail in E. destruct E as [_ ->]. auto.
  - exfalso. destruct (@exists_last token (a :: z)) as (q & y & Eq); [discriminate|]. rewrite Eq in E. clear Eq. change (t :: q ++ [y])%list with ((t :: q) ++ [y])%list in E. rewrite app_assoc in E. apply app_inj_tail in E. destruct E as [<- _].
    apply Forall_app in P. destruct P as [_ P]. inversion P; contradiction.
Qed.
Lemma not_sentence_parse body eof : Forall good_token body -> ~ plain eof -> ~ sentence (body ++ [eof]) ->
  exists t w, parse_program (body ++ [eof]) = PErr (t :: w) /\ first_offending (body ++ [eof]) t.
Proof.
  intros G N S. destruct (parse_program (body ++ [eof])) as [p r|r|] eqn:P; [| |destruct (program_fuel _ P)].
  - destruct S. apply parse_body in P; auto. destruct P as (_ & _ & T & _). now exists p.
  - destruct (parse_error_first _ _ P) as [(t & w & -> & O)|[-> (z & p & T)]]; [eauto|].
    destruct S. rewrite <- app_assoc in T. cbn [app] in T. destruct (program_end _ _ _ _ T N) as [-> _]. now exists p.
Qed.

(** ** The outcomes of parsing *)
Lemma stod_token t f : is T_FLOAT_LITERAL t -> good_token t -> stod (tk_text t) = Some f <-> reads_double (tk_text t) f.
Proof. intros K [m F]. rewrite K in F. exact (stod_reads m _ f F). Qed.

Theorem parse_reads file rtl data s p : text_of data s -> utf8 s ->
  parse_string file rtl data = Ok (mkResult (Some p) []) <-> text_means file s p.
Proof. intros T U. apply valid_utf8_iff in U. apply parse_string_ok; [exact stod_token|exact T|exact U]. Qed.

(** The outcomes of parsing a text. *)
Inductive parsed (file : option string) (s : string) : result program -> Prop :=
| parsed_program ts p : tokens_of s ts -> sentence ts -> all_in_range ts -> text_means file s p -> parsed file s (mkResult (Some p) [])
| parsed_range ts t k lit col : tokens_of s ts -> sentence ts -> In t ts -> literal_in t k lit col -> ~ literal_in_range k lit ->
    parsed file s (mkResult None [out_of_range file k lit (tk_line t) col])
| parsed_error ts t m : scanned s ts -> ~ sentence ts -> first_offending ts t -> parsed file s (mkResult None [mkRawError m (at_token file t)]).

Theorem parse_outcome file rtl data s : text_of data s -> utf8 s -> exists r, parse_string file rtl data = Ok r /\ parsed file s r.
Proof.
  intros T U. pose proof (parse_reads file rtl data s) as R. apply valid_utf8_iff in U. destruct (scan_cases file rtl data s T U) as [(ts & p & To & S & F & E)|[(ts & t & e & To & S & Ht & Re & E)|(N & e & E)]].
  - exists (mkResult (Some p) []). unfold parse_string in *. rewrite E in *. split; [reflexivity|]. eapply parsed_program; eauto.
    + apply literals_fit_range; [now apply tokens_of_good in To|exact F].
    + apply R; auto. now apply valid_utf8_iff.
  - exists (mkResult None [e]). unfold parse_string in *. rewrite E in *. split; [reflexivity|].
    assert (G : good_or_eof t) by (apply tokens_of_good in To; rewrite Forall_forall in To; auto).
    apply (range_error_spec file t e G) in Re. destruct Re as (k & lit & col & L & Nr & ->). eapply parsed_range; eauto.
  - exists (mkResult None [e]). unfold parse_string in *. pose proof E as E'. rewrite E. split; [reflexivity|].
    pose proof (text_of_unique _ _ _ (strip_bom_text data) T) as Es. unfold scan in E'. rewrite Es, U in E'. cbn [negb] in E'.
    destruct (tokenize_spec s) as (ls & rest & body & line & col & L & Ta & G & Et & P). rewrite Et in E'.
    assert (Sn : ~ sentence (body ++ [end_token rest line col])).
    { intros Se. apply (N (body ++ [end_token rest line col])%list); [|exact Se]. apply tokenize_tokens_of. split; [exact Et|]. exists body, (end_token rest line col). split; [reflexivity|]. split; [exact G|].
      destruct Se as [p Tp]. now destruct (program_end _ _ _ _ Tp (end_not_plain rest line col)). }
    destruct (not_sentence_parse _ _ G (end_not_plain rest line col) Sn) as (t & w & Pp & O). rewrite Pp in E'. injection E' as <-. unfold antlr_error.
    destruct t as [k text l c]. cbn [tk_line tk_col tk_text tk_kind]. rewrite (syntax_error_at file l c text _ k) by (destruct k; discriminate).
    eapply parsed_error; eauto. now apply scanned_tokenize.
Qed.
Theorem parse_not_utf8 file rtl data s : text_of data s -> ~ utf8 s -> exists w, parse_string file rtl data = Throw w.
Proof.
  intros T U. pose proof (text_of_unique _ _ _ (strip_bom_text data) T) as Es. unfold parse_string, scan. rewrite Es.
  destruct (valid_utf8 s) eqn:V; [apply valid_utf8_iff in V; contradiction|]. cbn. eauto.
Qed.

(** The order of evaluation matters only for which of several out-of-range literals is reported. *)
Theorem text_means_unique file s p q : utf8 s -> text_means file s p -> text_means file s q -> p = q.
Proof.
  intros U P Q. assert (exists data, text_of data s) as [data T].
  { exists (byte_order_mark ++ s). now left. }
  apply (parse_reads file false data s p T U) in P. apply (parse_reads file false data s q T U) in Q. congruence.
Qed.
