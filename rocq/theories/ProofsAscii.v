(** Proofs for C101: the messages of the analysis are printable. *)
From Coq Require DecimalString.
From Coq Require Import ZArith Lia ZifyBool ZifyN ZifyNat.
From Verif Require Import SpecPlace Base ModelUtils ModelVersion ModelError ModelTypes ModelOverload ModelFunctions ModelAst ModelAnalyzer ModelLexer ModelParser ModelSemantic
  SpecUtils SpecTypes SpecFunctions SpecInstructions SpecAnalyzer SpecLexer SpecSyntax SpecReading SpecPrint SpecSites SpecDiagnosis ProofsUtils ProofsDiagnosis ProofsDiagnosis2 ProofsSyntax SpecAscii.
Local Open Scope string_scope.

Lemma all_bytes_app P a b : all_bytes P a -> all_bytes P b -> all_bytes P (a ++ b).
Proof. induction a as [|c a IH]; cbn; [auto|]. intros [H H'] Hb. split; auto. Qed.
Lemma printable_app a b : printable a -> printable b -> printable (a ++ b).
Proof. apply all_bytes_app. Qed.
Lemma all_bytes_imp (P Q : ascii -> Prop) s : (forall c, P c -> Q c) -> all_bytes P s -> all_bytes Q s.
Proof. intros I. induction s as [|c s IH]; cbn; [auto|]. intros [H H']. split; auto. Qed.
Fixpoint printableb (s : string) : bool := match s with "" => true | String c s' => ((32 <=? N_of_ascii c) && (N_of_ascii c <=? 126))%N && printableb s' end.
Lemma printable_check s : printableb s = true -> printable s.
Proof. unfold printable. induction s as [|c s IH]; cbn; [auto|]. intros H. apply andb_true_iff in H. destruct H as [H H']. split; [unfold printable_char; lia|auto]. Qed.
Ltac lit := apply printable_check; reflexivity.
Ltac pieces := repeat (first [apply printable_app | assumption | lit]).
Lemma printable_concat sep l : printable sep -> Forall printable l -> printable (String.concat sep l).
Proof.
  intros Hs. induction 1 as [|x l Hx Hl IH]; [exact I|]. cbn [String.concat]. destruct l as [|y l]; [exact Hx|]. apply printable_app; [exact Hx|]. apply printable_app; [exact Hs|exact IH].
Qed.
Lemma digit_printable c : digit_char c -> printable_char c.
Proof. unfold digit_char, printable_char. lia. Qed.
Lemma printable_dec n : printable (dec_N n).
Proof. eapply all_bytes_imp; [exact digit_printable|apply dec_N_digits]. Qed.
Lemma printable_decZ z : printable (dec_Z z).
Proof.
  assert (X : forall u, printable (DecimalString.NilZero.string_of_uint u)). { assert (Y : forall u, printable (DecimalString.NilEmpty.string_of_uint u)) by (induction u; cbn; try (split; [unfold printable_char; cbn; lia|assumption]); exact I). destruct u; try apply Y. cbn. split; [unfold printable_char; cbn; lia|exact I]. }
  unfold dec_Z. destruct (Z.to_int z) as [u|u]; cbn [DecimalString.NilZero.string_of_int]; [apply X|]. split; [unfold printable_char; cbn; lia|apply X].
Qed.
Lemma printable_kind k : printable (kind_text k).
Proof. destruct k; lit. Qed.
Lemma printable_kinds vs : printable (kinds_text vs).
Proof. apply printable_concat; [lit|]. induction vs; cbn [map]; constructor; [apply printable_kind|assumption]. Qed.
Lemma printable_count n : printable (count_text n).
Proof. apply printable_dec. Qed.
Lemma printable_usable n : usable n -> printable n.
Proof.
  intros [F _]. inversion F as [? ? Hi|? ? Hi| | | | | | | |c s Lc Hs|]; subst.
  - cbn in Hi. exfalso. repeat (destruct Hi as [Hi|Hi]; [discriminate Hi|]). contradiction.
  - cbn in Hi. exfalso. repeat (destruct Hi as [Hi|Hi]; [discriminate Hi|]). contradiction.
  - assert (Lp : forall c, letter c -> printable_char c). { intros d [H|[H| ->]]; unfold code_between in *; unfold printable_char; [lia|lia|cbn; lia]. }
    assert (Dp : forall c, digit c -> printable_char c). { intros d H. unfold digit, code_between in *. unfold printable_char. lia. }
    split; [now apply Lp|]. eapply all_bytes_imp; [|exact Hs]. intros d [H|H]; auto.
Qed.

(** ** Expressions *)
Lemma all_writable_in es e : all_writable es -> In e es -> writable e.
Proof. induction 1; cbn; [tauto|]. intros [<-|H1]; auto. Qed.
Lemma writable_entry before i after : writable_entries (before ++ i :: after) -> writable_entries [i].
Proof.
  induction before as [|x before IH]; cbn [app]; intros H; [inversion H; subst; constructor; auto; constructor|]. apply IH. inversion H; subst; assumption.
Qed.
Lemma writable_calls e f args : writable e -> calls e = Some (f, args) -> printable f /\ forall a, In a args -> writable a.
Proof.
  intros W. destruct W; cbn [calls]; intros E; try discriminate E; injection E as <- <-.
  - split; [now apply printable_usable|intros a []].
  - split; [now apply printable_usable|]. intros a. now apply all_writable_in.
  - split; [destruct o; lit|]. cbn. intros x [<-|[]]. assumption.
  - split; [destruct o; lit|]. cbn. intros x [<-|[<-|[]]]; assumption.
  - split; [lit|]. cbn. intros x [<-|[<-|[<-|[]]]]; assumption.
Qed.
Lemma problem_printable st :
  (forall e m p, problem st e m p -> writable e -> printable m) /\
  (forall i m p, entry_problem st i m p -> writable_entries [i] -> printable m) /\
  (forall e m p, int_problem st e m p -> writable e -> printable m).
Proof.
  apply (problems_ind st (fun e m _ => writable e -> printable m) (fun i m _ => writable_entries [i] -> printable m) (fun e m _ => writable e -> printable m)).
  - intros l n _ W. inversion W; subst. pose proof (printable_usable n ltac:(assumption)). pieces.
  - intros l b idx m p _ IH W. inversion W; subst. apply IH. now constructor.
  - intros l b idx x _ _ W. pose proof (printable_kind (kind (var_type x))). pieces.
  - intros l b before i after x zs m p _ _ _ _ IH W. inversion W; subst. apply IH. eapply writable_entry; eauto.
  - intros l b idx x before z after _ _ _ _ _ W. pose proof (printable_decZ z). pose proof (printable_decZ (tsize (var_type x))). pieces.
  - intros e f before a after vs m p C _ _ IH W. apply IH. eapply writable_calls; eauto. apply in_or_app. right. now left.
  - intros e f args vs C _ _ W. destruct (writable_calls _ _ _ W C) as [P _]. pieces.
  - intros e f args vs C _ _ _ W. destruct (writable_calls _ _ _ W C) as [P _]. pose proof (printable_kinds vs). pieces.
  - intros l e m p _ IH W. inversion W; subst. auto.
  - intros l a b m p _ IH W. inversion W; subst. auto.
  - intros l a b z m p _ _ IH W. inversion W; subst. auto.
  - intros. lit.
  - intros e m p _ IH W. auto.
  - intros. lit.
Qed.
Lemma first_problem_printable st es m p : first_problem st es m p -> all_writable es -> printable m.
Proof.
  intros [before e after vs m' p' _ P] W. eapply (proj1 (problem_printable st)); [exact P|]. eapply all_writable_in; [exact W|]. apply in_or_app. right. now left.
Qed.

(** ** Gates and statements *)
Lemma misfit_printable n k : printable n -> printable (misfit_text n k).
Proof. intros H. pose proof (printable_kind k). unfold misfit_text. pieces. Qed.
Lemma parameters_printable n vs m : printable n -> parameters_problem n vs m -> printable m.
Proof.
  intros H [| | |]; try (now apply misfit_printable); try pose proof (printable_count (List.length ks)); pose proof (printable_count (List.length vs)); pieces.
Qed.
Lemma gate_names l n i ps an : writable_gate (Gate l n i ps an) -> printable n /\ all_writable ps.
Proof. intros W. inversion W; subst; (split; [first [lit|now apply printable_usable]|]); try assumption; repeat constructor; assumption. Qed.
Lemma gate_printable st g m p : gate_problem st g m p -> writable_gate g -> printable m.
Proof.
  induction 1 as [l n g ps an m p _ IH|l n i ps an m p _ F|l n i ps an vs m _ _ P|]; intros W.
  - apply IH. inversion W; subst; assumption.
  - apply gate_names in W. eapply first_problem_printable; [exact F|apply W].
  - apply gate_names in W. eapply parameters_printable; [apply W|exact P].
  - lit.
Qed.
Lemma base_printable g : writable_gate g -> printable (gate_base g).
Proof. induction 1; cbn [gate_base]; try assumption. now apply printable_usable. Qed.
Lemma gate_text_printable g : writable_gate g -> printable (gate_text g).
Proof. intros W. inversion W; subst; cbn [gate_text]; try (apply printable_app; [lit|now apply base_printable]). now apply printable_usable. Qed.
Lemma pack_printable n vs : printable n -> printable (pack_text n vs).
Proof. intros H. pose proof (printable_kinds vs). unfold pack_text. pieces. Qed.
Lemma non_gate_names l n ops ps an : writable_statement (SNonGate l n ops ps an) -> printable n /\ all_writable ops /\ all_writable ps.
Proof.
  intros W. inversion W; subst.
  - split; [lit|]. split; [repeat constructor; assumption|assumption].
  - split; [lit|]. split; repeat constructor; assumption.
  - match goal with X : In _ _ |- _ => rename X into Hn end. split; [cbn in Hn; repeat (destruct Hn as [<- | Hn]; [lit|]); contradiction|]. split; repeat constructor; assumption.
Qed.
Lemma statement_printable st s m p : statement_problem st s m p -> writable_statement s -> printable m.
Proof.
  intros P W. destruct P; try (apply non_gate_names in W; destruct W as (Wn & Wo & Wp)); try lit; try (inversion W; subst); cbn [ty_name] in *.
  all: try (eapply first_problem_printable; eassumption); try (now apply pack_printable); try (now apply misfit_printable).
  - exfalso. match goal with X : _ = "qubit" \/ _ = "bit" |- _ => destruct X; congruence end.
  - match goal with X : _ = "qubit" \/ _ = "bit" |- _ => destruct X as [->| ->] end; lit.
  - match goal with X : usable _ |- _ => apply printable_usable in X end. pieces.
  - eapply gate_printable; eauto.
  - apply pack_printable. now apply gate_text_printable.
  - pose proof (printable_count (List.length ws)). pieces.
Qed.

(** ** Programs *)
Lemma diagnosed_printable st ss es : diagnosed st ss es -> Forall writable_statement ss -> Forall (fun e => printable (message e)) es.
Proof.
  induction 1 as [|st s st1 ss es _ _ _ IH|st s st1 m p ss es P _ _ IH]; intros W; [constructor| |]; inversion W; subst; auto. constructor; [|auto]. cbn. eapply statement_printable; eauto.
Qed.
Lemma version_printable v : printable (SpecDiagnosis.version_text v).
Proof. apply printable_concat; [lit|]. induction v; cbn [map]; constructor; [apply printable_decZ|assumption]. Qed.
Lemma version_error_printable api v l es : version_diagnosed api v l es -> Forall (fun e => printable (message e)) es.
Proof.
  intros [| |]; [constructor| |]; (constructor; [cbn [message]|constructor]); [lit|]. pose proof (version_printable api). pose proof (version_printable v). pieces.
Qed.
Lemma program_statements_writable p : writable_program p -> Forall writable_statement (prog_statements p).
Proof. now intros []. Qed.
Lemma printable_ascii s : printable s -> ascii_text s.
Proof. apply all_bytes_imp. unfold printable_char, byte_below. intros. lia. Qed.

(** ** Literals *)
Lemma digits_printable s : digits s -> printable s.
Proof. apply all_bytes_imp. unfold digit, code_between, printable_char. intros. lia. Qed.
Lemma literal_printable t k s col : good_token t -> literal_in t k s col -> printable s.
Proof.
  intros [m F] L. destruct L as [K|K|K D|a b K _ D _|a b K _ _ D]; try (now apply digits_printable); rewrite K in F; (destruct m; cbn in F; [|now inversion F]); inversion F as [? ? Hi|? ? Hi| | | | | |? ? D|a b e Da Db _ He| |]; subst; try (cbn in Hi; exfalso; repeat (destruct Hi as [Hi|Hi]; [discriminate Hi|]); contradiction).
  - now apply digits_printable.
  - apply digits_printable in Da, Db. apply printable_app; [assumption|]. apply (printable_app "."); [lit|]. apply printable_app; [assumption|].
    destruct He as [|e sg d He Hs Hd _]; [exact I|]. apply digits_printable in Hd. apply printable_app; [destruct He as [-> | ->]; lit|].
    apply printable_app; [destruct Hs as [-> | [-> | ->]]; lit|assumption].
Qed.
Lemma token_literals s ts t k lit col : tokens_of s ts -> In t ts -> literal_in t k lit col -> printable lit.
Proof.
  intros To I L. apply tokenize_tokens_of in To. destruct To as (_ & body & eof & -> & G & E). apply in_app_or in I. destruct I as [I|[<-|[]]].
  - eapply literal_printable; eauto. now apply (proj1 (Forall_forall _ _) G).
  - inversion L; congruence.
Qed.
Lemma out_of_range_printable file k s line col : printable s -> printable (message (SpecReading.out_of_range file k s line col)).
Proof. intros H. cbn [message SpecReading.out_of_range]. assert (printable (literal_name k)) by (destruct k; lit). pieces. Qed.
