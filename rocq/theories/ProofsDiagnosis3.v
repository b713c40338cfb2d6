(** Lemmas for C82: what is reported for gates and statements. *)
From Coq Require Import ZifyBool.
From Verif Require Import Base ModelUtils ModelVersion ModelError ModelTypes ModelOverload ModelFunctions
  ModelInstructionSet ModelAst ModelAnalyzer ModelSemantic SpecUtils SpecTypes SpecFunctions SpecInstructions SpecAnalyzer SpecSites SpecDiagnosis
  ProofsTypes ProofsFunctions ProofsFolding ProofsExpr ProofsInstructions ProofsGates ProofsIndex ProofsAnalyzer ProofsDiagnosis ProofsDiagnosis2.
Local Open Scope string_scope.

(** ** Parameters *)

Lemma fits_dec v k : fits_param v k \/ ~ fits_param v k.
Proof. unfold fits_param. destruct v, k; cbn; intuition discriminate. Qed.

Lemma loop_err n ks : param_kinds ks -> forall vs e, Forall ordinary_value vs -> List.length vs = List.length ks ->
  resolve_params_loop n (map type_char ks) vs = Err e -> exists k, first_misfit vs ks k /\ e = mkRawError (misfit_text n k) None.
Proof.
  induction 1 as [|k ks Hk _ IH]; intros vs e Ho L; destruct vs as [|v vs]; try discriminate.
  injection L as L. inversion Ho as [|? ? Hv Hvs]; subst. cbn [map resolve_params_loop].
  destruct (ordinary_typed v Hv) as [t Ht]. rewrite Ht, type_of_char_kind. cbn [bind].
  pose proof (check_promote_param v t k Hv Hk Ht) as CP. destruct (check_promote t (make_type k)); cbn [negb].
  - pose proof (proj1 CP eq_refl) as F. destruct (fits_promote v k F Hk) as (w & Ew & _). rewrite Ew. cbn [bind].
    destruct (resolve_params_loop n (map type_char ks) vs) as [ws|e'|w'|u] eqn:E; cbn [bind]; try discriminate. intros [= ->].
    destruct (IH vs e Hvs L E) as (k' & (vs1 & v' & vs2 & ks1 & k1 & ks2 & -> & -> & L2 & F2 & N & K) & ->).
    exists k'. split; [|reflexivity]. exists (v :: vs1), v', vs2, (k :: ks1), k1, ks2. repeat (split; [reflexivity|]). split; [exact L2|]. split; [now constructor|]. auto.
  - intros [= <-]. exists (operand_kind v). split.
    + exists [], v, vs, [], k, ks. repeat (split; [reflexivity|]). split; [exact L|]. split; [constructor|]. split; [|reflexivity].
      intros F. apply CP in F. discriminate.
    + rewrite type_text, (operand_kind_type v t Hv Ht). reflexivity.
Qed.
Lemma loop_misfit n ks : param_kinds ks -> forall vs k, Forall ordinary_value vs -> first_misfit vs ks k ->
  resolve_params_loop n (map type_char ks) vs = Err (mkRawError (misfit_text n k) None).
Proof.
  intros P vs k Ho (vs1 & v & vs2 & ks1 & k1 & ks2 & -> & -> & L & F & N & K). revert P Ho. induction F as [|a b vs1 ks1 Fab _ IH]; intros P Ho.
  - cbn [app map resolve_params_loop] in *. inversion P as [|? ? Hk _]; subst. inversion Ho as [|? ? Hv _]; subst.
    destruct (ordinary_typed v Hv) as [t Ht]. rewrite Ht, type_of_char_kind. cbn [bind].
    pose proof (check_promote_param v t k1 Hv Hk Ht) as CP. destruct (check_promote t (make_type k1)); cbn [negb]; [destruct (N (proj1 CP eq_refl))|].
    rewrite type_text, (operand_kind_type v t Hv Ht). reflexivity.
  - cbn [app map resolve_params_loop] in *. inversion P as [|? ? Hb P']; subst. inversion Ho as [|? ? Ha Ho']; subst.
    destruct (ordinary_typed a Ha) as [t Ht]. rewrite Ht, type_of_char_kind. cbn [bind].
    pose proof (check_promote_param a t b Ha Hb Ht) as CP. rewrite (proj2 CP Fab). cbn [negb].
    destruct (fits_promote a b Fab Hb) as (w & Ew & _). rewrite Ew. cbn [bind]. rewrite (IH P' Ho'). reflexivity.
Qed.
Lemma misfit_length vs ks k : first_misfit vs ks k -> List.length vs = List.length ks /\ ks <> [].
Proof.
  intros (vs1 & v & vs2 & ks1 & k1 & ks2 & -> & -> & L & F & _). split; [|destruct ks1; discriminate].
  rewrite !app_length. cbn. rewrite (Forall2_length F), L. reflexivity.
Qed.

Lemma takes_functional n ks ks' : takes n ks -> takes n ks' -> ks = ks'.
Proof.
  intros [[a H]|H] [[a' H']|H'].
  - destruct (gates_functional _ _ _ _ _ H H'); auto.
  - exfalso. assert (I : In n (map fst gates)) by exact (in_map fst _ _ H). cbn in H'. decompose [or] H'; try contradiction;
      (match goal with E : _ = (n, ks') |- _ => injection E as <- <- end); cbn in I; decompose [or] I; try contradiction; discriminate.
  - exfalso. assert (I : In n (map fst gates)) by exact (in_map fst _ _ H'). cbn in H. decompose [or] H; try contradiction;
      (match goal with E : _ = (n, ks) |- _ => injection E as <- <- end); cbn in I; decompose [or] I; try contradiction; discriminate.
  - eapply modifiers_functional; eauto.
Qed.
Lemma takes_not_non_gate n ks : takes n ks -> is_non_gate n = false.
Proof.
  intros H. apply not_non_gate. destruct (disjoint_names n) as [D1 D2]. destruct H as [[a H]|H].
  - apply D1. exact (in_map fst _ _ H).
  - intros I. apply (D2 I). exact (in_map fst _ _ H).
Qed.
Lemma takes_types n ks : takes n ks -> get_instruction_param_types n = Ok (spec_of ks).
Proof. intros [[a H]|H]; [eapply gate_param_types; eauto|now apply modifier_param_types]. Qed.

Lemma gate_parameters n vs e : ~ In n (map fst non_gates) -> Forall ordinary_value vs ->
  (resolve_parameters n vs = Err e <-> exists m, parameters_problem n vs m /\ e = mkRawError m None).
Proof.
  intros Hn Ho. unfold resolve_parameters. rewrite (not_non_gate n Hn).
  assert (D : (exists ks, takes n ks) \/ (~ In n (map fst gates) /\ ~ In n (map fst modifiers))).
  { destruct (in_dec string_dec n (map fst gates)) as [I|I].
    - apply In_names in I. destruct I as [[ks a] G]. left. exists ks. left. eauto.
    - destruct (in_dec string_dec n (map fst modifiers)) as [M|M]; [|auto]. apply In_names in M. destruct M as [ks M]. left. exists ks. now right. }
  destruct D as [[ks T]|[N1 N2]].
  - rewrite (takes_types n ks T). cbn [bind]. pose proof (gates_param_kinds n ks T) as P. unfold spec_of. destruct ks as [|k ks].
    + destruct vs as [|v vs]; cbn [List.length Nat.eqb].
      * split; [discriminate|]. intros (m & H & _). exfalso. inversion H as [U|T' V|ks T' V L|ks k T' M]; subst.
        -- exact (U _ T).
        -- exact (V eq_refl).
        -- apply V. exact (takes_functional _ _ _ T' T).
        -- rewrite (takes_functional _ _ _ T' T) in M. destruct (misfit_length _ _ _ M) as [_ X]. exact (X eq_refl).
      * split.
        -- intros [= <-]. eexists. split; [apply pp_none; [exact T|discriminate]|reflexivity].
        -- intros (m & H & ->). inversion H as [U|T' V|ks T' V L|ks k T' M]; subst.
           ++ destruct (U _ T).
           ++ reflexivity.
           ++ destruct (V (takes_functional _ _ _ T' T)).
           ++ rewrite (takes_functional _ _ _ T' T) in M. destruct (misfit_length _ _ _ M) as [_ X]. destruct (X eq_refl).
    + rewrite spec_length, list_ascii_of_string_of_list_ascii.
      destruct (Nat.eqb_spec (List.length vs) (List.length (k :: ks))) as [E|E]; cbn [negb].
      * split.
        -- intros H. destruct (loop_err n (k :: ks) P vs e Ho E H) as (k' & M & ->). eexists. split; [|reflexivity]. eapply pp_type; eauto.
        -- intros (m & H & ->). inversion H as [U|T' V|ks' T' V L|ks' k' T' M]; subst.
           ++ destruct (U _ T).
           ++ pose proof (takes_functional _ _ _ T' T). discriminate.
           ++ rewrite (takes_functional _ _ _ T' T) in L. contradiction.
           ++ rewrite (takes_functional _ _ _ T' T) in M. now apply loop_misfit.
      * split.
        -- intros [= <-]. eexists. split; [apply (pp_count n vs (k :: ks)); [exact T|discriminate|exact E]|reflexivity].
        -- intros (m & H & ->). inversion H as [U|T' V|ks' T' V L|ks' k' T' M]; subst.
           ++ destruct (U _ T).
           ++ pose proof (takes_functional _ _ _ T' T). discriminate.
           ++ rewrite (takes_functional _ _ _ T' T). reflexivity.
           ++ rewrite (takes_functional _ _ _ T' T) in M. destruct (misfit_length _ _ _ M) as [X _]. contradiction.
  - rewrite (unknown_param_types n N1 Hn N2). cbn [bind]. split.
    + intros [= <-]. eexists. split; [apply pp_unknown|reflexivity]. intros ks [[a G]|M]; [apply N1; exact (in_map fst _ _ G)|apply N2; exact (in_map fst _ _ M)].
    + assert (U : forall ks, ~ takes n ks) by (intros ks [[a G]|M]; [apply N1; exact (in_map fst _ _ G)|apply N2; exact (in_map fst _ _ M)]).
      intros (m & H & ->). inversion H as [U'|T' V|ks' T' V L|ks' k' T' M]; subst; try (destruct (U _ T')). reflexivity.
Qed.

Definition non_gate_parameters_problem (n : string) (ws : list value) (m : string) : Prop :=
  ((forall ks cs, In (n, (ks, cs)) non_gates -> List.length ws <> List.length ks) /\
   m = "instruction '" ++ n ++ "' does not have an overload with " ++ count_text (List.length ws) ++ " parameters.") \/
  exists ks cs k, In (n, (ks, cs)) non_gates /\ first_misfit ws ks k /\ m = misfit_text n k.

(** which parameter lists an instruction takes, by their length *)
Lemma non_gate_spec_count n (ws : list value) : In n (map fst non_gates) -> (n = "wait" -> ws <> []) ->
  (exists k ks cs, In (n, (k :: ks, cs)) non_gates /\ List.length ws = List.length (k :: ks) /\ param_kinds (k :: ks) /\
     get_non_gate_param_types_with_param_count n (List.length ws) = Some (string_of_list_ascii (map type_char (k :: ks))) /\
     (forall ks' cs', In (n, (ks', cs')) non_gates -> List.length ws = List.length ks' -> ks' = k :: ks)) \/
  (ws = [] /\ (exists cs, In (n, ([], cs)) non_gates) /\ get_non_gate_param_types_with_param_count n 0 = None) \/
  (ws <> [] /\ (forall ks cs, In (n, (ks, cs)) non_gates -> List.length ws <> List.length ks) /\
     get_non_gate_param_types_with_param_count n (List.length ws) = None).
Proof.
  intros Hn Hw. cbn in Hn.
  assert (Z : n = "reset" \/ n = "init" \/ n = "barrier" ->
    (ws = [] /\ (exists cs, In (n, ([], cs)) non_gates) /\ get_non_gate_param_types_with_param_count n 0 = None) \/
    (ws <> [] /\ (forall ks cs, In (n, (ks, cs)) non_gates -> List.length ws <> List.length ks) /\
     get_non_gate_param_types_with_param_count n (List.length ws) = None)).
  { intros D. destruct ws as [|w ws]; [left|right].
    - split; [reflexivity|]. destruct D as [->|[->| ->]]; (split; [eexists; cbn; tauto|reflexivity]).
    - split; [discriminate|]. split.
      + intros ks cs I. destruct D as [->|[->| ->]]; cbn in I; decompose [or] I; try contradiction;
          match goal with E : _ = (_, (ks, cs)) |- _ => try discriminate E; injection E as <- <- end; discriminate.
      + destruct D as [->|[->| ->]]; reflexivity. }
  destruct Hn as [<-|[<-|[<-|[<-|[<-|[<-|[]]]]]]].
  1-2: destruct ws as [|a [|b [|c [|d ws]]]];
    [right; left; split; [reflexivity|]; split; [eexists; cbn; tauto|reflexivity]
    |right; right; split; [discriminate|]; split; [|reflexivity]; intros ks cs I; cbn in I; decompose [or] I; try contradiction;
       match goal with E : _ = (_, (ks, cs)) |- _ => try discriminate E; injection E as <- <- end; discriminate
    |right; right; split; [discriminate|]; split; [|reflexivity]; intros ks cs I; cbn in I; decompose [or] I; try contradiction;
       match goal with E : _ = (_, (ks, cs)) |- _ => try discriminate E; injection E as <- <- end; discriminate
    |left; exists TFloat, [TFloat; TFloat], [Bits; Qubits]; split; [cbn; tauto|]; split; [reflexivity|]; split; [repeat constructor|]; split; [reflexivity|];
       intros ks cs I; cbn in I; decompose [or] I; try contradiction;
       match goal with E : _ = (_, (ks, cs)) |- _ => try discriminate E; injection E as <- <- end; (discriminate || reflexivity)
    |right; right; split; [discriminate|]; split; [|reflexivity]; intros ks cs I; cbn in I; decompose [or] I; try contradiction;
       match goal with E : _ = (_, (ks, cs)) |- _ => try discriminate E; injection E as <- <- end; discriminate].
  1-3: right; apply Z; auto.
  destruct ws as [|a [|b ws]].
  - destruct (Hw eq_refl eq_refl).
  - left. exists TInt, [], [Qubits]. split; [cbn; tauto|]. split; [reflexivity|]. split; [repeat constructor|]. split; [reflexivity|].
    intros ks cs I. cbn in I. decompose [or] I; try contradiction;
      match goal with E : _ = (_, (ks, cs)) |- _ => try discriminate E; injection E as <- <- end. reflexivity.
  - right; right; split; [discriminate|]; split; [|reflexivity]; intros ks cs I; cbn in I; decompose [or] I; try contradiction;
       match goal with E : _ = (_, (ks, cs)) |- _ => try discriminate E; injection E as <- <- end; discriminate.
Qed.
Lemma non_gate_parameters n ws e : In n (map fst non_gates) -> (n = "wait" -> ws <> []) -> Forall ordinary_value ws ->
  (resolve_parameters n ws = Err e <-> exists m, non_gate_parameters_problem n ws m /\ e = mkRawError m None).
Proof.
  intros Hn Hw Ho. unfold resolve_parameters. assert (N : is_non_gate n = true) by (apply non_gate_spec; now apply In_names in Hn). rewrite N.
  destruct (non_gate_spec_count n ws Hn Hw) as [(k & ks & cs & I & L & P & G & U)|[(-> & (cs & I) & G)|(E & X & G)]].
  - rewrite G, list_ascii_of_string_of_list_ascii. split.
    + intros H. destruct (loop_err n (k :: ks) P ws e Ho L H) as (k' & M & ->). eexists. split; [right|reflexivity]. exists (k :: ks), cs, k'. auto.
    + intros (m & [[X _]|(ks' & cs' & k' & I' & M & ->)] & ->).
      * destruct (X _ _ I L).
      * destruct (misfit_length _ _ _ M) as [L' _]. rewrite (U _ _ I' L') in M. now apply loop_misfit.
  - cbn [List.length]. rewrite G. split; [discriminate|]. intros (m & [[X _]|(ks' & cs' & k' & I' & M & ->)] & ->).
    + destruct (X _ _ I eq_refl).
    + destruct (misfit_length _ _ _ M) as [L' X]. destruct ks'; [destruct (X eq_refl)|discriminate L'].
  - rewrite G. destruct (Nat.eqb_spec (List.length ws) 0) as [Z|_]; [destruct ws; [destruct (E eq_refl)|discriminate]|]. split.
    + intros [= <-]. eexists. split; [left; split; [exact X|reflexivity]|reflexivity].
    + intros (m & [[_ ->]|(ks' & cs' & k' & I' & M & ->)] & ->); [reflexivity|]. destruct (misfit_length _ _ _ M) as [L' _]. destruct (X _ _ I' L').
Qed.

(** ** Gates *)

Lemma nearest_none l : nearest [None; l] = l.
Proof. now destruct l. Qed.
Lemma fits_stored vs ks : Forall2 fits_param vs ks -> param_kinds ks -> exists ws, stored_all vs ks ws.
Proof.
  induction 1 as [|v k vs ks F _ IH]; intros P; [exists []; constructor|]. inversion P as [|? ? Hk P']; subst.
  destruct (IH P') as [ws S]. destruct (fits_promote v k F Hk) as (w & Ew & C & K). exists (w :: ws). constructor; [exact F|split; auto|exact S].
Qed.

Section Statements.
  Variables (lm : libm) (st : analyzer).
  Hypothesis Hst : ordinary lm st.

  Lemma list_err es e : visit_expression_list st es = Err e -> first_problem st es (message e) (location e).
  Proof.
    intros E. apply mapM_err in E. destruct E as (before & a & after & bs & -> & Eb & Ea).
    destruct (expression_err st a e (visit_problem lm st Hst a) Ea) as (p & P & ->). econstructor; eauto.
  Qed.
  Lemma list_reports es m p : first_problem st es m p -> reports (visit_expression_list st es) m p.
  Proof.
    intros [before e after vs m' p' Ev P]. eapply mapM_reports; [exact Ev|]. apply context_reports. now apply (problem_reported lm st Hst).
  Qed.

  Lemma parameters_fit n ks vs ws : takes n ks -> Forall ordinary_value vs -> resolve_parameters n vs = Ok ws -> Forall2 fits_param vs ks.
  Proof. intros T Ho E. apply (resolve_parameters_known n ks vs T Ho) in E. now apply stored_all_iff in E. Qed.
  Lemma fit_parameters n ks vs : takes n ks -> Forall ordinary_value vs -> Forall2 fits_param vs ks -> exists ws, resolve_parameters n vs = Ok ws.
  Proof.
    intros T Ho F. destruct (fits_stored vs ks F (gates_param_kinds n ks T)) as [ws S]. exists ws. now apply (resolve_parameters_known n ks vs T Ho).
  Qed.
  Lemma legal_pure g : grammar_gate g -> forall a, legal_gate st g a -> exists sg, pure_gate st g = Ok sg.
  Proof.
    intros Hg a L. revert Hg. induction L as [l n ps ks a vs G Ev F|l g Lg IH|l g e v Lg IH Ev F|l g Lg IH]; intros Hg; cbn [pure_gate].
    - cbn [bind]. rewrite Ev. cbn [bind]. destruct (fit_parameters n ks vs (or_introl (ex_intro _ a G)) (visit_list_ordinary lm st Hst _ _ Ev) F) as [ws ->].
      cbn. eauto.
    - inversion Hg as [|? ? ? ? _ Hg']; subst. destruct (IH Hg') as [sg Es]. rewrite Es. cbn [bind visit_expression_list mapM].
      assert (T : takes "inv" []) by (right; cbn; auto). destruct (fit_parameters "inv" [] [] T) as [ws ->]; [constructor|constructor|]. cbn [bind check_gate].
      apply (pure_gate_spec lm st Hst g Hg') in Es. destruct Es as [_ S]. destruct (stored_resolution st g 1 Lg sg S) as (T2 & _).
      destruct (is_two_qubit_gate (gate_resolution_name sg)); [destruct T2 as [T2 _]; specialize (T2 eq_refl); discriminate|]. cbn. eauto.
    - inversion Hg as [|? ? ? ? _ Hg']; subst. destruct (IH Hg') as [sg Es]. rewrite Es. cbn [bind].
      assert (El : visit_expression_list st [e] = Ok [v]) by (unfold visit_expression_list; cbn [mapM]; rewrite Ev; reflexivity). rewrite El. cbn [bind].
      assert (T : takes "pow" [TFloat]) by (right; cbn; auto). destruct (fit_parameters "pow" [TFloat] [v] T) as [ws ->];
        [exact (visit_list_ordinary lm st Hst _ _ El)|constructor; [exact F|constructor]|]. cbn [bind check_gate].
      apply (pure_gate_spec lm st Hst g Hg') in Es. destruct Es as [_ S]. destruct (stored_resolution st g 1 Lg sg S) as (T2 & _).
      destruct (is_two_qubit_gate (gate_resolution_name sg)); [destruct T2 as [T2 _]; specialize (T2 eq_refl); discriminate|]. cbn. eauto.
    - inversion Hg as [|? ? ? ? _ Hg']; subst. destruct (IH Hg') as [sg Es]. rewrite Es. cbn [bind visit_expression_list mapM].
      assert (T : takes "ctrl" []) by (right; cbn; auto). destruct (fit_parameters "ctrl" [] [] T) as [ws ->]; [constructor|constructor|]. cbn [bind check_gate].
      apply (pure_gate_spec lm st Hst g Hg') in Es. destruct Es as [_ S]. destruct (stored_resolution st g 1 Lg sg S) as (T2 & _).
      destruct (is_two_qubit_gate (gate_resolution_name sg)); [destruct T2 as [T2 _]; specialize (T2 eq_refl); discriminate|]. cbn. eauto.
  Qed.
  Lemma not_non_gate_modifier n : In n (map fst modifiers) -> ~ In n (map fst non_gates).
  Proof. intros M I. destruct (disjoint_names n) as [_ D]. exact (D I M). Qed.

  Lemma gate_err g : grammar_gate g -> forall e, pure_gate st g = Err e -> gate_problem st g (message e) (location e).
  Proof.
    induction 1 as [l n ps H1 H2|l n g ps Hm Hg IH]; intros e E; cbn [pure_gate] in E; apply context_err in E; destruct E as (e' & E & -> & ->); cbn [bind] in E.
    - destruct (visit_expression_list st ps) as [vs|el|w|k] eqn:Ev; cbn [bind] in E; try discriminate E.
      + destruct (resolve_parameters n vs) as [ws|er|w|k] eqn:Er; cbn in E; try discriminate E. injection E as ->.
        apply (gate_parameters n vs e' H1 (visit_list_ordinary lm st Hst _ _ Ev)) in Er. destruct Er as (m & P & ->). cbn [message location]. rewrite nearest_none.
        eapply gp_parameters; [exact I|exact Ev|exact P].
      + injection E as ->. apply gp_parameter; [exact I|now apply list_err].
    - destruct (pure_gate st g) as [sg|eg|w|k] eqn:Eg; cbn [bind] in E; try discriminate E.
      + apply (pure_gate_spec lm st Hst g Hg) in Eg. destruct Eg as [[a L] S].
        destruct (visit_expression_list st ps) as [vs|el|w|k] eqn:Ev; cbn [bind] in E; try discriminate E.
        * pose proof (visit_list_ordinary lm st Hst _ _ Ev) as Ho.
          destruct (resolve_parameters n vs) as [ws|er|w|k] eqn:Er; cbn [bind] in E; try discriminate E.
          -- destruct (check_gate (Some sg)) as [u|ec|w|k] eqn:Ec; cbn [bind] in E; try discriminate E. injection E as ->. cbn [check_gate] in Ec.
             destruct (is_two_qubit_gate (gate_resolution_name sg)) eqn:T; [|discriminate Ec]. injection Ec as <-. cbn [message location mk_error mk_error_at error_context].
             rewrite nearest_none. apply In_names in Hm. destruct Hm as [ks M]. apply (gp_modifier st l n ks g ps [] vs).
             ++ destruct (stored_resolution st g a L sg S) as (T2 & _). rewrite <- (proj1 T2 T). exact L.
             ++ exact M.
             ++ exact Ev.
             ++ eapply parameters_fit; eauto. now right.
          -- injection E as ->. apply (gate_parameters n vs e' (not_non_gate_modifier n Hm) Ho) in Er. destruct Er as (m & P & ->). cbn [message location].
             rewrite nearest_none. eapply gp_parameters; [exists a; exact L|exact Ev|exact P].
        * injection E as ->. apply gp_parameter; [exists a; exact L|now apply list_err].
      + injection E as ->. apply gp_inner. now apply IH.
  Qed.

  Lemma inner_reports g m p : gate_problem st g m p -> grammar_gate g -> reports (pure_gate st g) m p.
  Proof.
    induction 1 as [l n g ps an m p _ IH|l n i ps an m p Hi P|l n i ps an vs m Hi Ev P|l n ks g ps an vs L M Ev F]; intros Hg; cbn [pure_gate].
    - inversion Hg as [|? ? ? ? _ Hg']; subst. apply context_reports. apply bind_reports, bind_reports. auto.
    - apply context_reports. assert (X : exists i', (match i with None => Ok None | Some g' => let! r := pure_gate st g' in Ok (Some r) end) = Ok i').
      { destruct i as [g'|]; [|eauto]. inversion Hg as [|? ? ? ? _ Hg']; subst. destruct Hi as [a L]. destruct (legal_pure g' Hg' a L) as [sg ->]. cbn. eauto. }
      destruct X as [i' ->]. cbn [bind]. apply bind_reports. now apply list_reports.
    - rewrite <- (nearest_none l) at 2. apply context_reports.
      assert (X : exists i', (match i with None => Ok None | Some g' => let! r := pure_gate st g' in Ok (Some r) end) = Ok i').
      { destruct i as [g'|]; [|eauto]. inversion Hg as [|? ? ? ? _ Hg']; subst. destruct Hi as [a L]. destruct (legal_pure g' Hg' a L) as [sg ->]. cbn. eauto. }
      destruct X as [i' ->]. cbn [bind]. rewrite Ev. cbn [bind]. apply bind_reports. left.
      apply gate_parameters; [|exact (visit_list_ordinary lm st Hst _ _ Ev)|eauto].
      inversion Hg as [? ? ? N1 _|? ? ? ? M _]; subst; [exact N1|now apply not_non_gate_modifier].
    - rewrite <- (nearest_none l) at 2. apply context_reports. inversion Hg as [|? ? ? ? _ Hg']; subst. destruct (legal_pure g Hg' 2 L) as [sg Es].
      rewrite Es. cbn [bind]. rewrite Ev. cbn [bind]. destruct (fit_parameters n ks vs (or_intror M) (visit_list_ordinary lm st Hst _ _ Ev) F) as [ws ->].
      cbn [bind check_gate]. apply (pure_gate_spec lm st Hst g Hg') in Es. destruct Es as [_ S]. destruct (stored_resolution st g 2 L sg S) as (T2 & _).
      rewrite (proj2 T2 eq_refl). left. reflexivity.
  Qed.

  (** ** Instructions *)

  Lemma resolution_cases n vs : Forall ordinary_value vs ->
    (exists r, resolve_instruction st n vs = Ok r) \/ resolve_instruction st n vs = Err (mkRawError (pack_text n vs) None).
  Proof.
    intros Ho. pose proof (ordinary_typed_list vs Ho) as Ht. destruct Hst as (_ & (st0 & g0 & inner & g & E0 & Eg & Es & Hi & Hg) & _).
    unfold resolve_instruction. rewrite Es.
    assert (G : sc_instructions g = register_all instruction_history).
    { rewrite Hg. rewrite default_analyzer_value in E0. injection E0 as <-. injection Eg as <-. reflexivity. }
    clear Es. induction Hi as [|s inner Hs _ IH]; cbn [resolve_instruction_in app].
    - rewrite G. destruct (resolve_total instruction_history n vs Ht) as [[r R]|[e R]]; rewrite R; [left; eauto|right].
      destruct (types_of_typed vs Ht) as [ts Et]. rewrite Et. cbn [bind]. rewrite (types_text vs Ho ts Et). reflexivity.
    - rewrite Hs. destruct (resolve_total ([] : list (registration instruction)) n vs Ht) as [[r R]|[e R]];
        change (register_all ([] : list (registration instruction))) with ([] : instruction_table) in R; rewrite R; [left; eauto|exact IH].
  Qed.
  Lemma suits_registered cs n vs ks0 : Forall ordinary_value vs -> In (n, (ks0, cs)) non_gates ->
    ((exists r, resolve_instruction st n vs = Ok r) <-> Forall2 addresses_some cs vs).
  Proof.
    intros Ho I. split.
    - intros [[i ws] R]. apply (resolve_instruction_default lm st Hst) in R; [|now apply ordinary_typed_list]. destruct R as (-> & ks & R & K & ->).
      apply (registered_non_gate_classes _ _ _ _ I) in R. apply operands_classes; eauto.
    - intros F. apply operands_classes in F; [|exact Ho]. destruct F as (kk & K' & C). exists (mkInstruction n (map make_type kk), vs).
      apply (resolve_instruction_default lm st Hst); [now apply ordinary_typed_list|]. split; [reflexivity|]. exists kk.
      split; [apply (registered_non_gate_classes _ _ _ _ I); exact C|auto].
  Qed.
  Lemma gate_registered g a sg vs : legal_gate st g a -> stored_gate st g sg -> Forall ordinary_value vs ->
    ((exists r, resolve_instruction st (gate_resolution_name sg) vs = Ok r) <-> List.length vs = a /\ Forall (addresses_some Qubits) vs).
  Proof.
    intros L S Ho. destruct (stored_resolution st g a L sg S) as (_ & _ & Rg). split.
    - intros [[i ws] R]. apply (resolve_instruction_default lm st Hst) in R; [|now apply ordinary_typed_list]. destruct R as (-> & ks & R & K & ->).
      apply Rg in R. destruct R as [La Q]. split; [rewrite (Forall2_length K); exact La|].
      clear -K Q Ho. revert Q Ho. induction K as [|v k vs ks H _ IH]; intros Q Ho; [constructor|]. inversion Q; subst. inversion Ho; subst. constructor; [|auto].
      apply addresses_kind; eauto.
    - intros [La F]. assert (X : exists ks, Forall2 has_kind vs ks /\ Forall (of_class Qubits) ks).
      { clear -F Ho. revert Ho. induction F as [|v vs A _ IH]; intros Ho; [exists []; auto|]. inversion Ho; subst. destruct IH as (ks & K & Q); [assumption|].
        apply addresses_kind in A; [|assumption]. destruct A as (k & A1 & A2). exists (k :: ks). auto. }
      destruct X as (ks & K & Q). exists (mkInstruction (gate_resolution_name sg) (map make_type ks), vs).
      apply (resolve_instruction_default lm st Hst); [now apply ordinary_typed_list|]. split; [reflexivity|]. exists ks.
      split; [apply Rg; split; [rewrite <- (Forall2_length K); exact La|exact Q]|auto].
  Qed.
  Lemma resolved_operands n vs r : Forall ordinary_value vs -> resolve_instruction st n vs = Ok r -> snd r = vs.
  Proof.
    intros Ho E. destruct r as [i ws]. apply (resolve_instruction_default lm st Hst) in E; [|now apply ordinary_typed_list]. now destruct E as (-> & _).
  Qed.
  Lemma sizes_check vs e : Forall (addresses_some Qubits) vs -> (check_gate_operands vs = Err e <->
    ~ (exists k, Forall (fun v => addresses Qubits v k) vs) /\ e = mkRawError "qubit operands indices have different sizes" None).
  Proof.
    intros F. unfold check_gate_operands. destruct (adjacent_equal (map qubit_indices_size vs)) eqn:A.
    - split; [discriminate|]. intros [N _]. exfalso. apply N. apply adjacent_equal_all in A.
      destruct A as [k A]. exists k. rewrite Forall_map in A. rewrite Forall_forall in *. intros v Hv.
      destruct (F v Hv) as [n Hn]. specialize (A v Hv). cbn in A. destruct (addresses_size _ _ _ Hn) as [Z1 _]. congruence.
    - split.
      + intros [= <-]. split; [|reflexivity]. intros [k K]. pose proof (operands_same_size vs k K) as E. unfold check_gate_operands in E. rewrite A in E. discriminate.
      + intros [_ ->]. reflexivity.
  Qed.

  Lemma gate_text_name g sg : stored_gate st g sg -> gate_resolution_name sg = gate_text g.
  Proof.
    intros S. inversion S as [? ? ? ks a vs ws G Ev N|? m ks ? vs ws g' sg' M Sg Ev N]; subst; [reflexivity|]. rewrite resolution_name, (stored_terminal st _ _ Sg).
    cbn [gate_text]. cbn in M. decompose [or] M; try contradiction; match goal with E : _ = (m, ks) |- _ => injection E as <- <- end; reflexivity.
  Qed.

  Lemma gate_statement_err l g ops e : grammar_gate g -> pure_gate_statement st l g ops = Err e ->
    statement_problem st (SGateInstr l g ops []) (message e) (nearest [location e; l]).
  Proof.
    intros Hg E. unfold pure_gate_statement in E. destruct (pure_gate st g) as [sg|eg|w|k] eqn:Eg; cbn [bind] in E; try discriminate E.
    - apply (pure_gate_spec lm st Hst g Hg) in Eg. destruct Eg as [[a L] S].
      destruct (visit_expression_list st ops) as [vs|el|w|k] eqn:Ev; cbn [bind] in E; try discriminate E.
      + pose proof (visit_list_ordinary lm st Hst _ _ Ev) as Ho. destruct (resolution_cases (gate_resolution_name sg) vs Ho) as [[r R]|R]; rewrite R in E; cbn [bind] in E.
        * rewrite (resolved_operands _ vs r Ho R) in E. assert (RR : exists r, resolve_instruction st (gate_resolution_name sg) vs = Ok r) by eauto.
          apply (gate_registered g a sg vs L S Ho) in RR. destruct RR as [La F].
          destruct (check_gate_operands vs) as [u|ec|w|k] eqn:Ec; cbn [bind] in E; try discriminate E.
          -- destruct (add_statement_ok lm st Hst (SemGateInstr l (fst r) sg vs [])) as [st' X]. congruence.
          -- injection E as ->. apply (sizes_check vs e F) in Ec. destruct Ec as [N ->]. cbn [message location]. rewrite nearest_none. eapply sp_gate_sizes; eauto.
        * injection E as <-. cbn [message location]. rewrite nearest_none. rewrite (gate_text_name g sg S). eapply sp_gate_operands; eauto.
          intros X. apply (gate_registered g a sg vs L S Ho) in X. destruct X as [r X]. congruence.
      + injection E as ->. eapply sp_gate_operand; eauto. now apply list_err.
    - injection E as ->. apply sp_gate. now apply gate_err.
  Qed.

  Lemma measure_check n ks cs vs e : In (n, (ks, cs)) non_gates -> Forall2 addresses_some cs vs -> (check_non_gate_operands n vs = Err e <->
    n = "measure" /\ ~ (exists k, Forall2 (fun c v => addresses c v k) [Bits; Qubits] vs) /\ e = mkRawError "qubit and bit indices have different sizes" None).
  Proof.
    intros I F. pose proof (measure_operands n ks cs vs I F) as M. unfold check_non_gate_operands in *. unfold is_measure in *.
    destruct (String.eqb_spec n "measure") as [->|N].
    - assert (cs = [Bits; Qubits]) by (cbn in I; decompose [or] I; try contradiction; congruence). subst cs.
      destruct (zsum (map qubit_indices_size vs) =? zsum (map bit_indices_size vs))%Z.
      + split; [discriminate|]. intros (_ & X & _). destruct (X (proj1 M eq_refl eq_refl)).
      + split; [|intros (_ & _ & ->); reflexivity]. intros [= <-]. split; [reflexivity|]. split; [|reflexivity].
        intros X. assert (Y : Err (mk_error "qubit and bit indices have different sizes") = Ok tt) by (apply M; auto). discriminate Y.
    - split; [discriminate|]. intros [X _]. destruct (N X).
  Qed.
  Lemma grammar_wait n ps ws : grammar_non_gate n ps -> visit_expression_list st ps = Ok ws -> n = "wait" -> ws <> [].
  Proof.
    intros (_ & W & _) E N ->. specialize (W N). unfold visit_expression_list in E. apply mapM_ok in E. inversion E; subst. discriminate.
  Qed.

  Lemma non_gate_statement_err l n ops ps e : grammar_non_gate n ps -> pure_non_gate_statement st l n ops ps = Err e ->
    statement_problem st (SNonGate l n ops ps []) (message e) (nearest [location e; l]).
  Proof.
    intros Hg E. pose proof (proj1 Hg) as Hn. destruct (In_names _ _ Hn) as [[ks0 cs] I0]. unfold pure_non_gate_statement in E.
    destruct (visit_expression_list st ops) as [vs|el|w|k] eqn:Ev; cbn [bind] in E; try discriminate E.
    - pose proof (visit_list_ordinary lm st Hst _ _ Ev) as Ho. destruct (resolution_cases n vs Ho) as [[r R]|R]; rewrite R in E; cbn [bind] in E.
      + rewrite (resolved_operands _ vs r Ho R) in E. assert (F : Forall2 addresses_some cs vs) by (apply (suits_registered cs n vs ks0 Ho I0); eauto).
        assert (Su : operands_suit n vs) by (exists ks0, cs; auto).
        destruct (visit_expression_list st ps) as [ws|ep|w|k] eqn:Ep; cbn [bind] in E; try discriminate E.
        * pose proof (visit_list_ordinary lm st Hst _ _ Ep) as Hop. destruct (resolve_parameters n ws) as [ws'|er|w|k] eqn:Er; cbn [bind] in E; try discriminate E.
          -- destruct (check_non_gate_operands n vs) as [u|ec|w|k] eqn:Ec; cbn [bind] in E; try discriminate E.
             ++ destruct (add_statement_ok lm st Hst (SemNonGate l (fst r) n vs ws' [])) as [st' X]. congruence.
             ++ injection E as ->. apply (measure_check n ks0 cs vs e I0 F) in Ec. destruct Ec as (-> & N & ->). cbn [message location]. rewrite nearest_none.
                apply (resolve_parameters_non_gate "measure" ws Hn Hop) in Er.
                assert (X : exists ks1 cs1, In ("measure", (ks1, cs1)) non_gates /\ Forall2 fits_param ws ks1).
                { destruct Er as [(ks1 & cs1 & I1 & S)|[-> _]]; [apply stored_all_iff in S; exists ks1, cs1; tauto|]. exists [], [Bits; Qubits]. cbn. auto. }
                destruct X as (ks1 & cs1 & I1 & F1). eapply sp_measure; eauto.
          -- injection E as ->. apply (non_gate_parameters n ws e Hn (grammar_wait n ps ws Hg Ep) Hop) in Er. destruct Er as (m & P & ->). cbn [message location].
             rewrite nearest_none. destruct P as [[X ->]|(ks & cs' & k & I & M & ->)]; [exact (sp_parameter_count st l n ops ps [] vs ws Ev Su Ep X)|exact (sp_parameter_type st l n ops ps [] vs ws ks cs' k Ev Su Ep I M)].
        * injection E as ->. eapply sp_parameter; eauto. now apply list_err.
      + injection E as <-. cbn [message location]. rewrite nearest_none. apply sp_operands with (vs := vs); [exact Ev|].
        intros (ks & cs' & I & F). apply (suits_registered cs' n vs ks Ho I) in F. destruct F as [r X]. congruence.
    - injection E as ->. apply sp_operand. now apply list_err.
  Qed.
End Statements.
