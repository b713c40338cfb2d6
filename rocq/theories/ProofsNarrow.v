(** Positions in texts below 4 GiB fit in 32 bits (C86). *)
From Verif Require Import Base ModelUtils ModelVersion ModelError ModelTypes ModelOverload ModelAst ModelAnalyzer ModelSemantic ModelLexer ModelParser ModelSyntactic
  SpecUtils SpecTypes SpecInstructions SpecAnalyzer SpecLexer SpecParser SpecSyntax SpecLiteral SpecTree SpecReading SpecSites SpecRelocate SpecNarrow
  ProofsTypes ProofsExpr ProofsAnalyzer ProofsAnalyzer2 ProofsAnalyzer4 ProofsRelocate ProofsTree ProofsReading ProofsSites ProofsLexer ProofsLexer2 ProofsLexer3 ProofsLayout2.
Local Open Scope string_scope.

(** ** Positions in a text *)
Lemma line_feeds_length s : (line_feeds s <= N.of_nat (String.length s))%N.
Proof. induction s as [|c s IH]; cbn [line_feeds String.length]; [lia|]. destruct (is_lf c); lia. Qed.
Lemma last_line_length s : (characters (last_line s) <= N.of_nat (String.length s))%N.
Proof.
  assert (C : forall t, (characters t <= N.of_nat (String.length t))%N). { induction t as [|c t IH]; cbn [characters String.length]; [lia|]. destruct (continues c); lia. }
  induction s as [|c s IH]; [cbn; lia|]. cbn [last_line]. destruct (line_feeds (String c s) =? 0)%N; [apply C|]. cbn [String.length]. lia.
Qed.
Definition token_fits (t : token) : Prop :=
  (tk_line t < 2 ^ 32 /\ tk_col t + 1 < 2 ^ 32 /\ tk_col t + 1 + N.of_nat (String.length (tk_text t)) < 2 ^ 32)%N.
Lemma length_append a b : String.length (a ++ b) = (String.length a + String.length b)%nat.
Proof. induction a as [|c a IH]; cbn; [reflexivity|now rewrite IH]. Qed.
Lemma text_at_fits s t : below_4_gib s -> text_at s (tk_text t) (tk_line t) (tk_col t + 1) -> token_fits t.
Proof.
  intros B (a & b & -> & E1 & E2). unfold below_4_gib in B. rewrite !length_append in B. unfold token_fits, line_of, column_of in *.
  pose proof (line_feeds_length a). pose proof (last_line_length a). lia.
Qed.
Lemma scanned_fits s ts t : below_4_gib s -> scanned s ts -> In t ts -> token_fits t.
Proof.
  intros B [ts' To|ls rest body read line col L N Es Ta P1 P2] H.
  - eapply text_at_fits; [exact B|]. eapply tokens_of_text; eauto.
  - apply in_app_or in H. destruct H as [H|[<-|[]]].
    + eapply text_at_fits; [exact B|]. pose proof (tokenisation_lossless _ _ _ _ L) as E. rewrite E. exact (tokens_at_text "" ls body Ta rest t H).
    + eapply text_at_fits; [exact B|]. exists read, rest. cbn [tk_text tk_line tk_col String.append]. auto.
Qed.

(** ** Trees all of whose locations are left as they are *)
Section Fixed.
  Variable f : loc -> loc.
  Hypothesis Fn : f None = None.
  Notation fixed l := (Forall (fun x : site => f (fst x) = fst x) l).
  Section Means.
    Variables (file : option string) (fm : string -> float -> Prop).
    Scheme expr_means_min := Minimality for expr_means Sort Prop
      with exprs_mean_min := Minimality for exprs_mean Sort Prop
      with entries_mean_min := Minimality for entries_mean Sort Prop.
    Combined Scheme means_mutind from expr_means_min, exprs_mean_min, entries_mean_min.
    Lemma fixed_exprs :
      (forall c e, expr_means file fm c e -> fixed (expr_sites e) -> relocate_expr f e = e) /\
      (forall cs es, exprs_mean file fm cs es -> fixed (flat_map expr_sites es) -> map (relocate_expr f) es = es) /\
      (forall cs is, entries_mean file fm cs is -> fixed (flat_map entry_sites is) -> map (relocate_entry f) is = is).
    Proof.
      apply means_mutind; cbn [expr_sites entry_sites flat_map]; intros;
        repeat match goal with
        | H : Forall _ (_ :: _) |- _ => apply Forall_cons_iff in H; destruct H as [? H]
        | H : Forall _ (_ ++ _)%list |- _ => apply Forall_app in H; destruct H as [? H]
        end; cbn [fst] in *; rewrite ?relocate_index; cbn [relocate_expr option_map map]; rewrite ?relocate_item, ?relocate_range, ?Fn; try (f_equal; auto; fail); auto.
      - f_equal; auto. f_equal. auto.
      - f_equal; [f_equal; auto|auto].
      - f_equal; [f_equal; auto|auto].
    Qed.
    Definition fixed_expr := proj1 fixed_exprs.
    Definition fixed_list := proj1 (proj2 fixed_exprs).
    Lemma fixed_params ps es : params_mean file fm ps es -> fixed (flat_map expr_sites es) -> map (relocate_expr f) es = es.
    Proof. intros [|cs es' M]; [reflexivity|]. now apply (fixed_list cs). Qed.
    Lemma fixed_gate c g : gate_means file fm c g -> fixed (gate_sites g) -> relocate_gate f g = g.
    Proof.
      induction 1 as [t c g M IH|t ce e c g Me M IH|t c g M IH|t ps es M]; intros H; cbn [gate_sites] in H; apply Forall_cons_iff in H; destruct H as [E H]; cbn [fst] in E;
        apply Forall_app in H; destruct H as [H1 H2]; cbn [relocate_gate option_map map]; rewrite E.
      - now rewrite IH.
      - cbn [flat_map] in H2. rewrite app_nil_r in H2. rewrite IH by exact H1. now rewrite (fixed_expr _ _ Me H2).
      - now rewrite IH.
      - now rewrite (fixed_params _ _ M H2).
    Qed.
    Lemma fixed_statement c st : statement_means file fm c st -> fixed (statement_sites st) -> fixed (array_sites st) -> relocate_statement f st = st.
    Proof.
      intros M H A. destruct M; cbn [statement_sites array_sites flat_map] in *;
        repeat match goal with
        | H : Forall _ (_ :: _) |- _ => apply Forall_cons_iff in H; destruct H as [? H]
        | H : Forall _ (_ ++ _)%list |- _ => apply Forall_app in H; destruct H as [? H]
        end; cbn [fst] in *; cbn [relocate_statement map]; f_equal; auto;
        try (eapply fixed_gate; eassumption); try (eapply fixed_list; eassumption); try (eapply fixed_params; eassumption);
        try (f_equal; [eapply fixed_expr; eassumption|]); try (f_equal; eapply fixed_expr; eassumption).
      - match goal with T : type_means _ _ _ |- _ => destruct T end; unfold relocate_type; cbn [ty_loc ty_name ty_size] in *; f_equal;
          match goal with X : Forall _ (_ :: _) |- _ => apply Forall_cons_iff in X; apply X end.
    Qed.
    Lemma fixed_program c p : program_means file fm c p -> fixed (program_sites p) -> fixed (flat_map array_sites (prog_statements p)) -> relocate_program f p = p.
    Proof.
      intros [v x cs ss Mv Ms] H A. unfold program_sites in H. cbn [prog_version_loc prog_version prog_statements] in H, A. apply Forall_cons_iff in H. destruct H as [E H]. cbn [fst] in E.
      unfold relocate_program. cbn [prog_version prog_version_loc prog_statements prog_block_loc]. rewrite E, Fn. f_equal.
      clear Mv E. induction Ms as [|c0 st cs ss M Ms IH]; [reflexivity|]. cbn [flat_map] in H, A. apply Forall_app in H, A. cbn [map]. f_equal; [eapply fixed_statement; [exact M|tauto..]|apply IH; tauto].
    Qed.
  End Means.
End Fixed.

(** ** Positions as far as they fit *)
Definition top : N := (2 ^ 32 - 1)%N.
Definition cap_index (i : index) : index := (if top <? line i then mkIndex top top else mkIndex (line i) (N.min (column i) top))%N.
Definition cap : loc -> loc :=
  option_map (fun l => mkRawLocation (file_name l) (mkRawRange (cap_index (first (loc_range l))) (cap_index (last (loc_range l))))).
Lemma cap_strict a b : index_ltb (cap_index a) (cap_index b) = true -> index_ltb a b = true.
Proof. unfold index_ltb, cap_index. destruct (top <? line a)%N eqn:A, (top <? line b)%N eqn:B; cbn [line column]; lia. Qed.
Lemma cap_weak a b : index_ltb a b = true -> index_ltb (cap_index a) (cap_index b) = false -> cap_index a = cap_index b.
Proof.
  unfold index_ltb, cap_index. destruct (top <? line a)%N eqn:A, (top <? line b)%N eqn:B; cbn [line column]; intros H K; try reflexivity; try (f_equal; lia).
Qed.
Lemma cap_min a b : cap_index (index_min a b) = index_min (cap_index a) (cap_index b).
Proof.
  unfold index_min. destruct (index_ltb b a) eqn:E, (index_ltb (cap_index b) (cap_index a)) eqn:F; auto.
  - now apply cap_weak.
  - apply cap_strict in F. congruence.
Qed.
Lemma cap_max a b : cap_index (index_max a b) = index_max (cap_index a) (cap_index b).
Proof.
  unfold index_max. destruct (index_ltb a b) eqn:E, (index_ltb (cap_index a) (cap_index b)) eqn:F; auto.
  - symmetry. now apply cap_weak.
  - apply cap_strict in F. congruence.
Qed.
Lemma cap_compatible : compatible cap.
Proof.
  split; [reflexivity|intros [l|] n; reflexivity|]. intros [b|] [s|]; try reflexivity. unfold merge, cap. cbn [option_map]. f_equal. unfold expand_to_include. cbn [file_name loc_range first last].
  now rewrite !cap_min, !cap_max.
Qed.
Lemma low_small n : (n < 2 ^ 32)%N -> low_32 n = n.
Proof. intros H. unfold low_32. now apply N.mod_small. Qed.
Lemma low_below n : (low_32 n < 2 ^ 32)%N.
Proof. unfold low_32. apply N.mod_lt. discriminate. Qed.
Lemma cap_small i : (line i < 2 ^ 32 -> column i < 2 ^ 32 -> cap_index i = i)%N.
Proof. intros A B. unfold cap_index, top. destruct i as [l c]. cbn [line column] in *. destruct (2 ^ 32 - 1 <? l)%N eqn:E; [lia|]. f_equal. lia. Qed.
Lemma cap_below i : (line (cap_index i) < 2 ^ 32 /\ column (cap_index i) < 2 ^ 32)%N.
Proof. unfold cap_index, top. destruct (_ <? _)%N eqn:E; cbn [line column]; lia. Qed.
Lemma stored_cap l : stored_32 (cap l) = cap l.
Proof.
  destruct l as [l|]; [|reflexivity]. unfold stored_32, cap. cbn [option_map file_name loc_range first last]. unfold index_32.
  destruct (cap_below (first (loc_range l))) as [A1 A2], (cap_below (last (loc_range l))) as [B1 B2]. rewrite !low_small by assumption. destruct (cap_index _), (cap_index (last _)). reflexivity.
Qed.
Lemma cap_stored l : cap (stored_32 l) = stored_32 l.
Proof.
  destruct l as [l|]; [|reflexivity]. unfold stored_32, cap. cbn [option_map file_name loc_range first last]. rewrite !cap_small; try reflexivity; apply low_below.
Qed.
Lemma cap_span file t1 t2 : token_fits t1 -> token_fits t2 -> cap (span file t1 t2) = span file t1 t2.
Proof.
  intros (A1 & A2 & A3) (B1 & B2 & B3). unfold span, cap. cbn [option_map file_name loc_range first last]. now rewrite !cap_small.
Qed.

(** ** A change of locations after which another changes nothing *)
Section After.
  Variables f g : loc -> loc.
  Hypothesis gf : forall l, g (f l) = f l.
  Lemma after_annotation a : relocate_sem_annotation g (relocate_sem_annotation f a) = relocate_sem_annotation f a.
  Proof. unfold relocate_sem_annotation. cbn. now rewrite gf. Qed.
  Lemma after_map {A} (h k : A -> A) l : (forall a, h (k a) = k a) -> map h (map k l) = map k l.
  Proof. intros H. rewrite map_map. apply map_ext. exact H. Qed.
  Lemma after_sem_gate : forall x, relocate_sem_gate g (relocate_sem_gate f x) = relocate_sem_gate f x.
  Proof.
    fix IH 1. intros [l n i ps ans]. cbn [relocate_sem_gate]. rewrite gf, (after_map _ _ _ after_annotation). destruct i as [i|]; cbn [option_map]; [now rewrite IH|reflexivity].
  Qed.
  Lemma after_sem_statement x : relocate_sem_statement g (relocate_sem_statement f x) = relocate_sem_statement f x.
  Proof. destruct x; cbn [relocate_sem_statement]; now rewrite gf, ?after_sem_gate, (after_map _ _ _ after_annotation). Qed.
  Lemma after_block b : relocate_block g (relocate_block f b) = relocate_block f b.
  Proof. unfold relocate_block. cbn [blk_statements blk_loc]. now rewrite gf, (after_map _ _ _ after_sem_statement). Qed.
  Lemma after_variable v : relocate_variable g (relocate_variable f v) = relocate_variable f v.
  Proof. unfold relocate_variable. cbn [sv_var sv_annots]. now rewrite (after_map _ _ _ after_annotation). Qed.
  Lemma after_sem_program p : relocate_sem_program g (relocate_sem_program f p) = relocate_sem_program f p.
  Proof. unfold relocate_sem_program. cbn. now rewrite gf, after_block, (after_map _ _ _ after_variable). Qed.
  Lemma after_error e : relocate_error g (relocate_error f e) = relocate_error f e.
  Proof. unfold relocate_error. cbn. now rewrite gf. Qed.
  Lemma after_result {A} (h k : A -> A) (r : result A) : (forall a, h (k a) = k a) -> relocate_result g h (relocate_result f k r) = relocate_result f k r.
  Proof. intros H. destruct r as [o es]. unfold relocate_result. cbn [res_root res_errors]. rewrite (after_map _ _ _ after_error). destruct o; cbn; now rewrite ?H. Qed.
  Lemma after_scope s : relocate_scope g (relocate_scope f s) = relocate_scope f s.
  Proof. unfold relocate_scope. cbn. now rewrite after_block, (after_map _ _ _ after_variable). Qed.
  Lemma after_analyzer s : relocate_analyzer g (relocate_analyzer f s) = relocate_analyzer f s.
  Proof. unfold relocate_analyzer. cbn. now rewrite (after_map _ _ _ after_scope). Qed.
End After.

(** ** Results *)
Lemma in_text_cap file s l : below_4_gib s -> in_text file s l -> cap (Some l) = Some l /\ stored_32 (Some l) = Some l.
Proof.
  intros B (a & t & b & -> & ->). unfold below_4_gib in B. rewrite !length_append in B. unfold cap, stored_32. cbn [option_map file_name loc_range first last].
  assert (P : forall x, (String.length x <= String.length a + String.length t)%nat -> (line (position x) < 2 ^ 32 /\ column (position x) < 2 ^ 32)%N).
  { intros x L. unfold position, line_of, column_of. cbn [line column]. pose proof (line_feeds_length x). pose proof (last_line_length x). lia. }
  destruct (P a ltac:(lia)) as [A1 A2], (P (a ++ t) ltac:(rewrite length_append; lia)) as [B1 B2].
  rewrite !cap_small by assumption. unfold index_32. rewrite !low_small by assumption. split; [reflexivity|]. destruct (position a), (position (a ++ t)). reflexivity.
Qed.
Lemma placed_fixed f file s x : (forall l, in_text file s l -> f (Some l) = Some l) -> placed file s x -> f (fst x) = fst x.
Proof. intros H (a & t & b & Es & _ & ->). apply H. exists a, t, b. auto. Qed.
Lemma parsed_fixed f file s r : f None = None -> (forall l, in_text file s l -> f (Some l) = Some l) ->
  (forall ts t1 t2, scanned s ts -> In t1 ts -> In t2 ts -> f (span file t1 t2) = span file t1 t2) ->
  (forall ts t k lit col, tokens_of s ts -> In t ts -> literal_in t k lit col -> f (location (out_of_range file k lit (tk_line t) col)) = location (out_of_range file k lit (tk_line t) col)) ->
  parsed file s r -> relocate_result f (relocate_program f) r = r.
Proof.
  intros Fn Fi Ft Fl [ts p To Se Ra M|ts t k lit col To Se Ht L _|ts t m Sc _ O]; unfold relocate_result; cbn [res_root res_errors option_map map].
  - destruct (program_placed file s p M) as [P A]. destruct M as (ts' & c & _ & _ & _ & M). rewrite (fixed_program f Fn file reads_double c p M); [reflexivity| |].
    + eapply Forall_impl; [|exact P]. intros x [Px _]. now apply (placed_fixed f file s).
    + eapply Forall_impl; [|exact A]. intros x Px. now apply (placed_fixed f file s).
  - unfold relocate_error. rewrite (Fl ts); auto.
  - unfold relocate_error. cbn [location message]. destruct O as (u & w & -> & _). unfold at_token. rewrite (Ft _ t t Sc); auto; apply in_or_app; right; now left.
Qed.
Lemma literal_fits t k lit col : literal_in t k lit col -> token_fits t -> token_fits (mkToken k "" (tk_line t) col).
Proof.
  intros L (A & B & C). unfold token_fits. cbn [tk_line tk_col tk_text String.length]. destruct L as [| | |a b K E|a b K E]; try lia. rewrite E, !length_append in C. cbn [String.length] in C. lia.
Qed.
Lemma parsed_cap file s r : below_4_gib s -> parsed file s r -> relocate_result cap (relocate_program cap) r = r.
Proof.
  intros B. apply parsed_fixed; [reflexivity|intros l H; now apply (in_text_cap file s)| |].
  - intros ts t1 t2 Sc H1 H2. apply cap_span; eapply scanned_fits; eauto.
  - intros ts t k lit col To Ht L. unfold out_of_range. cbn [location]. apply cap_span; apply (literal_fits t k lit col L); (eapply scanned_fits; [exact B|apply scanned_all; exact To|exact Ht]).
Qed.
Lemma parsed_stored file s r : below_4_gib s -> parsed file s r -> relocate_result stored_32 (relocate_program stored_32) r = r.
Proof.
  assert (K : forall t1 t2, token_fits t1 -> token_fits t2 -> stored_32 (span file t1 t2) = span file t1 t2) by (intros t1 t2 H1 H2; rewrite <- (cap_span file t1 t2 H1 H2); apply stored_cap).
  intros B. apply parsed_fixed; [reflexivity|intros l H; now apply (in_text_cap file s)| |].
  - intros ts t1 t2 Sc H1 H2. apply K; eapply scanned_fits; eauto.
  - intros ts t k lit col To Ht L. unfold out_of_range. cbn [location]. apply K; apply (literal_fits t k lit col L); (eapply scanned_fits; [exact B|apply scanned_all; exact To|exact Ht]).
Qed.
Lemma string_stored file rtl data s r : text_of data s -> utf8 s -> below_4_gib s -> parse_string file rtl data = Ok r ->
  relocate_result stored_32 (relocate_program stored_32) r = r.
Proof. intros T U B E. destruct (parse_outcome file rtl data s T U) as (r' & E' & P). rewrite E in E'. injection E' as <-. now apply (parsed_stored file s). Qed.
Lemma analysis_stored lm rtl st data file s st' r : ordinary lm st -> relocate_analyzer stored_32 st = st ->
  text_of data s -> utf8 s -> below_4_gib s -> analyze_string rtl st data file = Ok (st', r) ->
  relocate_result stored_32 (relocate_sem_program stored_32) r = r /\ relocate_analyzer stored_32 st' = st'.
Proof.
  intros O Hs T U B E. destruct (parse_outcome file rtl data s T U) as (pr & E' & P). unfold analyze_string in E. rewrite E' in E. cbn [bind] in E.
  assert (Hc : relocate_analyzer cap st = st) by (rewrite <- Hs; apply after_analyzer, cap_stored).
  pose proof (rel_analyze cap cap_compatible lm st pr O) as R. rewrite Hc, (parsed_cap file s pr B P), E in R. cbn [omap] in R. unfold relocate_analysis in R. cbn [fst snd] in R. injection R as R1 R2.
  split.
  - rewrite R2. apply after_result; [apply stored_cap|]. apply after_sem_program, stored_cap.
  - rewrite R1. apply after_analyzer, stored_cap.
Qed.
