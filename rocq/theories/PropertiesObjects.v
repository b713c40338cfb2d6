(** Properties C72-C74: analyzers and results as objects. *)
From Verif Require Import Base ModelUtils ModelVersion ModelError ModelTypes ModelOverload ModelFunctions ModelAst ModelAnalyzer ModelSemantic ModelObjects
  SpecTypes SpecFunctions SpecInstructions SpecAnalyzer SpecObjects ProofsAnalyzer ProofsAnalyzer2 ProofsAnalyzer3 ProofsObjects ProofsScopes PropertiesAnalyzer.
Local Open Scope string_scope.

(** qubit n; g n *)
Definition gate_program (n g : string) : program := prog [qubit_decl n; gate_on g [] [name n]].

(** C72: refuted: the analyzer goes on writing to the block of a result it
    returned: after qubit q; H q, analysing qubit r; X r with the same analyzer makes
    the first result ill-formed. *)
Theorem C72_refuted : forall lm, exists w es r p w' es',
  history [CDefault lm "3.0"; CAnalyze 0 (gate_program "q" "H")] w es /\ In (EReturns r) es /\ res_errors r = [] /\ res_root r = Some p /\
  perform_all w [CAnalyze 0 (gate_program "r" "X")] = Ok (w', es') /\
  program_well_formed (show_program w p) = true /\ program_well_formed (show_program w' p) = false.
Proof.
  intros lm. destruct (ok_case (perform_all empty_world [CDefault lm "3.0"; CAnalyze 0 (gate_program "q" "H")]) (fun w es =>
    match es with
    | [EDone; EReturns r] => res_errors r = [] /\
        match res_root r with
        | Some p => program_well_formed (show_program w p) = true /\
            match perform_all w [CAnalyze 0 (gate_program "r" "X")] with
            | Ok (w', es') => program_well_formed (show_program w' p) = false
            | _ => False
            end
        | None => False
        end
    | _ => False
    end)) as (w & es & E & H).
  - vm_compute. repeat split; reflexivity.
  - destruct es as [|[] [|[|r| |] []]]; try contradiction. destruct H as [H1 H]. destruct (res_root r) as [p|] eqn:Er; [|contradiction].
    destruct H as [H2 H]. apply ok_case in H. destruct H as (w' & es' & E' & H3). exists w, [EDone; EReturns r], r, p, w', es'.
    split; [exact E|]. split; [cbn; auto|]. auto.
Qed.
(** What holds: at the moment analyze returns, the result is the one of the
    functional model, and so is the analyzer; *)
Theorem C72_at_return : forall cs w es i o p, history cs w es -> nth_error (w_analyzers w) i = Some o ->
  match analyze_ast (show_analyzer w o) p with
  | Ok (st, r) => exists w' r' o', perform w (CAnalyze i p) = Ok (w', EReturns r') /\ show_result w' r' = r /\
      nth_error (w_analyzers w') i = Some o' /\ show_analyzer w' o' = st
  | Err e => False
  | Throw k => (exists w', perform w (CAnalyze i p) = Ok (w', EThrows k)) \/ perform w (CAnalyze i p) = Throw k
  | UB k => perform w (CAnalyze i p) = UB k
  end.
Proof. exact analyze_returns. Qed.
(** later calls can only append statements to it; *)
Theorem C72_results_grow : forall cs w es r ds w' es', history cs w es -> In (EReturns r) es -> perform_all w ds = Ok (w', es') ->
  result_grown (show_result w r) (show_result w' r).
Proof. exact results_grow. Qed.
(** and it stays the same if only analyzers made later analyse, or are copied. *)
Theorem C72_results_kept : forall cs w es r ds w' es', history cs w es -> In (EReturns r) es -> perform_all w ds = Ok (w', es') ->
  Forall (leaves_alone (List.length (w_analyzers w))) ds -> show_result w' r = show_result w r.
Proof. exact results_kept. Qed.
Example C72_case : forall lm, exists w es w' es',
  history [CDefault lm "3.0"; CAnalyze 0 (gate_program "q" "H")] w es /\ List.length es = 2%nat /\ List.length (w_analyzers w) = 1%nat /\
  perform_all w [CDefault lm "3.0"; CAnalyze 1 (gate_program "r" "X"); CPush 0; CRegisterVariable 0 "q" (VInt 3)] = Ok (w', es') /\
  Forall (leaves_alone 1) [CDefault lm "3.0"; CAnalyze 1 (gate_program "r" "X"); CPush 0; CRegisterVariable 0 "q" (VInt 3)] /\
  match es' with [EDone; EReturns r; EDone; EDone] => res_errors r = [] | _ => False end.
Proof.
  intros lm. destruct (ok_case (perform_all empty_world [CDefault lm "3.0"; CAnalyze 0 (gate_program "q" "H")]) (fun w es =>
    List.length es = 2%nat /\ List.length (w_analyzers w) = 1%nat /\
    match perform_all w [CDefault lm "3.0"; CAnalyze 1 (gate_program "r" "X"); CPush 0; CRegisterVariable 0 "q" (VInt 3)] with
    | Ok (w', es') => match es' with [EDone; EReturns r; EDone; EDone] => res_errors r = [] | _ => False end
    | _ => False
    end)) as (w & es & E & H1 & H2 & H3).
  - vm_compute. repeat split; reflexivity.
  - apply ok_case in H3. destruct H3 as (w' & es' & E' & H3). exists w, es, w', es'. repeat (split; [assumption|]). split; [|exact H3].
    constructor; [exact I|]. constructor; [cbn; lia|]. constructor; [exact I|]. constructor; [exact I|constructor].
Qed.
Print Assumptions C72_refuted.
Print Assumptions C72_at_return.
Print Assumptions C72_results_grow.
Print Assumptions C72_results_kept.

(** C73: refuted for copies: after the original has analysed a program, analysing
    another, valid, program with the copy throws, although a new analyzer accepts it. *)
Theorem C73_refuted : forall lm, exists w es w' k,
  history [CDefault lm "3.0"; CCopy 0; CAnalyze 0 (gate_program "q" "H")] w es /\
  perform w (CAnalyze 1 (gate_program "r" "X")) = Ok (w', EThrows k) /\
  exists st r, analyze_ast (fresh_analyzer lm) (gate_program "r" "X") = Ok (st, r) /\ res_errors r = [].
Proof.
  intros lm. destruct (ok_case (perform_all empty_world [CDefault lm "3.0"; CCopy 0; CAnalyze 0 (gate_program "q" "H")]) (fun w es =>
    match perform w (CAnalyze 1 (gate_program "r" "X")) with Ok (w', e) => match e with EThrows k => True | _ => False end | _ => False end)) as (w & es & E & H).
  - vm_compute. exact I.
  - apply ok_case in H. destruct H as (w' & e & E' & H). destruct e as [| | |k]; try contradiction. exists w, es, w', k.
    split; [exact E|]. split; [exact E'|]. apply ok_case. vm_compute. reflexivity.
Qed.
(** What holds: a copy starts out like the original; *)
Theorem C73_copy_equals : forall cs w es i w' e o, history cs w es -> perform w (CCopy i) = Ok (w', e) -> nth_error (w_analyzers w) i = Some o ->
  e = EDone /\ exists o', nth_error (w_analyzers w') (List.length (w_analyzers w)) = Some o' /\ show_analyzer w' o' = show_analyzer w o.
Proof. exact copied_shows. Qed.
(** a call on one analyzer changes nothing of another but, perhaps, adds
    statements to its blocks; *)
Theorem C73_names_apart : forall cs w es c w' e j o, history cs w es -> perform w c = Ok (w', e) -> subject c <> Some j ->
  nth_error (w_analyzers w) j = Some o ->
  nth_error (w_analyzers w') j = Some o /\ api_version (show_analyzer w' o) = api_version (show_analyzer w o) /\
  Forall2 scope_grown (scopes (show_analyzer w o)) (scopes (show_analyzer w' o)).
Proof. exact others_grow. Qed.
(** nothing at all if no analyzer has been copied. *)
Theorem C73_uncopied_apart : forall cs w es c w' e j o, history cs w es -> Forall (fun c => ~ is_copy c) cs -> perform w c = Ok (w', e) ->
  subject c <> Some j -> nth_error (w_analyzers w) j = Some o ->
  nth_error (w_analyzers w') j = Some o /\ scopes (show_analyzer w' o) = scopes (show_analyzer w o).
Proof. exact others_unchanged. Qed.
Example C73_case : forall lm, exists w es w' e o,
  history [CDefault lm "3.0"; CNew [3]%Z; CAnalyze 0 (gate_program "q" "H"); CPush 0] w es /\
  perform w (CAnalyze 0 (gate_program "r" "X")) = Ok (w', e) /\ nth_error (w_analyzers w) 1 = Some o.
Proof.
  intros lm. destruct (ok_case (perform_all empty_world [CDefault lm "3.0"; CNew [3]%Z; CAnalyze 0 (gate_program "q" "H"); CPush 0]) (fun w es =>
    match perform w (CAnalyze 0 (gate_program "r" "X")) with Ok (w', e) => nth_error (w_analyzers w) 1 <> None | _ => False end)) as (w & es & E & H).
  - vm_compute. discriminate.
  - apply ok_case in H. destruct H as (w' & e & E' & H). destruct (nth_error (w_analyzers w) 1) as [o|] eqn:Eo; [|congruence].
    exists w, es, w', e, o. auto.
Qed.
Print Assumptions C73_refuted.
Print Assumptions C73_copy_equals.
Print Assumptions C73_names_apart.
Print Assumptions C73_uncopied_apart.

(** C74: refuted: in a pushed scope, H q throws if q was declared in the scope
    below; in that scope itself it is accepted. *)
Theorem C74_refuted : forall lm, exists st1 r1 w st2 r2,
  analyze_ast (fresh_analyzer lm) (prog [qubit_decl "q"]) = Ok (st1, r1) /\ res_errors r1 = [] /\
  grammar_program (prog [gate_on "H" [] [name "q"]]) /\
  analyze_ast (push_scope st1) (prog [gate_on "H" [] [name "q"]]) = Throw w /\
  analyze_ast st1 (prog [gate_on "H" [] [name "q"]]) = Ok (st2, r2) /\ res_errors r2 = [].
Proof.
  intros lm. destruct (ok_case (analyze_ast (fresh_analyzer lm) (prog [qubit_decl "q"])) (fun st1 r1 => res_errors r1 = [] /\
    match analyze_ast (push_scope st1) (prog [gate_on "H" [] [name "q"]]) with Throw w => True | _ => False end /\
    match analyze_ast st1 (prog [gate_on "H" [] [name "q"]]) with Ok (st2, r2) => res_errors r2 = [] | _ => False end)) as (st1 & r1 & E1 & H1 & H2 & H3).
  - vm_compute. repeat split; reflexivity.
  - destruct (analyze_ast (push_scope st1) _) as [| |w|] eqn:E2; try contradiction. apply ok_case in H3. destruct H3 as (st2 & r2 & E3 & H3).
    exists st1, r1, w, st2, r2. repeat (split; [assumption|]). split; [repeat constructor; cbn; intuition discriminate|]. auto.
Qed.
(** What holds: a program that mentions only variables it has declared before, and
    names that are no variables of outer scopes, never throws; *)
Theorem C74_own_variables : forall lm st p, ordinary lm st -> grammar_program p ->
  (forall ss1 s ss2 n, prog_statements p = (ss1 ++ s :: ss2)%list -> mentions s n ->
     In n (declared_names ss1) \/ forall x, resolve_variable st n <> Ok (VVar x)) ->
  (exists st' sp es, analyze_ast (push_scope st) p = Ok (st', mkResult (Some sp) es)) \/ (exists k, analyze_ast (push_scope st) p = UB k).
Proof. exact analyze_own. Qed.
(** every other program is never accepted. *)
Theorem C74_outer_variables : forall lm api st0 us st p ss1 s ss2 n x, default_analyzer lm api = Ok st0 -> uses st0 us st -> grammar_program p ->
  prog_statements p = (ss1 ++ s :: ss2)%list -> mentions s n -> ~ In n (declared_names ss1) -> resolve_variable st n = Ok (VVar x) ->
  forall st' sp, analyze_ast (push_scope st) p <> Ok (st', mkResult (Some sp) []).
Proof. exact outer_rejected. Qed.
Example C74_case : forall lm, exists st1 r1 st2 r2,
  analyze_ast (fresh_analyzer lm) (prog [qubit_decl "q"; qubit_decl "p"]) = Ok (st1, r1) /\
  analyze_ast (push_scope st1) (prog [qubit_decl "q"; gate_on "Rx" [name "pi"] [name "q"]]) = Ok (st2, r2) /\ res_errors r2 = [].
Proof.
  intros lm. destruct (ok_case (analyze_ast (fresh_analyzer lm) (prog [qubit_decl "q"; qubit_decl "p"])) (fun st1 r1 =>
    match analyze_ast (push_scope st1) (prog [qubit_decl "q"; gate_on "Rx" [name "pi"] [name "q"]]) with Ok (st2, r2) => res_errors r2 = [] | _ => False end))
    as (st1 & r1 & E1 & H).
  - vm_compute. reflexivity.
  - apply ok_case in H. destruct H as (st2 & r2 & E2 & H). exists st1, r1, st2, r2. auto.
Qed.
Print Assumptions C74_refuted.
Print Assumptions C74_own_variables.
Print Assumptions C74_outer_variables.
