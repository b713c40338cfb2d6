(** Properties C75-C79: programs that differ in the names of variables, in unused
    declarations, in one instruction, in the order of the instructions or in
    expressions of the same value; new analyzers. *)
From Coq Require Import Permutation.
From Verif Require Import Base ModelUtils ModelVersion ModelError ModelTypes ModelOverload ModelFunctions ModelInstructionSet ModelAst ModelAnalyzer ModelSemantic ModelObjects
  SpecTypes SpecFunctions SpecInstructions SpecAnalyzer SpecObjects SpecRename SpecContext ProofsFunctions ProofsAnalyzer2 ProofsRename ProofsRename2 ProofsRename3 ProofsContext PropertiesAnalyzer.
Local Open Scope string_scope.

(** Example: qubit q; bit b; b = measure q; H zz; Rx(1) q; X q *)
Definition bit_decl (n : string) : statement := SVariable None n (mkAstType None "bit" None) [].
Definition rename_example : program :=
  prog [qubit_decl "q"; bit_decl "b"; SNonGate None "measure" [name "b"; name "q"] [] []; gate_on "H" [] [name "zz"]; gate_on "Rx" [EInt None 1] [name "q"]; gate_on "X" [] [name "q"]].
Lemma rename_example_grammar : grammar_program rename_example.
Proof. repeat constructor; cbn; intuition discriminate. Qed.

(** ** C75: the names of variables do not matter. *)
Theorem C75_renaming : forall lm api st p ren, default_analyzer lm api = Ok st ->
  tells_apart ren (program_names p ++ constant_names) -> (forall n, In n constant_names -> ren n = n) ->
  outcomes (renamed_result ren (fun i => i)) (map_outcome snd (analyze_ast st p)) (map_outcome snd (analyze_ast st (rename_program ren p))).
Proof. exact renaming. Qed.
Lemma tells_apart_check ren names :
  forallb (fun a => forallb (fun b => if ren a =? ren b then a =? b else true) names) names = true -> tells_apart ren names.
Proof.
  intros H a b Ia Ib E. rewrite forallb_forall in H. specialize (H a Ia). rewrite forallb_forall in H. specialize (H b Ib). rewrite E, String.eqb_refl in H. now apply String.eqb_eq.
Qed.
Definition swap_names (n : string) : string := if n =? "q" then "b" else if n =? "b" then "q" else if n =? "zz" then "y" else n.
Example C75_case : forall lm, default_analyzer lm "3.0" = Ok (fresh_analyzer lm) /\ tells_apart swap_names (program_names rename_example ++ constant_names) /\
  (forall n, In n constant_names -> swap_names n = n) /\
  (exists st r, analyze_ast (fresh_analyzer lm) rename_example = Ok (st, r) /\ List.length (res_errors r) = 1%nat) /\
  rename_program swap_names rename_example <> rename_example.
Proof.
  intros lm. split; [apply fresh_is_default|]. split; [apply tells_apart_check; reflexivity|].
  split; [intros n I; cbn in I; intuition (subst; reflexivity)|]. split; [|discriminate]. apply ok_case. vm_compute. reflexivity.
Qed.
Print Assumptions C75_renaming.

(** ** C76: whatever happened before, a new default analyzer gives the result of
    the first one, up to the identities of the variable nodes. *)
Theorem C76_new_analyzer : forall cs w es lm api st p, history cs w es -> default_analyzer lm api = Ok st ->
  analyze_afresh w lm api p = map_outcome (fun r => renumber_result (Nat.add (w_next w)) (snd r)) (analyze_ast st p).
Proof. exact afresh. Qed.
Example C76_case : forall lm, exists w es, history [CDefault lm "3.0"; CAnalyze 0 rename_example] w es /\ w_next w = 2%nat /\ default_analyzer lm "3.0" = Ok (fresh_analyzer lm) /\
  exists r, analyze_afresh w lm "3.0" rename_example = Ok r /\ List.length (res_errors r) = 1%nat.
Proof.
  intros lm.
  assert (H : match perform_all empty_world [CDefault lm "3.0"; CAnalyze 0 rename_example] with
    | Ok (w, es) => w_next w = 2%nat /\ match analyze_afresh w lm "3.0" rename_example with Ok r => List.length (res_errors r) = 1%nat | _ => False end
    | _ => False end) by (vm_compute; split; reflexivity).
  unfold history. destruct (perform_all _ _) as [[w es]|e|k|k]; try contradiction. destruct H as [N H].
  exists w, es. split; [reflexivity|]. split; [exact N|]. split; [apply fresh_is_default|]. destruct (analyze_afresh w lm "3.0" rename_example) as [r|e|k|k]; try contradiction. eauto.
Qed.
Print Assumptions C76_new_analyzer.

(** ** C77: a declaration that nothing uses adds its variable and changes nothing else. *)
Theorem C77_unused_declaration : forall lm st p ss1 ss2 l n t ty, analyses lm st -> grammar_program p -> prog_statements p = (ss1 ++ ss2)%list -> declares_type t ty ->
  ~ In n (names_here st) -> ~ In n (declared_names (ss1 ++ ss2)) -> Forall (fun s => ~ mentions s n) ss2 ->
  outcomes (fun r r' => exists k, one_more_variable (mkSemVariable (mkVariable k n ty) []) r r')
    (map_outcome snd (analyze_ast st p)) (map_outcome snd (analyze_ast st (with_statements (ss1 ++ SVariable l n t [] :: ss2) p))).
Proof. exact unused_declaration. Qed.
Example C77_case : forall lm, analyses lm (fresh_analyzer lm) /\ grammar_program rename_example /\
  (exists ss1 ss2, prog_statements rename_example = (ss1 ++ ss2)%list /\ ss1 <> [] /\ ss2 <> [] /\ ~ In "c" (declared_names (ss1 ++ ss2)) /\ Forall (fun s => ~ mentions s "c") ss2) /\
  declares_type (mkAstType None "bit" (Some 4%Z)) (mkType TBitArray 4) /\ ~ In "c" (names_here (fresh_analyzer lm)) /\
  (exists st r, analyze_ast (fresh_analyzer lm) rename_example = Ok (st, r) /\ List.length (res_errors r) = 1%nat).
Proof.
  intros lm. split; [apply an_default, fresh_is_default|]. split; [exact rename_example_grammar|]. split; [|split; [now constructor|split; [cbn; intuition discriminate|apply ok_case; vm_compute; reflexivity]]].
  exists (firstn 1 (prog_statements rename_example)), (skipn 1 (prog_statements rename_example)). cbn [firstn skipn rename_example prog prog_statements app].
  split; [reflexivity|]. split; [discriminate|]. split; [discriminate|]. split; [cbn; intuition discriminate|].
  repeat constructor; intros (e & Ie & In'); cbn in Ie; repeat (destruct Ie as [<-|Ie]; [cbn in In'; intuition discriminate|]); contradiction.
Qed.
Print Assumptions C77_unused_declaration.

(** ** C78: instructions do not influence each other: each gives a statement or an
    error, whatever other instructions there are. *)
Theorem C78_instruction_removed : forall lm st p ss1 s ss2 st' r', analyses lm st -> grammar_program p -> prog_statements p = (ss1 ++ s :: ss2)%list -> ~ is_declaration s ->
  analyze_ast st p = Ok (st', r') ->
  exists st'' r, analyze_ast st (with_statements (ss1 ++ ss2) p) = Ok (st'', r) /\ one_more_instruction s r r'.
Proof. exact instruction_removed. Qed.
Theorem C78_instructions_swapped : forall lm st p ss1 s t ss2 st' r', analyses lm st -> grammar_program p -> prog_statements p = (ss1 ++ s :: t :: ss2)%list ->
  ~ is_declaration s -> ~ is_declaration t -> analyze_ast st p = Ok (st', r') ->
  exists st'' r, analyze_ast st (with_statements (ss1 ++ t :: s :: ss2) p) = Ok (st'', r) /\ instructions_swapped s t r' r.
Proof. exact instruction_swap. Qed.
(** After the declarations the instructions may be put in any order. *)
Theorem C78_instructions_reordered : forall lm st p ds ss ts st' r', analyses lm st -> grammar_program p -> prog_statements p = (ds ++ ss)%list ->
  Forall (fun s => ~ is_declaration s) ss -> Permutation ss ts -> analyze_ast st p = Ok (st', r') ->
  exists st'' r, analyze_ast st (with_statements (ds ++ ts) p) = Ok (st'', r) /\ Permutation (res_errors r') (res_errors r) /\
    results_with r' r (fun q q' => sp_variables q' = sp_variables q /\ Permutation (blk_statements (sp_block q)) (blk_statements (sp_block q'))).
Proof. exact instructions_reordered. Qed.
Example C78_case : forall lm, analyses lm (fresh_analyzer lm) /\ grammar_program rename_example /\
  (exists ds s t ss2, prog_statements rename_example = (ds ++ s :: t :: ss2)%list /\ ss2 <> [] /\ Forall (fun s => ~ is_declaration s) (s :: t :: ss2)) /\
  exists st' r', analyze_ast (fresh_analyzer lm) rename_example = Ok (st', r') /\ List.length (res_errors r') = 1%nat /\
    match res_root r' with Some q => List.length (blk_statements (sp_block q)) = 3%nat | None => False end.
Proof.
  intros lm. split; [apply an_default, fresh_is_default|]. split; [exact rename_example_grammar|]. split.
  - eexists [_; _], _, _, _. split; [reflexivity|]. split; [discriminate|]. repeat constructor; intros [].
  - apply (ok_case _ (fun _ r' => List.length (res_errors r') = 1%nat /\ match res_root r' with Some q => List.length (blk_statements (sp_block q)) = 3%nat | None => False end)).
    vm_compute. split; reflexivity.
Qed.
Print Assumptions C78_instruction_removed. Print Assumptions C78_instructions_swapped. Print Assumptions C78_instructions_reordered.

(** ** C79: expressions of the same value are interchangeable: a constant
    expression can be replaced by a literal, wherever it is. *)
Theorem C79_equal_values : forall st p ss1 c ss2 st1 es1 a b v, visit_block (prog_block_loc p) st ss1 = (Ok st1, es1) ->
  visit st1 a = Ok v -> visit st1 b = Ok v -> expr_loc a = expr_loc b ->
  analyze_ast st (with_statements (ss1 ++ plug_statement c a :: ss2) p) = analyze_ast st (with_statements (ss1 ++ plug_statement c b :: ss2) p).
Proof. intros st p ss1 c ss2 st1 es1 a b v B Ea Eb L. apply (interchangeable st p ss1 c ss2 st1 es1 a b B); [congruence|exact L]. Qed.
Theorem C79_literal : forall st p ss1 c ss2 st1 es1 a v b, visit_block (prog_block_loc p) st ss1 = (Ok st1, es1) ->
  visit st1 a = Ok v -> literal_at (expr_loc a) v = Some b ->
  analyze_ast st (with_statements (ss1 ++ plug_statement c a :: ss2) p) = analyze_ast st (with_statements (ss1 ++ plug_statement c b :: ss2) p).
Proof. intros st p ss1 c ss2 st1 es1 a v b B E L. apply literal_visit with (st := st1) in L. destruct L as [E' L']. eapply C79_equal_values; eauto. Qed.
(** qubit[4] q; H q[1 + 2] and H q[3] *)
Example C79_case : forall lm, let decl := SVariable None "q" (mkAstType None "qubit" (Some 4%Z)) [] in
  let c := HGateOperand None (Gate None "H" None [] []) [] (PItem None (name "q") [] None PHole []) [] [] in
  let a := EBinary None BAdd (EInt None 1) (EInt None 2) in
  plug_statement c a = gate_on "H" [] [EIndex None (name "q") [IItem None a]] /\
  exists st1 es1, visit_block None (fresh_analyzer lm) [decl] = (Ok st1, es1) /\ visit st1 a = Ok (VInt 3) /\ literal_at None (VInt 3) = Some (EInt None 3) /\
  exists st' r, analyze_ast (fresh_analyzer lm) (with_statements [decl; plug_statement c a] (prog [])) = Ok (st', r) /\ res_errors r = [].
Proof.
  intros lm decl c a. split; [reflexivity|].
  assert (H : match visit_block None (fresh_analyzer lm) [decl] with (Ok st1, _) => visit st1 a = Ok (VInt 3) | _ => False end) by (vm_compute; reflexivity).
  destruct (visit_block None (fresh_analyzer lm) [decl]) as [[st1|e|k|k] es1]; try contradiction. exists st1, es1. split; [reflexivity|]. split; [exact H|]. split; [reflexivity|].
  apply ok_case. vm_compute. reflexivity.
Qed.
Print Assumptions C79_equal_values. Print Assumptions C79_literal.
