(** Property C99: statements that have no name in common may change places; the
    declarations of an accepted program may all be put first. *)
From Coq Require Import Permutation.
From Verif Require Import Base ModelUtils ModelVersion ModelError ModelTypes ModelOverload ModelFunctions ModelInstructionSet ModelAst ModelAnalyzer ModelSemantic ModelObjects
  SpecTypes SpecFunctions SpecInstructions SpecAnalyzer SpecObjects SpecRename ProofsFunctions ProofsAnalyzer2 PropertiesAnalyzer PropertiesRename SpecCommute ProofsCommute.
Local Open Scope string_scope.

(** ** C99 *)
Theorem C99_exchange : forall lm st p ss1 s t ss2 st' r, analyses lm st -> grammar_program p -> prog_statements p = (ss1 ++ s :: t :: ss2)%list ->
  independent s t -> analyze_ast st p = Ok (st', r) ->
  exists st'' r', analyze_ast st (with_statements (ss1 ++ t :: s :: ss2) p) = Ok (st'', r') /\ statements_swapped s t r r'.
Proof. exact statements_swap. Qed.
Theorem C99_reordered : forall lm st p ss st' r, analyses lm st -> grammar_program p -> reordered (prog_statements p) ss -> analyze_ast st p = Ok (st', r) ->
  exists st'' r', analyze_ast st (with_statements ss p) = Ok (st'', r') /\ same_but_order r r'.
Proof. intros lm st p ss st' r H G R A. exact (reordered_results lm st _ ss H R p st' r G eq_refl A). Qed.
(** The result is the very same one, with the same numbers of the variables. *)
Theorem C99_declarations_first : forall lm st p st' r, analyses lm st -> grammar_program p -> analyze_ast st p = Ok (st', r) -> res_errors r = [] ->
  exists st'', analyze_ast st (with_statements (declarations_first (prog_statements p)) p) = Ok (st'', r).
Proof. exact hoisted. Qed.

(** Example: qubit q; H q; H zz; bit b; b = measure q; qubit q2 *)
Definition commute_example (errors : list statement) : program :=
  prog (qubit_decl "q" :: gate_on "H" [] [name "q"] :: errors ++ [bit_decl "b"; SNonGate None "measure" [name "b"; name "q"] [] []; qubit_decl "q2"])%list.
Lemma commute_example_grammar : grammar_program (commute_example []) /\ grammar_program (commute_example [gate_on "H" [] [name "zz"]]).
Proof. split; repeat constructor; cbn; intuition discriminate. Qed.
Example C99_case : forall lm, analyses lm (fresh_analyzer lm) /\ grammar_program (commute_example [gate_on "H" [] [name "zz"]]) /\
  independent (gate_on "H" [] [name "zz"]) (bit_decl "b") /\ independent (qubit_decl "q2") (bit_decl "b") /\
  (exists st r, analyze_ast (fresh_analyzer lm) (commute_example [gate_on "H" [] [name "zz"]]) = Ok (st, r) /\ List.length (res_errors r) = 1%nat /\
     match res_root r with Some q => List.length (sp_variables q) = 3%nat /\ List.length (blk_statements (sp_block q)) = 2%nat | None => False end) /\
  grammar_program (commute_example []) /\
  (exists st r, analyze_ast (fresh_analyzer lm) (commute_example []) = Ok (st, r) /\ res_errors r = []) /\
  declarations_first (prog_statements (commute_example [])) <> prog_statements (commute_example []).
Proof.
  intros lm. split; [apply an_default, fresh_is_default|]. split; [apply commute_example_grammar|]. split; [|split; [|split; [|split; [apply commute_example_grammar|split]]]].
  - intros n. split; [intros (? & ? & ? & E); discriminate E|]. intros (? & ? & ? & E). injection E as _ <- _ _. intros (e & Ie & In'). cbn in Ie. repeat (destruct Ie as [<-|Ie]; [cbn in In'; intuition discriminate|]). contradiction.
  - intros n. split; [intros (? & ? & ? & E)|intros (? & ? & ? & E)]; injection E as _ <- _ _.
    + split; [intros (? & ? & ? & E'); discriminate E'|]. intros (e & [] & _).
    + intros (e & [] & _).
  - apply (ok_case _ (fun _ r => List.length (res_errors r) = 1%nat /\ match res_root r with Some q => List.length (sp_variables q) = 3%nat /\ List.length (blk_statements (sp_block q)) = 2%nat | None => False end)).
    vm_compute. repeat split; reflexivity.
  - apply (ok_case _ (fun _ r => res_errors r = [])). vm_compute. reflexivity.
  - vm_compute. discriminate.
Qed.
(** A statement and the declaration of what it mentions are not independent, and
    cannot change places. *)
Example C99_dependent : forall lm, ~ independent (qubit_decl "q") (gate_on "H" [] [name "q"]) /\
  (exists st r, analyze_ast (fresh_analyzer lm) (prog [qubit_decl "q"; gate_on "H" [] [name "q"]]) = Ok (st, r) /\ res_errors r = []) /\
  (exists st r, analyze_ast (fresh_analyzer lm) (prog [gate_on "H" [] [name "q"]; qubit_decl "q"]) = Ok (st, r) /\ res_errors r <> []).
Proof.
  intros lm. split; [|split].
  - intros H. destruct (H "q") as [A _]. destruct A as [_ M]; [unfold declares, qubit_decl; eauto|]. apply M. exists (name "q"). cbn. auto.
  - apply (ok_case _ (fun _ r => res_errors r = [])). vm_compute. reflexivity.
  - apply (ok_case _ (fun _ r => res_errors r <> [])). vm_compute. discriminate.
Qed.
Print Assumptions C99_exchange. Print Assumptions C99_reordered. Print Assumptions C99_declarations_first.
