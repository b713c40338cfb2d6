(** Property C89: the value of every constant expression. *)
From Coq Require Import Reals SpecFloat.
From Verif Require Import Base ModelUtils ModelVersion ModelError ModelTypes ModelOverload ModelFunctions ModelInstructionSet ModelAst ModelAnalyzer ModelSemantic ModelLexer ModelSyntactic
  SpecUtils SpecError SpecTypes SpecFunctions SpecAnalyzer SpecHull SpecLexer SpecSyntax SpecReading SpecMachine SpecEvaluate ProofsAnalyzer2 ProofsEvaluate3 PropertiesAnalyzer PropertiesSyntax PropertiesMachine.
Local Open Scope string_scope.

(** C89: at any point of a program, on an analyzer used before or not, an expression has
    a constant value exactly if the rules of SpecEvaluate give it that value. *)
Theorem C89_value : forall lm st lb ss st1 es e, analyses lm st -> visit_block lb st ss = (Ok st1, es) -> machine_libm lm -> machine_literals e ->
  forall q, visit_expression st1 e = Ok (constant_value q) <-> evaluates lm e q.
Proof. exact evaluation. Qed.
(** The same for every expression of a text. *)
Theorem C89_text : forall lm file rtl data s p st lb before x behind st1 es e, text_of data s -> utf8 s ->
  parse_string file rtl data = Ok (mkResult (Some p) []) -> prog_statements p = (before ++ x :: behind)%list -> In e (statement_exprs x) ->
  analyses lm st -> visit_block lb st before = (Ok st1, es) -> machine_libm lm ->
  forall q, visit_expression st1 e = Ok (constant_value q) <-> evaluates lm e q.
Proof.
  intros lm file rtl data s p st lb before x behind st1 es e T U P S I A B L. apply (C89_value lm st lb before st1 es e A B L).
  pose proof (C84_parsed file rtl data s p T U P) as M. unfold machine_program in M. rewrite S in M. apply Forall_app in M. destruct M as [_ M].
  inversion M as [|? ? [N _] _]. rewrite Forall_forall in N. exact (N e I).
Qed.
(** The rules give at most one value. *)
Theorem C89_one_value : forall lm e p q, machine_libm lm -> machine_literals e -> evaluates lm e p -> evaluates lm e q -> p = q.
Proof. exact one_value. Qed.
(** On doubles they always give one. *)
Theorem C89_double_results : forall op a b, In op [BAdd; BSub; BMul; BDiv] -> valid_double a -> valid_double b -> exists! c, ieee op a b c.
Proof. exact double_results. Qed.
Theorem C89_sqrt_results : forall a, valid_double a -> exists! c, ieee_sqrt a c.
Proof. exact sqrt_results. Qed.

(** Integers, booleans, doubles, rounding, a signed zero, a NaN and the math library in
    one expression; one without value; in a program that declares a register. *)
Definition text_evaluate : string :=
  "version 3.0; qubit[2] q; Rx(sinh(2 ** 3 - abs(-7)) > pi && !(0.1 + 0.2 == 0.3) ? 1 / -3 % 2 : 1.5 / -(0 * -1.0)) q; Rx(sqrt(-1)) q; Rx(1 / 0 + q) q".
Example C89_case : machine_libm same_libm /\ analyses same_libm (fresh_analyzer same_libm) /\ text_of text_evaluate text_evaluate /\ utf8 text_evaluate /\
  exists p d x1 x2 x3 e1 e2 e3, parse_string None false text_evaluate = Ok (mkResult (Some p) []) /\ prog_statements p = ([d] ++ [x1; x2; x3])%list /\
    statement_exprs x1 = e1 :: [EIdent (expr_loc (hd e1 (tl (statement_exprs x1)))) "q"] /\ In e2 (statement_exprs x2) /\ In e3 (statement_exprs x3) /\
    evaluates same_libm e1 (QFloat (S754_infinity false)) /\ evaluates same_libm e2 (QFloat S754_nan) /\ (forall q, ~ evaluates same_libm e3 q).
Proof.
  assert (L : machine_libm same_libm) by (split; [auto|]; repeat (apply Forall_cons; [auto|]); apply Forall_nil).
  assert (A : analyses same_libm (fresh_analyzer same_libm)) by apply an_default, fresh_is_default.
  assert (T : text_of text_evaluate text_evaluate) by text_case. assert (U : utf8 text_evaluate) by utf8_case.
  split; [exact L|]. split; [exact A|]. split; [exact T|]. split; [exact U|].
  destruct (tree_case None text_evaluate (fun p => match prog_statements p with
     | [d; x1; x2; x3] => match statement_exprs x1, statement_exprs x2, statement_exprs x3 with
       | [e1; EIdent l n], e2 :: _, e3 :: _ => n = "q" /\ match visit_block None (fresh_analyzer same_libm) [d] with
         | (Ok st1, _) => visit_expression st1 e1 = Ok (VFloat (S754_infinity false)) /\ visit_expression st1 e2 = Ok (VFloat S754_nan) /\
              match visit_expression st1 e3 with Ok _ => False | _ => True end
         | _ => False end
       | _, _, _ => False end
     | _ => False end)) as (p & P & H); [vm_compute; auto|].
  destruct (prog_statements p) as [|d [|x1 [|x2 [|x3 [|? ?]]]]] eqn:S; try contradiction.
  destruct (statement_exprs x1) as [|e1 [|[| | |l n| | | | |] [|? ?]]] eqn:E1; try contradiction. destruct (statement_exprs x2) as [|e2 r2] eqn:E2; try contradiction.
  destruct (statement_exprs x3) as [|e3 r3] eqn:E3; try contradiction. destruct H as [-> H].
  destruct (visit_block None (fresh_analyzer same_libm) [d]) as [[st1| | |] es] eqn:B; try contradiction. destruct H as (H1 & H2 & H3).
  assert (V : forall x b0 b1 e, prog_statements p = (d :: b0 ++ x :: b1)%list -> In e (statement_exprs x) -> forall q, visit_expression st1 e = Ok (constant_value q) <-> evaluates same_libm e q).
  { intros x b0 b1 e Sx Ie. apply (C89_value same_libm (fresh_analyzer same_libm) None [d] st1 es e A B L).
    pose proof (C84_parsed None false text_evaluate text_evaluate p T U P) as M. unfold machine_program in M. rewrite Sx in M. inversion M as [|? ? _ M' X]; subst.
    apply Forall_app in M'. destruct M' as [_ M']. inversion M' as [|? ? [N _] _]; subst. rewrite Forall_forall in N. exact (N e Ie). }
  rewrite S in V.
  exists p, d, x1, x2, x3, e1, e2, e3. split; [exact P|]. split; [exact S|]. rewrite E1, E2, E3. split; [reflexivity|]. split; [now left|]. split; [now left|].
  split; [|split].
  - apply (V x1 [] [x2; x3]); [reflexivity|rewrite E1; now left|exact H1].
  - apply (V x2 [x1] [x3]); [reflexivity|rewrite E2; now left|exact H2].
  - intros q Q. apply (V x3 [x1; x2] []) in Q; [rewrite Q in H3; exact H3|reflexivity|rewrite E3; now left].
Qed.
Print Assumptions C89_value. Print Assumptions C89_text. Print Assumptions C89_one_value. Print Assumptions C89_double_results. Print Assumptions C89_sqrt_results.
