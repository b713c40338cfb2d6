(** Independent specification of annotations (C94). The grammar has no syntax for them:
    trees with annotations are made with the API. The rules of SpecOutcome say what the
    program without its annotations gives; the rules here add the annotations. *)
From Verif Require Import Base ModelVersion ModelError ModelTypes ModelOverload ModelFunctions ModelAst
  ModelAnalyzer ModelSemantic
  SpecUtils SpecTypes SpecFunctions SpecInstructions SpecAnalyzer SpecHull SpecDiagnosis SpecEvaluate SpecMeaning SpecOutcome.
Local Open Scope string_scope.

(** ** Trees and results without their annotations *)
Fixpoint bare_gate (g : gate) : gate :=
  match g with
  | Gate l n None ps _ => Gate l n None ps []
  | Gate l n (Some g') ps _ => Gate l n (Some (bare_gate g')) ps []
  end.
Definition bare_statement (s : statement) : statement :=
  match s with
  | SVariable l n t _ => SVariable l n t []
  | SGateInstr l g ops _ => SGateInstr l (bare_gate g) ops []
  | SNonGate l n ops ps _ => SNonGate l n ops ps []
  | SAsm l n c _ => SAsm l n c []
  end.
Definition bare_program (p : program) : program :=
  mkProgram (prog_version p) (prog_version_loc p) (map bare_statement (prog_statements p)) (prog_block_loc p).
Fixpoint bare_result_gate (g : sem_gate) : sem_gate :=
  match g with
  | SemGate l n None ws _ => SemGate l n None ws []
  | SemGate l n (Some g') ws _ => SemGate l n (Some (bare_result_gate g')) ws []
  end.
Definition bare_result (x : sem_statement) : sem_statement :=
  match x with
  | SemGateInstr l i g vs _ => SemGateInstr l i (bare_result_gate g) vs []
  | SemNonGate l i n vs ws _ => SemNonGate l i n vs ws []
  | SemAsm l n c _ => SemAsm l n c []
  end.

(** Programs that are, without their annotations, those of the grammar. The expressions
    in annotations can be any with which the grammar could be extended: no index list is
    empty. *)
Definition annotated_program (p : program) : Prop :=
  grammar_program (bare_program p) /\ Forall (fun s => forallb indexed_expr (statement_exprs s) = true) (prog_statements p).

(** ** Annotations *)
Section Annotations.
  Variables (lm : libm) (vars : list variable).

  (** The operands of an annotation at l: their values, and an error for every operand
      that is wrong. *)
  Inductive operands_kept (l : loc) : list expr -> list value -> list error -> Prop :=
  | operands_end : operands_kept l [] [] []
  | operand_kept e v es vs errs : has_value lm vars e v -> operands_kept l es vs errs -> operands_kept l (e :: es) (v :: vs) errs
  | operand_wrong e m p es vs errs : wrong lm vars e m p -> operands_kept l es vs errs ->
      operands_kept l (e :: es) vs (mkRawError m (nearest [p; l]) :: errs).
  Inductive annotations_kept : list annotation -> list sem_annotation -> list error -> Prop :=
  | annotations_end : annotations_kept [] [] []
  | annotation_kept l interface operation es vs errs an san errs' : operands_kept l es vs errs -> annotations_kept an san errs' ->
      annotations_kept (mkAnnotation l interface operation es :: an) (mkSemAnnotation l interface operation vs :: san) (errs ++ errs').

  (** A gate of the tree, the gate of the result, and the errors in annotations *)
  Inductive gate_kept : gate -> sem_gate -> list error -> Prop :=
  | kept_named l n ps an ws san errs : annotations_kept an san errs ->
      gate_kept (Gate l n None ps an) (SemGate l n None ws san) errs
  | kept_modified l n g sg ps an ws san errs errs' : gate_kept g sg errs -> annotations_kept an san errs' ->
      gate_kept (Gate l n (Some g) ps an) (SemGate l n (Some sg) ws san) (errs ++ errs').
  (** In a gate that is wrong, the annotations of the gates inside it that are not wrong
      are still looked at. *)
  Inductive gate_lost : gate -> list error -> Prop :=
  | lost_named l n ps an : gate_lost (Gate l n None ps an) []
  | lost_modifier l n g sg a ps an errs : right_gate lm (bare_gate g) a -> gate_kept g sg errs -> gate_lost (Gate l n (Some g) ps an) errs
  | lost_inside l n g m p ps an errs : wrong_gate lm vars (bare_gate g) m p -> gate_lost g errs -> gate_lost (Gate l n (Some g) ps an) errs.

  Inductive instruction_kept : statement -> sem_statement -> list error -> Prop :=
  | kept_gate l g ops an i sg vs san errs errs' : gate_kept g sg errs -> annotations_kept an san errs' ->
      instruction_kept (SGateInstr l g ops an) (SemGateInstr l i sg vs san) (errs ++ errs')
  | kept_non_gate l n ops ps an i vs ws san errs : annotations_kept an san errs ->
      instruction_kept (SNonGate l n ops ps an) (SemNonGate l i n vs ws san) errs
  | kept_asm l n c an san errs : annotations_kept an san errs -> instruction_kept (SAsm l n c an) (SemAsm l n c san) errs.
  (** The annotations of an instruction that is wrong are not looked at, those of its gate
      are if the gate is right. *)
  Inductive instruction_lost : statement -> list error -> Prop :=
  | lost_instruction l g sg a ops an errs : right_gate lm (bare_gate g) a -> gate_kept g sg errs -> instruction_lost (SGateInstr l g ops an) errs
  | lost_gate l g m p ops an errs : wrong_gate lm vars (bare_gate g) m p -> gate_lost g errs -> instruction_lost (SGateInstr l g ops an) errs
  | lost_non_gate l n ops ps an : instruction_lost (SNonGate l n ops ps an) [].
End Annotations.

(** ** Statements and programs: as in SpecOutcome, with annotations. A declaration is not
    visible in its own annotations. Errors in annotations come before that of their
    statement. *)
Inductive annotated_gives (lm : libm) : nat -> list variable -> list statement -> list sem_variable -> list sem_statement -> list error -> Prop :=
| annotated_nothing n vars : annotated_gives lm n vars [] [] [] []
| annotated_variable n vars l name t ty an san errs ss ds xs es : declares_type t ty -> ~ taken vars name -> annotations_kept lm vars an san errs ->
    annotated_gives lm (S n) (vars ++ [mkVariable n name ty]) ss ds xs es ->
    annotated_gives lm n vars (SVariable l name t an :: ss) (mkSemVariable (mkVariable n name ty) san :: ds) xs (errs ++ es)
| annotated_redeclaration n vars l name t ty an san errs ss ds xs es : declares_type t ty -> taken vars name -> annotations_kept lm vars an san errs ->
    annotated_gives lm (S n) vars ss ds xs es ->
    annotated_gives lm n vars (SVariable l name t an :: ss) (mkSemVariable (mkVariable n name ty) san :: ds) xs
      (errs ++ mkRawError ("trying to redeclare variable '" ++ name ++ "'") l :: es)
| annotated_no_variable n vars l name t m an ss ds xs es : wrong_type t m -> annotated_gives lm (S n) vars ss ds xs es ->
    annotated_gives lm n vars (SVariable l name t an :: ss) ds xs (mkRawError m l :: es)
| annotated_instruction n vars s x errs ss ds xs es : instruction_means lm vars (bare_statement s) (bare_result x) -> instruction_kept lm vars s x errs ->
    annotated_gives lm n vars ss ds xs es -> annotated_gives lm n vars (s :: ss) ds (x :: xs) (errs ++ es)
| annotated_no_instruction n vars s m p errs ss ds xs es : wrong_instruction lm vars (bare_statement s) m p -> instruction_lost lm vars s errs ->
    annotated_gives lm n vars ss ds xs es -> annotated_gives lm n vars (s :: ss) ds xs (errs ++ mkRawError m p :: es).
Inductive annotated_program_gives (lm : libm) (api : list Z) (p : program) : sem_program -> list error -> Prop :=
| annotated_result v ves ds b es : version_gives api (prog_version p) (prog_version_loc p) v ves ->
    annotated_gives lm 0 [] (prog_statements p) ds (blk_statements b) es -> spans_statements b ->
    annotated_program_gives lm api p (mkSemProgram api v (prog_version_loc p) b ds) (ves ++ es).

(** ** The result without its annotations, and some errors among others, in order *)
Definition bare_sem_program (q : sem_program) : sem_program :=
  mkSemProgram (sp_api_version q) (sp_version q) (sp_version_loc q)
    (mkBlock (map bare_result (blk_statements (sp_block q))) (blk_loc (sp_block q)))
    (map (fun x => mkSemVariable (sv_var x) []) (sp_variables q)).
Inductive among {A} : list A -> list A -> Prop :=
| among_nothing : among [] []
| among_kept x l l' : among l l' -> among (x :: l) (x :: l')
| among_other x l l' : among l l' -> among l (x :: l').
