(** Independent specification of the numbers a result may contain (C84). *)
From Coq Require Import SpecFloat.
From Verif Require Import Base ModelTypes ModelFunctions ModelAst ModelAnalyzer ModelSemantic SpecTypes SpecFunctions SpecAnalyzer.
Local Open Scope string_scope.

(** The functions of the C math library return doubles when given doubles (in the
    model a double is a sign, a mantissa and an exponent, which need not fit). *)
Definition machine_libm (lm : libm) : Prop :=
  (forall a b, valid_double a -> valid_double b -> valid_double (lm_pow lm a b)) /\
  Forall (fun f => forall a, valid_double a -> valid_double (f a))
    [lm_exp lm; lm_log lm; lm_sin lm; lm_cos lm; lm_tan lm; lm_sinh lm; lm_cosh lm; lm_tanh lm;
     lm_asin lm; lm_acos lm; lm_atan lm; lm_asinh lm; lm_acosh lm; lm_atanh lm].

(** The literals of an expression fit in 64 bits. *)
Definition machine_literals (e : expr) : Prop :=
  (forall l z, within (EInt l z) e -> fits z) /\ (forall l f, within (EFloat l f) e -> valid_double f).
Definition machine_statement (s : statement) : Prop :=
  Forall machine_literals (statement_exprs s) /\
  match s with SVariable _ _ t _ => forall z, ty_size t = Some z -> fits z | _ => True end.
Definition machine_program (p : program) : Prop := Forall machine_statement (prog_statements p).

(** Integers of 64 bits, doubles, indices smaller than the size of the register *)
Definition machine_value (v : value) : Prop :=
  match v with
  | VBool _ => True
  | VInt z => fits z
  | VFloat f => valid_double f
  | VVar x => (1 <= tsize (var_type x) <= 2 ^ 63 - 1)%Z
  | VIndex x idx => (1 <= tsize (var_type x) <= 2 ^ 63 - 1)%Z /\ Forall (fun i => 0 <= i < tsize (var_type x))%Z idx
  end.

(** All values of a result: operands, parameters, annotations, variables *)
Definition result_values (q : sem_program) : list value :=
  (flat_map statement_values (blk_statements (sp_block q)) ++
   flat_map (fun v => VVar (sv_var v) :: annotation_values (sv_annots v)) (sp_variables q))%list.
