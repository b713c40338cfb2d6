(** Independent specification of a result written as a program (C85): first the
    variables, then the instructions, with literals instead of expressions. *)
From Coq Require Import SpecFloat.
From Verif Require Import Base ModelVersion ModelTypes ModelAst ModelAnalyzer.
Local Open Scope string_scope.

(** Literals have no sign; the smallest integer has no positive counterpart. *)
Definition write_int (z : Z) : expr :=
  if (0 <=? z)%Z then EInt None z
  else if (z =? - 2 ^ 63)%Z then EBinary None BSub (EUnary None UMinus (EInt None (2 ^ 63 - 1))) (EInt None 1)
  else EUnary None UMinus (EInt None (- z)).
Definition largest_double : float := S754_finite false (2 ^ 53 - 1) 971.
Definition write_infinity : expr := EBinary None BMul (EFloat None largest_double) (EFloat None largest_double).
Definition write_float (f : float) : expr :=
  match f with
  | S754_nan => EBinary None BSub write_infinity write_infinity
  | S754_infinity false => write_infinity
  | S754_infinity true => EUnary None UMinus write_infinity
  | S754_zero true => EUnary None UMinus (EFloat None (S754_zero false))
  | S754_finite true m e => EUnary None UMinus (EFloat None (S754_finite false m e))
  | _ => EFloat None f
  end.
(** Indices are listed one by one. *)
Definition write_value (v : value) : expr :=
  match v with
  | VBool b => EBool None b
  | VInt z => write_int z
  | VFloat f => write_float f
  | VVar x => EIdent None (var_name x)
  | VIndex x idx => EIndex None (EIdent None (var_name x)) (map (fun i => IItem None (EInt None i)) idx)
  end.
Fixpoint write_gate (g : sem_gate) : gate :=
  let 'SemGate l n i ps _ := g in Gate l n (option_map write_gate i) (map write_value ps) [].
Definition write_statement (s : sem_statement) : statement :=
  match s with
  | SemGateInstr l _ g ops _ => SGateInstr l (write_gate g) (map write_value ops) []
  | SemNonGate l _ n ops ps _ => SNonGate l n (map write_value ops) (map write_value ps) []
  | SemAsm l n c _ => SAsm l n c []
  end.
Definition write_type (t : type) : ast_type :=
  match kind t with
  | TQubit => mkAstType None "qubit" None
  | TQubitArray => mkAstType None "qubit" (Some (tsize t))
  | TBit => mkAstType None "bit" None
  | _ => mkAstType None "bit" (Some (tsize t))
  end.
Definition write_variable (v : sem_variable) : statement := SVariable None (var_name (sv_var v)) (write_type (var_type (sv_var v))) [].
Definition write_result (q : sem_program) : program :=
  mkProgram (sp_version q) (sp_version_loc q) (map write_variable (sp_variables q) ++ map write_statement (blk_statements (sp_block q))) None.
