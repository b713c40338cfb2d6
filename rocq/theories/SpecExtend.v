(** Independent specification of C98: what a program uses of what is registered
    with an analyzer. *)
From Verif Require Import Base ModelError ModelTypes ModelOverload ModelInstructionSet ModelAst ModelAnalyzer ModelSemantic SpecAnalyzer SpecRename.
Local Open Scope string_scope.

(** What can be registered with an analyzer. *)
Inductive registration :=
| RVariable (name : string) (v : value)
| RFunction (name : string) (params : list type) (f : core_function)
| RFunctionSpec (name spec : string) (f : core_function)
| RInstruction (i : instruction)
| RInstructionSpec (name : string) (spec : option string).
Definition register (st : analyzer) (r : registration) : outcome error analyzer :=
  match r with
  | RVariable n v => register_variable st n v
  | RFunction n ps f => register_function st n ps f
  | RFunctionSpec n spec f => register_function_spec st n spec f
  | RInstruction i => register_instruction st i
  | RInstructionSpec n spec => register_instruction_spec st n spec
  end.

(** The names of the functions that an expression calls. Operators are calls: a
    function registered as "operator+" is called by [+]. *)
Definition unary_function (op : unop) : string :=
  match op with UMinus => "operator-" | UBitNot => "operator~" | ULogNot => "operator!" end.
Definition binary_function (op : binop) : string :=
  match op with
  | BPow => "operator**" | BMul => "operator*" | BDiv => "operator/" | BMod => "operator%" | BAdd => "operator+" | BSub => "operator-"
  | BShl => "operator<<" | BShr => "operator>>" | BGt => "operator>" | BLt => "operator<" | BGe => "operator>=" | BLe => "operator<="
  | BEq => "operator==" | BNe => "operator!=" | BBitAnd => "operator&" | BBitXor => "operator^" | BBitOr => "operator|"
  | BLogAnd => "operator&&" | BLogXor => "operator^^" | BLogOr => "operator||"
  end.
Fixpoint expr_functions (e : expr) : list string :=
  match e with
  | EBool _ _ | EInt _ _ | EFloat _ _ | EIdent _ _ => []
  | EIndex _ b idx => (expr_functions b ++ flat_map entry_functions idx)%list
  | ECall _ n None => [n]
  | ECall _ n (Some args) => (n :: flat_map expr_functions args)%list
  | EUnary _ op a => (unary_function op :: expr_functions a)%list
  | EBinary _ op a b => (binary_function op :: expr_functions a ++ expr_functions b)%list
  | ETernary _ a b c => ("operator?:" :: expr_functions a ++ expr_functions b ++ expr_functions c)%list
  end
with entry_functions (i : index_entry) : list string :=
  match i with
  | IItem _ e => expr_functions e
  | IRange _ a b => (expr_functions a ++ expr_functions b)%list
  end.

(** The names of the instructions that a statement asks for. With modifiers, it is
    the name of the innermost gate after a prefix that the outermost modifier
    determines. *)
Fixpoint innermost (g : gate) : string :=
  let 'Gate _ n i _ _ := g in match i with None => n | Some g' => innermost g' end.
Definition gate_asks (g : gate) : string :=
  let 'Gate _ n i _ _ := g in
  match i with
  | None => n
  | Some g' => (if ((n =? "inv") || (n =? "pow"))%bool then "1q_" else "2q_") ++ innermost g'
  end.
Definition statement_instructions (s : statement) : list string :=
  match s with
  | SGateInstr _ g _ _ => [gate_asks g]
  | SNonGate _ n _ _ _ => [n]
  | SVariable _ _ _ _ | SAsm _ _ _ _ => []
  end.

Definition program_functions (p : program) : list string :=
  flat_map (fun s => flat_map expr_functions (statement_exprs s)) (prog_statements p).
Definition program_instructions (p : program) : list string := flat_map statement_instructions (prog_statements p).

(** A program does not use what is registered. *)
Definition unused (r : registration) (p : program) : Prop :=
  match r with
  | RVariable n _ => ~ In n (program_names p)
  | RFunction n _ _ | RFunctionSpec n _ _ => ~ In n (program_functions p)
  | RInstruction i => ~ In (instr_name i) (program_instructions p)
  | RInstructionSpec n _ => ~ In n (program_instructions p)
  end.

(** A use of an analyzer: registrations and analyses, in any order. *)
Inductive use := Register (r : registration) | Analyse (t : result program).
(** What the analyses return, in order. A registration that is refused, with an
    error or another exception, leaves the analyzer as it is. An exception of an
    analysis and undefined behaviour end the run. *)
Fixpoint analyses (st : analyzer) (us : list use) : list (outcome error (result sem_program)) :=
  match us with
  | [] => []
  | Register r :: us' =>
      match register st r with
      | Ok st' => analyses st' us'
      | Err _ | Throw _ => analyses st us'
      | UB k => [UB k]
      end
  | Analyse t :: us' =>
      match analyze st t with
      | Ok (st', r) => (Ok r :: analyses st' us')%list
      | Err e => [Err e]
      | Throw w => [Throw w]
      | UB k => [UB k]
      end
  end.
Definition only_analyses (us : list use) : list use := filter (fun u => match u with Analyse _ => true | Register _ => false end) us.
(** No program that is analysed uses anything that is registered. *)
Definition registers_unused (us : list use) : Prop :=
  forall r t p, In (Register r) us -> In (Analyse t) us -> res_root t = Some p -> unused r p.
