(** Independent specification of C104: analyzers built through the API, and what a name
    means in them. *)
From Verif Require Import Base ModelVersion ModelError ModelTypes ModelOverload ModelAst ModelAnalyzer ModelSemantic SpecTypes SpecAnalyzer.
From Verif Require SpecExtend.
Local Open Scope string_scope.

(** An analyzer made, filled and used through the API, with what was registered: the
    functions in order, and for each scope, innermost first, the instructions in order.
    An analyzer starts empty; the default one is filled with the same calls. *)
Inductive built : analyzer -> list (registration core_function) -> list (list (registration instruction)) -> Prop :=
| built_new v st : new_analyzer v = Ok st -> built st [] [[]]
| built_function st hf his n ps f st' : built st hf his -> register_function st n ps f = Ok st' -> built st' (hf ++ [(n, f, ps)])%list his
| built_instruction st hf hi his i st' : built st hf (hi :: his) -> register_instruction st i = Ok st' ->
    built st' hf ((hi ++ [(instr_name i, i, operand_types i)])%list :: his)
| built_variable st hf his n v st' : built st hf his -> register_variable st n v = Ok st' -> built st' hf his
| built_analyze st hf his p st' r : built st hf his -> analyze_ast st p = Ok (st', r) -> built st' hf his
| built_push st hf his : built st hf his -> built (push_scope st) hf ([] :: his)
| built_pop st hf hi hi' his st' : built st hf (hi :: hi' :: his) -> pop_scope st = Ok st' -> built st' hf (hi' :: his).

(** What is chosen for a name and arguments: in the innermost scope where there is one,
    the last entry of that name whose parameters the arguments can be promoted to. *)
Inductive chosen {T : Type} (n : string) (vs : list value) : list (list (registration T)) -> T -> list value -> Prop :=
| chosen_here h1 t ps h2 rest ws : promotes_all vs ps ws -> Forall (fun r => ~ applicable n vs r) h2 ->
    chosen n vs ((h1 ++ (n, t, ps) :: h2)%list :: rest) t ws
| chosen_outer h rest t ws : Forall (fun r => ~ applicable n vs r) h -> chosen n vs rest t ws -> chosen n vs (h :: rest) t ws.

(** The expression calls the function of that name with these arguments. *)
Inductive calls : expr -> string -> list expr -> Prop :=
| calls_nothing l n : calls (ECall l n None) n []
| calls_function l n args : calls (ECall l n (Some args)) n args
| calls_unary l op a : calls (EUnary l op a) (SpecExtend.unary_function op) [a]
| calls_binary l op a b : calls (EBinary l op a b) (SpecExtend.binary_function op) [a; b]
| calls_ternary l a b c : calls (ETernary l a b c) "operator?:" [a; b; c].

(** Further use of an analyzer in the same scope *)
Inductive goes_on : analyzer -> analyzer -> Prop :=
| on_none st : goes_on st st
| on_function st st1 st2 n ps f : goes_on st st1 -> register_function st1 n ps f = Ok st2 -> goes_on st st2
| on_instruction st st1 st2 i : goes_on st st1 -> register_instruction st1 i = Ok st2 -> goes_on st st2
| on_variable st st1 st2 n v : goes_on st st1 -> register_variable st1 n v = Ok st2 -> goes_on st st2
| on_analyze st st1 st2 p r : goes_on st st1 -> analyze_ast st1 p = Ok (st2, r) -> goes_on st st2.
