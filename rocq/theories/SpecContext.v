(** Independent specification of an expression at a place in a program (C79). *)
From Verif Require Import Base ModelTypes ModelAst.
Local Open Scope string_scope.

(** An expression with a hole *)
Inductive place : Type :=
| PHole
| PBase (l : loc) (c : place) (idx : list index_entry)
| PItem (l : loc) (b : expr) (before : list index_entry) (li : loc) (c : place) (after : list index_entry)
| PFirst (l : loc) (b : expr) (before : list index_entry) (li : loc) (c : place) (last : expr) (after : list index_entry)
| PLast (l : loc) (b : expr) (before : list index_entry) (li : loc) (first : expr) (c : place) (after : list index_entry)
| PArgument (l : loc) (n : string) (before : list expr) (c : place) (after : list expr)
| PUnary (l : loc) (op : unop) (c : place)
| PLeft (l : loc) (op : binop) (c : place) (b : expr)
| PRight (l : loc) (op : binop) (a : expr) (c : place)
| PCondition (l : loc) (c : place) (a b : expr)
| PThen (l : loc) (e : expr) (c : place) (b : expr)
| PElse (l : loc) (e a : expr) (c : place).
Fixpoint plug (c : place) (e : expr) : expr :=
  match c with
  | PHole => e
  | PBase l c idx => EIndex l (plug c e) idx
  | PItem l b pre li c post => EIndex l b (pre ++ IItem li (plug c e) :: post)
  | PFirst l b pre li c x post => EIndex l b (pre ++ IRange li (plug c e) x :: post)
  | PLast l b pre li x c post => EIndex l b (pre ++ IRange li x (plug c e) :: post)
  | PArgument l n pre c post => ECall l n (Some (pre ++ plug c e :: post)%list)
  | PUnary l op c => EUnary l op (plug c e)
  | PLeft l op c b => EBinary l op (plug c e) b
  | PRight l op a c => EBinary l op a (plug c e)
  | PCondition l c a b => ETernary l (plug c e) a b
  | PThen l x c b => ETernary l x (plug c e) b
  | PElse l x a c => ETernary l x a (plug c e)
  end.
(** Annotations, gates and statements with a hole *)
Inductive annotations_place : Type :=
| AOperand (before : list annotation) (l : loc) (i o : string) (pre : list expr) (c : place) (post : list expr) (after : list annotation).
Definition plug_annotations (c : annotations_place) (e : expr) : list annotation :=
  let 'AOperand before l i o pre c post after := c in (before ++ mkAnnotation l i o (pre ++ plug c e :: post) :: after)%list.
Inductive gate_place : Type :=
| GParameter (l : loc) (n : string) (inner : option gate) (pre : list expr) (c : place) (post : list expr) (ans : list annotation)
| GInner (l : loc) (n : string) (c : gate_place) (ps : list expr) (ans : list annotation)
| GAnnotation (l : loc) (n : string) (inner : option gate) (ps : list expr) (c : annotations_place).
Fixpoint plug_gate (c : gate_place) (e : expr) : gate :=
  match c with
  | GParameter l n i pre c post ans => Gate l n i (pre ++ plug c e :: post) ans
  | GInner l n c ps ans => Gate l n (Some (plug_gate c e)) ps ans
  | GAnnotation l n i ps c => Gate l n i ps (plug_annotations c e)
  end.
Inductive statement_place : Type :=
| HVariable (l : loc) (n : string) (t : ast_type) (c : annotations_place)
| HGate (l : loc) (c : gate_place) (ops : list expr) (ans : list annotation)
| HGateOperand (l : loc) (g : gate) (pre : list expr) (c : place) (post : list expr) (ans : list annotation)
| HGateAnnotation (l : loc) (g : gate) (ops : list expr) (c : annotations_place)
| HOperand (l : loc) (n : string) (pre : list expr) (c : place) (post : list expr) (ps : list expr) (ans : list annotation)
| HParameter (l : loc) (n : string) (ops : list expr) (pre : list expr) (c : place) (post : list expr) (ans : list annotation)
| HNonGateAnnotation (l : loc) (n : string) (ops ps : list expr) (c : annotations_place)
| HAsm (l : loc) (n code : string) (c : annotations_place).
Definition plug_statement (c : statement_place) (e : expr) : statement :=
  match c with
  | HVariable l n t c => SVariable l n t (plug_annotations c e)
  | HGate l c ops ans => SGateInstr l (plug_gate c e) ops ans
  | HGateOperand l g pre c post ans => SGateInstr l g (pre ++ plug c e :: post) ans
  | HGateAnnotation l g ops c => SGateInstr l g ops (plug_annotations c e)
  | HOperand l n pre c post ps ans => SNonGate l n (pre ++ plug c e :: post) ps ans
  | HParameter l n ops pre c post ans => SNonGate l n ops (pre ++ plug c e :: post) ans
  | HNonGateAnnotation l n ops ps c => SNonGate l n ops ps (plug_annotations c e)
  | HAsm l n code c => SAsm l n code (plug_annotations c e)
  end.

(** The literal of a value *)
Definition literal_at (l : loc) (v : value) : option expr :=
  match v with
  | VBool b => Some (EBool l b)
  | VInt z => Some (EInt l z)
  | VFloat f => Some (EFloat l f)
  | _ => None
  end.
