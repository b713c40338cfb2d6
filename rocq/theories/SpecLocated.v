(** Independent specification of the locations of the values in a result (C81). *)
From Verif Require Import SpecPlace Base ModelError ModelTypes ModelOverload ModelAst ModelAnalyzer ModelLocated.
Local Open Scope string_scope.

Definition entry_loc (i : index_entry) : loc := match i with IItem l _ => l | IRange l _ _ => l end.

(** The indices of an index list: an item gives one index, a range consecutive ones;
    each is located where its item or range is. *)
Definition entry_indices (i : index_entry) (part : list (loc * Z)) : Prop :=
  part <> [] /\ (forall x, In x part -> fst x = entry_loc i) /\
  match i with
  | IItem _ _ => List.length part = 1%nat
  | IRange _ _ _ => exists first, forall k x, nth_error part k = Some x -> snd x = (first + Z.of_nat k)%Z
  end.
Definition list_indices (idx : list index_entry) (is : list (loc * Z)) : Prop :=
  exists parts, is = concat parts /\ Forall2 entry_indices idx parts.

(** A value has the location of the expression it was computed from. *)
Definition value_of_expr (e : expr) (v : lvalue) : Prop :=
  lv_loc v = place_of e /\
  match e with EIndex _ _ idx => exists x is, lv_node v = LIndex x is /\ list_indices idx is | _ => True end.

(** The instructions of the tree and where their values come from: each operand
    and each parameter from the one at the same place in the source *)
Inductive gate_of : gate -> lgate -> Prop :=
| go_gate l n ps an ps' an' : Forall2 value_of_expr ps ps' -> gate_of (Gate l n None ps an) (LGate l n None ps' an')
| go_modified l n g ps an g' ps' an' : gate_of g g' -> Forall2 value_of_expr ps ps' ->
    gate_of (Gate l n (Some g) ps an) (LGate l n (Some g') ps' an').
Inductive statement_of : statement -> lstatement -> Prop :=
| so_gate l g ops an r g' ops' an' : gate_of g g' -> Forall2 value_of_expr ops ops' ->
    statement_of (SGateInstr l g ops an) (LGateInstr l r g' ops' an')
| so_non_gate l n ops ps an r ops' ps' an' : Forall2 value_of_expr ops ops' -> Forall2 value_of_expr ps ps' ->
    statement_of (SNonGate l n ops ps an) (LNonGate l r n ops' ps' an')
| so_asm l n c an an' : statement_of (SAsm l n c an) (LAsm l n c an').

(** The statements of the tree come from some of those of the source, in order. *)
Inductive some_of : list statement -> list lstatement -> Prop :=
| some_end : some_of [] []
| some_none s ss xs : some_of ss xs -> some_of (s :: ss) xs
| some_one s x ss xs : statement_of s x -> some_of ss xs -> some_of (s :: ss) (x :: xs).

(** All operands and parameters of a statement of the tree *)
Fixpoint gate_parameters (g : lgate) : list lvalue :=
  let 'LGate _ _ i ps _ := g in (ps ++ match i with Some g' => gate_parameters g' | None => [] end)%list.
Definition statement_values (s : lstatement) : list lvalue :=
  match s with
  | LGateInstr _ _ g ops _ => ops ++ gate_parameters g
  | LNonGate _ _ _ ops ps _ => ops ++ ps
  | LAsm _ _ _ _ => []
  end%list.
