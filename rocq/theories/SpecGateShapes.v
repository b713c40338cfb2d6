(** Independent specification of C103: which instructions are accepted in trees of any
    shape, as programs that use the library can build them. *)
From Verif Require Import Base ModelError ModelTypes ModelOverload ModelFunctions ModelAst ModelAnalyzer ModelSemantic
  SpecTypes SpecFunctions SpecInstructions.
Local Open Scope string_scope.

(** Neither the gate nor the gates in it have annotations (for these see C94). *)
Inductive plain_gate : gate -> Prop :=
| pg l n i ps : (forall g, i = Some g -> plain_gate g) -> plain_gate (Gate l n i ps []).

(** The values are parameters for what has the name, be it a gate, a modifier or another
    instruction. What is no gate can do without parameters. *)
Definition takes (n : string) (vs : list value) : Prop :=
  (exists ks a, In (n, (ks, a)) gates /\ Forall2 fits_param vs ks) \/
  (exists ks, In (n, ks) modifiers /\ Forall2 fits_param vs ks) \/
  (exists ks cs, In (n, (ks, cs)) non_gates /\ (Forall2 fits_param vs ks \/ vs = [])).

(** What counts as a gate on two qubits: those of the language, and everything around
    another gate but inv and pow. *)
Definition acts_on_two (g : gate) : Prop :=
  match g with
  | Gate _ n None _ _ => exists ks, In (n, (ks, 2%nat)) gates
  | Gate _ n (Some _) _ _ => n <> "inv" /\ n <> "pow"
  end.

(** The parameters are right, from the inside to the outside, and nothing is around a gate
    on two qubits. *)
Inductive gate_fits (st : analyzer) : gate -> Prop :=
| gf l n i ps vs : visit_expression_list st ps = Ok vs -> takes n vs ->
    (forall g, i = Some g -> gate_fits st g /\ ~ acts_on_two g) -> gate_fits st (Gate l n i ps []).

(** The operands that go with a name, and with a gate *)
Inductive name_operands (n : string) : list operand_class -> Prop :=
| no_gate ks a : In (n, (ks, a)) gates -> name_operands n (repeat Qubits a)
| no_other ks cs : In (n, (ks, cs)) non_gates -> name_operands n cs.
Inductive gate_operands : gate -> list operand_class -> Prop :=
| go_named l n ps an cs : name_operands n cs -> gate_operands (Gate l n None ps an) cs
| go_one l n g ps an ks : n = "inv" \/ n = "pow" -> In (gate_base g, (ks, 1%nat)) gates ->
    gate_operands (Gate l n (Some g) ps an) [Qubits]
| go_two l n g ps an ks : n <> "inv" -> n <> "pow" -> In (gate_base g, (ks, 1%nat)) gates ->
    gate_operands (Gate l n (Some g) ps an) [Qubits; Qubits].

(** All operands address k qubits (a bit addresses none). *)
Definition k_qubits (k : Z) (c : operand_class) (v : value) : Prop :=
  match c with Qubits => addresses Qubits v k | Bits => k = 0%Z /\ exists m, addresses Bits v m end.
