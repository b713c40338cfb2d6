(** Independent specification of where the nodes of a syntax tree come from
    (C53). *)
From Verif Require Import Base ModelError ModelTypes ModelAst SpecUtils SpecLexer SpecSyntax SpecTree SpecReading.
Local Open Scope string_scope.

(** A site is the location of a node, and what the text there must be. *)
Definition site : Type := loc * (string -> Prop).

Definition unary_text (o : unop) : string := match o with UMinus => "-" | UBitNot => "~" | ULogNot => "!" end.
Definition binary_text (o : binop) : string :=
  match o with
  | BPow => "**" | BMul => "*" | BDiv => "/" | BMod => "%" | BAdd => "+" | BSub => "-" | BShl => "<<" | BShr => ">>"
  | BGt => ">" | BLt => "<" | BGe => ">=" | BLe => "<=" | BEq => "==" | BNe => "!="
  | BBitAnd => "&" | BBitXor => "^" | BBitOr => "|" | BLogAnd => "&&" | BLogXor => "^^" | BLogOr => "||"
  end.

(** The nodes of an expression: a literal is where it is written, an operation at
    its operator, a call or an indexed variable at its name. *)
Fixpoint expr_sites (e : expr) : list site :=
  match e with
  | EBool l b => [(l, eq (if b then "true" else "false"))]
  | EInt l z => [(l, fun t => t <> "" /\ digits t /\ decimal t = z)]
  | EFloat l f => [(l, fun t => reads_double t f)]
  | EIdent l n => [(l, eq n)]
  | EIndex l b idx => (l, fun t => b = EIdent None t) :: flat_map entry_sites idx
  | ECall l n args => (l, eq n) :: match args with None => [] | Some es => flat_map expr_sites es end
  | EUnary l o a => (l, eq (unary_text o)) :: expr_sites a
  | EBinary l o a b => (l, eq (binary_text o)) :: expr_sites a ++ expr_sites b
  | ETernary l a b c => (l, eq "?") :: expr_sites a ++ expr_sites b ++ expr_sites c
  end%list
with entry_sites (i : index_entry) : list site :=
  match i with
  | IItem _ e => expr_sites e
  | IRange _ a b => (expr_sites a ++ expr_sites b)%list
  end.
Definition gate_word (g : gate) : string := let 'Gate _ n _ _ _ := g in n.
Fixpoint gate_sites (g : gate) : list site :=
  let 'Gate l n i ps _ := g in
  (l, eq n) :: (match i with None => [] | Some g' => gate_sites g' end ++ flat_map expr_sites ps)%list.
(** A type without a size is where its keyword is. *)
Definition statement_sites (st : statement) : list site :=
  match st with
  | SVariable l n t _ => (l, eq n) :: match ty_size t with None => [(ty_loc t, eq (ty_name t))] | Some _ => [] end
  | SGateInstr l g ops _ => (l, eq (gate_word g)) :: gate_sites g ++ flat_map expr_sites ops
  | SNonGate l n ops ps _ => (l, eq n) :: flat_map expr_sites ops ++ flat_map expr_sites ps
  | SAsm _ _ _ _ => []
  end%list.
Definition program_sites (p : program) : list site :=
  (prog_version_loc p, fun t => version_means t (prog_version p)) :: flat_map statement_sites (prog_statements p).

(** A type with a size reaches from its keyword to the closing bracket: inside, a
    comment can contain line ends. *)
Definition array_sites (st : statement) : list site :=
  match st with
  | SVariable _ _ t _ => match ty_size t with None => [] | Some _ => [(ty_loc t, fun s => exists m, s = ty_name t ++ m ++ "]")] end
  | _ => []
  end.

(** The position of the character that follows the text [a] *)
Definition position (a : string) : index := mkIndex (line_of a) (column_of a).
(** The location is that of a piece of [s] which is as it must be. *)
Definition placed (file : option string) (s : string) (x : site) : Prop :=
  exists a t b, s = a ++ t ++ b /\ snd x t /\
    fst x = Some (mkRawLocation (match file with Some "" => None | _ => file end) (mkRawRange (position a) (position (a ++ t)))).
(** ... and lies on one line *)
Definition one_line (x : site) : Prop :=
  match fst x with Some l => line (first (loc_range l)) = line (last (loc_range l)) | None => True end.

(** A location in the text: from the beginning to behind the end of a piece of it *)
Definition in_text (file : option string) (s : string) (l : source_location) : Prop :=
  exists a t b, s = a ++ t ++ b /\
    l = mkRawLocation (match file with Some "" => None | _ => file end) (mkRawRange (position a) (position (a ++ t))).
(** Lines and columns count from 1; the end is not before the beginning. *)
Definition ordered_from_1 (l : source_location) : Prop :=
  let a := first (loc_range l) in let b := last (loc_range l) in
  (1 <= line a /\ 1 <= column a /\ 1 <= line b /\ 1 <= column b /\ (line a < line b \/ line a = line b /\ column a <= column b))%N.
