(** Model of the parser generated from src/v3x/CqasmParser.g4: token list to
    parse tree. ANTLR's treatment of the left-recursive rule is its documented
    rewriting into precedence climbing; its adaptive prediction is modelled by
    the decision it reaches. *)
From Verif Require Import Base ModelLexer.

(** ** Parse trees *)

(** CqasmParser.g4:73-106, the labelled alternatives *)
Inductive cexpr : Type :=
| CParens (e : cexpr)
| CUnary (op : token) (e : cexpr)                    (* + - ~ ! *)
| CBinary (op : token) (e1 e2 : cexpr)
| CTernary (op : token) (c e1 e2 : cexpr)
| CCall (name : token) (args : list cexpr)
| CIndex (name : token) (indices : list centry)
| CIdent (t : token)
| CBool (t : token)
| CInt (t : token)
| CFloat (t : token)
with centry : Type :=
| CItem (e : cexpr)
| CRange (e1 e2 : cexpr).

(** CqasmParser.g4:41-46 *)
Inductive cgate : Type :=
| CInv (t : token) (g : cgate)
| CPow (t : token) (e : cexpr) (g : cgate)
| CCtrl (t : token) (g : cgate)
| CNamed (t : token) (params : option (list cexpr)).

(** CqasmParser.g4:60-67: the type keyword, and the size literal and closing
    bracket of an array type *)
Record ctype := mkCType { ct_keyword : token; ct_size : option (token * token) }.

(** CqasmParser.g4:26-58 *)
Inductive cstatement : Type :=
| CVariable (t : ctype) (name : token)
| CGateInstr (g : cgate) (operands : list cexpr)
| CMeasure (t : token) (lhs : cexpr) (params : option (list cexpr)) (rhs : cexpr)
| CReset (t : token) (e : cexpr)
| CInit (t : token) (e : cexpr)
| CBarrier (t : token) (e : cexpr)
| CWait (t : token) (param e : cexpr)
| CAsm (name code : token).

(** CqasmParser.g4:14-24 *)
Record cprogram := mkCProgram { cp_version : token; cp_statements : list cstatement }.

(** ** Parsing *)

(** Result: a tree and the remaining tokens, or a syntax error at the first of
    the remaining tokens, or out of fuel. *)
Inductive presult (A : Type) : Type :=
| POk (a : A) (rest : list token)
| PErr (rest : list token)
| PFuel.
Arguments POk {A} _ _. Arguments PErr {A} _. Arguments PFuel {A}.

Definition pbind {A B : Type} (m : presult A) (f : A -> list token -> presult B) : presult B :=
  match m with POk a r => f a r | PErr r => PErr r | PFuel => PFuel end.
Notation "'let?' ( x , r ) ':=' m 'in' k" := (pbind m (fun x r => k))
  (at level 200, x name, r name, m at level 100, k at level 200, right associativity).

Definition next_kind (ts : list token) : token_kind :=
  match ts with t :: _ => tk_kind t | [] => T_EOF end.

(** Match one token of the given kind. *)
Definition expect (k : token_kind) (ts : list token) : presult token :=
  match ts with
  | t :: ts' => if token_kind_beq (tk_kind t) k then POk t ts' else PErr ts
  | [] => PErr ts
  end.

(** CqasmParser.g4:74-90: binary alternatives with their ANTLR precedence
    (number of alternatives - position + 1, 23 alternatives). *)
Definition binary_prec (k : token_kind) : option nat :=
  match k with
  | T_POWER_OP => Some 19
  | T_PRODUCT_OP | T_DIVISION_OP | T_MODULO_OP => Some 18
  | T_PLUS | T_MINUS => Some 17
  | T_SHL_OP | T_SHR_OP => Some 16
  | T_CMP_GT_OP | T_CMP_LT_OP | T_CMP_GE_OP | T_CMP_LE_OP => Some 15
  | T_CMP_EQ_OP | T_CMP_NE_OP => Some 14
  | T_BITWISE_AND_OP => Some 13
  | T_BITWISE_XOR_OP => Some 12
  | T_BITWISE_OR_OP => Some 11
  | T_LOGICAL_AND_OP => Some 10
  | T_LOGICAL_XOR_OP => Some 9
  | T_LOGICAL_OR_OP => Some 8
  | _ => None
  end.
Definition ternary_prec : nat := 7.
(** <assoc=right> only on POWER_OP and the ternary operator *)
Definition right_assoc (k : token_kind) : bool := token_kind_beq k T_POWER_OP.
(** Precedence with which the right operand is parsed. *)
Definition next_prec (k : token_kind) (p : nat) : nat := if right_assoc k then p else S p.

(** Prefix alternatives, CqasmParser.g4:75-77 *)
Definition prefix_prec (k : token_kind) : option nat :=
  match k with
  | T_PLUS | T_MINUS => Some 22
  | T_BITWISE_NOT_OP => Some 21
  | T_LOGICAL_NOT_OP => Some 20
  | _ => None
  end.

(** Tokens an expression can start with. *)
Definition starts_expression (k : token_kind) : bool :=
  match k with
  | T_OPEN_PARENS | T_PLUS | T_MINUS | T_BITWISE_NOT_OP | T_LOGICAL_NOT_OP
  | T_IDENTIFIER | T_BOOLEAN_LITERAL | T_INTEGER_LITERAL | T_FLOAT_LITERAL => true
  | _ => false
  end.

(** CqasmParser.g4:73-106. [parse_expr p] is ANTLR's expression(p); [loop p e]
    its loop over binary alternatives; [parse_primary] its first switch;
    [parse_exprs] expressionList; [parse_entries] indexList. *)
Fixpoint parse_expr (fuel : nat) (p : nat) (ts : list token) {struct fuel} : presult cexpr :=
  match fuel with
  | O => PFuel
  | S n => let? (e, r) := parse_primary n ts in parse_loop n p e r
  end
with parse_loop (fuel : nat) (p : nat) (e : cexpr) (ts : list token) {struct fuel} : presult cexpr :=
  match fuel with
  | O => PFuel
  | S n =>
      match ts with
      | [] => POk e ts
      | t :: ts' =>
          match binary_prec (tk_kind t) with
          | Some q =>
              if Nat.leb p q
              then let? (e2, r) := parse_expr n (next_prec (tk_kind t) q) ts' in
                   parse_loop n p (CBinary t e e2) r
              else POk e ts
          | None =>
              if token_kind_beq (tk_kind t) T_TERNARY_CONDITIONAL_OP && Nat.leb p ternary_prec
              then let? (e1, r1) := parse_expr n 0 ts' in
                   let? (_c, r2) := expect T_COLON r1 in
                   let? (e2, r3) := parse_expr n ternary_prec r2 in
                   parse_loop n p (CTernary t e e1 e2) r3
              else POk e ts
          end
      end
  end
with parse_primary (fuel : nat) (ts : list token) {struct fuel} : presult cexpr :=
  match fuel with
  | O => PFuel
  | S n =>
      match ts with
      | [] => PErr ts
      | t :: ts' =>
          match prefix_prec (tk_kind t) with
          | Some q => let? (e, r) := parse_expr n q ts' in POk (CUnary t e) r
          | None =>
              match tk_kind t with
              | T_OPEN_PARENS =>
                  let? (e, r) := parse_expr n 0 ts' in
                  let? (_c, r') := expect T_CLOSE_PARENS r in
                  POk (CParens e) r'
              | T_IDENTIFIER =>
                  match next_kind ts' with
                  | T_OPEN_PARENS =>
                      match next_kind (tl ts') with
                      | T_CLOSE_PARENS => POk (CCall t []) (tl (tl ts'))
                      | _ =>
                          let? (args, r) := parse_exprs n (tl ts') in
                          let? (_c, r') := expect T_CLOSE_PARENS r in
                          POk (CCall t args) r'
                      end
                  | T_OPEN_BRACKET =>
                      let? (idx, r) := parse_entries n (tl ts') in
                      let? (_c, r') := expect T_CLOSE_BRACKET r in
                      POk (CIndex t idx) r'
                  | _ => POk (CIdent t) ts'
                  end
              | T_BOOLEAN_LITERAL => POk (CBool t) ts'
              | T_INTEGER_LITERAL => POk (CInt t) ts'
              | T_FLOAT_LITERAL => POk (CFloat t) ts'
              | _ => PErr ts
              end
          end
      end
  end
with parse_exprs (fuel : nat) (ts : list token) {struct fuel} : presult (list cexpr) :=
  match fuel with
  | O => PFuel
  | S n =>
      let? (e, r) := parse_expr n 0 ts in
      match next_kind r with
      | T_COMMA => let? (es, r') := parse_exprs n (tl r) in POk (e :: es) r'
      | _ => POk [e] r
      end
  end
with parse_entries (fuel : nat) (ts : list token) {struct fuel} : presult (list centry) :=
  match fuel with
  | O => PFuel
  | S n =>
      let? (e, r) := parse_expr n 0 ts in
      let? (i, r1) := (match next_kind r with
                       | T_COLON => let? (e2, r2) := parse_expr n 0 (tl r) in POk (CRange e e2) r2
                       | _ => POk (CItem e) r
                       end) in
      match next_kind r1 with
      | T_COMMA => let? (is, r') := parse_entries n (tl r1) in POk (i :: is) r'
      | _ => POk [i] r1
      end
  end.

(** The optional "( expressionList )" after a gate name or MEASURE
    (CqasmParser.g4:45,51): taken when an expression follows it, or when it has
    several expressions, so that it cannot be the beginning of the operand. *)
Definition parse_params (fuel : nat) (ts : list token) : presult (option (list cexpr)) :=
  match next_kind ts with
  | T_OPEN_PARENS =>
      let? (es, r) := parse_exprs fuel (tl ts) in
      let? (_c, r') := expect T_CLOSE_PARENS r in
      if starts_expression (next_kind r') || negb (Nat.eqb (List.length es) 1)
      then POk (Some es) r' else POk None ts
  | _ => POk None ts
  end.

(** CqasmParser.g4:41-46 *)
Fixpoint parse_gate (fuel : nat) (ts : list token) : presult cgate :=
  match fuel with
  | O => PFuel
  | S n =>
      match ts with
      | [] => PErr ts
      | t :: ts' =>
          match tk_kind t with
          | T_INV =>
              let? (_d, r) := expect T_DOT ts' in
              let? (g, r') := parse_gate n r in POk (CInv t g) r'
          | T_CTRL =>
              let? (_d, r) := expect T_DOT ts' in
              let? (g, r') := parse_gate n r in POk (CCtrl t g) r'
          | T_POW =>
              let? (_o, r) := expect T_OPEN_PARENS ts' in
              let? (e, r1) := parse_expr n 0 r in
              let? (_c, r2) := expect T_CLOSE_PARENS r1 in
              let? (_d, r3) := expect T_DOT r2 in
              let? (g, r4) := parse_gate n r3 in POk (CPow t e g) r4
          | T_IDENTIFIER =>
              let? (ps, r) := parse_params n ts' in POk (CNamed t ps) r
          | _ => PErr ts
          end
      end
  end.

Definition ends_statement (k : token_kind) : bool :=
  match k with T_NEW_LINE | T_SEMICOLON | T_EOF => true | _ => false end.

(** CqasmParser.g4:39 gateInstruction, followed by the end of the statement *)
Definition parse_gate_instruction (fuel : nat) (ts : list token) : presult cstatement :=
  let? (g, r) := parse_gate fuel ts in
  let? (es, r') := parse_exprs fuel r in
  if ends_statement (next_kind r') then POk (CGateInstr g es) r' else PErr r'.

(** CqasmParser.g4:51 measureInstruction *)
Definition parse_measure (fuel : nat) (ts : list token) : presult cstatement :=
  let? (lhs, r) := parse_expr fuel 0 ts in
  let? (_e, r1) := expect T_EQUALS r in
  let? (t, r2) := expect T_MEASURE r1 in
  let? (ps, r3) := parse_params fuel r2 in
  let? (rhs, r4) := parse_expr fuel 0 r3 in
  POk (CMeasure t lhs ps rhs) r4.

(** CqasmParser.g4:60-67 type *)
Definition parse_type (ts : list token) : presult ctype :=
  match ts with
  | t :: ts' =>
      match next_kind ts' with
      | T_OPEN_BRACKET =>
          let? (i, r) := expect T_INTEGER_LITERAL (tl ts') in
          let? (c, r') := expect T_CLOSE_BRACKET r in
          POk (mkCType t (Some (i, c))) r'
      | _ => POk (mkCType t None) ts'
      end
  | [] => PErr ts
  end.

(** The error of two failed alternatives: the one that got further. *)
Definition further (r1 r2 : list token) : list token :=
  if Nat.leb (List.length r1) (List.length r2) then r1 else r2.

(** CqasmParser.g4:26-58 globalBlockStatement *)
Definition parse_statement (fuel : nat) (ts : list token) : presult cstatement :=
  match ts with
  | [] => PErr ts
  | t :: ts' =>
      match tk_kind t with
      | T_QUBIT_TYPE | T_BIT_TYPE =>
          let? (ty, r) := parse_type ts in
          let? (name, r') := expect T_IDENTIFIER r in
          POk (CVariable ty name) r'
      | T_INV | T_POW | T_CTRL => parse_gate_instruction fuel ts
      | T_IDENTIFIER =>
          match parse_gate_instruction fuel ts with
          | POk s r => POk s r
          | PFuel => PFuel
          | PErr r1 => match parse_measure fuel ts with
                       | PErr r2 => PErr (further r1 r2)
                       | x => x
                       end
          end
      | T_RESET => let? (e, r) := parse_expr fuel 0 ts' in POk (CReset t e) r
      | T_INIT => let? (e, r) := parse_expr fuel 0 ts' in POk (CInit t e) r
      | T_BARRIER => let? (e, r) := parse_expr fuel 0 ts' in POk (CBarrier t e) r
      | T_WAIT =>
          let? (_o, r) := expect T_OPEN_PARENS ts' in
          let? (p, r1) := parse_expr fuel 0 r in
          let? (_c, r2) := expect T_CLOSE_PARENS r1 in
          let? (e, r3) := parse_expr fuel 0 r2 in
          POk (CWait t p e) r3
      | T_ASM =>
          let? (_o, r) := expect T_OPEN_PARENS ts' in
          let? (name, r1) := expect T_IDENTIFIER r in
          let? (_c, r2) := expect T_CLOSE_PARENS r1 in
          let? (code, r3) := expect T_RAW_TEXT_STRING r2 in
          POk (CAsm name code) r3
      | _ => parse_measure fuel ts
      end
  end.

Definition is_separator (k : token_kind) : bool :=
  match k with T_NEW_LINE | T_SEMICOLON => true | _ => false end.

(** statementSeparator*, CqasmParser.g4:16-22 *)
Fixpoint skip_separators (ts : list token) : list token :=
  match ts with
  | t :: ts' => if is_separator (tk_kind t) then skip_separators ts' else ts
  | [] => []
  end.

(** CqasmParser.g4:18-20: (statementSeparator+ globalBlockStatement)* statementSeparator* EOF *)
Fixpoint parse_statements (fuel : nat) (ts : list token) : presult (list cstatement) :=
  match fuel with
  | O => PFuel
  | S n =>
      match next_kind ts with
      | T_EOF => POk [] ts
      | T_NEW_LINE | T_SEMICOLON =>
          let ts' := skip_separators ts in
          match next_kind ts' with
          | T_EOF => POk [] ts'
          | _ =>
              let? (s, r) := parse_statement n ts' in
              let? (ss, r') := parse_statements n r in
              POk (s :: ss) r'
          end
      | _ => PErr ts
      end
  end.

(** Enough fuel for any parse of [ts]. *)
Definition parse_fuel (ts : list token) : nat := 4 * List.length ts + 4.

(** CqasmParser.g4:14-24 program *)
Definition parse_program (ts : list token) : presult cprogram :=
  let fuel := parse_fuel ts in
  let? (_v, r) := expect T_VERSION (skip_separators ts) in
  let? (v, r1) := expect T_VERSION_NUMBER r in
  let? (ss, r2) := parse_statements fuel r1 in
  POk (mkCProgram v ss) r2.
