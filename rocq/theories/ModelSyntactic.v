(** Model of SyntacticAnalyzer (parse tree to AST) and of the parse functions:
    src/v3x/{syntactic_analyzer,antlr_custom_error_listener,antlr_scanner,parse_helper}.cpp,
    Analyzer::analyze_string and src/v3x/cqasm.cpp. *)
From Coq Require Import SpecFloat.
From Verif Require Import Base ModelUtils ModelVersion ModelError ModelTypes ModelAst ModelLexer ModelParser
  ModelFunctions ModelAnalyzer ModelSemantic.
Local Open Scope string_scope.

(** ** Literals *)

(** std::stoll on a string of digits; [None] is std::out_of_range *)
Definition stoll (s : string) : option Z :=
  let v := fst (read_digits 0 false s) in
  if (v <=? int64_max)%Z then Some v else None.

(** The decimal number written by a FLOAT_LITERAL: mantissa and power of ten. *)
Fixpoint float_digits (s : string) (m : Z) (e : Z) (dot : bool) : Z * Z * string :=
  match s with
  | EmptyString => (m, e, "")
  | String c s' =>
      if is_digit c then float_digits s' (m * 10 + digit_val c) (if dot then e - 1 else e)%Z dot
      else if Ascii.eqb c "." then float_digits s' m e true
      else (m, e, s)
  end.
Definition float_exponent (s : string) : Z :=
  match s with
  | String c s' =>
      match s' with
      | String d s'' => if Ascii.eqb d "-" then (- fst (read_digits 0 false s''))%Z
                        else if Ascii.eqb d "+" then fst (read_digits 0 false s'')
                        else fst (read_digits 0 false s')
      | EmptyString => 0
      end
  | EmptyString => 0
  end.
Definition decimal_of_literal (s : string) : Z * Z :=
  let '(m, e, rest) := float_digits s 0 0 false in (m, e + float_exponent rest)%Z.

(** m * 10^e rounded to the nearest double, ties to even *)
Definition float_of_decimal (m e : Z) : float :=
  match m with
  | Zpos p =>
      if (0 <=? e)%Z then binary_normalize prec emax (m * 10 ^ e) 0 false
      else SFdiv prec emax (S754_finite false p 0) (S754_finite false (Z.to_pos (10 ^ (- e))) 0)
  | _ => S754_zero false
  end.

(** Is the finite double [f] exactly m * 10^e? *)
Definition decimal_exact (m e : Z) (f : float) : bool :=
  match f with
  | S754_zero _ => (m =? 0)%Z
  | S754_finite _ q x =>
      let a := if (0 <=? e)%Z then (m * 10 ^ e)%Z else m in
      let da := if (0 <=? e)%Z then 1%Z else (10 ^ (- e))%Z in
      let b := if (0 <=? x)%Z then (Zpos q * 2 ^ x)%Z else Zpos q in
      let db := if (0 <=? x)%Z then 1%Z else (2 ^ (- x))%Z in
      (a * db =? b * da)%Z
  | _ => false
  end.

(** zero or subnormal *)
Definition is_tiny (f : float) : bool :=
  match f with
  | S754_zero _ => true
  | S754_finite _ q _ => (Zpos q <? 2 ^ 52)%Z
  | _ => false
  end.

(** std::stod in the "C" locale; [None] is std::out_of_range, thrown when strtod
    reports ERANGE: overflow, or an inexact result that is zero or subnormal.
    (Whether glibc counts a value just below the smallest normal double as tiny
    when it rounds up to it is not modelled.) *)
Definition stod (s : string) : option float :=
  let '(m, e) := decimal_of_literal s in
  let f := float_of_decimal m e in
  match f with
  | S754_infinity _ | S754_nan => None
  | _ => if is_tiny f && negb (decimal_exact m e f) then None else Some f
  end.

Section Visitor.
  (** The file name given to the visitor and the error listener *)
  Variable file : option string.
  (** Order in which the arguments of one tree::make call are evaluated: right
      to left when true. The language leaves it unspecified. *)
  Variable rtl : bool.

  (** src/v3x/antlr_custom_error_listener.cpp:18-43 syntaxError; [size] is that of
      the offending token. Line and column are not truncated to 32 bits. *)
  Definition syntax_error (line col : N) (size : nat) (msg : string) : error :=
    mk_error_range msg (normalize_file_name file)
      (mk_range (mkIndex line (col + 1)) (mkIndex line (col + 1 + N.of_nat size))).

  (** src/v3x/syntactic_analyzer.cpp:46-55 setNodeAnnotation. Every token it is
      called on consists of ASCII characters. *)
  Definition token_loc (t : token) : loc :=
    Some (mk_location (normalize_file_name file)
            (mk_range (mkIndex (tk_line t) (tk_col t + 1))
                      (mkIndex (tk_line t) (tk_col t + 1 + N.of_nat (String.length (tk_text t)))))).

  (** src/v3x/syntactic_analyzer.cpp:57-64 expandNodeAnnotation *)
  Definition expand_loc (l : loc) (t : token) : loc :=
    match l with
    | None => None
    | Some l => Some (expand_to_include l
                        (mkIndex (tk_line t) (tk_col t + 1 + N.of_nat (String.length (tk_text t)))))
    end.

  (** src/v3x/syntactic_analyzer.cpp:71-79 get_int_value *)
  Definition get_int_value (line col : N) (text : string) : outcome error Z :=
    match stoll text with
    | Some z => Ok z
    | None => Err (syntax_error line col 0 ("value '" ++ text ++ "' is out of the INTEGER_LITERAL range"))
    end.

  (** src/v3x/syntactic_analyzer.cpp:81-88 get_float_value *)
  Definition get_float_value (line col : N) (text : string) : outcome error float :=
    match stod text with
    | Some f => Ok f
    | None => Err (syntax_error line col 0 ("value '" ++ text ++ "' is out of the FLOAT_LITERAL range"))
    end.

  (** Two (three) calls evaluated as arguments of one call *)
  Definition both {A B : Type} (a : outcome error A) (b : outcome error B) : outcome error (A * B) :=
    if rtl then let! y := b in let! x := a in Ok (x, y)
    else let! x := a in let! y := b in Ok (x, y).

  (** src/v3x/syntactic_analyzer.cpp:352-440: operator token to AST operator *)
  Definition binop_of_token (k : token_kind) : option binop :=
    match k with
    | T_POWER_OP => Some BPow
    | T_PRODUCT_OP => Some BMul | T_DIVISION_OP => Some BDiv | T_MODULO_OP => Some BMod
    | T_PLUS => Some BAdd | T_MINUS => Some BSub
    | T_SHL_OP => Some BShl | T_SHR_OP => Some BShr
    | T_CMP_GT_OP => Some BGt | T_CMP_LT_OP => Some BLt | T_CMP_GE_OP => Some BGe | T_CMP_LE_OP => Some BLe
    | T_CMP_EQ_OP => Some BEq | T_CMP_NE_OP => Some BNe
    | T_BITWISE_AND_OP => Some BBitAnd | T_BITWISE_XOR_OP => Some BBitXor | T_BITWISE_OR_OP => Some BBitOr
    | T_LOGICAL_AND_OP => Some BLogAnd | T_LOGICAL_XOR_OP => Some BLogXor | T_LOGICAL_OR_OP => Some BLogOr
    | _ => None
    end.

  (** src/v3x/syntactic_analyzer.cpp:319-495. The last cases of the operator
      matches do not occur in parse trees. *)
  Fixpoint visit_cexpr (c : cexpr) : outcome error expr :=
    match c with
    | CParens e => visit_cexpr e
    | CUnary t e =>
        match tk_kind t with
        | T_PLUS => visit_cexpr e
        | T_MINUS => let! e' := visit_cexpr e in Ok (EUnary (token_loc t) UMinus e')
        | T_BITWISE_NOT_OP => let! e' := visit_cexpr e in Ok (EUnary (token_loc t) UBitNot e')
        | T_LOGICAL_NOT_OP => let! e' := visit_cexpr e in Ok (EUnary (token_loc t) ULogNot e')
        | _ => UB AssertFailed
        end
    | CBinary t e1 e2 =>
        match binop_of_token (tk_kind t) with
        | Some op => let! p := both (visit_cexpr e1) (visit_cexpr e2) in
                     Ok (EBinary (token_loc t) op (fst p) (snd p))
        | None => UB AssertFailed
        end
    | CTernary t c1 e1 e2 =>
        let! p := both (visit_cexpr c1) (both (visit_cexpr e1) (visit_cexpr e2)) in
        Ok (ETernary (token_loc t) (fst p) (fst (snd p)) (snd (snd p)))
    | CCall t args =>
        match args with
        | [] => Ok (ECall (token_loc t) (tk_text t) None)
        | _ => let! es := mapM visit_cexpr args in
               Ok (ECall (token_loc t) (tk_text t) (Some es))
        end
    | CIndex t idx =>
        let! is := mapM visit_centry idx in
        Ok (EIndex (token_loc t) (EIdent None (tk_text t)) is)
    | CIdent t => Ok (EIdent (token_loc t) (tk_text t))
    | CBool t => Ok (EBool (token_loc t) (tk_text t =? "true"))
    | CInt t => let! z := get_int_value (tk_line t) (tk_col t) (tk_text t) in Ok (EInt (token_loc t) z)
    | CFloat t => let! f := get_float_value (tk_line t) (tk_col t) (tk_text t) in Ok (EFloat (token_loc t) f)
    end
  with visit_centry (c : centry) : outcome error index_entry :=
    match c with
    | CItem e => let! e' := visit_cexpr e in Ok (IItem None e')
    | CRange e1 e2 => let! p := both (visit_cexpr e1) (visit_cexpr e2) in Ok (IRange None (fst p) (snd p))
    end.

  (** src/v3x/syntactic_analyzer.cpp:319-326 visitExpressionList *)
  Definition visit_cexprs (l : list cexpr) : outcome error (list expr) := mapM visit_cexpr l.
  Definition visit_cparams (o : option (list cexpr)) : outcome error (list expr) :=
    match o with None => Ok [] | Some l => visit_cexprs l end.

  (** src/v3x/syntactic_analyzer.cpp:187-223: gates. The inner gate is visited
      before the exponent of pow. *)
  Fixpoint visit_cgate (g : cgate) : outcome error gate :=
    match g with
    | CInv t g' => let! i := visit_cgate g' in Ok (Gate (token_loc t) "inv" (Some i) [] [])
    | CPow t e g' =>
        let! i := visit_cgate g' in
        let! e' := visit_cexpr e in
        Ok (Gate (token_loc t) "pow" (Some i) [e'] [])
    | CCtrl t g' => let! i := visit_cgate g' in Ok (Gate (token_loc t) "ctrl" (Some i) [] [])
    | CNamed t ps => let! es := visit_cparams ps in Ok (Gate (token_loc t) (tk_text t) None es [])
    end.
  Definition gate_loc (g : gate) : loc := let 'Gate l _ _ _ _ := g in l.

  (** src/v3x/syntactic_analyzer.cpp:286-317: types *)
  Definition visit_ctype (t : ctype) : outcome error ast_type :=
    let name := match tk_kind (ct_keyword t) with T_QUBIT_TYPE => "qubit" | _ => "bit" end in
    match ct_size t with
    | None => Ok (mkAstType (token_loc (ct_keyword t)) name None)
    | Some (i, close) =>
        let! z := get_int_value (tk_line i) (tk_col i) (tk_text i) in
        Ok (mkAstType (expand_loc (token_loc (ct_keyword t)) close) name (Some z))
    end.

  (** src/v3x/syntactic_analyzer.cpp:154-284: statements *)
  Definition visit_cstatement (s : cstatement) : outcome error statement :=
    match s with
    | CVariable t name =>
        let! ty := visit_ctype t in Ok (SVariable (token_loc name) (tk_text name) ty [])
    | CGateInstr g ops =>
        let! g' := visit_cgate g in
        let! es := visit_cexprs ops in
        Ok (SGateInstr (gate_loc g') g' es [])
    | CMeasure t lhs ps rhs =>
        let! pes := visit_cparams ps in
        let! e0 := visit_cexpr lhs in
        let! e1 := visit_cexpr rhs in
        Ok (SNonGate (token_loc t) "measure" [e0; e1] pes [])
    | CReset t e => let! e' := visit_cexpr e in Ok (SNonGate (token_loc t) "reset" [e'] [] [])
    | CInit t e => let! e' := visit_cexpr e in Ok (SNonGate (token_loc t) "init" [e'] [] [])
    | CBarrier t e => let! e' := visit_cexpr e in Ok (SNonGate (token_loc t) "barrier" [e'] [] [])
    | CWait t p e =>
        let! p' := visit_cexpr p in
        let! e' := visit_cexpr e in
        Ok (SNonGate (token_loc t) "wait" [e'] [p'] [])
    | CAsm name code =>
        let! c := remove_triple_quotes (tk_text code) in
        Ok (SAsm None (tk_text name) c [])
    end.

  (** The parts of a VERSION_NUMBER before and after its dot *)
  Fixpoint split_version (s : string) : string * option string :=
    match s with
    | EmptyString => ("", None)
    | String c s' => if Ascii.eqb c "." then ("", Some s')
                     else let (a, b) := split_version s' in (String c a, b)
    end.

  (** src/v3x/syntactic_analyzer.cpp:138-152 visitVersion *)
  Definition visit_cversion (t : token) : outcome error version :=
    let (a, b) := split_version (tk_text t) in
    let! x := get_int_value (tk_line t) (tk_col t) a in
    match b with
    | None => Ok [x]
    | Some b =>
        let! y := get_int_value (tk_line t) (tk_col t + N.of_nat (String.length a) + 1) b in
        Ok [x; y]
    end.

  (** src/v3x/syntactic_analyzer.cpp:108-128 visitProgram, visitGlobalBlockSection *)
  Definition visit_cprogram (p : cprogram) : outcome error program :=
    let! v := visit_cversion (cp_version p) in
    let! ss := mapM visit_cstatement (cp_statements p) in
    Ok (mkProgram v (token_loc (cp_version p)) ss None).

  (** The error ANTLR reports at the first of the remaining tokens. The message
      texts of the ANTLR runtime are not modelled. *)
  Definition antlr_error (ts : list token) : error :=
    match ts with
    | t :: _ => syntax_error (tk_line t) (tk_col t) (String.length (tk_text t))
                  (match tk_kind t with T_ERROR => "token recognition error" | _ => "syntax error" end)
    | [] => syntax_error 1 0 0 "syntax error"
    end.

  (** src/v3x/antlr_scanner.cpp:28-45 AntlrScanner::parse_, for a string source.
      A byte sequence that is not UTF-8 makes ANTLRInputStream throw
      antlr4::IllegalArgumentException, which is not a std::runtime_error. *)
  Definition scan (data : string) : outcome error program :=
    if negb (valid_utf8 (strip_bom data)) then Throw "antlr4::IllegalArgumentException"
    else match tokenize (strip_bom data) with
         | None => UB AssertFailed
         | Some ts =>
             match parse_program ts with
             | POk p _ => visit_cprogram p
             | PErr r => Err (antlr_error r)
             | PFuel => UB AssertFailed
             end
         end.

  (** src/v3x/parse_helper.cpp:32-66 parse_string. The resulting AST is always
      well formed (all required children are set). *)
  Definition parse_string (data : string) : outcome error (result program) :=
    match scan data with
    | Ok p => Ok (mkResult (Some p) [])
    | Err e => Ok (mkResult None [e])
    | Throw w => Throw w
    | UB k => UB k
    end.
End Visitor.

(** src/v3x/parse_helper.cpp:20-26 parse_file; [content] is the content of the
    file, or [None] when the path is not an accessible regular file: the
    exception of FileAntlrScanner's constructor (antlr_scanner.cpp:47-54) is not
    caught. *)
Definition parse_file (content : option string) (path : string) (file : option string) (rtl : bool)
  : outcome error (result program) :=
  match content with
  | None => Err (mk_error ("FileAntlrScanner couldn't access file '" ++ path ++ "'."))
  | Some data => parse_string file rtl data
  end.

(** src/v3x/analyzer.cpp:126-128 Analyzer::analyze_string *)
Definition analyze_string (rtl : bool) (st : analyzer) (data : string) (file : option string)
  : outcome error (analyzer * result sem_program) :=
  let! r := parse_string file rtl data in analyze st r.

(** src/v3x/analyzer.cpp:118-120 Analyzer::analyze_file *)
Definition analyze_file (rtl : bool) (st : analyzer) (path : string) (content : option string)
  : outcome error (analyzer * result sem_program) :=
  let! r := parse_file content path (Some path) rtl in analyze st r.

(** The whole pipeline: default_analyzer(api).analyze_string(data, file) *)
Definition run (lm : libm) (rtl : bool) (api data : string) (file : option string)
  : outcome error (result sem_program) :=
  let! st := default_analyzer lm api in
  let! r := analyze_string rtl st data file in
  Ok (snd r).
