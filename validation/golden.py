#!/usr/bin/env python3
"""Runs the Rocq model on the integration tests of /repo and compares with the
golden files (ast.golden.txt and semantic.3.0.golden.txt).

Needs the compiled model in /verif/rocq. Not part of the proof build. The dump
functions below imitate tree-gen's generated dump(), which the model leaves out.
Texts of ANTLR's own syntax errors are not modelled: only their location is
compared. Math library results are compared only as "some float".
"""
import glob, os, re, subprocess, sys, tempfile, struct

GALLINA = r'''
From Coq Require Import SpecFloat.
From Verif Require Import Base ModelUtils ModelVersion ModelError ModelTypes ModelOverload ModelFunctions
  ModelInstructionSet ModelAst ModelAnalyzer ModelSemantic ModelLexer ModelParser ModelSyntactic.
Local Open Scope string_scope.
Definition nl := String newline "".
Fixpoint ind (n : nat) : string := match n with O => "" | S k => "  " ++ ind k end.
Definition dloc (l : loc) := match l with None => "" | Some l => " # " ++ location_to_string l end.
Definition dfloat (f : float) : string :=
  match f with
  | S754_zero s => "@F" ++ (if s then "-" else "") ++ "0,0@"
  | S754_infinity s => "@F" ++ (if s then "-" else "") ++ "inf@"
  | S754_nan => "@Fnan@"
  | S754_finite s m e => "@F" ++ (if s then "-" else "") ++ dec_Z (Zpos m) ++ "," ++ dec_Z e ++ "@"
  end.
Definition line_ n s := ind n ++ s ++ nl.
Definition node n (name : string) (l : loc) (body : string) :=
  line_ n (name ++ "(" ++ dloc l) ++ body ++ line_ n ")".
Definition one n (f : string) (child : string) := line_ n (f ++ ": <") ++ child ++ line_ n ">".
Definition any_ n (f : string) (l : list string) :=
  match l with [] => line_ n (f ++ ": []")
  | _ => line_ n (f ++ ": [") ++ String.concat "" l ++ line_ n "]" end.
Definition unop_node o := match o with UMinus => "UnaryMinusExpression" | UBitNot => "BitwiseNotExpression" | ULogNot => "LogicalNotExpression" end.
Definition binop_node o := match o with
  | BPow => "PowerExpression" | BMul => "ProductExpression" | BDiv => "DivisionExpression" | BMod => "ModuloExpression"
  | BAdd => "AdditionExpression" | BSub => "SubtractionExpression" | BShl => "ShiftLeftExpression" | BShr => "ShiftRightExpression"
  | BGt => "CmpGtExpression" | BLt => "CmpLtExpression" | BGe => "CmpGeExpression" | BLe => "CmpLeExpression"
  | BEq => "CmpEqExpression" | BNe => "CmpNeExpression"
  | BBitAnd => "BitwiseAndExpression" | BBitXor => "BitwiseXorExpression" | BBitOr => "BitwiseOrExpression"
  | BLogAnd => "LogicalAndExpression" | BLogXor => "LogicalXorExpression" | BLogOr => "LogicalOrExpression" end.
Definition ident_ n name := node n "Identifier" None (line_ (n+1) ("name: " ++ name)).
Definition keyword_ n name := node n "Keyword" None (line_ (n+1) ("name: " ++ name)).
Fixpoint dexpr (n : nat) (e : expr) : string :=
  match e with
  | EBool l b => node n "BooleanLiteral" l (line_ (n+1) ("value: " ++ if b then "true" else "false"))
  | EInt l z => node n "IntegerLiteral" l (line_ (n+1) ("value: " ++ dec_Z z))
  | EFloat l f => node n "FloatLiteral" l (line_ (n+1) ("value: " ++ dfloat f))
  | EIdent l s => node n "Identifier" l (line_ (n+1) ("name: " ++ s))
  | EIndex l b idx => node n "Index" l (one (n+1) "expr" (dexpr (n+2) b) ++
       one (n+1) "indices" (node (n+2) "IndexList" None (any_ (n+3) "items" (map (dentry (n+4)) idx))))
  | ECall l s args => node n "FunctionCall" l (one (n+1) "name" (ident_ (n+2) s) ++
       match args with None => line_ (n+1) "arguments: -"
       | Some es => one (n+1) "arguments" (node (n+2) "ExpressionList" None (any_ (n+3) "items" (map (dexpr (n+4)) es))) end)
  | EUnary l o e => node n (unop_node o) l (one (n+1) "expr" (dexpr (n+2) e))
  | EBinary l o a b => node n (binop_node o) l (one (n+1) "lhs" (dexpr (n+2) a) ++ one (n+1) "rhs" (dexpr (n+2) b))
  | ETernary l c a b => node n "TernaryConditionalExpression" l (one (n+1) "cond" (dexpr (n+2) c) ++ one (n+1) "if_true" (dexpr (n+2) a) ++ one (n+1) "if_false" (dexpr (n+2) b))
  end
with dentry (n : nat) (i : index_entry) : string :=
  match i with
  | IItem l e => node n "IndexItem" l (one (n+1) "index" (dexpr (n+2) e))
  | IRange l a b => node n "IndexRange" l (one (n+1) "first" (dexpr (n+2) a) ++ one (n+1) "last" (dexpr (n+2) b))
  end.
Definition dexprs n f es := one n f (node (n+1) "ExpressionList" None (any_ (n+2) "items" (map (dexpr (n+3)) es))).
Fixpoint dgate (n : nat) (g : gate) : string :=
  let 'Gate l name i ps _ := g in
  node n "Gate" l (one (n+1) "name" (ident_ (n+2) name) ++
    match i with None => line_ (n+1) "gate: -" | Some g' => one (n+1) "gate" (dgate (n+2) g') end ++
    dexprs (n+1) "parameters" ps ++ line_ (n+1) "annotations: []").
Definition dstatement n s :=
  match s with
  | SVariable l name t _ => node n "Variable" l (one (n+1) "name" (ident_ (n+2) name) ++
      one (n+1) "typ" (node (n+2) "Type" (ty_loc t) (one (n+3) "name" (keyword_ (n+4) (ty_name t)) ++
         match ty_size t with None => line_ (n+3) "size: -"
         | Some z => one (n+3) "size" (node (n+4) "IntegerLiteral" None (line_ (n+5) ("value: " ++ dec_Z z))) end)) ++
      line_ (n+1) "annotations: []")
  | SGateInstr l g ops _ => node n "GateInstruction" l (one (n+1) "gate" (dgate (n+2) g) ++ dexprs (n+1) "operands" ops ++ line_ (n+1) "annotations: []")
  | SNonGate l name ops ps _ => node n "NonGateInstruction" l (one (n+1) "name" (keyword_ (n+2) name) ++
       dexprs (n+1) "operands" ops ++ dexprs (n+1) "parameters" ps ++ line_ (n+1) "annotations: []")
  | SAsm l name code _ => node n "AsmDeclaration" l (one (n+1) "backend_name" (ident_ (n+2) name) ++
       line_ (n+1) ("backend_code: " ++ code) ++ line_ (n+1) "annotations: []")
  end.
Definition dversion n (v : version) l := one n "version" (node (n+1) "Version" l (line_ (n+2) ("items: " ++ version_to_string v))).
Definition dprogram (p : program) := node 0 "Program" None (dversion 1 (prog_version p) (prog_version_loc p) ++
  one 1 "block" (node 2 "GlobalBlock" (prog_block_loc p) (any_ 3 "statements" (map (dstatement 4) (prog_statements p))))).

Definition type_node t := match kind t with TQubit => "Qubit" | TBit => "Bit" | TBool => "Bool" | TInt => "Int" | TFloat => "Float" | TQubitArray => "QubitArray" | TBitArray => "BitArray" end.
Definition dvar n v := node n "Variable" None (line_ (n+1) ("name: " ++ var_name v) ++
   one (n+1) "typ" (node (n+2) (type_node (var_type v)) None (line_ (n+3) ("size: " ++ dec_Z (tsize (var_type v))))) ++ line_ (n+1) "annotations: []").
Definition link n v := line_ n "variable --> <" ++ dvar (n+1) v ++ line_ n ">".
Definition dint n z := node n "ConstInt" None (line_ (n+1) ("value: " ++ dec_Z z)).
Definition dvalue n v := match v with
  | VBool b => node n "ConstBool" None (line_ (n+1) ("value: " ++ if b then "true" else "false"))
  | VInt z => dint n z
  | VFloat f => node n "ConstFloat" None (line_ (n+1) ("value: " ++ dfloat f))
  | VVar x => node n "VariableRef" None (link (n+1) x)
  | VIndex x idx => node n "IndexRef" None (link (n+1) x ++ any_ (n+1) "indices" (map (dint (n+2)) idx))
  end.
Definition dvalues n f vs := any_ n f (map (dvalue (n+1)) vs).
Definition dref i := instr_name i ++ "(" ++ types_to_string (operand_types i) ++ ")".
Fixpoint dsgate n (g : sem_gate) := let 'SemGate l name i ps _ := g in
  node n "Gate" None (line_ (n+1) ("name: " ++ name) ++
   match i with None => line_ (n+1) "gate: -" | Some g' => one (n+1) "gate" (dsgate (n+2) g') end ++
   dvalues (n+1) "parameters" ps ++ line_ (n+1) "annotations: []").
Definition dsstatement n s := match s with
  | SemGateInstr l r g ops _ => node n "GateInstruction" None (line_ (n+1) ("instruction_ref: " ++ dref r) ++ one (n+1) "gate" (dsgate (n+2) g) ++ dvalues (n+1) "operands" ops ++ line_ (n+1) "annotations: []")
  | SemNonGate l r name ops ps _ => node n "NonGateInstruction" None (line_ (n+1) ("instruction_ref: " ++ dref r) ++ line_ (n+1) ("name: " ++ name) ++ dvalues (n+1) "operands" ops ++ dvalues (n+1) "parameters" ps ++ line_ (n+1) "annotations: []")
  | SemAsm l name code _ => node n "AsmDeclaration" None (line_ (n+1) ("backend_name: " ++ name) ++ line_ (n+1) ("backend_code: " ++ code) ++ line_ (n+1) "annotations: []")
  end.
Definition dsprogram p := node 0 "Program" None (line_ 1 ("api_version: " ++ version_to_string (sp_api_version p)) ++
  dversion 1 (sp_version p) None ++
  one 1 "block" (node 2 "Block" None (any_ 3 "statements" (map (dsstatement 4) (blk_statements (sp_block p))))) ++
  any_ 1 "variables" (map (fun v => dvar 2 (sv_var v)) (sp_variables p))).
Definition k1 (f : float) : float := S754_nan.
Definition lm := mkLibm (fun a b => S754_nan) k1 k1 k1 k1 k1 k1 k1 k1 k1 k1 k1 k1 k1 k1.
Definition show {R} (d : R -> string) (r : outcome error (result R)) : string :=
  match r with
  | Ok r => match res_errors r, res_root r with
            | [], Some p => "SUCCESS" ++ nl ++ d p
            | [], None => "NOROOT"
            | es, _ => "ERROR" ++ String.concat "" (map (fun e => nl ++ what e) es)
            end
  | Err e => "THROWN " ++ what e
  | Throw w => "THROW " ++ w
  | UB k => "UB"
  end.
Definition file := Some "input.cq".
Definition ast data := show dprogram (parse_string file false data).
Definition sem data := show dsprogram (run lm false "3.0" data file).
'''

def coq_str(b):
    return '"' + b.decode('utf-8').replace('"', '""') + '"'

def fmt_float(m):
    t = m.group(1)
    if t == 'nan': return '@ANY@'
    if 'inf' in t: return t
    mant, e = t.split(',')
    neg = mant.startswith('-')
    v = float(int(mant.lstrip('-'))) * 1.0
    from fractions import Fraction
    v = float(Fraction(int(mant.lstrip('-'))) * Fraction(2) ** int(e))
    return ('-' if neg else '') + '%g' % v

def run(cases, fn):
    out = {}
    with tempfile.TemporaryDirectory() as d:
        p = os.path.join(d, 'golden_check.v')
        with open(p, 'w') as f:
            f.write(GALLINA)
            for c, data in cases:
                f.write('Eval vm_compute in %s %s.\n' % (fn, coq_str(data)))
        r = subprocess.run(['coqc', '-Q', '/verif/rocq/theories', 'Verif', p], capture_output=True, text=True)
        if r.returncode:
            print(r.stderr[:2000]); sys.exit(1)
        parts = re.findall(r'     = "((?:[^"]|"")*)"(?:%string)?\n     : string\n', r.stdout)
        assert len(parts) == len(cases), (len(parts), len(cases))
        for (c, _), t in zip(cases, parts):
            out[c] = re.sub(r'@F([^@]*)@', fmt_float, t.replace('""', '"'))
    return out

def squeeze(t):
    # tree-gen lays out multi-line strings in its own way: compare them up to white space
    t = t.replace('cqasm::v3x::primitives::Str<<', '').replace('\n          >>\n', '\n')
    return '\n'.join(l.strip() for l in t.split('\n') if l.strip())

def same(got, want):
    got, want = squeeze(got), squeeze(want)
    if got == want: return True
    gl, wl = got.split('\n'), want.split('\n')
    if len(gl) != len(wl): return False
    for a, b in zip(gl, wl):
        if a == b: continue
        if '@ANY@' in a and a.split('@ANY@')[0] == b[:len(a.split('@ANY@')[0])]: continue
        m = re.match(r'(Error at .*?): (syntax error|token recognition error)$', a)
        if m and b.startswith(m.group(1) + ': '): continue
        return False
    return True

def main():
    base = '/repo/res/v3x/tests/integration'
    bad = n = 0
    for fn, name in (('ast', 'ast.golden.txt'), ('sem', 'semantic.3.0.golden.txt')):
        cases = []
        for p in sorted(glob.glob(base + '/*/*/' + name)):
            d = os.path.dirname(p)
            # semantic golden files left over from an older grammar: the AST golden file is a syntax error
            if fn == 'sem' and open(d + '/ast.golden.txt').read().startswith('ERROR'): continue
            cases.append((d, open(d + '/input.cq', 'rb').read()))
        out = run(cases, fn)
        for d, _ in cases:
            want = open(os.path.join(d, name)).read()
            n += 1
            if not same(out[d], want):
                bad += 1
                print('MISMATCH', fn, d); print('--- model'); print(out[d][:1500]); print('--- golden'); print(want[:1500])
    print('%d golden files compared, %d mismatches' % (n, bad))
    sys.exit(1 if bad else 0)
main()
