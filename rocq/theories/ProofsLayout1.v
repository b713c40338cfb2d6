(** The parser and the construction of the tree look only at the kinds and texts
    of tokens (C47, C54, C57). *)
From Verif Require Import Base ModelUtils ModelVersion ModelError ModelTypes ModelFunctions ModelAst ModelLexer ModelParser ModelAnalyzer ModelSemantic ModelSyntactic
  SpecRelocate ProofsExpr ProofsRelocate.
Local Open Scope string_scope.

(** ** Maps of tokens *)
Section TokenMap.
  Variable phi : token -> token.
  Hypothesis kind_phi : forall t, tk_kind (phi t) = tk_kind t.

  Fixpoint map_cexpr (c : cexpr) : cexpr :=
    match c with
    | CParens e => CParens (map_cexpr e)
    | CUnary t e => CUnary (phi t) (map_cexpr e)
    | CBinary t a b => CBinary (phi t) (map_cexpr a) (map_cexpr b)
    | CTernary t a b c => CTernary (phi t) (map_cexpr a) (map_cexpr b) (map_cexpr c)
    | CCall t es => CCall (phi t) (map map_cexpr es)
    | CIndex t is => CIndex (phi t) (map map_centry is)
    | CIdent t => CIdent (phi t) | CBool t => CBool (phi t) | CInt t => CInt (phi t) | CFloat t => CFloat (phi t)
    end
  with map_centry (c : centry) : centry :=
    match c with
    | CItem e => CItem (map_cexpr e)
    | CRange a b => CRange (map_cexpr a) (map_cexpr b)
    end.
  Definition map_cparams (o : option (list cexpr)) := option_map (map map_cexpr) o.
  Fixpoint map_cgate (g : cgate) : cgate :=
    match g with
    | CInv t g => CInv (phi t) (map_cgate g)
    | CPow t e g => CPow (phi t) (map_cexpr e) (map_cgate g)
    | CCtrl t g => CCtrl (phi t) (map_cgate g)
    | CNamed t ps => CNamed (phi t) (map_cparams ps)
    end.
  Definition map_ctype (t : ctype) : ctype :=
    mkCType (phi (ct_keyword t)) (option_map (fun p => (phi (fst p), phi (snd p))) (ct_size t)).
  Definition map_cstatement (s : cstatement) : cstatement :=
    match s with
    | CVariable t n => CVariable (map_ctype t) (phi n)
    | CGateInstr g es => CGateInstr (map_cgate g) (map map_cexpr es)
    | CMeasure t a ps b => CMeasure (phi t) (map_cexpr a) (map_cparams ps) (map_cexpr b)
    | CReset t e => CReset (phi t) (map_cexpr e)
    | CInit t e => CInit (phi t) (map_cexpr e)
    | CBarrier t e => CBarrier (phi t) (map_cexpr e)
    | CWait t p e => CWait (phi t) (map_cexpr p) (map_cexpr e)
    | CAsm n c => CAsm (phi n) (phi c)
    end.
  Definition map_cprogram (p : cprogram) : cprogram :=
    mkCProgram (phi (cp_version p)) (map map_cstatement (cp_statements p)).

  Notation mp := (map phi).
  Definition pmap {A B} (g : A -> B) (m : presult A) : presult B :=
    match m with POk a r => POk (g a) (mp r) | PErr r => PErr (mp r) | PFuel => PFuel end.
  Lemma pmap_bind {A A' B B'} (g : A -> A') (h : B -> B') m m' k k' :
    m' = pmap g m -> (forall a r, k' (g a) (mp r) = pmap h (k a r)) -> pbind m' k' = pmap h (pbind m k).
  Proof. intros -> H. destruct m; cbn; auto. Qed.
  Lemma map_next_kind ts : next_kind (mp ts) = next_kind ts.
  Proof. destruct ts; cbn; auto. Qed.
  Lemma map_tl ts : tl (mp ts) = mp (tl ts).
  Proof. now destruct ts. Qed.
  Lemma map_expect k ts : expect k (mp ts) = pmap phi (expect k ts).
  Proof. destruct ts as [|t ts]; cbn [expect map]; [reflexivity|]. rewrite kind_phi. destruct (token_kind_beq _ _); reflexivity. Qed.

  Ltac pm := cbn [map]; rewrite ?kind_phi, ?map_next_kind, ?map_tl, ?map_next_kind, ?map_tl.
  Lemma map_parse n :
    (forall p ts, parse_expr n p (mp ts) = pmap map_cexpr (parse_expr n p ts)) /\
    (forall p e ts, parse_loop n p (map_cexpr e) (mp ts) = pmap map_cexpr (parse_loop n p e ts)) /\
    (forall ts, parse_primary n (mp ts) = pmap map_cexpr (parse_primary n ts)) /\
    (forall ts, parse_exprs n (mp ts) = pmap (map map_cexpr) (parse_exprs n ts)) /\
    (forall ts, parse_entries n (mp ts) = pmap (map map_centry) (parse_entries n ts)).
  Proof.
    induction n as [|n (IHe & IHl & IHp & IHs & IHi)]; [split; [|split; [|split; [|split]]]; reflexivity|].
    split; [|split; [|split; [|split]]].
    - intros p ts. cbn [parse_expr]. eapply pmap_bind; [apply IHp|]. intros e r. apply IHl.
    - intros p e [|t ts]; cbn [parse_loop map]; [reflexivity|]. pm. destruct (binary_prec (tk_kind t)) as [q|].
      + destruct (p <=? q)%nat; [|reflexivity]. eapply pmap_bind; [apply IHe|]. intros e2 r. exact (IHl p (CBinary t e e2) r).
      + destruct (_ && _); [|reflexivity]. eapply pmap_bind; [apply IHe|]. intros e1 r1. eapply pmap_bind; [apply map_expect|]. intros c r2.
        eapply pmap_bind; [apply IHe|]. intros e2 r3. exact (IHl p (CTernary t e e1 e2) r3).
    - intros [|t ts]; cbn [parse_primary map]; [reflexivity|]. pm. destruct (prefix_prec (tk_kind t)) as [q|].
      { eapply pmap_bind; [apply IHe|]. reflexivity. }
      destruct (tk_kind t); try reflexivity.
      + eapply pmap_bind; [apply IHe|]. intros e r. eapply pmap_bind; [apply map_expect|]. reflexivity.
      + destruct (next_kind ts); try reflexivity.
        * eapply pmap_bind; [apply IHi|]. intros is r. eapply pmap_bind; [apply map_expect|]. reflexivity.
        * destruct (next_kind (tl ts)); try reflexivity; (eapply pmap_bind; [apply IHs|]; intros es r; eapply pmap_bind; [apply map_expect|]; reflexivity).
    - intros ts. cbn [parse_exprs]. eapply pmap_bind; [apply IHe|]. intros e r. pm. destruct (next_kind r); try reflexivity.
      eapply pmap_bind; [apply IHs|]. reflexivity.
    - intros ts. cbn [parse_entries]. eapply pmap_bind; [apply IHe|]. intros e r. eapply (pmap_bind map_centry).
      + pm. destruct (next_kind r); try reflexivity. eapply pmap_bind; [apply IHe|]. reflexivity.
      + intros i r1. pm. destruct (next_kind r1); try reflexivity. eapply pmap_bind; [apply IHi|]. reflexivity.
  Qed.
  Lemma map_expr n p ts : parse_expr n p (mp ts) = pmap map_cexpr (parse_expr n p ts).
  Proof. apply map_parse. Qed.
  Lemma map_exprs n ts : parse_exprs n (mp ts) = pmap (map map_cexpr) (parse_exprs n ts).
  Proof. apply map_parse. Qed.
  Lemma map_params n ts : parse_params n (mp ts) = pmap map_cparams (parse_params n ts).
  Proof.
    unfold parse_params. pm. destruct (next_kind ts); try reflexivity. eapply pmap_bind; [apply map_exprs|]. intros es r. eapply pmap_bind; [apply map_expect|]. intros c r'.
    pm. rewrite map_length. destruct (_ || _); reflexivity.
  Qed.
  Lemma map_gate n : forall ts, parse_gate n (mp ts) = pmap map_cgate (parse_gate n ts).
  Proof.
    induction n as [|n IH]; intros ts; [reflexivity|]. destruct ts as [|t ts]; cbn [parse_gate map]; [reflexivity|]. pm. destruct (tk_kind t); try reflexivity.
    - eapply pmap_bind; [apply map_expect|]. intros d r. eapply pmap_bind; [apply IH|]. reflexivity.
    - eapply pmap_bind; [apply map_expect|]. intros d r. eapply pmap_bind; [apply map_expr|]. intros e r1. eapply pmap_bind; [apply map_expect|]. intros c r2.
      eapply pmap_bind; [apply map_expect|]. intros c' r3. eapply pmap_bind; [apply IH|]. reflexivity.
    - eapply pmap_bind; [apply map_expect|]. intros d r. eapply pmap_bind; [apply IH|]. reflexivity.
    - eapply pmap_bind; [apply map_params|]. reflexivity.
  Qed.
  Lemma map_gate_instruction n ts : parse_gate_instruction n (mp ts) = pmap map_cstatement (parse_gate_instruction n ts).
  Proof.
    unfold parse_gate_instruction. eapply pmap_bind; [apply map_gate|]. intros g r. eapply pmap_bind; [apply map_exprs|]. intros es r'. pm. destruct (ends_statement _); reflexivity.
  Qed.
  Lemma map_measure n ts : parse_measure n (mp ts) = pmap map_cstatement (parse_measure n ts).
  Proof.
    unfold parse_measure. eapply pmap_bind; [apply map_expr|]. intros e r. eapply pmap_bind; [apply map_expect|]. intros q r1. eapply pmap_bind; [apply map_expect|]. intros t r2.
    eapply pmap_bind; [apply map_params|]. intros ps r3. eapply pmap_bind; [apply map_expr|]. reflexivity.
  Qed.
  Lemma map_type ts : parse_type (mp ts) = pmap map_ctype (parse_type ts).
  Proof.
    destruct ts as [|t ts]; cbn [parse_type map]; [reflexivity|]. pm. destruct (next_kind ts); try reflexivity. eapply pmap_bind; [apply map_expect|]. intros i r. eapply pmap_bind; [apply map_expect|]. reflexivity.
  Qed.
  Lemma map_further r1 r2 : further (mp r1) (mp r2) = mp (further r1 r2).
  Proof. unfold further. rewrite !map_length. destruct (_ <=? _)%nat; reflexivity. Qed.
  Lemma map_statement n ts : parse_statement n (mp ts) = pmap map_cstatement (parse_statement n ts).
  Proof.
    destruct ts as [|t ts']; [reflexivity|]. unfold parse_statement. cbn [map]. pm. set (ts := t :: ts'). change (phi t :: mp ts') with (mp ts).
    destruct (tk_kind t); try apply map_measure; try apply map_gate_instruction;
      try (eapply pmap_bind; [apply map_expr|]; reflexivity);
      try (eapply pmap_bind; [apply map_type|]; intros ty r; eapply pmap_bind; [apply map_expect|]; reflexivity).
    - eapply pmap_bind; [apply map_expect|]. intros o r. eapply pmap_bind; [apply map_expr|]. intros p r1. eapply pmap_bind; [apply map_expect|]. intros c r2. eapply pmap_bind; [apply map_expr|]. reflexivity.
    - eapply pmap_bind; [apply map_expect|]. intros o r. eapply pmap_bind; [apply map_expect|]. intros p r1. eapply pmap_bind; [apply map_expect|]. intros c r2. eapply pmap_bind; [apply map_expect|]. reflexivity.
    - rewrite map_gate_instruction, map_measure. destruct (parse_gate_instruction n ts); cbn [pmap]; try reflexivity. destruct (parse_measure n ts); cbn [pmap]; try reflexivity. now rewrite map_further.
  Qed.
  Lemma map_skip ts : skip_separators (mp ts) = mp (skip_separators ts).
  Proof. induction ts as [|t ts IH]; cbn [map skip_separators]; [reflexivity|]. pm. destruct (is_separator _); auto. Qed.
  Lemma map_statements n : forall ts, parse_statements n (mp ts) = pmap (map map_cstatement) (parse_statements n ts).
  Proof.
    induction n as [|n IH]; intros ts; [reflexivity|]. cbn [parse_statements]. cbv zeta. rewrite map_skip. pm.
    destruct (next_kind ts); try reflexivity; (destruct (next_kind (skip_separators ts)); try reflexivity; (eapply pmap_bind; [apply map_statement|]; intros s r; eapply pmap_bind; [apply IH|]; reflexivity)).
  Qed.
  Lemma map_program ts : parse_program (mp ts) = pmap map_cprogram (parse_program ts).
  Proof.
    unfold parse_program. cbv zeta. unfold parse_fuel. rewrite map_length, map_skip. eapply pmap_bind; [apply map_expect|]. intros v r. eapply pmap_bind; [apply map_expect|]. intros w r1.
    eapply pmap_bind; [apply map_statements|]. reflexivity.
  Qed.
End TokenMap.
