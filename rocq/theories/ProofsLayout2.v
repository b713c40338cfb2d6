(** The tree built from a parse tree, when tokens keep their kinds and texts (C47,
    C54) or when the file name changes (C57). *)
From Verif Require Import Base ModelUtils ModelVersion ModelError ModelTypes ModelFunctions ModelAst ModelLexer ModelParser ModelAnalyzer ModelSemantic ModelSyntactic
  SpecRelocate ProofsExpr ProofsRelocate ProofsLayout1.
Local Open Scope string_scope.

Section CexprInd.
  Variables (P : cexpr -> Prop) (Q : centry -> Prop).
  Hypothesis Hparens : forall e, P e -> P (CParens e).
  Hypothesis Hunary : forall t e, P e -> P (CUnary t e).
  Hypothesis Hbinary : forall t a b, P a -> P b -> P (CBinary t a b).
  Hypothesis Hternary : forall t a b c, P a -> P b -> P c -> P (CTernary t a b c).
  Hypothesis Hcall : forall t es, Forall P es -> P (CCall t es).
  Hypothesis Hindex : forall t is, Forall Q is -> P (CIndex t is).
  Hypothesis Hident : forall t, P (CIdent t).
  Hypothesis Hbool : forall t, P (CBool t).
  Hypothesis Hint : forall t, P (CInt t).
  Hypothesis Hfloat : forall t, P (CFloat t).
  Hypothesis Hitem : forall e, P e -> Q (CItem e).
  Hypothesis Hrange : forall a b, P a -> P b -> Q (CRange a b).
  Fixpoint cexpr_ind_full (c : cexpr) : P c :=
    match c with
    | CParens e => Hparens e (cexpr_ind_full e)
    | CUnary t e => Hunary t e (cexpr_ind_full e)
    | CBinary t a b => Hbinary t a b (cexpr_ind_full a) (cexpr_ind_full b)
    | CTernary t a b c => Hternary t a b c (cexpr_ind_full a) (cexpr_ind_full b) (cexpr_ind_full c)
    | CCall t es => Hcall t es ((fix go l := match l return Forall P l with [] => Forall_nil _ | x :: l' => Forall_cons x (cexpr_ind_full x) (go l') end) es)
    | CIndex t is => Hindex t is ((fix go l := match l return Forall Q l with [] => Forall_nil _ | x :: l' => Forall_cons x (centry_ind_full x) (go l') end) is)
    | CIdent t => Hident t | CBool t => Hbool t | CInt t => Hint t | CFloat t => Hfloat t
    end
  with centry_ind_full (c : centry) : Q c :=
    match c with
    | CItem e => Hitem e (cexpr_ind_full e)
    | CRange a b => Hrange a b (cexpr_ind_full a) (cexpr_ind_full b)
    end.
End CexprInd.

Lemma relocate_index g l b is : relocate_expr g (EIndex l b is) = EIndex (g l) (relocate_expr g b) (map (relocate_entry g) is).
Proof. reflexivity. Qed.

Lemma relocate_item g l a : relocate_entry g (IItem l a) = IItem (g l) (relocate_expr g a).
Proof. reflexivity. Qed.
Lemma relocate_range g l a b : relocate_entry g (IRange l a b) = IRange (g l) (relocate_expr g a) (relocate_expr g b).
Proof. reflexivity. Qed.

Section Alike.
  Variables (g1 g2 : loc -> loc).
  Definition alike {A B} (r1 r2 : A -> B) (m1 m2 : outcome error A) : Prop := omap g1 r1 m1 = omap g2 r2 m2.
  Lemma alike_bind {A A' B B'} (r1 r2 : A -> A') (s1 s2 : B -> B') m1 m2 k1 k2 :
    alike r1 r2 m1 m2 -> (forall a b, r1 a = r2 b -> alike s1 s2 (k1 a) (k2 b)) -> alike s1 s2 (bind m1 k1) (bind m2 k2).
  Proof.
    unfold alike. intros H K. destruct m1, m2; cbn [omap bind] in *; try discriminate H; [apply K|..]; congruence.
  Qed.
  Lemma alike_ok {A B} (r1 r2 : A -> B) a b : r1 a = r2 b -> alike r1 r2 (Ok a) (Ok b).
  Proof. unfold alike. cbn. now intros ->. Qed.
  Lemma alike_mapM {A A' B B'} (q : A' -> A) (r1 r2 : B -> B') k1 k2 l :
    Forall (fun a => alike r1 r2 (k1 (q a)) (k2 a)) l -> alike (map r1) (map r2) (mapM k1 (map q l)) (mapM k2 l).
  Proof.
    induction 1 as [|a l H _ IH]; cbn [mapM map]; [now apply alike_ok|]. eapply alike_bind; [exact H|]. intros x y E. eapply alike_bind; [exact IH|]. intros xs ys Es.
    apply alike_ok. cbn. congruence.
  Qed.

  Variables (file1 file2 : option string) (rtl : bool) (phi : token -> token).
  (** The place [k] characters after the beginning of [t], of [n] characters *)
  Definition place (file : option string) (t : token) (k n : N) : loc :=
    Some (mk_location (normalize_file_name file) (mk_range (mkIndex (tk_line t) (tk_col t + k + 1)) (mkIndex (tk_line t) (tk_col t + k + 1 + n)))).
  Hypothesis kind_phi : forall t, tk_kind (phi t) = tk_kind t.
  Hypothesis text_phi : forall t, tk_text (phi t) = tk_text t.
  Hypothesis loc_phi : forall t, g1 (token_loc file1 (phi t)) = g2 (token_loc file2 t).
  Hypothesis place_phi : forall t k n, g1 (place file1 (phi t) k n) = g2 (place file2 t k n).
  Hypothesis expand_phi : forall t c, g1 (expand_loc (token_loc file1 (phi t)) (phi c)) = g2 (expand_loc (token_loc file2 t) c).
  Hypothesis none : g1 None = g2 None.
  Notation v1 := (visit_cexpr file1 rtl).
  Notation v2 := (visit_cexpr file2 rtl).
  Notation re := (relocate_expr).

  Lemma alike_error {A B} (r1 r2 : A -> B) t k n m :
    alike r1 r2 (Err (syntax_error file1 (tk_line (phi t)) (tk_col (phi t) + k) n m)) (Err (syntax_error file2 (tk_line t) (tk_col t + k) n m)).
  Proof.
    unfold alike. cbn [omap]. f_equal. unfold relocate_error, syntax_error, mk_error_range. cbn [message location]. f_equal. exact (place_phi t k (N.of_nat n)).
  Qed.
  Lemma alike_int {B} (r : Z -> B) t k s :
    alike r r (get_int_value file1 (tk_line (phi t)) (tk_col (phi t) + k) s) (get_int_value file2 (tk_line t) (tk_col t + k) s).
  Proof. unfold get_int_value. destruct (stoll s); [now apply alike_ok|]. apply alike_error. Qed.
  Lemma alike_int0 {B} (r : Z -> B) t s : alike r r (get_int_value file1 (tk_line (phi t)) (tk_col (phi t)) s) (get_int_value file2 (tk_line t) (tk_col t) s).
  Proof. pose proof (alike_int r t 0 s) as H. now rewrite !N.add_0_r in H. Qed.
  Lemma alike_float {B} (r : float -> B) t s : alike r r (get_float_value file1 (tk_line (phi t)) (tk_col (phi t)) s) (get_float_value file2 (tk_line t) (tk_col t) s).
  Proof.
    unfold get_float_value. destruct (stod s); [now apply alike_ok|]. pose proof (alike_error r r t 0 0 ("value '" ++ s ++ "' is out of the FLOAT_LITERAL range")) as H. now rewrite !N.add_0_r in H.
  Qed.
  Lemma alike_both {A A' B B'} (r1 r2 : A -> A') (s1 s2 : B -> B') a1 a2 b1 b2 : alike r1 r2 a1 a2 -> alike s1 s2 b1 b2 ->
    alike (fun p => (r1 (fst p), s1 (snd p))) (fun p => (r2 (fst p), s2 (snd p))) (both rtl a1 b1) (both rtl a2 b2).
  Proof.
    intros HA HB. unfold both. destruct rtl.
    - eapply alike_bind; [exact HB|]. intros y y' Ey. eapply alike_bind; [exact HA|]. intros x x' Ex. apply alike_ok. cbn. congruence.
    - eapply alike_bind; [exact HA|]. intros y y' Ey. eapply alike_bind; [exact HB|]. intros x x' Ex. apply alike_ok. cbn. congruence.
  Qed.

  Lemma alike_cexpr c : alike (re g1) (re g2) (v1 (map_cexpr phi c)) (v2 c).
  Proof.
    apply (cexpr_ind_full (fun c => alike (re g1) (re g2) (v1 (map_cexpr phi c)) (v2 c))
      (fun i => alike (relocate_entry g1) (relocate_entry g2) (visit_centry file1 rtl (map_centry phi i)) (visit_centry file2 rtl i))); clear c.
    - auto.
    - intros t e IH. cbn [map_cexpr visit_cexpr]. rewrite kind_phi.
      destruct (tk_kind t); try reflexivity; try exact IH; (eapply alike_bind; [exact IH|]; intros a b E; apply alike_ok; cbn [relocate_expr]; now rewrite E, loc_phi).
    - intros t a b IHa IHb. cbn [map_cexpr visit_cexpr]. rewrite kind_phi. destruct (binop_of_token (tk_kind t)); [|reflexivity].
      eapply alike_bind; [exact (alike_both _ _ _ _ _ _ _ _ IHa IHb)|]. intros [x y] [x' y'] E. cbn in E. injection E as E1 E2. apply alike_ok. cbn. now rewrite E1, E2, loc_phi.
    - intros t a b c IHa IHb IHc. cbn [map_cexpr visit_cexpr]. eapply alike_bind; [exact (alike_both _ _ _ _ _ _ _ _ IHa (alike_both _ _ _ _ _ _ _ _ IHb IHc))|].
      intros [x [y z]] [x' [y' z']] E. cbn in E. injection E as E1 E2 E3. apply alike_ok. cbn. now rewrite E1, E2, E3, loc_phi.
    - intros t es IH. cbn [map_cexpr visit_cexpr]. destruct es as [|e es].
      + apply alike_ok. cbn. now rewrite loc_phi, text_phi.
      + cbn [map]. eapply (alike_bind (map (re g1)) (map (re g2))).
        * exact (alike_mapM (map_cexpr phi) (re g1) (re g2) v1 v2 (e :: es) IH).
        * intros xs ys E. apply alike_ok. cbn. now rewrite E, loc_phi, text_phi.
    - intros t is IH. cbn [map_cexpr visit_cexpr]. eapply (alike_bind (map (relocate_entry g1)) (map (relocate_entry g2))); [apply alike_mapM; exact IH|].
      intros xs ys E. apply alike_ok. rewrite !relocate_index, E, loc_phi, text_phi. cbn [relocate_expr]. now rewrite none.
    - intros t. apply alike_ok. cbn. now rewrite loc_phi, text_phi.
    - intros t. apply alike_ok. cbn [relocate_expr]. now rewrite loc_phi, text_phi.
    - intros t. cbn [map_cexpr visit_cexpr]. rewrite text_phi. eapply alike_bind; [apply (alike_int0 (fun z => z))|]. intros a b E. apply alike_ok. cbn. now rewrite E, loc_phi.
    - intros t. cbn [map_cexpr visit_cexpr]. rewrite text_phi. eapply alike_bind; [apply (alike_float (fun z => z))|]. intros a b E. apply alike_ok. cbn [relocate_expr]. now rewrite E, loc_phi.
    - intros e IH. cbn [map_centry visit_centry]. eapply alike_bind; [exact IH|]. intros a b E. apply alike_ok. rewrite !relocate_item. now rewrite E, none.
    - intros a b IHa IHb. cbn [map_centry visit_centry]. eapply alike_bind; [exact (alike_both _ _ _ _ _ _ _ _ IHa IHb)|]. intros [x y] [x' y'] E. cbn in E. injection E as E1 E2. apply alike_ok. rewrite !relocate_range. cbn [fst snd]. now rewrite E1, E2, none.
  Qed.
  Lemma alike_cexprs es : alike (map (re g1)) (map (re g2)) (visit_cexprs file1 rtl (map (map_cexpr phi) es)) (visit_cexprs file2 rtl es).
  Proof. apply alike_mapM. apply Forall_forall. intros c _. apply alike_cexpr. Qed.
  Lemma alike_cparams ps : alike (map (re g1)) (map (re g2)) (visit_cparams file1 rtl (map_cparams phi ps)) (visit_cparams file2 rtl ps).
  Proof. destruct ps; cbn [map_cparams option_map visit_cparams]; [apply alike_cexprs|now apply alike_ok]. Qed.
  Lemma alike_cgate g : alike (relocate_gate g1) (relocate_gate g2) (visit_cgate file1 rtl (map_cgate phi g)) (visit_cgate file2 rtl g).
  Proof.
    induction g as [t g IH|t e g IH|t g IH|t ps]; cbn [map_cgate visit_cgate].
    - eapply alike_bind; [exact IH|]. intros a b E. apply alike_ok. cbn. now rewrite E, loc_phi.
    - eapply alike_bind; [exact IH|]. intros a b E. eapply alike_bind; [apply alike_cexpr|]. intros x y E'. apply alike_ok. cbn. now rewrite E, E', loc_phi.
    - eapply alike_bind; [exact IH|]. intros a b E. apply alike_ok. cbn. now rewrite E, loc_phi.
    - eapply alike_bind; [apply alike_cparams|]. intros a b E. apply alike_ok. cbn. now rewrite E, loc_phi, text_phi.
  Qed.
  Lemma alike_ctype t : alike (relocate_type g1) (relocate_type g2) (visit_ctype file1 (map_ctype phi t)) (visit_ctype file2 t).
  Proof.
    destruct t as [k [[i c]|]]; unfold visit_ctype; cbn [map_ctype ct_keyword ct_size option_map fst snd]; rewrite kind_phi.
    - rewrite text_phi. eapply alike_bind; [apply (alike_int0 (fun z => z))|]. intros a b E. apply alike_ok. unfold relocate_type. cbn [ty_loc ty_name ty_size]. now rewrite E, expand_phi.
    - apply alike_ok. unfold relocate_type. cbn [ty_loc ty_name ty_size]. now rewrite loc_phi.
  Qed.
  Lemma alike_gate_loc a b : relocate_gate g1 a = relocate_gate g2 b -> g1 (gate_loc a) = g2 (gate_loc b).
  Proof. destruct a, b. cbn. intros [= H _]. exact H. Qed.
  Lemma alike_cstatement s : alike (relocate_statement g1) (relocate_statement g2) (visit_cstatement file1 rtl (map_cstatement phi s)) (visit_cstatement file2 rtl s).
  Proof.
    destruct s as [t n|g es|t l ps r|t e|t e|t e|t p e|n c]; cbn [map_cstatement visit_cstatement].
    - eapply alike_bind; [apply alike_ctype|]. intros a b E. apply alike_ok. cbn [relocate_statement map]. now rewrite E, loc_phi, text_phi.
    - eapply alike_bind; [apply alike_cgate|]. intros a b E. eapply alike_bind; [apply alike_cexprs|]. intros xs ys Es. apply alike_ok. cbn [relocate_statement map]. rewrite E, Es. now rewrite (alike_gate_loc a b E).
    - eapply alike_bind; [apply alike_cparams|]. intros xs ys E. eapply alike_bind; [apply alike_cexpr|]. intros a b Ea. eapply alike_bind; [apply alike_cexpr|]. intros a' b' Ea'. apply alike_ok. cbn [relocate_statement map]. now rewrite E, Ea, Ea', loc_phi.
    - eapply alike_bind; [apply alike_cexpr|]. intros a b Ea. apply alike_ok. cbn [relocate_statement map]. now rewrite Ea, loc_phi.
    - eapply alike_bind; [apply alike_cexpr|]. intros a b Ea. apply alike_ok. cbn [relocate_statement map]. now rewrite Ea, loc_phi.
    - eapply alike_bind; [apply alike_cexpr|]. intros a b Ea. apply alike_ok. cbn [relocate_statement map]. now rewrite Ea, loc_phi.
    - eapply alike_bind; [apply alike_cexpr|]. intros a b Ea. eapply alike_bind; [apply alike_cexpr|]. intros a' b' Ea'. apply alike_ok. cbn [relocate_statement map]. now rewrite Ea, Ea', loc_phi.
    - rewrite !text_phi. destruct (remove_triple_quotes (tk_text c)) eqn:E; cbn [bind]; [apply alike_ok; cbn; now rewrite none| |reflexivity|reflexivity].
      exfalso. unfold remove_triple_quotes in E. destruct (negb _) in E; [discriminate E|]. destruct (negb _) in E; discriminate E.
  Qed.
  Lemma alike_cversion {B} (r : version -> B) t : alike r r (visit_cversion file1 (phi t)) (visit_cversion file2 t).
  Proof.
    unfold visit_cversion. rewrite text_phi. destruct (split_version (tk_text t)) as [a b]. eapply alike_bind; [apply (alike_int0 (fun z => z))|]. intros x y E.
    destruct b as [b|].
    - eapply alike_bind.
      + replace (tk_col (phi t) + N.of_nat (String.length a) + 1)%N with (tk_col (phi t) + (N.of_nat (String.length a) + 1))%N by apply N.add_assoc.
        replace (tk_col t + N.of_nat (String.length a) + 1)%N with (tk_col t + (N.of_nat (String.length a) + 1))%N by apply N.add_assoc. apply (alike_int (fun z => z)).
      + intros x' y' E'. apply alike_ok. cbv beta in E, E'. now rewrite E, E'.
    - apply alike_ok. cbv beta in E. now rewrite E.
  Qed.
  Lemma alike_cprogram p : alike (relocate_program g1) (relocate_program g2) (visit_cprogram file1 rtl (map_cprogram phi p)) (visit_cprogram file2 rtl p).
  Proof.
    unfold visit_cprogram. cbn [map_cprogram cp_version cp_statements]. eapply alike_bind; [apply (alike_cversion (fun z => z))|]. intros v w E. eapply alike_bind.
    - apply (alike_mapM (map_cstatement phi) (relocate_statement g1) (relocate_statement g2)). apply Forall_forall. intros s _. apply alike_cstatement.
    - intros ss ss' Es. apply alike_ok. unfold relocate_program. cbn [prog_version prog_version_loc prog_statements prog_block_loc]. cbv beta in E. now rewrite E, Es, loc_phi, none.
  Qed.
  Hypothesis token_place_phi : forall t m, g1 (location (syntax_error file1 (tk_line (phi t)) (tk_col (phi t)) (String.length (tk_text t)) m)) =
    g2 (location (syntax_error file2 (tk_line t) (tk_col t) (String.length (tk_text t)) m)).
  Hypothesis start_phi : g1 (location (syntax_error file1 1 0 0 "syntax error")) = g2 (location (syntax_error file2 1 0 0 "syntax error")).
  Lemma alike_antlr ts : relocate_error g1 (antlr_error file1 (map phi ts)) = relocate_error g2 (antlr_error file2 ts).
  Proof.
    destruct ts as [|t ts]; cbn [map antlr_error]; [unfold relocate_error; now rewrite start_phi|]. rewrite kind_phi, text_phi. set (m := match tk_kind t with T_ERROR => _ | _ => _ end). clearbody m.
    unfold relocate_error. rewrite (token_place_phi t m). reflexivity.
  Qed.
  (** Two texts whose tokens are related *)
  Lemma alike_scan_tokens ts : 
    alike (relocate_program g1) (relocate_program g2)
      (match parse_program (map phi ts) with POk p _ => visit_cprogram file1 rtl p | PErr r => Err (antlr_error file1 r) | PFuel => UB AssertFailed end)
      (match parse_program ts with POk p _ => visit_cprogram file2 rtl p | PErr r => Err (antlr_error file2 r) | PFuel => UB AssertFailed end).
  Proof.
    rewrite (map_program phi kind_phi). destruct (parse_program ts) as [p r|r|]; cbn [pmap]; [apply alike_cprogram| |reflexivity].
    unfold alike. cbn [omap]. f_equal. apply alike_antlr.
  Qed.
End Alike.

(** ** Nothing changed *)
Lemma relocate_expr_same e : relocate_expr same e = e.
Proof.
  apply (expr_ind_full (fun e => relocate_expr same e = e) (fun i => relocate_entry same i = i)); clear e; try reflexivity.
  - intros l b idx Hb Hi. rewrite relocate_index, Hb. unfold same at 1. f_equal. clear Hb. induction Hi as [|i idx Hi _ IH]; [reflexivity|]. cbn [map]. now rewrite Hi, IH.
  - intros l n args H. cbn [relocate_expr option_map]. unfold same at 1. do 2 f_equal. induction H as [|i idx Hi _ IH]; [reflexivity|]. cbn [map]. now rewrite Hi, IH.
  - intros l o e H. cbn [relocate_expr]. now rewrite H.
  - intros l o e1 e2 H1 H2. cbn [relocate_expr]. now rewrite H1, H2.
  - intros l c e1 e2 Hc H1 H2. cbn [relocate_expr]. now rewrite Hc, H1, H2.
  - intros l e H. rewrite relocate_item. now rewrite H.
  - intros l a b Ha Hb. rewrite relocate_range. now rewrite Ha, Hb.
Qed.
Lemma map_same_ext {A} (f : A -> A) l : (forall a, f a = a) -> map f l = l.
Proof. intros H. induction l; cbn; congruence. Qed.
Lemma relocate_annotation_same a : relocate_annotation same a = a.
Proof. destruct a. unfold relocate_annotation. cbn. now rewrite (map_same_ext _ _ relocate_expr_same). Qed.
Lemma relocate_gate_same : forall g, relocate_gate same g = g.
Proof.
  fix IH 1. intros [l n [g|] ps ans]; cbn [relocate_gate option_map]; rewrite (map_same_ext _ _ relocate_expr_same), (map_same_ext _ _ relocate_annotation_same); [now rewrite IH|reflexivity].
Qed.
Lemma relocate_statement_same s : relocate_statement same s = s.
Proof.
  destruct s as [l n [tl tn ts] ans|l g ops ans|l n ops ps ans|l n c ans]; cbn [relocate_statement]; rewrite ?(map_same_ext _ _ relocate_expr_same), ?(map_same_ext _ _ relocate_annotation_same), ?relocate_gate_same; reflexivity.
Qed.
Lemma relocate_program_same p : relocate_program same p = p.
Proof. destruct p. unfold relocate_program. cbn. now rewrite (map_same_ext _ _ relocate_statement_same). Qed.
Lemma omap_relocate_same {A} (m : outcome error A) (g : A -> A) : (forall a, g a = a) -> omap same g m = m.
Proof. intros H. destruct m as [a|[]|w|k]; cbn; [now rewrite H|reflexivity..]. Qed.

(** ** The file name *)
Lemma scan_in_file f1 f2 rtl data : scan f2 rtl data = omap (in_file f2) (relocate_program (in_file f2)) (scan f1 rtl data).
Proof.
  unfold scan. destruct (negb _); [reflexivity|]. destruct (tokenize _) as [ts|]; [|reflexivity].
  assert (H : alike same (in_file f2) (relocate_program same) (relocate_program (in_file f2))
      (match parse_program (map same ts) with POk p _ => visit_cprogram f2 rtl p | PErr r => Err (antlr_error f2 r) | PFuel => UB AssertFailed end)
      (match parse_program ts with POk p _ => visit_cprogram f1 rtl p | PErr r => Err (antlr_error f1 r) | PFuel => UB AssertFailed end)).
  { apply alike_scan_tokens; unfold same, in_file, token_loc, place, syntax_error, mk_error_range, expand_loc, expand_to_include; cbn [option_map location loc_range];
      intros; unfold mk_location; cbn; destruct f2 as [[|]|]; reflexivity. }
  unfold alike in H. rewrite (omap_relocate_same _ _ relocate_program_same), map_id in H. exact H.
Qed.
Lemma parse_in_file f1 f2 rtl data :
  parse_string f2 rtl data = map_outcome (relocate_result (in_file f2) (relocate_program (in_file f2))) (parse_string f1 rtl data).
Proof. unfold parse_string. rewrite (scan_in_file f1 f2). destruct (scan f1 rtl data); reflexivity. Qed.

(** ** Places of tokens *)
Definition unplaced (t : token) : token := mkToken (tk_kind t) (tk_text t) 0 0.
Lemma scan_unplaced file1 file2 rtl d1 d2 ts1 ts2 :
  valid_utf8 (strip_bom d1) = true -> valid_utf8 (strip_bom d2) = true ->
  tokenize (strip_bom d1) = Some ts1 -> tokenize (strip_bom d2) = Some ts2 -> map unplaced ts1 = map unplaced ts2 ->
  omap erase (relocate_program erase) (scan file1 rtl d1) = omap erase (relocate_program erase) (scan file2 rtl d2).
Proof.
  intros U1 U2 T1 T2 E. unfold scan. rewrite U1, U2, T1, T2. cbn [negb].
  assert (K : forall file ts, alike erase erase (relocate_program erase) (relocate_program erase)
      (match parse_program (map unplaced ts) with POk p _ => visit_cprogram None rtl p | PErr r => Err (antlr_error None r) | PFuel => UB AssertFailed end)
      (match parse_program ts with POk p _ => visit_cprogram file rtl p | PErr r => Err (antlr_error file r) | PFuel => UB AssertFailed end)).
  { intros file ts. apply alike_scan_tokens; reflexivity. }
  pose proof (K file1 ts1) as K1. pose proof (K file2 ts2) as K2. rewrite E in K1. unfold alike in K1, K2. rewrite <- K1. exact K2.
Qed.
Lemma parse_unplaced file1 file2 rtl d1 d2 ts1 ts2 :
  valid_utf8 (strip_bom d1) = true -> valid_utf8 (strip_bom d2) = true ->
  tokenize (strip_bom d1) = Some ts1 -> tokenize (strip_bom d2) = Some ts2 -> map unplaced ts1 = map unplaced ts2 ->
  map_outcome (relocate_result erase (relocate_program erase)) (parse_string file1 rtl d1) =
  map_outcome (relocate_result erase (relocate_program erase)) (parse_string file2 rtl d2).
Proof.
  intros U1 U2 T1 T2 E. pose proof (scan_unplaced file1 file2 rtl d1 d2 ts1 ts2 U1 U2 T1 T2 E) as H.
  assert (K : forall file d, map_outcome (relocate_result erase (relocate_program erase)) (parse_string file rtl d) =
    match omap erase (relocate_program erase) (scan file rtl d) with
    | Ok p => Ok (mkResult (Some p) []) | Err e => Ok (mkResult None [e]) | Throw w => Throw w | UB k => UB k end).
  { intros file d. unfold parse_string. destruct (scan file rtl d); reflexivity. }
  now rewrite !K, H.
Qed.
