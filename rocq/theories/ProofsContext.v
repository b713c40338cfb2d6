(** Lemmas for C79: expressions with the same value are interchangeable. *)
From Verif Require Import Base ModelTypes ModelError ModelAst ModelAnalyzer ModelSemantic SpecAnalyzer SpecRename SpecContext ProofsAnalyzer ProofsAnalyzer2 ProofsRename3.
Local Open Scope string_scope.

Lemma mapM_replaced {A B} (f : A -> outcome error B) pre x y post : f x = f y -> mapM f (pre ++ x :: post) = mapM f (pre ++ y :: post).
Proof. intros H. induction pre as [|a pre IH]; cbn [app mapM]; [now rewrite H|now rewrite IH]. Qed.
Lemma visit_index_unfold st l b idx : visit st (EIndex l b idx) = with_context l
  (let! v := with_context (expr_loc b) (visit st b) in
   match v with
   | VVar x =>
       match kind (var_type x) with
       | TQubitArray | TBitArray =>
           let! is := mapM (visit_entry st) idx in let! _ := check_out_of_range (concat is) (tsize (var_type x)) in Ok (VIndex x (concat is))
       | _ => let! t := type_of v in Err (mk_error ("indexation is not supported for value of type '" ++ type_to_string t ++ "'"))
       end
   | _ => UB NullDereference
   end).
Proof. reflexivity. Qed.
Section Place.
  Variables (st : analyzer) (a b : expr).
  Hypothesis Hv : visit st a = visit st b.
  Hypothesis Hl : expr_loc a = expr_loc b.
  Lemma plug_loc c : expr_loc (plug c a) = expr_loc (plug c b).
  Proof. destruct c; cbn; auto. Qed.
  Lemma plug_visit c : visit st (plug c a) = visit st (plug c b).
  Proof.
    induction c as [|l c IH idx|l e pre li c IH post|l e pre li c IH x post|l e pre li x c IH post|l n pre c IH post|l op c IH|l op c IH x|l op x c IH|l c IH x y|l x c IH y|l x y c IH];
      cbn [plug]; [exact Hv|..]; pose proof (plug_loc c) as L.
    - cbn [visit]. now rewrite IH, L.
    - assert (E : mapM (visit_entry st) (pre ++ IItem li (plug c a) :: post) = mapM (visit_entry st) (pre ++ IItem li (plug c b) :: post)).
      { apply mapM_replaced. change (visit_entry st (IItem li (plug c a))) with (let! z := const_int_of (expr_loc (plug c a)) (visit st (plug c a)) in Ok [z]).
        rewrite IH, L. reflexivity. }
      rewrite !visit_index_unfold. destruct (with_context (expr_loc e) (visit st e)) as [v| | |]; [|reflexivity..]. destruct v as [| | |x|]; try reflexivity. cbn [bind]. destruct (kind (var_type x)); try reflexivity; now rewrite E.
    - assert (E : mapM (visit_entry st) (pre ++ IRange li (plug c a) x :: post) = mapM (visit_entry st) (pre ++ IRange li (plug c b) x :: post)).
      { apply mapM_replaced. change (visit_entry st (IRange li (plug c a) x)) with
          (let! z1 := const_int_of (expr_loc (plug c a)) (visit st (plug c a)) in let! z2 := const_int_of (expr_loc x) (visit st x) in expand_range li z1 z2). rewrite IH, L. reflexivity. }
      rewrite !visit_index_unfold. destruct (with_context (expr_loc e) (visit st e)) as [v| | |]; [|reflexivity..]. destruct v as [| | |y|]; try reflexivity. cbn [bind]. destruct (kind (var_type y)); try reflexivity; now rewrite E.
    - assert (E : mapM (visit_entry st) (pre ++ IRange li x (plug c a) :: post) = mapM (visit_entry st) (pre ++ IRange li x (plug c b) :: post)).
      { apply mapM_replaced. change (visit_entry st (IRange li x (plug c a))) with
          (let! z1 := const_int_of (expr_loc x) (visit st x) in let! z2 := const_int_of (expr_loc (plug c a)) (visit st (plug c a)) in expand_range li z1 z2). rewrite IH, L. reflexivity. }
      rewrite !visit_index_unfold. destruct (with_context (expr_loc e) (visit st e)) as [v| | |]; [|reflexivity..]. destruct v as [| | |y|]; try reflexivity. cbn [bind]. destruct (kind (var_type y)); try reflexivity; now rewrite E.
    - cbn [visit]. rewrite (mapM_replaced (fun e => with_context (expr_loc e) (visit st e)) pre (plug c a) (plug c b) post); [reflexivity|]. now rewrite IH, L.
    - cbn [visit]. now rewrite IH, L.
    - cbn [visit]. now rewrite IH, L.
    - cbn [visit]. now rewrite IH, L.
    - cbn [visit]. now rewrite IH, L.
    - cbn [visit]. now rewrite IH, L.
    - cbn [visit]. now rewrite IH, L.
  Qed.
  Lemma plug_list pre c post : visit_expression_list st (pre ++ plug c a :: post) = visit_expression_list st (pre ++ plug c b :: post).
  Proof. apply mapM_replaced. unfold visit_expression. now rewrite plug_visit, plug_loc. Qed.
  Lemma plug_operands l pre c post : visit_annotation_operands st l (pre ++ plug c a :: post) = visit_annotation_operands st l (pre ++ plug c b :: post).
  Proof. induction pre as [|e pre IH]; cbn [app visit_annotation_operands]; [now rewrite plug_visit|now rewrite IH]. Qed.
  Lemma plug_annotated c : visit_annotated st (plug_annotations c a) = visit_annotated st (plug_annotations c b).
  Proof.
    destruct c as [before l i o pre c post after]. cbn [plug_annotations]. induction before as [|x before IH]; cbn [app visit_annotated]; [|now rewrite IH].
    unfold visit_annotation_data. cbn [an_loc an_operands an_interface an_operation]. now rewrite plug_operands.
  Qed.
  Lemma plug_gate_visit c : visit_gate st (plug_gate c a) = visit_gate st (plug_gate c b).
  Proof.
    induction c as [l n i pre c post ans|l n c IH ps ans|l n i ps c]; cbn [plug_gate]; rewrite !visit_gate_unfold; [now rewrite plug_list|now rewrite IH|now rewrite plug_annotated].
  Qed.
End Place.

Lemma plug_statement_visit st a b c : visit st a = visit st b -> expr_loc a = expr_loc b -> visit_statement st (plug_statement c a) = visit_statement st (plug_statement c b).
Proof.
  intros Hv Hl. destruct c; cbn [plug_statement visit_statement].
  - unfold visit_variable. destruct (build_semantic_type t); try reflexivity. unfold lift at 1 3. cbn [lbind]. rewrite (plug_annotated (fresh st) a b); [reflexivity|now rewrite !visit_fresh|exact Hl].
  - unfold visit_gate_instruction. now rewrite (plug_gate_visit st a b Hv Hl).
  - unfold visit_gate_instruction. now rewrite (plug_list st a b Hv Hl).
  - unfold visit_gate_instruction. now rewrite (plug_annotated st a b Hv Hl).
  - unfold visit_non_gate_instruction. now rewrite (plug_list st a b Hv Hl).
  - unfold visit_non_gate_instruction. now rewrite (plug_list st a b Hv Hl).
  - unfold visit_non_gate_instruction. now rewrite (plug_annotated st a b Hv Hl).
  - unfold visit_asm_declaration. now rewrite (plug_annotated st a b Hv Hl).
Qed.
Lemma interchangeable st p ss1 c ss2 st1 es1 a b : visit_block (prog_block_loc p) st ss1 = (Ok st1, es1) -> visit st1 a = visit st1 b -> expr_loc a = expr_loc b ->
  analyze_ast st (with_statements (ss1 ++ plug_statement c a :: ss2) p) = analyze_ast st (with_statements (ss1 ++ plug_statement c b :: ss2) p).
Proof.
  intros B Hv Hl. unfold analyze_ast, visit_program. cbn [with_statements prog_version prog_version_loc prog_statements prog_block_loc].
  rewrite !visit_block_app, B. cbn [lbind]. rewrite !visit_block_cons. now rewrite (plug_statement_visit st1 a b c Hv Hl).
Qed.
Lemma literal_visit st l v e : literal_at l v = Some e -> visit st e = Ok v /\ expr_loc e = l.
Proof. destruct v; cbn; intros [= <-]; auto. Qed.
