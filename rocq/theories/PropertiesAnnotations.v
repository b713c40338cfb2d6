(** Property C94: annotations. *)
From Coq Require Import SpecFloat ZArith Lia.
From Verif Require Import Base ModelUtils ModelVersion ModelError ModelTypes ModelOverload ModelFunctions ModelInstructionSet ModelAst ModelAnalyzer ModelSemantic
  SpecUtils SpecError SpecTypes SpecFunctions SpecInstructions SpecAnalyzer SpecPlace SpecHull SpecMachine SpecVersion SpecEvaluate SpecMeaning SpecOutcome SpecAnnotations
  ProofsFunctions ProofsAnalyzer2 ProofsVersion ProofsMeaning2 ProofsOutcome3 ProofsAnnotations2 PropertiesAnalyzer PropertiesMachine PropertiesMeaning.
Local Open Scope string_scope.

(** C94: the rules of SpecAnnotations say what the analysis of a tree with annotations
    returns; it is undefined for the trees the rules give no result. *)
Theorem C94_tree : forall lm text api st p q es, version_text text api -> version_same api [3; 0]%Z -> default_analyzer lm text = Ok st -> machine_libm lm ->
  annotated_program p -> machine_program p -> ordered_locations p ->
  ((exists st', analyze_ast st p = Ok (st', mkResult (Some q) es)) <-> annotated_program_gives lm api p q es).
Proof. intros lm text api st p q es T S D. rewrite (version_text_analyzer lm text api T S) in D. injection D as <-. now apply annotated_outcome_at. Qed.
Theorem C94_undefined : forall lm text api st p, version_text text api -> version_same api [3; 0]%Z -> default_analyzer lm text = Ok st -> machine_libm lm ->
  annotated_program p -> machine_program p -> ordered_locations p ->
  ((exists k, analyze_ast st p = UB k) <-> forall q es, ~ annotated_program_gives lm api p q es).
Proof.
  intros lm text api st p T S D L G M O. rewrite (version_text_analyzer lm text api T S) in D. injection D as <-. split.
  - intros (k & E) q es H. apply (annotated_outcome_at lm api p q es S L G M O) in H. destruct H as [st H]. rewrite H in E. discriminate.
  - intros N. destruct (annotated_outcome_total lm api p L G M) as [(st' & q & es & E)|U]; [|exact U]. exfalso. apply (N q es), (annotated_outcome_at lm api p q es S L G M O). eauto.
Qed.
(** Annotations change nothing else: without them the same tree gives the same result
    without them, and the errors it gives are among those with annotations, in the same
    order. *)
Theorem C94_nothing_else : forall lm text api st p st' q es, version_text text api -> version_same api [3; 0]%Z -> default_analyzer lm text = Ok st -> machine_libm lm ->
  annotated_program p -> machine_program p -> ordered_locations p -> analyze_ast st p = Ok (st', mkResult (Some q) es) ->
  exists st0 es0, analyze_ast st (bare_program p) = Ok (st0, mkResult (Some (bare_sem_program q)) es0) /\ among es0 es.
Proof.
  intros lm text api st p st' q es T S D L G M O A. assert (H : annotated_program_gives lm api p q es) by (eapply C94_tree; eauto).
  apply bare_program_gives in H. destruct H as (es0 & H & B). apply (program_outcome lm text api st _ _ _ T S D L (proj1 G) (bare_program_machine p M) (bare_ordered p O)) in H.
  destruct H as [st0 H]. eauto.
Qed.

(** @v.decl(q) qubit[2] q: q cannot be used there.
    @i.cnot(q[0], 2 + 3) @i.none @g.pow(true) pow(2).(@g.x(q[1]) X) q[0].
    @i.lost(zz) inv.(@g.y(q[7], 4) Y) b: the annotation of the instruction is not looked
    at, that of the gate is.
    qubit q is a redeclaration and @a.asm(1.5) asm(n) c has an annotation too. *)
Definition note (i o : string) (ops : list expr) : annotation := mkAnnotation None i o ops.
Definition item (n : string) (z : Z) : expr := EIndex None (name n) [IItem None (EInt None z)].
Definition annotated_example : program :=
  prog [ SVariable None "q" (mkAstType None "qubit" (Some 2%Z)) [note "v" "decl" [name "q"]];
         SGateInstr None (Gate None "pow" (Some (Gate None "X" None [] [note "g" "x" [item "q" 1]])) [EInt None 2] [note "g" "pow" [EBool None true]])
           [item "q" 0] [note "i" "cnot" [item "q" 0; EBinary None BAdd (EInt None 2) (EInt None 3)]; note "i" "none" []];
         SGateInstr None (Gate None "inv" (Some (Gate None "Y" None [] [note "g" "y" [item "q" 7; EInt None 4]])) [] []) [name "b"] [note "i" "lost" [name "zz"]];
         SVariable None "q" (mkAstType None "qubit" None) [note "v" "again" [name "q"]];
         SAsm None "n" "c" [note "a" "asm" [EFloat None (float_of_Z 3)]] ].
Lemma literals_name n : machine_literals (name n).
Proof. split; intros l z H; inversion H. Qed.
Lemma literals_bool b : machine_literals (EBool None b).
Proof. split; intros l z H; inversion H. Qed.
Lemma literals_int z : fits z -> machine_literals (EInt None z).
Proof. intros F. split; intros l x H; inversion H; now subst. Qed.
Lemma literals_float x : valid_double x -> machine_literals (EFloat None x).
Proof. intros F. split; intros l y H; inversion H; now subst. Qed.
Lemma literals_item n z : fits z -> machine_literals (item n z).
Proof.
  intros F. split; intros l x H; inversion H as [|? ? ? B|? ? ? ? ? I B|? ? ? ? ? ? I|? ? ? ? ? ? I| | | | | | |]; subst; try (inversion B; fail); destruct I as [[= <- <-]|[]]; inversion B; now subst.
Qed.
Lemma literals_sum e1 e2 : machine_literals e1 -> machine_literals e2 -> machine_literals (EBinary None BAdd e1 e2).
Proof. intros [A1 A2] [B1 B2]. split; intros l x H; inversion H; subst; eauto. Qed.
Lemma annotated_example_ok : annotated_program annotated_example /\ machine_program annotated_example /\ ordered_locations annotated_example.
Proof.
  assert (F : forall z, (-9 <= z <= 9)%Z -> fits z) by (unfold fits; lia).
  split; [|split].
  - split; [|repeat constructor]. repeat constructor; cbn; intuition discriminate.
  - unfold machine_program, machine_statement. cbn [annotated_example prog prog_statements statement_exprs gate_exprs annotation_exprs flat_map an_operands app note].
    apply Forall_cons; [split; [|intros z [= <-]; apply F; lia]|apply Forall_cons; [split; [|exact I]|apply Forall_cons; [split; [|exact I]|apply Forall_cons; [split; [|intros z [=]]|apply Forall_cons; [split; [|exact I]|apply Forall_nil]]]]];
      repeat apply Forall_cons; try apply Forall_nil; try apply literals_name; try apply literals_bool; try (apply literals_int, F; lia); try (apply literals_item, F; lia).
    + apply literals_sum; apply literals_int, F; lia.
    + apply literals_float. reflexivity.
  - intros s l H. cbn in H. repeat (destruct H as [<-|H]; [discriminate|]). destruct H.
Qed.
Definition annotated_example_gives (q : sem_program) (es : list error) : Prop :=
  exists x two i, sp_variables q = [mkSemVariable x [mkSemAnnotation None "v" "decl" []]; mkSemVariable (mkVariable 1 "q" (mkType TQubit 1)) [mkSemAnnotation None "v" "again" [VVar x]]] /\
    blk_statements (sp_block q) =
      [ SemGateInstr None i
          (SemGate None "pow" (Some (SemGate None "X" None [] [mkSemAnnotation None "g" "x" [VIndex x [1]%Z]])) [VFloat two] [mkSemAnnotation None "g" "pow" [VBool true]]) [VIndex x [0]%Z]
          [mkSemAnnotation None "i" "cnot" [VIndex x [0]%Z; VInt 5]; mkSemAnnotation None "i" "none" []];
        SemAsm None "n" "c" [mkSemAnnotation None "a" "asm" [VFloat (float_of_Z 3)]] ] /\
    map message es = [ "failed to resolve variable 'q'"; "index 7 out of range (size 2)"; "failed to resolve variable 'b'"; "trying to redeclare variable 'q'" ].
Example C94_case : version_text "3" [3]%Z /\ version_same [3]%Z [3; 0]%Z /\ machine_libm same_libm /\
  annotated_program annotated_example /\ machine_program annotated_example /\ ordered_locations annotated_example /\
  exists st st' q es, default_analyzer same_libm "3" = Ok st /\ analyze_ast st annotated_example = Ok (st', mkResult (Some q) es) /\ annotated_example_gives q es.
Proof.
  destruct C90_case as (V & S & L & _). destruct annotated_example_ok as (G & M & O).
  split; [exact V|]. split; [exact S|]. split; [exact L|]. split; [exact G|]. split; [exact M|]. split; [exact O|].
  exists (mkAnalyzer [3]%Z [default_scope same_libm] 0).
  destruct (ok_case (analyze_ast (mkAnalyzer [3]%Z [default_scope same_libm] 0) annotated_example)
    (fun _ r => match r with mkResult (Some q) es => annotated_example_gives q es | _ => False end)) as (st' & [[q|] es] & A & Q); [|exists st', q, es|destruct Q].
  - vm_compute. eexists _, _, _. split; [reflexivity|]. split; reflexivity.
  - split; [exact (version_text_analyzer same_libm "3" [3]%Z V S)|]. split; [exact A|exact Q].
Qed.
Print Assumptions C94_tree. Print Assumptions C94_undefined. Print Assumptions C94_nothing_else.
