(** Property C97: the nodes of a result. *)
From Verif Require Import Base ModelUtils ModelVersion ModelError ModelTypes ModelOverload ModelFunctions ModelInstructionSet ModelAst ModelAnalyzer ModelSemantic ModelLocated ModelLexer ModelSyntactic
  SpecUtils SpecInstructions SpecAnalyzer SpecLexer SpecSyntax SpecReading ProofsAnalyzer2 ProofsNodes3 ProofsNodes5 ProofsNodes6 PropertiesAnalyzer PropertiesSyntax ModelNodes SpecNodes.
Local Open Scope string_scope.

(** C97: in the tree that an analysis returns, no node is at two places. *)
Theorem C97_no_node_twice : forall keep m st p h h' m' r root, analyzer_in h m st -> hanalyze keep m p h = (h', Ok (m', r)) -> res_root r = Some root -> no_node_twice h' root.
Proof. exact never_twice. Qed.
(** The nodes of the values that are registered under names are not in the tree. *)
Theorem C97_registered_apart : forall keep m st p h h' m' r root, analyzer_in h m st -> hanalyze keep m p h = (h', Ok (m', r)) -> res_root r = Some root ->
  forall s n a path path' b, In s (h_scopes m') -> In (n, a) (hs_table s) -> walk h' a path = Some b -> walk h' root path' <> Some b.
Proof. exact registered_apart. Qed.
(** An analysis, however it ends, leaves every node as it was but the block that the
    statements are added to. *)
Theorem C97_others_stay : forall keep m st p h, analyzer_in h m st -> forall i c, nth_error h i = Some c -> Some i <> current_node m -> nth_error (fst (hanalyze keep m p h)) i = Some c.
Proof. exact others_stay. Qed.
(** The analysis in memory is the analysis of ModelLocated.v: it ends in the same way,
    with the same errors, and the tree in memory is the tree there. *)
Theorem C97_same_analysis : forall keep m st p h, analyzer_in h m st ->
  match snd (hanalyze keep m p h), lanalyze_ast keep st p with
  | Ok (m', r), Ok (st', r', ls) =>
      analyzer_in (fst (hanalyze keep m p h)) m' st' /\ res_errors r = res_errors r' /\
      exists root sp before, res_root r = Some root /\ res_root r' = Some sp /\ read_program (fst (hanalyze keep m p h)) root = Some (sp, before ++ ls)%list
  | Err e, Err e' => e = e'
  | Throw w, Throw w' => w = w'
  | UB k, UB k' => k = k'
  | _, _ => False
  end.
Proof.
  intros keep m st p h A. pose proof (hanalyze_agrees keep m st p h A) as H. destruct (hanalyze keep m p h) as [h' o]. destruct H as (_ & H). cbn [fst snd]. destruct o as [[m' r]|?|?|?], (lanalyze_ast keep st p) as [[[st' r'] ls]|?|?|?]; try exact H.
  destruct H as (A' & _ & E & root & sp & R & R' & (before & Rp) & _). split; [exact A'|]. split; [exact E|]. exists root, sp, before. auto.
Qed.
(** New analyzers, and analyzers that have analysed programs, are such analyzers. *)
Theorem C97_new_analyzer : forall st h, Forall new_scope (scopes st) -> exists h' m, load st h = (h', (Ok m, [])) /\ analyzer_in h' m st.
Proof. intros st h F. destruct (load_gives st h F) as (h' & m & E & _ & A). exists h', m. split; [exact E|exact A]. Qed.
Theorem C97_history : forall keep h m st, reached keep h m st -> analyzer_in h m st.
Proof. exact reached_in. Qed.

Definition text_nodes : string := "version 3.0; qubit[2] q; Rx(pi) q[0]; inv.Rx(pi) q[1]; CNOT q[0], q[1]; bit b; b = measure q[0]; barrier q".
Example C97_case : forall lm keep, exists p h m h' m' r root,
  parse_string None false text_nodes = Ok (mkResult (Some p) []) /\ load (fresh_analyzer lm) [] = (h, (Ok m, [])) /\ reached keep h m (fresh_analyzer lm) /\
  hanalyze keep m p h = (h', Ok (m', r)) /\ res_root r = Some root /\ res_errors r = [] /\
  (List.length h < root)%nat /\ List.length h = 6%nat /\ exists ns, collect (List.length h') h' root = Some ns /\ List.length ns = 30%nat.
Proof.
  intros lm keep. destruct (tree_case None text_nodes (fun p => match load (fresh_analyzer lm) [] with (h, (Ok m, [])) => match hanalyze keep m p h with (h', Ok (m', r)) =>
    match res_root r, res_errors r with Some root, [] => (List.length h < root)%nat /\ List.length h = 6%nat /\ option_map (@List.length addr) (collect (List.length h') h' root) = Some 30%nat | _, _ => False end | _ => False end | _ => False end)) as (p & P & H).
  - destruct keep; vm_compute; repeat split; lia.
  - destruct (load (fresh_analyzer lm) []) as [h [[m|?|?|?] [|? ?]]] eqn:E; try contradiction. destruct (hanalyze keep m p h) as [h' [[m' r]|?|?|?]] eqn:E'; try contradiction. rename H into H2. exists p, h, m, h', m', r. destruct (res_root r) as [root|] eqn:Er; [|contradiction]. exists root. destruct (res_errors r); [|contradiction].
    destruct H2 as (L1 & L2 & C). destruct (collect _ _ _) as [ns|] eqn:Ec; [|discriminate]. injection C as C.
    split; [exact P|]. split; [reflexivity|]. split; [|split; [exact E'|]; split; [reflexivity|]; split; [reflexivity|]; split; [exact L1|]; split; [exact L2|]; exists ns; split; [reflexivity|exact C]].
    eapply reached_new; [|exact E]. repeat constructor.
Qed.
Print Assumptions C97_no_node_twice.
Print Assumptions C97_registered_apart.
Print Assumptions C97_others_stay.
Print Assumptions C97_same_analysis.
Print Assumptions C97_new_analyzer.
Print Assumptions C97_history.
