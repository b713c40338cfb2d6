(** Lemmas for C93: syntax trees are no bigger than their texts, results no bigger than
    syntax trees. *)
From Coq Require Import Lia ZArith.
From Verif Require Import Base ModelError ModelTypes ModelFunctions ModelVersion ModelAst ModelAnalyzer ModelLexer ModelParser SpecUtils SpecLexer SpecParser SpecSyntax
  SpecInstructions SpecAnalyzer SpecEvaluate SpecReading ProofsUtils ProofsLexer3 SpecSize.
From Verif Require SpecTree SpecMeaning SpecOutcome ProofsExpr.
Local Open Scope nat_scope.

Lemma sum_app l1 l2 : sum (l1 ++ l2)%list = sum l1 + sum l2.
Proof. unfold sum. induction l1 as [|n l1 IH]; cbn; [reflexivity|]. rewrite IH. lia. Qed.
Lemma sum_nil : sum [] = 0. Proof. reflexivity. Qed.
Lemma sum_cons n l : sum (n :: l) = n + sum l. Proof. reflexivity. Qed.

(** ** Texts and trees *)
Lemma lexemes_length m s ls rest : tokenisation m s ls rest -> List.length ls + String.length rest <= String.length s.
Proof.
  induction 1 as [m|m s N F|m k u v ls rest F _ _ _ IH]; cbn [List.length]; try lia.
  apply form_nonempty in F. rewrite length_append. destruct u; [congruence|]. cbn [String.length]. lia.
Qed.
Lemma tokens_length before ls ts : tokens_at before ls ts -> List.length ts <= List.length ls.
Proof. induction 1; cbn [List.length]; lia. Qed.
Lemma text_tokens s ts : tokens_of s ts -> List.length ts <= S (String.length s).
Proof.
  intros (ls & body & line & col & T & A & _ & _ & ->). apply lexemes_length in T. apply tokens_length in A. rewrite app_length. cbn [List.length String.length] in *. lia.
Qed.

Section Trees.
  Variables (file : option string) (fm : string -> float -> Prop).
  Ltac use := repeat match goal with
    | X : forall e, SpecTree.expr_means _ _ ?c e -> _, M : SpecTree.expr_means _ _ ?c _ |- _ => apply X in M
    | X : forall e, SpecTree.exprs_mean _ _ ?c e -> _, M : SpecTree.exprs_mean _ _ ?c _ |- _ => apply X in M
    | X : forall e, SpecTree.entries_mean _ _ ?c e -> _, M : SpecTree.entries_mean _ _ ?c _ |- _ => apply X in M
    end.
  Lemma expr_sizes :
    (forall c ts, expr_tokens c ts -> forall e, SpecTree.expr_means file fm c e -> expr_nodes e <= List.length ts) /\
    (forall cs ts, exprs_tokens cs ts -> forall es, SpecTree.exprs_mean file fm cs es -> sum (map expr_nodes es) <= List.length ts) /\
    (forall c ts, entry_tokens c ts -> forall i cs is, SpecTree.entries_mean file fm (c :: cs) (i :: is) -> entry_nodes i <= S (List.length ts)) /\
    (forall cs ts, entries_tokens cs ts -> forall is, SpecTree.entries_mean file fm cs is -> sum (map entry_nodes is) <= S (List.length ts)).
  Proof.
    apply expr_tokens_mutind; intros; cbn [List.length]; rewrite ?app_length; cbn [List.length]; rewrite ?app_length; cbn [List.length].
    - inversion H3; subst. use. lia.
    - inversion H2; subst; use; cbn [expr_nodes]; lia.
    - inversion H4; subst. use. cbn [expr_nodes]. lia.
    - inversion H7; subst. use. cbn [expr_nodes]. lia.
    - inversion H2; subst; cbn [expr_nodes]; [lia|congruence].
    - inversion H4; subst; cbn [expr_nodes]; [lia|]. use. lia.
    - inversion H4; subst. use. cbn [expr_nodes]. lia.
    - inversion H0; subst; cbn; lia.
    - inversion H0; subst; cbn; lia.
    - inversion H0; subst; cbn; lia.
    - inversion H0; subst; cbn; lia.
    - inversion H1; subst. match goal with X : SpecTree.exprs_mean _ _ [] _ |- _ => inversion X; subst end. use. cbn [map]. rewrite sum_cons. cbn. lia.
    - inversion H4; subst. use. cbn [map]. rewrite sum_cons. lia.
    - inversion H1; subst. use. cbn [entry_nodes]. lia.
    - inversion H4; subst. use. cbn [entry_nodes]. lia.
    - destruct is as [|i' is]; [inversion H1|]. assert (is = []) as -> by (inversion H1; subst; match goal with X : SpecTree.entries_mean _ _ [] _ |- _ => now inversion X end).
      apply H0 in H1. cbn [map]. rewrite sum_cons, sum_nil. lia.
    - destruct is as [|i' is]; [inversion H4|]. assert (SpecTree.entries_mean file fm es is) by (inversion H4; subst; assumption).
      apply H0 in H4. apply H3 in H5. cbn [map]. rewrite sum_cons. lia.
  Qed.
  Lemma params_size ps ts es : params_tokens ps ts -> SpecTree.params_mean file fm ps es -> sum (map expr_nodes es) <= List.length ts.
  Proof.
    destruct expr_sizes as (_ & X & _). intros H M. destruct H as [|o cs ts c O E C]; inversion M; subst; [cbn; lia|]. cbn [List.length]. rewrite app_length. specialize (X _ _ E). use. lia.
  Qed.
  Lemma gate_size c ts : gate_tokens c ts -> forall g, SpecTree.gate_means file fm c g -> gate_nodes g <= List.length ts.
  Proof.
    destruct expr_sizes as (X & _). intros H.
    induction H as [t dot g ts _ _ _ IH|t o e ts c dot g ts' _ _ E _ _ _ IH|t dot g ts _ _ _ IH|t ps ts _ P]; intros g' M; inversion M; subst;
      cbn [gate_nodes map List.length]; rewrite ?app_length; cbn [List.length].
    - match goal with Y : SpecTree.gate_means _ _ _ _ |- _ => apply IH in Y end. cbn. lia.
    - specialize (X _ _ E). use. match goal with Y : SpecTree.gate_means _ _ g _ |- _ => apply IH in Y end. rewrite sum_cons, sum_nil. lia.
    - match goal with Y : SpecTree.gate_means _ _ _ _ |- _ => apply IH in Y end. cbn. lia.
    - match goal with Y : SpecTree.params_mean _ _ _ _ |- _ => pose proof (params_size _ _ _ P Y) end. lia.
  Qed.
  Lemma statement_size c ts s : statement_tokens c ts -> SpecTree.statement_means file fm c s -> statement_nodes s <= S (List.length ts).
  Proof.
    destruct expr_sizes as (X & Y & _). intros H M.
    destruct H as [ty ts name T _|g ts es ts' G E|e1 ts1 eq t ps ts2 e2 ts3 E1 _ _ P E2|t e ts _ E|t e ts _ E|t e ts _ E|t o p ts c e ts' _ _ E1 _ E2|t o name c code];
      inversion M; subst; unfold statement_nodes; cbn [map List.length]; rewrite ?sum_cons, ?sum_nil, ?app_length; cbn [List.length]; rewrite ?app_length; cbn [List.length].
    - assert (1 <= List.length ts) by (destruct T; cbn; lia). lia.
    - specialize (Y _ _ E). use. match goal with Z : SpecTree.gate_means _ _ _ _ |- _ => pose proof (gate_size _ _ G _ Z) end. lia.
    - pose proof (X _ _ E1). pose proof (X _ _ E2). use. match goal with Z : SpecTree.params_mean _ _ _ _ |- _ => pose proof (params_size _ _ _ P Z) end. lia.
    - specialize (X _ _ E). use. lia.
    - specialize (X _ _ E). use. lia.
    - specialize (X _ _ E). use. lia.
    - pose proof (X _ _ E1). pose proof (X _ _ E2). use. lia.
    - lia.
  Qed.
  Lemma block_size cs ts : block_tokens cs ts -> forall ss, Forall2 (SpecTree.statement_means file fm) cs ss -> S (sum (map statement_nodes ss)) <= List.length ts.
  Proof.
    induction 1 as [seps eof _ _|seps s ts ss ts' _ N St _ IH]; intros xs F; inversion F; subst; rewrite !app_length; cbn [List.length map]; rewrite ?sum_cons, ?sum_nil; [lia|].
    apply IH in H3. pose proof (statement_size _ _ _ St H1). destruct seps; [congruence|]. cbn [List.length]. lia.
  Qed.
End Trees.
Lemma text_nodes file s p : text_means file s p -> program_nodes p <= String.length s.
Proof.
  intros (ts & c & T & P & _ & M). apply text_tokens in T. destruct M as [v x cs ss _ F]. inversion P; subst.
  match goal with X : block_tokens _ _ |- _ => pose proof (block_size _ _ _ _ X _ F) as B end. unfold program_nodes. cbn [prog_statements]. rewrite app_length in T. cbn [List.length] in T. lia.
Qed.

(** ** Trees and results *)
Section Results.
  Variable lm : libm.
  Lemma expr_node e : 1 <= expr_nodes e. Proof. destruct e; cbn; lia. Qed.
  Lemma nodes_length es : List.length es <= sum (map expr_nodes es).
  Proof. induction es as [|e es IH]; cbn [map List.length]; [cbn; lia|]. rewrite sum_cons. pose proof (expr_node e). lia. Qed.
  Lemma parameters_length ps ks ws : SpecMeaning.parameters_mean lm ps ks ws -> List.length ws = List.length ps.
  Proof. induction 1; cbn [List.length]; congruence. Qed.
  Lemma result_gate g sg base name a : SpecMeaning.gate_means lm g sg base name a -> sem_gate_nodes sg <= gate_nodes g.
  Proof.
    induction 1; cbn [sem_gate_nodes gate_nodes List.length map]; try (cbn; lia).
    - apply parameters_length in H0. pose proof (nodes_length ps). lia.
    - apply parameters_length in H0. pose proof (nodes_length ps). lia.
  Qed.
  Lemma result_instruction vars s x : SpecMeaning.instruction_means lm vars s x -> sem_statement_nodes x <= statement_nodes s.
  Proof.
    intros H. destruct H as [l g ops sg base name vs k G F _|l n ops ps ks cs vs ws _ F P _ _|l n code]; unfold sem_statement_nodes, statement_nodes; cbn [operands_of List.length].
    - apply result_gate in G. apply ProofsExpr.Forall2_length in F. pose proof (nodes_length ops). lia.
    - apply parameters_length in P. apply ProofsExpr.Forall2_length in F. pose proof (nodes_length ops). pose proof (nodes_length ps). lia.
    - lia.
  Qed.
  Lemma variable_nodes l n t a : statement_nodes (SVariable l n t a) = 2. Proof. reflexivity. Qed.
  Lemma result_block n vars ss ds xs es : SpecOutcome.block_gives lm n vars ss ds xs es ->
    List.length ds + sum (map sem_statement_nodes xs) <= sum (map statement_nodes ss) /\ List.length es <= List.length ss.
  Proof.
    induction 1; cbn [map List.length]; rewrite ?sum_cons; [cbn; lia| | | |apply result_instruction in H|]; destruct IHblock_gives; rewrite ?variable_nodes; lia.
  Qed.

  (** ** Indices *)
  Lemma from_to_length a b : List.length (SpecMeaning.from_to a b) = Z.to_nat (b - a + 1).
  Proof. unfold SpecMeaning.from_to. now rewrite map_length, seq_length. Qed.
  Lemma indices_length es zs n : SpecMeaning.indices_mean lm es zs -> Forall (fun z => 0 <= z < Z.of_nat n)%Z zs -> List.length zs <= List.length es * n.
  Proof.
    induction 1 as [|l e z es zs _ _ IH|l e1 e2 a b es zs _ _ L _ IH]; intros F; cbn [List.length].
    - lia.
    - inversion F; subst. specialize (IH H2). lia.
    - apply Forall_app in F. destruct F as [F1 F2]. specialize (IH F2). rewrite app_length, from_to_length.
      assert (A : In a (SpecMeaning.from_to a b)) by (unfold SpecMeaning.from_to; apply in_map_iff; exists 0; split; [lia|apply in_seq; lia]).
      assert (B : In b (SpecMeaning.from_to a b)) by (unfold SpecMeaning.from_to; apply in_map_iff; exists (Z.to_nat (b - a)); split; [lia|apply in_seq; lia]).
      rewrite Forall_forall in F1. apply F1 in A. apply F1 in B. lia.
  Qed.
  Lemma entry_node i : 1 <= entry_nodes i. Proof. destruct i; cbn; lia. Qed.
  Lemma entries_length es : List.length es <= sum (map entry_nodes es).
  Proof. induction es as [|e es IH]; cbn [map List.length]; [cbn; lia|]. rewrite sum_cons. pose proof (entry_node e). lia. Qed.
  Lemma operand_indices vars e v n : SpecMeaning.operand_means lm vars e v -> (forall x, In x vars -> tsize (var_type x) <= Z.of_nat n)%Z ->
    List.length (indices_of v) <= expr_nodes e * n.
  Proof.
    intros H B. destruct H as [l x I|l l' x es zs I K M F]; cbn [indices_of List.length]; [lia|].
    specialize (B x I). assert (F' : Forall (fun z => 0 <= z < Z.of_nat n)%Z zs) by (eapply Forall_impl; [|exact F]; cbn; lia).
    pose proof (indices_length es zs n M F') as L. pose proof (entries_length es). cbn [expr_nodes]. nia.
  Qed.
  Lemma operands_indices vars es vs n : Forall2 (SpecMeaning.operand_means lm vars) es vs -> (forall x, In x vars -> tsize (var_type x) <= Z.of_nat n)%Z ->
    List.length (flat_map indices_of vs) <= sum (map expr_nodes es) * n.
  Proof.
    intros H B. induction H as [|e v es vs O _ IH]; cbn [flat_map map]; [cbn; lia|]. rewrite app_length, sum_cons. pose proof (operand_indices _ _ _ _ O B). lia.
  Qed.
  Lemma instruction_indices vars s x n : SpecMeaning.instruction_means lm vars s x -> (forall y, In y vars -> tsize (var_type y) <= Z.of_nat n)%Z ->
    List.length (flat_map indices_of (operands_of x)) <= statement_nodes s * n.
  Proof.
    intros H B. destruct H as [l g ops sg base name vs k _ F _|l m ops ps ks cs vs ws _ F _ _ _|l m code]; unfold statement_nodes; cbn [operands_of flat_map List.length].
    - pose proof (operands_indices _ _ _ _ F B). nia.
    - pose proof (operands_indices _ _ _ _ F B). nia.
    - lia.
  Qed.
  Lemma block_indices m vars ss ds xs es n : SpecOutcome.block_gives lm m vars ss ds xs es -> (forall y, In y vars -> tsize (var_type y) <= Z.of_nat n)%Z ->
    (forall y, In y ds -> tsize (var_type y) <= Z.of_nat n)%Z ->
    List.length (flat_map (fun x => flat_map indices_of (operands_of x)) xs) <= sum (map statement_nodes ss) * n.
  Proof.
    induction 1; intros B D; cbn [map flat_map List.length]; rewrite ?sum_cons, ?app_length.
    - cbn. lia.
    - assert (I : List.length (flat_map (fun x => flat_map indices_of (operands_of x)) xs) <= sum (map statement_nodes ss) * n).
      { apply IHblock_gives; [|intros y Y; apply D; now right]. intros y Y. apply in_app_or in Y. destruct Y as [Y|[<-|[]]]; [now apply B|]. apply D. now left. }
      nia.
    - assert (I : List.length (flat_map (fun x => flat_map indices_of (operands_of x)) xs) <= sum (map statement_nodes ss) * n).
      { apply IHblock_gives; [exact B|]. intros y Y. apply D. now right. }
      nia.
    - specialize (IHblock_gives B D). nia.
    - specialize (IHblock_gives B D). pose proof (instruction_indices _ _ _ _ H B). nia.
    - specialize (IHblock_gives B D). nia.
  Qed.
End Results.

Lemma statements_nodes ss : List.length ss <= sum (map statement_nodes ss).
Proof. induction ss as [|s ss IH]; cbn [map List.length]; [cbn; lia|]. rewrite sum_cons. assert (1 <= statement_nodes s) by (destruct s; unfold statement_nodes; lia). lia. Qed.
Lemma result_size lm api p q es : SpecOutcome.program_gives lm api p q es ->
  result_nodes q <= program_nodes p /\ List.length es <= program_nodes p /\
  forall n, (forall v, In v (program_variables q) -> tsize (var_type v) <= Z.of_nat n)%Z -> List.length (result_indices q) <= program_nodes p * n.
Proof.
  intros H. destruct H as [v ves ds b es V B _]. pose proof (result_block _ _ _ _ _ _ _ B) as [L E]. unfold result_nodes, program_nodes, result_indices, program_variables. cbn [sp_variables sp_block].
  rewrite map_length. split; [lia|]. split.
  - rewrite app_length. assert (List.length ves <= 1) by (destruct V; cbn; lia). pose proof (statements_nodes (prog_statements p)). lia.
  - intros n D. assert (X : List.length (flat_map (fun s => flat_map indices_of (operands_of s)) (blk_statements b)) <= sum (map statement_nodes (prog_statements p)) * n); [|nia].
    eapply block_indices; [exact B|intros y []|]. intros y Y. apply D. rewrite map_map. cbn [sv_var]. now rewrite map_id.
Qed.
