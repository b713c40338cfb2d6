(** Registers of other sizes (C106). *)
From Coq Require Import ZArith Lia ZifyBool.
From Verif Require Import Base ModelVersion ModelError ModelTypes ModelOverload ModelFunctions ModelAst
  ModelAnalyzer ModelSemantic
  SpecPlace SpecUtils SpecTypes SpecFunctions SpecInstructions SpecAnalyzer SpecHull SpecDiagnosis SpecMachine SpecEvaluate SpecMeaning SpecResize.
Local Open Scope string_scope.

Section Resize.
  Variables (lm : libm) (size : string -> option Z).
  Hypothesis legal : sizes_legal size.
  Notation rv := (resize_variable size).
  Notation rs := (resize_statement size).

  Lemma rv_name x : var_name (rv x) = var_name x.
  Proof. unfold resize_variable. destruct (kind (var_type x)), (size (var_name x)); reflexivity. Qed.
  Lemma rv_kind x : kind (var_type (rv x)) = kind (var_type x).
  Proof. unfold resize_variable. destruct (kind (var_type x)) eqn:K, (size (var_name x)); cbn [var_type kind]; congruence. Qed.
  Lemma rv_none x : size (var_name x) = None -> rv x = x.
  Proof. unfold resize_variable. intros ->. destruct (kind (var_type x)); reflexivity. Qed.
  Lemma declares_resized n t ty id : declares_type t ty -> exists ty', declares_type (resize_declared size n t) ty' /\ rv (mkVariable id n ty) = mkVariable id n ty'.
  Proof.
    intros [l|l k Hk|l|l k Hk]; unfold resize_declared, resize_variable; cbn [ty_size ty_loc ty_name var_type kind var_name var_id]; (destruct (size n) as [z|] eqn:E; [destruct (legal n z E) as [Hz _]|]);
      eexists; (split; [|reflexivity]); constructor; assumption.
  Qed.

  Definition enough (v : value) : Prop := match v with VIndex x zs => forall z, size (var_name x) = Some z -> Forall (fun i => i < z)%Z zs | _ => True end.
  Definition indexed (e : expr) : Prop := match e with EIdent _ n => size n = None | _ => True end.
  Lemma operand_resized vars e v : operand_means lm vars e v -> indexed e -> enough v -> operand_means lm (map rv vars) e (resize_value size v).
  Proof.
    intros [l x Hx|l l' x es zs Hx K I F] Hi He; cbn [resize_value].
    - cbn [indexed] in Hi. rewrite (rv_none x Hi). apply whole_variable. rewrite <- (rv_none x Hi). now apply in_map.
    - cbn [enough] in He. rewrite <- (rv_name x). apply some_elements; [now apply in_map|now rewrite rv_kind|exact I|].
      assert (A : var_type (rv x) = var_type x \/ exists z, size (var_name x) = Some z /\ tsize (var_type (rv x)) = z).
      { unfold resize_variable. destruct (kind (var_type x)), (size (var_name x)); cbn [var_type tsize]; eauto. }
      destruct A as [->|(z & E & ->)]; [exact F|]. specialize (He z E). rewrite Forall_forall in *. intros i Hin. specialize (F i Hin). specialize (He i Hin). cbn beta in *. lia.
  Qed.
  Lemma operands_resized vars es vs : Forall2 (operand_means lm vars) es vs -> Forall indexed es -> Forall enough vs -> Forall2 (operand_means lm (map rv vars)) es (map (resize_value size) vs).
  Proof.
    induction 1 as [|e v es vs H _ IH]; intros Fi Fe; [constructor|]. inversion Fi; inversion Fe; subst. cbn [map]. constructor; [now apply operand_resized|now apply IH].
  Qed.
  (** Operands that are not whole registers of a new size address as many qubits. *)
  Definition settled (v : value) : Prop := match v with VVar x => size (var_name x) = None | _ => True end.
  Lemma operands_settled vars es vs : Forall2 (operand_means lm vars) es vs -> Forall indexed es -> Forall settled vs.
  Proof.
    induction 1 as [|e v es vs H _ IH]; intros Fi; [constructor|]. inversion Fi as [|? ? Hi Fi']; subst. constructor; [|now apply IH]. destruct H; [exact Hi|exact I].
  Qed.
  Lemma addresses_resized c v k : settled v -> addresses c v k -> addresses c (resize_value size v) k.
  Proof.
    intros S A. destruct A as [x K|x K|x K|x K|x idx K|x idx K]; cbn [resize_value settled] in *; try rewrite (rv_none x S); constructor; auto; now rewrite rv_kind.
  Qed.
  Lemma kind_resized v : operand_kind (resize_value size v) = operand_kind v.
  Proof.
    destruct v as [| | |x|x zs]; cbn [resize_value]; try reflexivity; cbn [operand_kind const_kind]; rewrite ?rv_kind; try reflexivity. 
  Qed.
  Lemma instruction_resized n vs : instruction_for n (map (resize_value size) vs) = instruction_for n vs.
  Proof. unfold instruction_for. f_equal. rewrite map_map. apply map_ext. intros v. now rewrite kind_resized. Qed.
  Lemma Forall2_map_r {A B C} (P : A -> B -> Prop) (Q : A -> C -> Prop) (S : B -> Prop) f l m : (forall a b, S b -> P a b -> Q a (f b)) -> Forall S m -> Forall2 P l m -> Forall2 Q l (map f m).
  Proof. intros H F F2. induction F2; [constructor|]. inversion F; subst. cbn [map]. constructor; auto. Qed.

  Lemma means_resized vars s x : instruction_means lm vars s x -> Forall indexed (operands_of s) -> Forall enough (result_operands x) ->
    instruction_means lm (map rv vars) (rs s) (resize_instruction size x).
  Proof.
    intros [l g ops sg base name vs k G O A|l n ops ps ks cs vs ws I O P A M|l n code] Fi Fe; cbn [resize_statement resize_instruction operands_of result_operands] in *.
    - rewrite <- (instruction_resized name vs). pose proof (operands_settled _ _ _ O Fi) as St. eapply gate_applied; [exact G|now apply operands_resized|].
      rewrite Forall_forall in *. intros v Hv. apply in_map_iff in Hv. destruct Hv as (w & <- & Hw). apply addresses_resized; [now apply St|exact (A w Hw)].
    - rewrite <- (instruction_resized n vs). pose proof (operands_settled _ _ _ O Fi) as St. eapply non_gate_applied; [exact I|now apply operands_resized|exact P| |].
      + eapply Forall2_map_r; [|exact St|exact A]. intros c v Sv (k & Hk). exists k. now apply addresses_resized.
      + intros E. destruct (M E) as (k & Hk). exists k. eapply Forall2_map_r; [|exact St|exact Hk]. intros c v Sv H. now apply addresses_resized.
    - constructor.
  Qed.
  Lemma names_resized vars : map var_name (map rv vars) = map var_name vars.
  Proof. rewrite map_map. apply map_ext. apply rv_name. Qed.
  Lemma block_resized vars ss vars' xs : block_means lm vars ss vars' xs -> Forall (fun s => Forall indexed (operands_of s)) ss -> Forall (fun x => Forall enough (result_operands x)) xs ->
    block_means lm (map rv vars) (map rs ss) (map rv vars') (map (resize_instruction size) xs).
  Proof.
    induction 1 as [vars|vars l n t ty ss vars' xs D N1 N2 B IH|vars s x ss vars' xs M B IH]; intros Fi Fe; cbn [map].
    - constructor.
    - inversion Fi as [|? ? _ Fi']; subst. cbn [resize_statement]. destruct (declares_resized n t ty (List.length vars) D) as (ty' & D' & E).
      specialize (IH Fi' Fe). rewrite map_app in IH. cbn [map] in IH. rewrite E in IH. rewrite <- (map_length rv vars) in IH.
      eapply declaration; [exact D'|exact N1|now rewrite names_resized|exact IH].
    - inversion Fi as [|? ? F1 F2]; inversion Fe as [|? ? E1 E2]; subst. apply instruction_of; [now apply means_resized|now apply IH].
  Qed.

  Lemma locations_resized xs : statement_locations (map (resize_instruction size) xs) = statement_locations xs.
  Proof. unfold statement_locations. induction xs as [|x xs IH]; [reflexivity|]. cbn [map flat_map]. rewrite IH. destruct x; reflexivity. Qed.
  Lemma spans_resized b : spans_statements b -> spans_statements (mkBlock (map (resize_instruction size) (blk_statements b)) (blk_loc b)).
  Proof. unfold spans_statements. cbn [blk_loc blk_statements]. now rewrite locations_resized. Qed.
  Lemma program_resized api p q : program_means lm api p q -> used_with_indices size p -> large_enough size q -> program_means lm api (resize_program size p) (resize_result size q).
  Proof.
    intros [vars b V B S] U L. unfold resize_result, resize_program. cbn [sp_api_version sp_version sp_version_loc sp_block sp_variables]. rewrite map_map.
    replace (map (fun x => mkSemVariable (rv (sv_var (mkSemVariable x []))) (sv_annots (mkSemVariable x []))) vars) with (map (fun x => mkSemVariable x []) (map rv vars)) by (rewrite map_map; reflexivity).
    apply (program_of lm api (mkProgram (prog_version p) (prog_version_loc p) (map rs (prog_statements p)) (prog_block_loc p)) (map rv vars) (mkBlock (map (resize_instruction size) (blk_statements b)) (blk_loc b)));
      [exact V| |now apply spans_resized].
    cbn [prog_statements blk_statements]. change (@nil variable) with (map rv []). apply block_resized; [exact B| |].
    - apply Forall_forall. intros s Hs. apply Forall_forall. intros e He. destruct e; cbn [indexed]; try exact I. eapply U; eauto.
    - apply Forall_forall. intros x Hx. apply Forall_forall. intros v Hv. destruct v; cbn [enough]; try exact I. intros z Hz. eapply L; eauto.
  Qed.

  (** ** What is asked of programs *)
  Lemma grammar_resized p : grammar_program p -> grammar_program (resize_program size p).
  Proof.
    unfold grammar_program. cbn [resize_program prog_statements]. rewrite !Forall_forall. intros H s Hs. apply in_map_iff in Hs. destruct Hs as (s0 & <- & H0). specialize (H _ H0). destruct s0; exact H.
  Qed.
  Lemma machine_resized p : machine_program p -> machine_program (resize_program size p).
  Proof.
    unfold machine_program. cbn [resize_program prog_statements]. rewrite !Forall_forall. intros H s Hs. apply in_map_iff in Hs. destruct Hs as (s0 & <- & H0). specialize (H _ H0). destruct s0 as [l n t an|l g ops an|l n ops ps an|l n c an]; try exact H.
    destruct H as [H1 H2]. split; [exact H1|]. cbn [resize_statement]. intros z. unfold resize_declared. destruct (ty_size t) as [k|] eqn:Et; [|now rewrite Et]. destruct (size n) as [z0|] eqn:Ez; [cbn [ty_size]|rewrite Et; apply H2].
    intros [= <-]. now apply (legal n).
  Qed.
  Lemma ordered_resized p : ordered_locations p -> ordered_locations (resize_program size p).
  Proof.
    intros H s l Hs. cbn [resize_program prog_statements] in Hs. apply in_map_iff in Hs. destruct Hs as (s0 & <- & H0). intros E. apply (H s0 l H0). destruct s0; exact E.
  Qed.

  (** ** Registers that grow are large enough *)
  Definition bounded (ss : list statement) (x : variable) : Prop :=
    kind (var_type x) = TQubitArray \/ kind (var_type x) = TBitArray -> exists l t an, In (SVariable l (var_name x) t an) ss /\ ty_size t = Some (tsize (var_type x)).
  Lemma operands_within vars ops vs x zs : Forall2 (operand_means lm vars) ops vs -> In (VIndex x zs) vs ->
    In x vars /\ (kind (var_type x) = TQubitArray \/ kind (var_type x) = TBitArray) /\ Forall (fun z => 0 <= z < tsize (var_type x))%Z zs.
  Proof. induction 1 as [|e v es vs' H _ IH]; intros []; [|auto]. subst v. inversion H; subst. auto. Qed.
  Lemma block_within all vars ss vars' xs : block_means lm vars ss vars' xs -> incl ss all -> Forall (bounded all) vars ->
    forall s x zs, In s xs -> In (VIndex x zs) (result_operands s) -> exists l t an k, In (SVariable l (var_name x) t an) all /\ ty_size t = Some k /\ Forall (fun z => 0 <= z < k)%Z zs.
  Proof.
    induction 1 as [vars|vars l n t ty ss vars' xs D N1 N2 B IH|vars s0 x0 ss vars' xs M B IH]; intros I Bd s x zs Hs Hv.
    - destruct Hs.
    - eapply IH; eauto; [intros y Hy; apply I; now right|]. apply Forall_app. split; [exact Bd|]. constructor; [|constructor]. intros K. cbn [var_name var_type] in *.
      exists l, t, []. split; [apply I; now left|]. destruct D; cbn [kind tsize ty_size] in *; try reflexivity; destruct K; discriminate.
    - destruct Hs as [->|Hs]; [|eapply IH; eauto; intros y Hy; apply I; now right].
      assert (W : In x vars /\ (kind (var_type x) = TQubitArray \/ kind (var_type x) = TBitArray) /\ Forall (fun z => 0 <= z < tsize (var_type x))%Z zs).
      { destruct M; cbn [result_operands] in Hv; [eapply operands_within; eauto|eapply operands_within; eauto|destruct Hv]. }
      destruct W as (Wx & Wk & Wz). rewrite Forall_forall in Bd. destruct (Bd x Wx Wk) as (l & t & an & Hd & Ht). exists l, t, an, (tsize (var_type x)). auto.
  Qed.
  Lemma grown_large_enough api p q : program_means lm api p q -> grows size p -> large_enough size q.
  Proof.
    intros [vars b V B S] Gr s x zs z Hs Hv Ez. cbn [sp_block] in Hs.
    destruct (block_within _ _ _ _ _ B (incl_refl _) (Forall_nil _) s x zs Hs Hv) as (l & t & an & k & Hd & Ht & F). pose proof (Gr _ _ _ _ _ _ Hd Ht Ez) as Le.
    eapply Forall_impl; [|exact F]. cbn beta. intros i Hi. lia.
  Qed.
End Resize.
