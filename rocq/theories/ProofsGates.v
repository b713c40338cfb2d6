(** Lemmas about gates, parameters and instructions (C28-C32). *)
From Coq Require Import SpecFloat ZifyBool.
From Verif Require Import Base ModelUtils ModelVersion ModelError ModelTypes ModelOverload ModelFunctions
  ModelInstructionSet ModelAst ModelAnalyzer ModelSemantic SpecTypes SpecFunctions SpecInstructions
  ProofsTypes ProofsFunctions ProofsFolding ProofsExpr PropertiesTypes ProofsInstructions.
Local Open Scope string_scope.

(** ** The names and operand kinds registered *)

Definition class_kinds (cs : list operand_class) : list (list type_kind) :=
  fold_right (fun c l => flat_map (fun s => match c with
     | Qubits => [TQubit :: s; TQubitArray :: s] | Bits => [TBit :: s; TBitArray :: s] end) l) [[]] cs.
Lemma class_kinds_In cs ks : In ks (class_kinds cs) <-> Forall2 of_class cs ks.
Proof.
  revert ks. induction cs as [|c cs IH]; intros s; cbn [class_kinds fold_right].
  - cbn. split; [intros [<-|[]]; constructor|]. intros H. inversion H. now left.
  - rewrite in_flat_map. split.
    + intros (t & Ht & H). apply IH in Ht. destruct c; destruct H as [<-|[<-|[]]]; constructor; cbn; auto.
    + intros H. inversion H as [|? k ? ks H1 H2]; subst. exists ks. split; [now apply IH|].
      destruct c; destruct H1 as [->| ->]; cbn; auto.
Qed.
Lemma repeat_class a ks : Forall2 of_class (repeat Qubits a) ks <-> List.length ks = a /\ Forall (of_class Qubits) ks.
Proof.
  revert ks. induction a as [|a IH]; intros ks; cbn [repeat].
  - split; [intros H; inversion H; auto|]. intros [H _]. destruct ks; [constructor|discriminate].
  - split.
    + intros H. inversion H as [|? k ? ks' H1 H2]; subst. apply IH in H2. destruct H2 as [<- F]. split; [reflexivity|now constructor].
    + intros [H F]. destruct ks as [|k ks]; [discriminate|]. injection H as H. inversion F; subst. constructor; [assumption|]. now apply IH.
Qed.

Definition kinds_entry_dec (a b : string * list type_kind) : {a = b} + {a <> b}.
Proof. repeat decide equality. Defined.
Definition all_in_kinds (l m : list (string * list type_kind)) : bool :=
  forallb (fun x => if in_dec kinds_entry_dec x m then true else false) l.
Lemma all_in_kinds_spec l m : all_in_kinds l m = true -> forall x, In x l -> In x m.
Proof.
  unfold all_in_kinds. rewrite forallb_forall. intros H x Hx. specialize (H x Hx). destruct (in_dec kinds_entry_dec x m); [assumption|discriminate].
Qed.

Definition single_gates : list string := map fst (filter (fun e => Nat.eqb (snd (snd e)) 1) gates).
Lemma single_gates_In n : In n single_gates <-> exists ks, In (n, (ks, 1%nat)) gates.
Proof.
  unfold single_gates. rewrite (table_names (fun x => Nat.eqb (snd x) 1)). split.
  - intros ([ks a] & H & E). apply Nat.eqb_eq in E. cbn in E. subst. eauto.
  - intros (ks & H). exists (ks, 1%nat). auto.
Qed.
Definition spec_registered : list (string * list type_kind) :=
  (flat_map (fun g => map (fun s => (fst g, s)) (class_kinds (repeat Qubits (snd (snd g))))) gates ++
   flat_map (fun n => map (fun s => ("1q_" ++ n, s)%string) (class_kinds [Qubits])) single_gates ++
   flat_map (fun n => map (fun s => ("2q_" ++ n, s)%string) (class_kinds [Qubits; Qubits])) single_gates ++
   flat_map (fun g => map (fun s => (fst g, s)) (class_kinds (snd (snd g)))) non_gates)%list.

Lemma registered_spec n ks : In (n, ks) registered_kinds <->
  (exists pk a, In (n, (pk, a)) gates /\ Forall2 of_class (repeat Qubits a) ks) \/
  (exists m, n = ("1q_" ++ m)%string /\ In m single_gates /\ Forall2 of_class [Qubits] ks) \/
  (exists m, n = ("2q_" ++ m)%string /\ In m single_gates /\ Forall2 of_class [Qubits; Qubits] ks) \/
  (exists pk cs, In (n, (pk, cs)) non_gates /\ Forall2 of_class cs ks).
Proof.
  transitivity (In (n, ks) spec_registered).
  { split; apply all_in_kinds_spec; vm_compute; reflexivity. }
  unfold spec_registered. rewrite !in_app_iff, !in_flat_map.
  assert (M : forall m cs, In (n, ks) (map (fun s => (m, s)) (class_kinds cs)) <-> n = m /\ Forall2 of_class cs ks).
  { intros m cs. rewrite in_map_iff, <- class_kinds_In. split; [intros (s & [= -> ->] & H); auto|]. intros [-> H]. eauto. }
  setoid_rewrite M. split.
  - intros [(x & H & -> & F)|[(x & H & -> & F)|[(x & H & -> & F)|(x & H & -> & F)]]].
    + left. destruct x as [m [pk a]]. eauto.
    + right; left. eauto.
    + right; right; left. eauto.
    + right; right; right. destruct x as [m [pk cs]]. eauto.
  - intros [(pk & a & H & F)|[(m & -> & H & F)|[(m & -> & H & F)|(pk & cs & H & F)]]].
    + left. exists (n, (pk, a)). auto.
    + right; left. eauto.
    + right; right; left. eauto.
    + right; right; right. exists (n, (pk, cs)). auto.
Qed.

Lemma known_no_prefix n m : In n (map fst gates) \/ In n (map fst non_gates) \/ In n (map fst modifiers) ->
  n <> ("1q_" ++ m)%string /\ n <> ("2q_" ++ m)%string.
Proof.
  intros H. destruct (no_composition_prefix n H) as [H1 H2].
  split; intros ->; cbn in H1, H2; congruence.
Qed.

Lemma registered_gate n pk a ks : In (n, (pk, a)) gates ->
  (In (n, ks) registered_kinds <-> List.length ks = a /\ Forall (of_class Qubits) ks).
Proof.
  intros H. assert (Hn : In n (map fst gates)) by exact (in_map fst _ _ H).
  rewrite registered_spec, <- repeat_class. split.
  - intros [(pk' & a' & H' & F)|[(m & E & _)|[(m & E & _)|(pk' & cs & H' & F)]]].
    + destruct (gates_functional _ _ _ _ _ H H') as [_ ->]. exact F.
    + destruct (known_no_prefix n m (or_introl Hn)) as [N _]. destruct (N E).
    + destruct (known_no_prefix n m (or_introl Hn)) as [_ N]. destruct (N E).
    + destruct (proj1 (disjoint_names n) Hn) as [N _]. destruct N. exact (in_map fst _ _ H').
  - intros F. left. eauto.
Qed.
Lemma registered_composition n ks pre : pre = "1q_" \/ pre = "2q_" ->
  (In ((pre ++ n)%string, ks) registered_kinds <->
   In n single_gates /\ List.length ks = (if pre =? "1q_" then 1%nat else 2%nat) /\ Forall (of_class Qubits) ks).
Proof.
  intros Hp. rewrite registered_spec, <- repeat_class.
  assert (K : forall x, In x (map fst gates) \/ In x (map fst non_gates) \/ In x (map fst modifiers) -> x <> (pre ++ n)%string).
  { intros x Hx. destruct (known_no_prefix x n Hx). destruct Hp as [-> | ->]; assumption. }
  split.
  - intros [(pk' & a' & H' & F)|[(m & E & H & F)|[(m & E & H & F)|(pk' & cs & H' & F)]]].
    + destruct (K (pre ++ n)%string); [left; exact (in_map fst _ _ H')|reflexivity].
    + destruct Hp as [-> | ->]; [|discriminate]. injection E as ->. auto.
    + destruct Hp as [-> | ->]; [discriminate|]. injection E as ->. auto.
    + destruct (K (pre ++ n)%string); [right; left; exact (in_map fst _ _ H')|reflexivity].
  - intros [H F]. destruct Hp as [-> | ->]; [right; left|right; right; left]; exists n; auto.
Qed.
Lemma registered_non_gate n ks : In n (map fst non_gates) ->
  (In (n, ks) registered_kinds <-> exists pk cs, In (n, (pk, cs)) non_gates /\ Forall2 of_class cs ks).
Proof.
  intros Hn. rewrite registered_spec. split; [|auto].
  intros [(pk' & a' & H' & F)|[(m & E & _)|[(m & E & _)|H]]]; auto.
  - destruct (disjoint_names n) as [D _]. destruct (D (in_map fst _ _ H')) as [N _]. destruct (N Hn).
  - destruct (known_no_prefix n m (or_intror (or_introl Hn))) as [N _]. destruct (N E).
  - destruct (known_no_prefix n m (or_intror (or_introl Hn))) as [_ N]. destruct (N E).
Qed.

(** ** Operands *)

Lemma addresses_kind c v : ordinary_value v ->
  ((exists k, has_kind v k /\ of_class c k) <-> exists n, addresses c v n).
Proof.
  intros Ho. split.
  - intros (k & (t & Ht & <-) & Hc). destruct v as [b|z|f|x|x idx]; cbn in Ht.
    1-3: injection Ht as <-; destruct c; destruct Hc; discriminate.
    + injection Ht as <-. destruct c, Hc; eexists; (apply addr_qubit + apply addr_qubits + apply addr_bit + apply addr_bits); assumption.
    + destruct Ho as [K _]. assert (C : of_class c (kind (var_type x))).
      { destruct (_ =? _)%Z; [|injection Ht as <-; exact Hc]. unfold element_type_of, type_check in Ht.
        destruct K as [K|K]; rewrite K in *; cbn in Ht; injection Ht as <-; destruct c, Hc; try discriminate; cbn; auto. }
      destruct c, K; destruct C; try congruence; eexists; (apply addr_qubit_index + apply addr_bit_index); assumption.
  - intros (n & H). unfold has_kind. inversion H; subst; cbn [type_of].
    1-4: eexists; (split; [eexists; split; [reflexivity|eassumption]|cbn; auto]).
    + destruct (_ =? _)%Z.
      * unfold element_type_of, type_check. rewrite H0. cbn. exists TQubit. split; [eexists; split; reflexivity|auto].
      * exists TQubitArray. split; [eexists; split; [reflexivity|assumption]|cbn; auto].
    + destruct (_ =? _)%Z.
      * unfold element_type_of, type_check. rewrite H0. cbn. exists TBit. split; [eexists; split; reflexivity|auto].
      * exists TBitArray. split; [eexists; split; [reflexivity|assumption]|cbn; auto].
Qed.
Lemma addresses_size c v n : addresses c v n ->
  qubit_indices_size v = match c with Qubits => n | Bits => 0%Z end /\
  bit_indices_size v = match c with Bits => n | Qubits => 0%Z end.
Proof. intros H. inversion H as [? E|? E|? E|? E|? ? E|? ? E]; subst; cbn; rewrite E; auto. Qed.
Lemma addresses_functional c v n m : addresses c v n -> addresses c v m -> n = m.
Proof.
  intros H H'. destruct (addresses_size c v n H) as [E1 E2]. destruct (addresses_size c v m H') as [E3 E4].
  destruct c; congruence.
Qed.

Lemma operands_classes cs vs : Forall ordinary_value vs ->
  ((exists ks, Forall2 has_kind vs ks /\ Forall2 of_class cs ks) <-> Forall2 (fun c v => exists n, addresses c v n) cs vs).
Proof.
  intros Ho. split.
  - intros (ks & H & F). revert cs F Ho. induction H as [|v k vs ks H _ IH]; intros cs F Ho; inversion F; subst; constructor.
    + inversion Ho; subst. apply addresses_kind; eauto.
    + inversion Ho; subst. auto.
  - intros F. induction F as [|c v cs vs H _ IH]; [exists []; split; constructor|].
    inversion Ho; subst. destruct IH as (ks & K1 & K2); [assumption|]. apply addresses_kind in H; [|assumption].
    destruct H as (k & Hk & Hc). exists (k :: ks). split; constructor; assumption.
Qed.

Lemma adjacent_equal_all l : adjacent_equal l = true <-> exists x, Forall (fun y => y = x) l.
Proof.
  induction l as [|x l IH]; [split; [exists 0%Z; constructor|reflexivity]|]. cbn [adjacent_equal].
  destruct l as [|y l]; [split; [exists x; auto|reflexivity]|]. rewrite andb_true_iff, Z.eqb_eq, IH. split.
  - intros (-> & z & F). inversion F; subst. exists z. constructor; auto.
  - intros (z & F). inversion F as [|? ? E F']; subst. inversion F' as [|? ? E F'']; subst. split; [reflexivity|]. eauto.
Qed.

(** ** Parameters *)

Inductive stored_all : list value -> list type_kind -> list value -> Prop :=
| sa_nil : stored_all [] [] []
| sa_cons v k w vs ks ws : fits_param v k -> stored_as v k w -> stored_all vs ks ws -> stored_all (v :: vs) (k :: ks) (w :: ws).

Lemma type_of_char_kind k : type_of_char (type_char k) = Ok (make_type k).
Proof. destruct k; reflexivity. Qed.

Definition param_kinds (ks : list type_kind) : Prop := Forall (fun k => numeric k = true) ks.

Lemma check_promote_param v t k : ordinary_value v -> numeric k = true -> type_of v = Ok t ->
  (check_promote t (make_type k) = true <-> fits_param v k).
Proof.
  intros Ho Hk Ht. rewrite check_promote_iff. unfold fits_param. cbn [kind make_type].
  destruct (ordinary_language v Ho) as [C|L].
  - rewrite (type_of_const v C) in Ht. injection Ht as <-. cbn. tauto.
  - assert (Q : quantum_or_bit (kind t)).
    { destruct v as [| | |x|x idx]; cbn in L; try contradiction.
      - cbn in Ht. injection Ht as <-. exact L.
      - cbn in Ht. destruct (_ =? _)%Z.
        + unfold element_type_of, type_check in Ht. destruct L as [E|E]; rewrite E in Ht; injection Ht as <-; exact I.
        + injection Ht as <-. destruct L as [-> | ->]; exact I. }
    split.
    + intros [<-|B]; [destruct (kind t); cbn in *; (contradiction || discriminate)|destruct (kind t), k; contradiction].
    + intros [C _]. destruct v; cbn in *; contradiction.
Qed.
Lemma fits_promote v k : fits_param v k -> numeric k = true -> exists w, promote v (make_type k) = Ok (Some w) /\ is_const w /\ const_kind w = k.
Proof.
  intros (C & H) Hk. destruct (promote_const v (make_type k) C) as (P1 & _ & P3). cbn [kind make_type] in *.
  destruct H as [E|B]; [|exact (P3 B)]. exists v. auto.
Qed.

Lemma resolve_params_loop_spec name ks : param_kinds ks -> forall vs, Forall ordinary_value vs -> List.length vs = List.length ks ->
  no_throw (resolve_params_loop name (map type_char ks) vs) /\ (forall u, resolve_params_loop name (map type_char ks) vs <> UB u) /\
  forall ws, resolve_params_loop name (map type_char ks) vs = Ok ws <-> stored_all vs ks ws.
Proof.
  induction 1 as [|k ks Hk _ IH]; intros vs Ho L.
  - destruct vs; [|discriminate]. cbn. split; [discriminate|]. split; [discriminate|]. intros ws. split; [intros [= <-]; constructor|].
    intros H. inversion H. reflexivity.
  - destruct vs as [|v vs]; [discriminate|]. injection L as L. inversion Ho as [|? ? Hv Hvs]; subst.
    destruct (IH vs Hvs L) as (IH1 & IH2 & IH3). cbn [map resolve_params_loop].
    destruct (ordinary_typed v Hv) as [t Ht]. rewrite Ht, type_of_char_kind. cbn [bind].
    pose proof (check_promote_param v t k Hv Hk Ht) as CP.
    destruct (check_promote t (make_type k)); cbn [negb].
    + destruct (fits_promote v k (proj1 CP eq_refl) Hk) as (w & Ew & Cw & Kw). rewrite Ew. cbn [bind].
      split; [|split].
      * apply no_throw_bind; [exact IH1|]. intros a _. discriminate.
      * intros u. destruct (resolve_params_loop name (map type_char ks) vs) as [| | |u'] eqn:E; cbn; try discriminate.
        destruct (IH2 u' eq_refl).
      * intros ws. destruct (resolve_params_loop name (map type_char ks) vs) as [ws'| | |]; cbn [bind].
        -- split.
           ++ intros [= <-]. constructor; [now apply CP| |now apply IH3]. split; [exact Cw|]. split; [exact Kw|exact Ew].
           ++ intros H. inversion H as [|? ? w'' ? ? ws'' Hf (_ & _ & Hp) Hs]; subst. apply IH3 in Hs. injection Hs as ->. congruence.
        -- split; [discriminate|]. intros H. inversion H as [|? ? w'' ? ? ws'' Hf Hp Hs]; subst. apply IH3 in Hs. discriminate.
        -- split; [discriminate|]. intros H. inversion H as [|? ? w'' ? ? ws'' Hf Hp Hs]; subst. apply IH3 in Hs. discriminate.
        -- split; [discriminate|]. intros H. inversion H as [|? ? w'' ? ? ws'' Hf Hp Hs]; subst. apply IH3 in Hs. discriminate.
    + split; [discriminate|]. split; [discriminate|]. intros ws. split; [discriminate|]. intros H. inversion H; subst.
      assert (X : false = true) by now apply CP. discriminate.
Qed.

Definition clean {A} (m : outcome error A) : Prop := (exists a, m = Ok a) \/ exists e, m = Err e.
Lemma clean_of {A} (m : outcome error A) : no_throw m -> (forall u, m <> UB u) -> clean m.
Proof. intros H1 H2. unfold clean. destruct m as [a|e|w|u]; eauto; [destruct (H1 w eq_refl)|destruct (H2 u eq_refl)]. Qed.
Lemma clean_no_throw {A} (m : outcome error A) : clean m -> no_throw m.
Proof. intros [[a ->]|[e ->]] w; discriminate. Qed.

Lemma stored_all_nil vs ws : stored_all vs [] ws <-> vs = [] /\ ws = [].
Proof. split; [intros H; inversion H; auto|]. intros [-> ->]. constructor. Qed.
Lemma stored_all_length vs ks ws : stored_all vs ks ws -> List.length vs = List.length ks /\ List.length ws = List.length ks.
Proof. induction 1 as [|? ? ? ? ? ? _ _ _ [IH1 IH2]]; cbn; auto. Qed.
Lemma stored_all_iff vs ks ws : stored_all vs ks ws <->
  Forall2 fits_param vs ks /\ stored_params vs ks ws.
Proof.
  unfold params_stored. split.
  - intros H. destruct (stored_all_length _ _ _ H) as [L1 L2]. induction H as [|v k w vs ks ws H1 H2 H IH].
    + split; [constructor|]. split; [reflexivity|]. split; [reflexivity|]. intros [|i]; discriminate.
    + injection L1 as L1. injection L2 as L2. destruct (IH L1 L2) as (F & _ & _ & N).
      split; [now constructor|]. split; [cbn; congruence|]. split; [cbn; congruence|].
      intros [|i] v' k' w'; cbn; [intros [= <-] [= <-] [= <-]; exact H2|apply N].
  - intros (F & L1 & L2 & N). clear L1. revert ws L2 N. induction F as [|v k vs ks H F IH]; intros ws L2 N.
    + destruct ws; [constructor|discriminate].
    + destruct ws as [|w ws]; [discriminate|]. injection L2 as L2. constructor; [exact H|exact (N 0%nat v k w eq_refl eq_refl eq_refl)|].
      apply IH; [exact L2|]. intros i. exact (N (S i)).
Qed.
Lemma spec_length ks : String.length (string_of_list_ascii (map type_char ks)) = List.length ks.
Proof. induction ks as [|k ks IH]; cbn; auto. Qed.

Lemma gates_param_kinds n ks : (exists a, In (n, (ks, a)) gates) \/ In (n, ks) modifiers -> param_kinds ks.
Proof.
  intros H. assert (F : forallb (forallb numeric) (map (fun e => fst (snd e)) gates ++ map snd modifiers) = true) by reflexivity.
  rewrite forallb_forall in F. assert (I : In ks (map (fun e => fst (snd e)) gates ++ map snd modifiers)%list).
  { apply in_or_app. destruct H as [[a H]|H]; [left|right]; apply in_map_iff; eexists; (split; [|exact H]); reflexivity. }
  apply F in I. rewrite forallb_forall in I. now apply Forall_forall.
Qed.
Lemma not_non_gate n : ~ In n (map fst non_gates) -> is_non_gate n = false.
Proof.
  intros H. destruct (is_non_gate n) eqn:E; [|reflexivity]. apply non_gate_spec in E. destruct E as [x E]. destruct H. exact (in_map fst _ _ E).
Qed.

Lemma resolve_parameters_known n ks vs : (exists a, In (n, (ks, a)) gates) \/ In (n, ks) modifiers -> Forall ordinary_value vs ->
  clean (resolve_parameters n vs) /\ forall ws, resolve_parameters n vs = Ok ws <-> stored_all vs ks ws.
Proof.
  intros H Ho. pose proof (gates_param_kinds n ks H) as K. unfold resolve_parameters.
  assert (N : is_non_gate n = false).
  { apply not_non_gate. destruct (disjoint_names n) as [D1 D2]. destruct H as [[a H]|H].
    - apply D1. exact (in_map fst _ _ H).
    - intros I. apply (D2 I). exact (in_map fst _ _ H). }
  rewrite N. assert (P : get_instruction_param_types n = Ok (spec_of ks)).
  { destruct H as [[a H]|H]; [eapply gate_param_types; eauto|now apply modifier_param_types]. }
  rewrite P. cbn [bind]. unfold spec_of. destruct ks as [|k ks].
  - setoid_rewrite stored_all_nil. destruct vs as [|v vs]; cbn [List.length Nat.eqb].
    + split; [left; eauto|]. intros ws. split; [intros [= <-]; auto|]. intros [_ ->]. reflexivity.
    + split; [right; eauto|]. intros ws. split; [discriminate|]. intros [E _]. discriminate.
  - rewrite spec_length, list_ascii_of_string_of_list_ascii.
    destruct (Nat.eqb_spec (List.length vs) (List.length (k :: ks))) as [E|E]; cbn [negb].
    + destruct (resolve_params_loop_spec n (k :: ks) K vs Ho E) as (A & B & C). split; [now apply clean_of|exact C].
    + split; [right; eauto|]. intros ws. split; [discriminate|]. intros S. apply stored_all_length in S. tauto.
Qed.
Lemma resolve_parameters_unknown n vs : ~ In n (map fst gates) -> ~ In n (map fst non_gates) -> ~ In n (map fst modifiers) ->
  exists e, resolve_parameters n vs = Err e.
Proof.
  intros H1 H2 H3. unfold resolve_parameters. rewrite (not_non_gate n H2), (unknown_param_types n H1 H2 H3). cbn. eauto.
Qed.

(** ** Gates *)

Section Gates.
  Variables (lm : libm) (st : analyzer).
  Hypothesis Hst : ordinary lm st.

  Fixpoint pure_gate (g : gate) : outcome error sem_gate :=
    let 'Gate l n inner ps _ := g in
    with_context l
      (let! i := match inner with None => Ok None | Some g' => let! r := pure_gate g' in Ok (Some r) end in
       let! vs := visit_expression_list st ps in
       let! ws := resolve_parameters n vs in
       let! _ := check_gate i in
       Ok (SemGate l n i ws [])).

  Lemma lbind_lift {A B} (m : outcome error A) (f : A -> logged B) (h : A -> outcome error B) :
    (forall a, f a = lift (h a)) -> lbind (lift m) f = lift (bind m h).
  Proof. intros E. destruct m; cbn; try reflexivity. rewrite E. reflexivity. Qed.
  Lemma log_context_lift {A} l (m : outcome error A) : log_context l (lift m) = lift (with_context l m).
  Proof. reflexivity. Qed.

  Lemma visit_gate_pure g : grammar_gate g -> visit_gate st g = lift (pure_gate g).
  Proof.
    assert (T : forall l n i ps, lbind (lift (visit_expression_list st ps)) (fun vs => lbind (lift (resolve_parameters n vs))
        (fun ws => lbind (lift (check_gate i)) (fun _ => lbind (visit_annotated st []) (fun ans => lift (Ok (SemGate l n i ws ans))))))
      = lift (let! vs := visit_expression_list st ps in let! ws := resolve_parameters n vs in let! _ := check_gate i in
              Ok (SemGate l n i ws []))).
    { intros. apply lbind_lift; intros vs. apply lbind_lift; intros ws. apply lbind_lift; intros _. reflexivity. }
    induction 1 as [l n ps H1 H2|l m g ps Hm Hg IH]; cbn [visit_gate pure_gate]; rewrite <- log_context_lift; f_equal.
    - unfold lift at 1. cbn [lbind bind]. rewrite T. reflexivity.
    - rewrite IH. rewrite (lbind_lift _ _ (fun r => Ok (Some r))) by reflexivity. apply lbind_lift. intros i. apply T.
  Qed.

  Lemma legal_arity g a : legal_gate st g a -> a = 1%nat \/ a = 2%nat.
  Proof. destruct 1; auto. eapply gates_arity; eauto. Qed.
  Lemma legal_functional g a b : legal_gate st g a -> legal_gate st g b -> a = b.
  Proof. intros H H'. destruct H; inversion H'; subst; try reflexivity. eapply (fun x => proj2 (gates_functional _ _ _ _ _ H x)); eassumption. Qed.

  Lemma stored_terminal g sg : stored_gate st g sg -> gate_terminal_name sg = gate_base g.
  Proof. induction 1; cbn; auto. Qed.

  Lemma prefixed_two n : is_two_qubit_gate ("1q_" ++ n) = false /\ is_two_qubit_gate ("2q_" ++ n) = true.
  Proof.
    unfold is_two_qubit_gate. split; [|apply orb_true_iff; right; reflexivity].
    destruct (is_two_qubit_named_gate ("1q_" ++ n)) eqn:E; [|reflexivity]. apply two_spec in E. destruct E as [ks E].
    destruct (known_no_prefix ("1q_" ++ n) n) as [N _]; [left; exact (in_map fst _ _ E)|]. destruct (N eq_refl).
  Qed.

  Lemma resolution_name l m sg ws : gate_resolution_name (SemGate l m (Some sg) ws []) =
    ((if is_single_qubit_gate_modifier m then "1q_" else "2q_") ++ gate_terminal_name sg)%string.
  Proof. unfold gate_resolution_name. cbn. destruct (is_single_qubit_gate_modifier m); reflexivity. Qed.

  Lemma stored_resolution g a : legal_gate st g a -> forall sg, stored_gate st g sg ->
    (is_two_qubit_gate (gate_resolution_name sg) = true <-> a = 2%nat) /\
    (a = 1%nat -> In (gate_base g) single_gates) /\
    (forall ks, In (gate_resolution_name sg, ks) registered_kinds <-> List.length ks = a /\ Forall (of_class Qubits) ks).
  Proof.
    induction 1 as [l n ps ks a vs Hg Hv Hf|l g Hg IH|l g e v Hg IH He Hf|l g Hg IH]; intros sg S;
      inversion S as [? ? ? ks' a' vs' ws Hg' Hv' Hs|? ? ks' ? vs' ws ? sg' Hm Hs' Hv' Hs]; subst.
    - unfold gate_resolution_name. cbn [sem_gate_inner sem_gate_name]. split; [|split].
      + unfold is_two_qubit_gate. rewrite orb_true_iff, two_spec.
        destruct (no_composition_prefix n) as [_ N]; [left; exact (in_map fst _ _ Hg)|]. rewrite N. split.
        * intros [[ks2 H2]|X]; [|discriminate]. destruct (gates_functional _ _ _ _ _ Hg H2); auto.
        * intros ->. eauto.
      + intros ->. apply single_gates_In. eauto.
      + intros kk. eapply registered_gate; eauto.
    - rewrite resolution_name. cbn [is_single_qubit_gate_modifier]. change (is_single_qubit_gate_modifier "inv") with true. cbv iota.
      destruct (IH _ Hs') as (_ & B & _). rewrite (stored_terminal _ _ Hs'). cbn [gate_base].
      destruct (prefixed_two (gate_base g)) as [P1 P2]. split; [|split].
      + rewrite P1. split; discriminate.
      + exact B.
      + intros kk. rewrite registered_composition by auto. rewrite String.eqb_refl. specialize (B eq_refl). tauto.
    - rewrite resolution_name. change (is_single_qubit_gate_modifier "pow") with true. cbv iota.
      destruct (IH _ Hs') as (_ & B & _). rewrite (stored_terminal _ _ Hs'). cbn [gate_base].
      destruct (prefixed_two (gate_base g)) as [P1 P2]. split; [|split].
      + rewrite P1. split; discriminate.
      + exact B.
      + intros kk. rewrite registered_composition by auto. rewrite String.eqb_refl. specialize (B eq_refl). tauto.
    - rewrite resolution_name. change (is_single_qubit_gate_modifier "ctrl") with false. cbv iota.
      destruct (IH _ Hs') as (_ & B & _). rewrite (stored_terminal _ _ Hs'). cbn [gate_base].
      destruct (prefixed_two (gate_base g)) as [P1 P2]. split; [|split].
      + rewrite P2. split; auto.
      + discriminate.
      + intros kk. rewrite registered_composition by auto. change ("2q_" =? "1q_") with false. cbv iota. specialize (B eq_refl). tauto.
  Qed.

  Lemma gate_name_dec n : In n (map fst gates) \/ ~ In n (map fst gates).
  Proof. destruct (in_dec string_dec n (map fst gates)); auto. Qed.
  Lemma In_names {A} n (l : list (string * A)) : In n (map fst l) -> exists a, In (n, a) l.
  Proof. intros H. apply in_map_iff in H. destruct H as ([m a] & <- & H). eauto. Qed.
  Lemma modifiers_functional n ks ks' : In (n, ks) modifiers -> In (n, ks') modifiers -> ks = ks'.
  Proof. cbn. intros H H'. decompose [or] H; decompose [or] H'; try contradiction; congruence. Qed.

  Lemma pure_gate_spec g : grammar_gate g -> forall sg,
    (pure_gate g = Ok sg <-> (exists a, legal_gate st g a) /\ stored_gate st g sg).
  Proof.
    induction 1 as [l n ps H1 H2|l m g ps Hm Hg IH]; intros sg; cbn [pure_gate]; rewrite with_context_ok_iff.
    - cbn [bind]. destruct (gate_name_dec n) as [I|I].
      2:{ split.
          - intros E. apply bind_ok_inv in E. destruct E as (vs & Ev & E). apply bind_ok_inv in E. destruct E as (ws & Ew & E).
            destruct (resolve_parameters_unknown n vs I H1 H2) as [e' X]. congruence.
          - intros [[a L] _]. inversion L as [? ? ? ks ? vs G|?|?|?]; subst. destruct I. exact (in_map fst _ _ G). }
      apply In_names in I. destruct I as [[ks a] G]. split.
      + intros E. apply bind_ok_inv in E. destruct E as (vs & Ev & E). apply bind_ok_inv in E. destruct E as (ws & Ew & E).
        cbn in E. injection E as <-.
        apply (resolve_parameters_known n ks vs (or_introl (ex_intro _ a G)) (visit_list_ordinary lm st Hst _ _ Ev)) in Ew.
        apply stored_all_iff in Ew. destruct Ew as (F & N). split.
        * exists a. econstructor; eauto.
        * econstructor; eauto.
      + intros [[a' L] S]. inversion L as [? ? ? ks1 ? vs1 G1 V1 F1|?|?|?]; subst. inversion S as [? ? ? ks2 a2 vs2 ws G2 V2 N|]; subst.
        destruct (gates_functional _ _ _ _ _ G G1) as [<- <-]. destruct (gates_functional _ _ _ _ _ G G2) as [<- <-].
        rewrite V2. cbn [bind]. assert (vs1 = vs2) by congruence. subst vs1.
        assert (E : resolve_parameters n vs2 = Ok ws).
        { apply (resolve_parameters_known n ks vs2 (or_introl (ex_intro _ a G)) (visit_list_ordinary lm st Hst _ _ V2)).
          apply stored_all_iff. split; assumption. }
        rewrite E. reflexivity.
    - apply In_names in Hm. destruct Hm as [ks M]. split.
      + intros E. apply bind_ok_inv in E. destruct E as (i & Ei & E). apply bind_ok_inv in Ei. destruct Ei as (sg' & Es & [= <-]).
        apply bind_ok_inv in E. destruct E as (vs & Ev & E). apply bind_ok_inv in E. destruct E as (ws & Ew & E).
        apply bind_ok_inv in E. destruct E as ([] & Ec & [= <-]).
        apply IH in Es. destruct Es as [[a La] Sg].
        apply (resolve_parameters_known m ks vs (or_intror M) (visit_list_ordinary lm st Hst _ _ Ev)) in Ew.
        apply stored_all_iff in Ew. destruct Ew as (F & N).
        assert (A1 : a = 1%nat).
        { destruct (stored_resolution g a La sg' Sg) as (T & _ & _). cbn in Ec.
          destruct (legal_arity g a La) as [->|A2]; [reflexivity|]. apply T in A2. rewrite A2 in Ec. discriminate. }
        subst a. split; [|econstructor; eauto].
        cbn in M. destruct M as [[= <- <-]|[[= <- <-]|[[= <- <-]|[]]]].
        * inversion F; subst. unfold visit_expression_list in Ev. apply mapM_ok in Ev. inversion Ev; subst. exists 1%nat. now constructor.
        * inversion F as [|v ? ? ? F1 F2]; subst. inversion F2; subst. unfold visit_expression_list in Ev. apply mapM_ok in Ev.
          inversion Ev as [|e ? ? ? E1 E2]; subst. inversion E2; subst. exists 1%nat. econstructor; eauto.
        * inversion F; subst. unfold visit_expression_list in Ev. apply mapM_ok in Ev. inversion Ev; subst. exists 2%nat. now constructor.
      + intros [[a L] S]. inversion S as [|? ? ks2 ? vs ws ? sg' M2 Sg V (L1 & L2 & N)]; subst.
        pose proof (modifiers_functional _ _ _ M M2); subst ks2.
        assert (L' : legal_gate st g 1 /\ Forall2 fits_param vs ks).
        { inversion L as [|? ? Lg|? ? e v Lg E F|? ? Lg]; subst; (split; [exact Lg|]).
          - assert (ks = []) by (cbn in M; intuition congruence). subst. destruct vs; [constructor|discriminate].
          - assert (ks = [TFloat]) by (cbn in M; intuition congruence). subst.
            unfold visit_expression_list in V. cbn in V. rewrite E in V. injection V as <-. auto.
          - assert (ks = []) by (cbn in M; intuition congruence). subst. destruct vs; [constructor|discriminate]. }
        destruct L' as [Lg F]. assert (Es : pure_gate g = Ok sg') by (apply IH; eauto). rewrite Es. cbn [bind]. rewrite V. cbn [bind].
        assert (Ew : resolve_parameters m vs = Ok ws).
        { apply (resolve_parameters_known m ks vs (or_intror M) (visit_list_ordinary lm st Hst _ _ V)). apply stored_all_iff. unfold params_stored. auto. }
        rewrite Ew. cbn [bind check_gate]. destruct (stored_resolution g 1 Lg sg' Sg) as (T & _ & _).
        destruct (is_two_qubit_gate (gate_resolution_name sg')); [destruct T as [T _]; specialize (T eq_refl); discriminate|]. reflexivity.
  Qed.

  (** ** Resolution of instructions *)

  Lemma resolve_instruction_default n vs i ws : Forall typed vs ->
    (resolve_instruction st n vs = Ok (i, ws) <->
     ws = vs /\ exists ks, In (n, ks) registered_kinds /\ Forall2 has_kind vs ks /\ i = mkInstruction n (map make_type ks)).
  Proof.
    intros Ht. destruct Hst as (_ & (st0 & g0 & inner & g & E0 & Eg & Es & Hi & Hg) & _).
    rewrite <- (resolve_default n vs i ws Ht). unfold resolve_instruction. rewrite Es. clear Es.
    assert (G : sc_instructions g = register_all instruction_history).
    { rewrite Hg. rewrite default_analyzer_value in E0. injection E0 as <-. injection Eg as <-. reflexivity. }
    induction Hi as [|s inner Hs _ IH]; cbn [resolve_instruction_in app].
    - rewrite G. destruct (resolve (register_all instruction_history) n vs) eqn:R; try tauto.
      destruct (types_of vs); cbn; split; intros; discriminate.
    - rewrite Hs. destruct (resolve_total ([] : list (registration instruction)) n vs Ht) as [[[i' ws'] R]|[e R]].
      + apply resolve_ok_iff in R; [|exact Ht]. destruct R as (h1 & p & h2 & X & _). destruct h1; discriminate.
      + change (register_all ([] : list (registration instruction))) with ([] : instruction_table) in R. rewrite R. exact IH.
  Qed.

  Lemma ordinary_scopes : exists s rest, scopes st = s :: rest.
  Proof.
    destruct Hst as (_ & (st0 & g0 & inner & g & _ & _ & Es & _) & _). rewrite Es. destruct inner; cbn; eauto.
  Qed.
  Lemma add_statement_ok s : exists st', add_statement st s = Ok st'.
  Proof. destruct ordinary_scopes as (s0 & rest & E). unfold add_statement, update_current. rewrite E. cbn. eauto. Qed.

  (** ** Gate instructions *)

  Definition pure_gate_statement l g ops : outcome error analyzer :=
    let! sg := pure_gate g in
    let! vs := visit_expression_list st ops in
    let! r := resolve_instruction st (gate_resolution_name sg) vs in
    let! _ := check_gate_operands (snd r) in
    add_statement st (SemGateInstr l (fst r) sg (snd r) []).

  Lemma visit_gate_statement_pure l g ops : grammar_gate g ->
    visit_statement st (SGateInstr l g ops []) = catch_log l st (lift (pure_gate_statement l g ops)).
  Proof.
    intros Hg. cbn [visit_statement]. unfold visit_gate_instruction. rewrite (visit_gate_pure g Hg). f_equal.
    apply lbind_lift; intros sg. apply lbind_lift; intros vs. apply lbind_lift; intros r. apply lbind_lift; intros _.
    cbn [visit_annotated]. unfold lift at 1. cbn [lbind].
    destruct (add_statement st (SemGateInstr l (fst r) sg (snd r) [])); reflexivity.
  Qed.

  Lemma catch_log_ok {A} l (d : A) m a : catch_log l d (lift m) = (Ok a, []) <-> m = Ok a.
  Proof.
    unfold catch_log, lift. destruct m; split; intros H; try discriminate; try congruence; now injection H as ->.
  Qed.

  Lemma operands_same_size vs k : Forall (fun v => addresses Qubits v k) vs -> check_gate_operands vs = Ok tt.
  Proof.
    intros F. unfold check_gate_operands.
    assert (E : adjacent_equal (map qubit_indices_size vs) = true).
    { apply adjacent_equal_all. exists k. apply Forall_map. eapply Forall_impl; [|exact F]. cbn.
      intros v H. apply (addresses_size _ _ _ H). }
    now rewrite E.
  Qed.

  Lemma gate_statement_spec l g ops st' : grammar_gate g ->
    (pure_gate_statement l g ops = Ok st' <->
     exists a sg vs k i, legal_gate st g a /\ stored_gate st g sg /\ visit_expression_list st ops = Ok vs /\
       List.length vs = a /\ Forall (fun v => addresses Qubits v k) vs /\
       instr_name i = gate_resolution_name sg /\ operands_typed i vs /\ Forall (fun t => tsize t = 0%Z) (operand_types i) /\
       add_statement st (SemGateInstr l i sg vs []) = Ok st').
  Proof.
    intros Hg. unfold pure_gate_statement. split.
    - intros E. apply bind_ok_inv in E. destruct E as (sg & Es & E). apply (pure_gate_spec g Hg) in Es. destruct Es as [[a L] S].
      apply bind_ok_inv in E. destruct E as (vs & Ev & E). pose proof (visit_list_ordinary lm st Hst _ _ Ev) as Ho.
      apply bind_ok_inv in E. destruct E as ([i ws] & Ei & E). apply bind_ok_inv in E. destruct E as ([] & Ec & E). cbn [fst snd] in *.
      apply resolve_instruction_default in Ei; [|now apply ordinary_typed_list]. destruct Ei as (-> & ks & R & K & ->).
      destruct (stored_resolution g a L sg S) as (_ & _ & Rg). apply Rg in R. destruct R as [La Q].
      assert (Fa : Forall (fun v => exists n, addresses Qubits v n) vs).
      { pose proof (proj2 (repeat_class a ks) (conj La Q)) as Rc.
        assert (F2 : Forall2 (fun c v => exists n, addresses c v n) (repeat Qubits a) vs) by (apply operands_classes; eauto).
        clear -F2. remember (repeat Qubits a) as cs eqn:Ecs. revert a Ecs.
        induction F2 as [|c v cs vs H _ IH]; intros a Ecs; [constructor|]. destruct a as [|a]; [discriminate|].
        injection Ecs as -> ->. constructor; [exact H|eapply IH; reflexivity]. }
      assert (Sz : exists k, Forall (fun v => addresses Qubits v k) vs).
      { unfold check_gate_operands in Ec. destruct (adjacent_equal _) eqn:A; [|discriminate]. apply adjacent_equal_all in A.
        destruct A as [k A]. exists k. rewrite Forall_map in A. rewrite Forall_forall in *. intros v Hv.
        destruct (Fa v Hv) as [n Hn]. specialize (A v Hv). cbn in A. destruct (addresses_size _ _ _ Hn) as [Z1 _]. congruence. }
      destruct Sz as [k Sz]. exists a, sg, vs, k, (mkInstruction (gate_resolution_name sg) (map make_type ks)).
      split; [exact L|]. split; [exact S|]. split; [exact Ev|]. split; [rewrite (Forall2_length K); exact La|]. split; [exact Sz|].
      split; [reflexivity|]. split; [|split; [|exact E]].
      + unfold operands_typed. cbn [operand_types]. clear -K. induction K as [|v k vs ks (t & H & H') _ IH]; constructor; eauto.
      + cbn. apply Forall_map, Forall_forall. reflexivity.
    - intros (a & sg & vs & k & i & L & S & Ev & La & Sz & Ni & Ti & Zi & E).
      assert (Es : pure_gate g = Ok sg) by (apply (pure_gate_spec g Hg); eauto). rewrite Es. cbn [bind]. rewrite Ev. cbn [bind].
      pose proof (visit_list_ordinary lm st Hst _ _ Ev) as Ho.
      assert (R : resolve_instruction st (gate_resolution_name sg) vs = Ok (i, vs)).
      { apply resolve_instruction_default; [now apply ordinary_typed_list|]. split; [reflexivity|].
        exists (map kind (operand_types i)).
        assert (K : Forall2 has_kind vs (map kind (operand_types i))).
        { unfold operands_typed in Ti. clear -Ti. induction Ti as [|v t vs ts (tv & H & H') _ IH]; constructor; [|exact IH]. exists tv. auto. }
        split; [|split; [exact K|]].
        - destruct (stored_resolution g a L sg S) as (_ & _ & Rg). apply Rg. split; [rewrite <- (Forall2_length K); exact La|].
          clear -K Sz Ho. revert Sz Ho. induction K as [|v kk vs ks H _ IH]; intros Sz Ho; [constructor|]. inversion Sz as [|? ? S1 S2]; subst.
          inversion Ho as [|? ? O1 O2]; subst.
          constructor; [|auto]. assert (X : exists kk', has_kind v kk' /\ of_class Qubits kk') by (apply addresses_kind; eauto).
          destruct X as (kk' & H1 & H2). now rewrite (has_kind_unique _ _ _ H H1).
        - destruct i as [n ts]. cbn in *. subst n. f_equal. clear -Zi. induction Zi as [|[tk tz] ts H _ IH]; [reflexivity|].
          cbn in *. subst tz. rewrite <- IH. reflexivity. }
      rewrite R. cbn [bind fst snd]. rewrite (operands_same_size vs k Sz). cbn [bind]. exact E.
  Qed.

  (** ** Other instructions *)

  Lemma non_gates_operands n ks cs ks' cs' : In (n, (ks, cs)) non_gates -> In (n, (ks', cs')) non_gates -> cs = cs'.
  Proof. cbn. intros H H'. decompose [or] H; decompose [or] H'; try contradiction; congruence. Qed.
  Lemma registered_non_gate_classes n ks0 cs ks : In (n, (ks0, cs)) non_gates ->
    (In (n, ks) registered_kinds <-> Forall2 of_class cs ks).
  Proof.
    intros H. rewrite registered_non_gate by exact (in_map fst _ _ H). split.
    - intros (pk & cs' & H' & F). now rewrite (non_gates_operands _ _ _ _ _ H H').
    - intros F. eauto.
  Qed.

  Lemma stored_all_stored vs ks ws : stored_all vs ks ws <-> Forall2 fits_param vs ks /\ stored_params vs ks ws.
  Proof. apply stored_all_iff. Qed.


  Lemma resolve_parameters_non_gate n vs : In n (map fst non_gates) -> Forall ordinary_value vs ->
    clean (resolve_parameters n vs) /\
    forall ws, resolve_parameters n vs = Ok ws <->
      ((exists ks cs, In (n, (ks, cs)) non_gates /\ stored_all vs ks ws) \/ (vs = [] /\ ws = [])).
  Proof.
    intros Hn Ho. unfold resolve_parameters.
    assert (N : is_non_gate n = true) by (apply non_gate_spec; now apply In_names in Hn).
    rewrite N. unfold get_non_gate_param_types_with_param_count.
    assert (G : forall ks, param_kinds ks -> List.length vs = List.length ks ->
      clean (resolve_params_loop n (map type_char ks) vs) /\ forall ws, resolve_params_loop n (map type_char ks) vs = Ok ws <-> stored_all vs ks ws).
    { intros ks K L. destruct (resolve_params_loop_spec n ks K vs Ho L) as (A & B & C). split; [now apply clean_of|exact C]. }
    assert (NM : n = "reset" \/ n = "init" \/ n = "barrier" ->
       clean (if Nat.eqb (List.length vs) 0 then Ok ([] : list value) else Err (mk_error ("instruction '" ++ n ++ "' does not have an overload with " ++
                            dec_nat (List.length vs) ++ " parameters."))) /\
       forall ws, (if Nat.eqb (List.length vs) 0 then Ok ([] : list value) else Err (mk_error ("instruction '" ++ n ++ "' does not have an overload with " ++
                            dec_nat (List.length vs) ++ " parameters."))) = Ok ws <->
      ((exists ks cs, In (n, (ks, cs)) non_gates /\ stored_all vs ks ws) \/ (vs = [] /\ ws = []))).
    { intros Hn'. destruct vs as [|v vs]; cbn [List.length Nat.eqb].
      - split; [left; eauto|]. intros ws. split; [intros [= <-]; auto|]. intros [(ks & cs & I & S)|[_ ->]]; [|reflexivity].
        inversion S; subst. reflexivity.
      - split; [right; eauto|]. intros ws. split; [discriminate|]. intros [(ks & cs & I & S)|[E _]]; [|discriminate].
        inversion S; subst. exfalso. cbn in I. decompose [or] Hn'; subst n; decompose [or] I; try contradiction; congruence. }
    assert (HM : n = "measure" ->
      clean (match param_types_with_count n (List.length vs) non_gate_map with
             | Some spec => resolve_params_loop n (list_ascii_of_string spec) vs
             | None => if Nat.eqb (List.length vs) 0 then Ok [] else Err (mk_error ("instruction '" ++ n ++ "' does not have an overload with " ++
                            dec_nat (List.length vs) ++ " parameters.")) end) /\
      forall ws, (match param_types_with_count n (List.length vs) non_gate_map with
             | Some spec => resolve_params_loop n (list_ascii_of_string spec) vs
             | None => if Nat.eqb (List.length vs) 0 then Ok [] else Err (mk_error ("instruction '" ++ n ++ "' does not have an overload with " ++
                            dec_nat (List.length vs) ++ " parameters.")) end) = Ok ws <->
      ((exists ks cs, In (n, (ks, cs)) non_gates /\ stored_all vs ks ws) \/ (vs = [] /\ ws = []))).
    { intros ->. set (r := param_types_with_count "measure" (List.length vs) non_gate_map).
      assert (R : r = if Nat.eqb (List.length vs) 3 then Some "fff" else None)
        by (unfold r; destruct vs as [|a [|b [|c [|d vs']]]]; reflexivity).
      rewrite R. clear R r. destruct (Nat.eqb_spec (List.length vs) 3) as [E|E].
      - destruct (G [TFloat; TFloat; TFloat]) as [G1 G2]; [repeat constructor|exact E|]. split; [exact G1|]. intros ws.
        rewrite (G2 ws : resolve_params_loop "measure" (list_ascii_of_string "fff") vs = Ok ws <-> _). split.
        + intros S. left. exists [TFloat; TFloat; TFloat], [Bits; Qubits]. split; [cbn; auto|exact S].
        + intros [(ks & cs & I & S)|[-> _]]; [|discriminate].
          pose proof (stored_all_length _ _ _ S) as [L _]. rewrite E in L.
          cbn in I. destruct I as [[= <- <-]|[[= <- <-]|I]]; [discriminate|exact S|].
          decompose [or] I; try contradiction; discriminate.
      - destruct vs as [|v vs]; cbn [List.length Nat.eqb].
        + split; [left; eauto|]. intros ws. split; [intros [= <-]; auto|]. intros [(ks & cs & I & S)|[_ ->]]; [|reflexivity].
          inversion S; subst; reflexivity.
        + split; [right; eauto|]. intros ws. split; [discriminate|]. intros [(ks & cs & I & S)|[X _]]; [|discriminate].
          pose proof (stored_all_length _ _ _ S) as [L _]. exfalso.
          cbn in I. destruct I as [[= <- <-]|[[= <- <-]|I]]; [discriminate|exact (E L)|].
          decompose [or] I; try contradiction; discriminate. }
    cbn in Hn. destruct Hn as [<-|[<-|[<-|[<-|[<-|[<-|[]]]]]]].
    1-2: apply HM; reflexivity.
    1-3: match goal with |- context [param_types_with_count ?m ?c] =>
           replace (param_types_with_count m c non_gate_map) with (@None string) by (destruct c; reflexivity); apply NM; auto end.
    set (r := param_types_with_count "wait" (List.length vs) non_gate_map).
    assert (R : r = if Nat.eqb (List.length vs) 1 then Some "i" else None)
      by (unfold r; destruct vs as [|a [|b vs']]; reflexivity).
    rewrite R; clear R r; destruct (Nat.eqb_spec (List.length vs) 1) as [E|E].
    - destruct (G [TInt]) as [G1 G2]; [repeat constructor|exact E|]. split; [exact G1|]. intros ws.
      rewrite (G2 ws : resolve_params_loop "wait" (list_ascii_of_string "i") vs = Ok ws <-> _). split.
      + intros S. left. exists [TInt], [Qubits]. split; [cbn; tauto|exact S].
      + intros [(ks & cs & I & S)|[-> _]]; [|discriminate]. cbn in I.
        destruct I as [I|[I|[I|[I|[I|[I|[]]]]]]]; try discriminate. injection I as <- <-. exact S.
    - destruct vs as [|v vs]; cbn [List.length Nat.eqb].
      + split; [left; eauto|]. intros ws. split; [intros [= <-]; auto|]. intros [(ks & cs & I & S)|[_ ->]]; [|reflexivity].
        inversion S; subst; reflexivity.
      + split; [right; eauto|]. intros ws. split; [discriminate|]. intros [(ks & cs & I & S)|[X _]]; [|discriminate].
        pose proof (stored_all_length _ _ _ S) as [L _]. exfalso.
        cbn in I. destruct I as [I|[I|[I|[I|[I|[I|[]]]]]]]; try discriminate. injection I as <- <-. exact (E L).
  Qed.

  Definition pure_non_gate_statement l n ops ps : outcome error analyzer :=
    let! vs := visit_expression_list st ops in
    let! r := resolve_instruction st n vs in
    let! pvs := visit_expression_list st ps in
    let! ws := resolve_parameters n pvs in
    let! _ := check_non_gate_operands n (snd r) in
    add_statement st (SemNonGate l (fst r) n (snd r) ws []).

  Lemma visit_non_gate_statement_pure l n ops ps :
    visit_statement st (SNonGate l n ops ps []) = catch_log l st (lift (pure_non_gate_statement l n ops ps)).
  Proof.
    cbn [visit_statement]. unfold visit_non_gate_instruction. f_equal.
    apply lbind_lift; intros vs. apply lbind_lift; intros r. apply lbind_lift; intros pvs. apply lbind_lift; intros ws. apply lbind_lift; intros _.
    cbn [visit_annotated]. unfold lift at 1. cbn [lbind].
    destruct (add_statement st (SemNonGate l (fst r) n (snd r) ws [])); reflexivity.
  Qed.

  Lemma measure_operands n ks cs vs : In (n, (ks, cs)) non_gates -> Forall2 (fun c v => exists m, addresses c v m) cs vs ->
    (check_non_gate_operands n vs = Ok tt <-> (n = "measure" -> exists k, Forall2 (fun c v => addresses c v k) cs vs)).
  Proof.
    intros I F. unfold check_non_gate_operands, is_measure. destruct (String.eqb_spec n "measure") as [->|N]; [|tauto].
    assert (cs = [Bits; Qubits]) by (cbn in I; decompose [or] I; try contradiction; congruence). subst cs.
    inversion F as [|? b ? ? [kb Hb] F1]; subst. inversion F1 as [|? q ? ? [kq Hq] F2]; subst. inversion F2; subst.
    destruct (addresses_size _ _ _ Hb) as [B1 B2]. destruct (addresses_size _ _ _ Hq) as [Q1 Q2].
    unfold zsum. cbn [map fold_right]. rewrite B1, B2, Q1, Q2.
    destruct (Z.eqb_spec (0 + (kq + 0)) (kb + (0 + 0))) as [E|E].
    - split; [|reflexivity]. intros _ _. assert (X : kq = kb) by lia. rewrite X in Hq. exists kb. constructor; [exact Hb|]. constructor; [exact Hq|constructor].
    - split; [discriminate|]. intros H. destruct (H eq_refl) as [k Hk]. inversion Hk as [|? ? ? ? A1 A2]; subst. inversion A2 as [|? ? ? ? A3 A4]; subst.
      pose proof (addresses_functional _ _ _ _ Hb A1). pose proof (addresses_functional _ _ _ _ Hq A3). lia.
  Qed.

  (** [extra] allows the parameters to be missing, as trees not coming from the
      parser can. *)
  Lemma non_gate_statement_spec l n ops ps st' : In n (map fst non_gates) ->
    (pure_non_gate_statement l n ops ps = Ok st' <->
     exists ks cs vs pvs ws i, In (n, (ks, cs)) non_gates /\ visit_expression_list st ops = Ok vs /\ visit_expression_list st ps = Ok pvs /\
       ((Forall2 fits_param pvs ks /\ stored_params pvs ks ws) \/ (pvs = [] /\ ws = [])) /\
       Forall2 (fun c v => exists k, addresses c v k) cs vs /\
       (n = "measure" -> exists k, Forall2 (fun c v => addresses c v k) cs vs) /\
       instr_name i = n /\ operands_typed i vs /\ Forall (fun t => tsize t = 0%Z) (operand_types i) /\
       add_statement st (SemNonGate l i n vs ws []) = Ok st').
  Proof.
    intros Hn. unfold pure_non_gate_statement. split.
    - intros E. apply bind_ok_inv in E. destruct E as (vs & Ev & E). pose proof (visit_list_ordinary lm st Hst _ _ Ev) as Ho.
      apply bind_ok_inv in E. destruct E as ([i ws0] & Ei & E). apply bind_ok_inv in E. destruct E as (pvs & Ep & E).
      apply bind_ok_inv in E. destruct E as (ws & Ew & E). apply bind_ok_inv in E. destruct E as ([] & Ec & E). cbn [fst snd] in *.
      apply resolve_instruction_default in Ei; [|now apply ordinary_typed_list]. destruct Ei as (-> & ks & R & K & ->).
      apply (resolve_parameters_non_gate n pvs Hn (visit_list_ordinary lm st Hst _ _ Ep)) in Ew.
      destruct (In_names _ _ Hn) as [[ks0 cs] I0].
      assert (X : exists ks1, In (n, (ks1, cs)) non_gates /\ (stored_all pvs ks1 ws \/ (pvs = [] /\ ws = []))).
      { destruct Ew as [(ks1 & cs1 & I1 & S)|H].
        - rewrite <- (non_gates_operands _ _ _ _ _ I0 I1) in I1. eauto.
        - eauto. }
      destruct X as (ks1 & I1 & S). apply (registered_non_gate_classes _ _ _ _ I1) in R.
      assert (F2 : Forall2 (fun c v => exists m, addresses c v m) cs vs) by (apply operands_classes; eauto).
      exists ks1, cs, vs, pvs, ws, (mkInstruction n (map make_type ks)).
      split; [exact I1|]. split; [exact Ev|]. split; [exact Ep|]. split; [rewrite <- stored_all_stored; exact S|]. split; [exact F2|].
      split; [apply (measure_operands _ _ _ _ I1 F2); exact Ec|]. split; [reflexivity|]. split; [|split; [|exact E]].
      + unfold operands_typed. cbn [operand_types]. clear -K. induction K as [|v k vs ks (t & H & H') _ IH]; constructor; eauto.
      + cbn. apply Forall_map, Forall_forall. reflexivity.
    - intros (ks & cs & vs & pvs & ws & i & I & Ev & Ep & S & F2 & M & Ni & Ti & Zi & E).
      pose proof (visit_list_ordinary lm st Hst _ _ Ev) as Ho. rewrite Ev. cbn [bind].
      assert (R : resolve_instruction st n vs = Ok (i, vs)).
      { apply resolve_instruction_default; [now apply ordinary_typed_list|]. split; [reflexivity|].
        exists (map kind (operand_types i)).
        assert (K : Forall2 has_kind vs (map kind (operand_types i))).
        { unfold operands_typed in Ti. clear -Ti. induction Ti as [|v t vs ts (tv & H & H') _ IH]; constructor; [|exact IH]. exists tv. auto. }
        split; [|split; [exact K|]].
        - apply (registered_non_gate_classes _ _ _ _ I). apply operands_classes in F2; [|exact Ho]. destruct F2 as (kk & K' & C).
          now rewrite (has_kinds_unique _ _ _ K K').
        - destruct i as [n' ts]. cbn in *. subst n'. f_equal. clear -Zi. induction Zi as [|[tk tz] ts H _ IH]; [reflexivity|].
          cbn in *. subst tz. rewrite <- IH. reflexivity. }
      rewrite R. cbn [bind fst snd]. rewrite Ep. cbn [bind].
      assert (Ew : resolve_parameters n pvs = Ok ws).
      { apply (resolve_parameters_non_gate n pvs Hn (visit_list_ordinary lm st Hst _ _ Ep)). rewrite <- stored_all_stored in S.
        destruct S; [left; eauto|auto]. }
      rewrite Ew. cbn [bind]. apply (measure_operands _ _ _ _ I F2) in M. rewrite M. exact E.
  Qed.
End Gates.
