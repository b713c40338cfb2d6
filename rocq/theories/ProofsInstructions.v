(** Lemmas about the instruction tables and the resolution of instructions. *)
From Coq Require Import SpecFloat ZifyBool.
From Verif Require Import Base ModelUtils ModelVersion ModelError ModelTypes ModelOverload ModelFunctions
  ModelInstructionSet ModelAst ModelAnalyzer ModelSemantic SpecTypes SpecFunctions SpecInstructions
  ProofsTypes ProofsFunctions ProofsFolding ProofsExpr PropertiesTypes.
Local Open Scope string_scope.

(** ** Tables *)

Lemma contains_In l n : contains l n = true <-> In n l.
Proof.
  unfold contains. rewrite existsb_exists. split.
  - intros (x & Hx & E). apply String.eqb_eq in E. now subst.
  - intros H. exists n. split; [exact H|apply String.eqb_refl].
Qed.

Ltac names H := vm_compute in H; repeat (destruct H as [H|H]; [try (subst; vm_compute; tauto)|]); try contradiction.

Definition kinds_eqb (a b : list type_kind) : bool := if list_eq_dec kind_eq_dec a b then true else false.
Lemma kinds_eqb_eq a b : kinds_eqb a b = true <-> a = b.
Proof. unfold kinds_eqb. destruct (list_eq_dec kind_eq_dec a b); split; congruence. Qed.

Definition param_specb (p : option string) (ks : list type_kind) : bool :=
  match p with
  | None => kinds_eqb ks []
  | Some s => negb (kinds_eqb ks []) &&
              if list_eq_dec ascii_dec (list_ascii_of_string s) (map type_char ks) then true else false
  end.
Lemma param_specb_spec p ks : param_specb p ks = true <-> param_spec p ks.
Proof.
  unfold param_specb, param_spec. destruct p as [s|]; [|apply kinds_eqb_eq].
  rewrite andb_true_iff, negb_true_iff, <- not_true_iff_false, kinds_eqb_eq.
  destruct (list_eq_dec ascii_dec _ _); intuition congruence.
Qed.

Definition spec_of (ks : list type_kind) : option string :=
  match ks with [] => None | _ => Some (string_of_list_ascii (map type_char ks)) end.
Lemma spec_of_spec p ks : param_spec p ks <-> p = spec_of ks.
Proof.
  unfold param_spec, spec_of. destruct p as [s|], ks as [|k ks]; split; intros H; try discriminate; try tauto.
  - destruct H as [_ H]. rewrite <- H, string_of_list_ascii_of_string. reflexivity.
  - assert (E : s = string_of_list_ascii (map type_char (k :: ks))) by congruence.
    rewrite E, list_ascii_of_string_of_list_ascii. split; [discriminate|reflexivity].
Qed.

Definition class_strings (cs : list operand_class) : list string :=
  fold_right (fun c l => flat_map (fun s => match c with
     | Qubits => [String "Q" s; String "V" s] | Bits => [String "B" s; String "W" s] end) l) [""] cs.
Lemma class_strings_In cs s : In s (class_strings cs) <-> Forall2 class_char cs (list_ascii_of_string s).
Proof.
  revert s. induction cs as [|c cs IH]; intros s; cbn [class_strings fold_right].
  - cbn. split; [intros [<-|[]]; constructor|]. intros H. destruct s; [now left|inversion H].
  - rewrite in_flat_map. split.
    + intros (t & Ht & H). apply IH in Ht. destruct c; destruct H as [<-|[<-|[]]]; constructor; cbn; auto.
    + intros H. destruct s as [|a s]; inversion H as [|? ? ? ? H1 H2]; subst. exists s. split; [now apply IH|].
      destruct c; destruct H1 as [->| ->]; cbn; auto.
Qed.

Definition entry_eq_dec (a b : string * (option string * string)) : {a = b} + {a <> b}.
Proof. repeat decide equality. Defined.
Definition all_in (l m : list (string * (option string * string))) : bool :=
  forallb (fun x => if in_dec entry_eq_dec x m then true else false) l.
Lemma all_in_spec l m : all_in l m = true -> forall x, In x l -> In x m.
Proof.
  unfold all_in. rewrite forallb_forall. intros H x Hx. specialize (H x Hx). destruct (in_dec entry_eq_dec x m); [assumption|discriminate].
Qed.

Definition gate_entries : list (string * (option string * string)) :=
  flat_map (fun g => map (fun s => (fst g, (spec_of (fst (snd g)), s)))
                         (class_strings (repeat Qubits (snd (snd g))))) gates.
Definition non_gate_entries : list (string * (option string * string)) :=
  flat_map (fun g => map (fun s => (fst g, (spec_of (fst (snd g)), s))) (class_strings (snd (snd g)))) non_gates.

Lemma named_gate_map_spec n p s : In (n, (p, s)) named_gate_map <->
  exists ks a, In (n, (ks, a)) gates /\ param_spec p ks /\ Forall2 class_char (repeat Qubits a) (list_ascii_of_string s).
Proof.
  transitivity (In (n, (p, s)) gate_entries).
  - split; apply all_in_spec; vm_compute; reflexivity.
  - unfold gate_entries. rewrite in_flat_map. split.
    + intros ([n' [ks a]] & Hg & H). apply in_map_iff in H. destruct H as (t & [= -> <- ->] & Ht).
      exists ks, a. apply class_strings_In in Ht. split; [exact Hg|]. split; [now apply spec_of_spec|exact Ht].
    + intros (ks & a & Hg & Hp & Ht). exists (n, (ks, a)). split; [exact Hg|]. apply spec_of_spec in Hp. subst p.
      apply in_map_iff. exists s. split; [reflexivity|]. now apply class_strings_In.
Qed.
Lemma non_gate_map_spec n p s : In (n, (p, s)) non_gate_map <->
  exists ks cs, In (n, (ks, cs)) non_gates /\ param_spec p ks /\ Forall2 class_char cs (list_ascii_of_string s).
Proof.
  transitivity (In (n, (p, s)) non_gate_entries).
  - split; apply all_in_spec; vm_compute; reflexivity.
  - unfold non_gate_entries. rewrite in_flat_map. split.
    + intros ([n' [ks a]] & Hg & H). apply in_map_iff in H. destruct H as (t & [= -> <- ->] & Ht).
      exists ks, a. apply class_strings_In in Ht. split; [exact Hg|]. split; [now apply spec_of_spec|exact Ht].
    + intros (ks & a & Hg & Hp & Ht). exists (n, (ks, a)). split; [exact Hg|]. apply spec_of_spec in Hp. subst p.
      apply in_map_iff. exists s. split; [reflexivity|]. now apply class_strings_In.
Qed.
Lemma modifier_map_spec n p : In (n, p) gate_modifier_map <-> exists ks, In (n, ks) modifiers /\ param_spec p ks.
Proof.
  split.
  - intros H. cbn in H. decompose [or] H; try contradiction;
      (match goal with E : _ = (n, p) |- _ => injection E as <- <- end).
    + exists []. split; [cbn; auto|reflexivity].
    + exists [TFloat]. split; [cbn; auto|split; [discriminate|reflexivity]].
    + exists []. split; [cbn; auto|reflexivity].
  - intros (ks & H & Hp). apply spec_of_spec in Hp. subst p. cbn in H. decompose [or] H; try contradiction;
      (match goal with E : _ = (n, ks) |- _ => injection E as <- <- end); cbn; auto.
Qed.

(** Lists. *)
Lemma table_names {A} (P : A -> bool) (l : list (string * A)) n :
  In n (map fst (filter (fun e => P (snd e)) l)) <-> exists a, In (n, a) l /\ P a = true.
Proof.
  rewrite in_map_iff. split.
  - intros ([m a] & <- & H). apply filter_In in H. exists a. exact H.
  - intros (a & H). exists (n, a). split; [reflexivity|]. now apply filter_In.
Qed.
Definition all_names (l m : list string) : bool := forallb (fun x => if in_dec string_dec x m then true else false) l.
Lemma all_names_spec l m : all_names l m = true -> forall x, In x l -> In x m.
Proof.
  unfold all_names. rewrite forallb_forall. intros H x Hx. specialize (H x Hx). destruct (in_dec string_dec x m); [assumption|discriminate].
Qed.
Lemma gates_of_arity k l n :
  all_names l (map fst (filter (fun e => Nat.eqb (snd (snd e)) k) gates)) = true ->
  all_names (map fst (filter (fun e => Nat.eqb (snd (snd e)) k) gates)) l = true ->
  contains l n = true <-> exists ks, In (n, (ks, k)) gates.
Proof.
  intros H1 H2. rewrite contains_In. transitivity (In n (map fst (filter (fun e => Nat.eqb (snd (snd e)) k) gates))).
  - split; now apply all_names_spec.
  - rewrite (table_names (fun x => Nat.eqb (snd x) k)). split.
    + intros ([ks a] & H & E). apply Nat.eqb_eq in E. cbn in E. subst a. eauto.
    + intros (ks & H). exists (ks, k). split; [exact H|]. apply Nat.eqb_refl.
Qed.
Lemma single_spec n : is_single_qubit_named_gate n = true <-> exists ks, In (n, (ks, 1%nat)) gates.
Proof. apply gates_of_arity; vm_compute; reflexivity. Qed.
Lemma two_spec n : is_two_qubit_named_gate n = true <-> exists ks, In (n, (ks, 2%nat)) gates.
Proof. apply gates_of_arity; vm_compute; reflexivity. Qed.
Lemma gates_functional n ks a ks' a' : In (n, (ks, a)) gates -> In (n, (ks', a')) gates -> ks = ks' /\ a = a'.
Proof.
  intros H H'. assert (F : NoDup (map fst gates)).
  { repeat (constructor; [cbn; intuition discriminate|]). constructor. }
  revert F H H'. generalize gates as l. induction l as [|[m x] l IH]; [contradiction|]. cbn [map]. intros F.
  apply NoDup_cons_iff in F. destruct F as [F1 F2]. intros [E|H] [E'|H'].
  - injection E as -> ->. injection E' as -> ->. auto.
  - injection E as -> ->. destruct F1. exact (in_map fst _ _ H').
  - injection E' as -> ->. destruct F1. exact (in_map fst _ _ H).
  - now apply IH.
Qed.
Lemma gates_arity n ks a : In (n, (ks, a)) gates -> a = 1%nat \/ a = 2%nat.
Proof.
  intros H. assert (E : forallb (fun e => Nat.eqb (snd (snd e)) 1 || Nat.eqb (snd (snd e)) 2) gates = true) by reflexivity.
  rewrite forallb_forall in E. apply E in H. cbn in H. lia.
Qed.
Lemma named_spec n : is_named_gate n = true <-> exists ks a, In (n, (ks, a)) gates.
Proof.
  unfold is_named_gate. rewrite orb_true_iff, single_spec, two_spec. split.
  - intros [[ks H]|[ks H]]; eauto.
  - intros (ks & a & H). destruct (gates_arity _ _ _ H) as [-> | ->]; eauto.
Qed.
Lemma non_gate_spec n : is_non_gate n = true <-> exists x, In (n, x) non_gates.
Proof.
  unfold is_non_gate. rewrite contains_In. transitivity (In n (map fst non_gates)).
  - split; apply all_names_spec; reflexivity.
  - rewrite in_map_iff. split; [intros ([m x] & <- & H); eauto|]. intros (x & H). exists (n, x). auto.
Qed.
Lemma modifier_spec n : is_gate_modifier n = true <-> exists ks, In (n, ks) modifiers.
Proof.
  unfold is_gate_modifier, is_inv_gate_modifier, is_pow_gate_modifier, is_ctrl_gate_modifier.
  rewrite !orb_true_iff, !String.eqb_eq. cbn. split.
  - intros [[->| ->]| ->]; eauto 6.
  - intros (ks & H). decompose [or] H; try contradiction; (match goal with E : _ = (n, ks) |- _ => injection E as <- <- end); auto.
Qed.

Lemma disjoint_names n : (In n (map fst gates) -> ~ In n (map fst non_gates) /\ ~ In n (map fst modifiers)) /\
  (In n (map fst non_gates) -> ~ In n (map fst modifiers)).
Proof.
  assert (D : forall l m : list string, forallb (fun x => if in_dec string_dec x m then false else true) l = true ->
              forall x, In x l -> ~ In x m).
  { intros l m F x Hx. rewrite forallb_forall in F. specialize (F x Hx). now destruct (in_dec string_dec x m). }
  split; [intros H; split; revert n H|revert n]; apply D; reflexivity.
Qed.

Lemma no_composition_prefix n : In n (map fst gates) \/ In n (map fst non_gates) \/ In n (map fst modifiers) ->
  is_single_qubit_gate_composition n = false /\ is_two_qubit_gate_composition n = false.
Proof.
  intros H. assert (F : forallb (fun x => negb (is_single_qubit_gate_composition x) && negb (is_two_qubit_gate_composition x))
    (map fst gates ++ map fst non_gates ++ map fst modifiers) = true) by reflexivity.
  rewrite forallb_forall in F. assert (I : In n (map fst gates ++ map fst non_gates ++ map fst modifiers)%list)
    by (rewrite !in_app_iff; exact H).
  apply F in I. apply andb_true_iff in I. rewrite !negb_true_iff in I. exact I.
Qed.

(** Parameter types. *)
Lemma table_find_Some_In {A} n (l : list (string * A)) a : table_find n l = Some a -> In (n, a) l.
Proof.
  induction l as [|[m b] l IH]; cbn; [discriminate|]. destruct (String.eqb_spec m n) as [->|]; [intros [= ->]; auto|auto].
Qed.
Lemma table_find_None {A} n (l : list (string * A)) : table_find n l = None -> ~ In n (map fst l).
Proof.
  induction l as [|[m b] l IH]; cbn; [auto|]. destruct (String.eqb_spec m n) as [->|N]; [discriminate|].
  intros H [E|E]; [exact (N E)|exact (IH H E)].
Qed.

Lemma gate_param_types n ks a : In (n, (ks, a)) gates -> get_instruction_param_types n = Ok (spec_of ks).
Proof.
  intros H. unfold get_instruction_param_types. assert (N : is_named_gate n = true) by (apply named_spec; eauto).
  rewrite N. unfold get_named_gate_param_types. destruct (table_find n named_gate_map) as [[p s]|] eqn:E.
  - apply table_find_Some_In, named_gate_map_spec in E. destruct E as (ks' & a' & H' & Hp & _).
    destruct (gates_functional _ _ _ _ _ H H') as [<- _]. apply spec_of_spec in Hp. now subst.
  - apply table_find_None in E. exfalso. apply E.
    assert (I : In (n, (spec_of ks, match a with 1 => "Q" | _ => "QQ" end%nat)) named_gate_map).
    { apply named_gate_map_spec. exists ks, a. split; [exact H|]. split; [now apply spec_of_spec|].
      destruct (gates_arity _ _ _ H) as [-> | ->]; repeat constructor. }
    exact (in_map fst _ _ I).
Qed.
Lemma modifier_param_types n ks : In (n, ks) modifiers -> get_instruction_param_types n = Ok (spec_of ks).
Proof.
  intros H. cbn in H. decompose [or] H; try contradiction; (match goal with E : _ = (n, ks) |- _ => injection E as <- <- end); reflexivity.
Qed.
Lemma unknown_param_types n : ~ In n (map fst gates) -> ~ In n (map fst non_gates) -> ~ In n (map fst modifiers) ->
  get_instruction_param_types n = Err (mk_error ("couldn't find instruction '" ++ n ++ "'")).
Proof.
  intros H1 H2 H3. unfold get_instruction_param_types.
  destruct (is_named_gate n) eqn:E1. { apply named_spec in E1. destruct E1 as (ks & a & E). destruct H1. exact (in_map fst _ _ E). }
  destruct (is_non_gate n) eqn:E2. { apply non_gate_spec in E2. destruct E2 as (x & E). destruct H2. exact (in_map fst _ _ E). }
  destruct (is_gate_modifier n) eqn:E3. { apply modifier_spec in E3. destruct E3 as (x & E). destruct H3. exact (in_map fst _ _ E). }
  reflexivity.
Qed.

(** ** The default instructions *)

(** Names and operand kinds, in order of registration. *)
Definition registered_kinds : list (string * list type_kind) :=
  map (fun e => (fst e, map kind (spec_types (snd e)))) default_instructions.

Lemma spec_types_make s : spec_types s = map make_type (map kind (spec_types s)).
Proof.
  unfold spec_types. destruct (types_of_spec s) as [ts| | |] eqn:E; try reflexivity.
  unfold types_of_spec in E. apply mapM_ok in E. induction E as [|c t cs ts H _ IH]; [reflexivity|]. cbn. rewrite <- IH.
  f_equal. unfold type_of_char in H. repeat (destruct (Ascii.eqb c _); [injection H as <-; reflexivity|]). discriminate.
Qed.
Lemma instruction_history_kinds : instruction_history =
  map (fun e => (fst e, mkInstruction (fst e) (map make_type (snd e)), map make_type (snd e))) registered_kinds.
Proof.
  unfold instruction_history, registered_kinds. rewrite map_map. apply map_ext. intros [n s]. cbn [fst snd].
  rewrite <- spec_types_make. reflexivity.
Qed.
Lemma registered_quantum n ks : In (n, ks) registered_kinds -> Forall quantum_or_bit ks.
Proof.
  intros H. assert (F : forallb (fun e => forallb (fun k => match k with TQubit | TBit | TQubitArray | TBitArray => true | _ => false end) (snd e)) registered_kinds = true)
    by (vm_compute; reflexivity).
  rewrite forallb_forall in F. apply F in H. cbn [snd] in H. apply Forall_forall. intros k Hk.
  rewrite forallb_forall in H. apply H in Hk. destruct k; cbn in *; (exact I || discriminate).
Qed.

Definition has_kind (v : value) (k : type_kind) : Prop := exists t, type_of v = Ok t /\ kind t = k.

Lemma promote_quantum v k w : quantum_or_bit k -> (promote v (make_type k) = Ok (Some w) <-> w = v /\ has_kind v k).
Proof.
  intros Hk. unfold promote, has_kind. destruct (type_of v) as [t| | |] eqn:E; cbn [bind].
  2-4: split; [discriminate|]; intros (_ & t' & X & _); discriminate.
  unfold type_check. cbn [kind make_type]. destruct (kind_eqb (kind t) k) eqn:Ek.
  - apply kind_eqb_eq in Ek. split; [intros [= <-]; eauto|]. intros [-> _]. reflexivity.
  - split.
    + destruct k; cbn in Hk; try contradiction; discriminate.
    + intros (-> & t' & [= <-] & <-). rewrite kind_eqb_refl in Ek. discriminate.
Qed.

Lemma promotes_quantum vs ks ws : Forall quantum_or_bit ks ->
  (promotes_all vs (map make_type ks) ws <-> ws = vs /\ Forall2 has_kind vs ks).
Proof.
  intros Hq. unfold promotes_all. rewrite map_length. split.
  - intros (L1 & L2 & H). revert vs ws L1 L2 H. induction Hq as [|k ks Hk Hks IH]; intros vs ws L1 L2 H.
    + destruct vs, ws; try discriminate. split; [reflexivity|constructor].
    + destruct vs as [|v vs], ws as [|w ws]; try discriminate. cbn in L1, L2.
      pose proof (H 0%nat v (make_type k) w eq_refl eq_refl eq_refl) as H0. apply promote_quantum in H0; [|exact Hk].
      destruct (IH vs ws ltac:(lia) ltac:(lia)) as [-> F].
      { intros i a p a' Ha Hp Ha'. exact (H (S i) a p a' Ha Hp Ha'). }
      destruct H0 as [-> H0]. split; [reflexivity|constructor; assumption].
  - intros (-> & F). pose proof (Forall2_length F) as L. split; [exact L|split; [exact L|]]. clear L.
    revert ks F Hq. induction vs as [|v vs IH]; intros ks F Hq i a p a' Ha Hp Ha'; [destruct i; discriminate|].
    inversion F as [|? k ? ks' F1 F2]; subst. inversion Hq; subst. destruct i as [|i]; cbn in *.
    + injection Ha as <-. injection Hp as <-. injection Ha' as <-. apply promote_quantum; auto.
    + eapply IH; eauto.
Qed.
Lemma has_kind_unique v k k' : has_kind v k -> has_kind v k' -> k = k'.
Proof. intros (t & E & <-) (t' & E' & <-). congruence. Qed.
Lemma has_kinds_unique vs ks ks' : Forall2 has_kind vs ks -> Forall2 has_kind vs ks' -> ks = ks'.
Proof.
  intros H. revert ks'. induction H as [|v k vs ks H _ IH]; intros ks' H'; inversion H'; subst; [reflexivity|].
  f_equal; [eapply has_kind_unique; eauto|auto].
Qed.

Lemma resolve_default n vs i ws : Forall typed vs ->
  (resolve (register_all instruction_history) n vs = Ok (i, ws) <->
   ws = vs /\ exists ks, In (n, ks) registered_kinds /\ Forall2 has_kind vs ks /\ i = mkInstruction n (map make_type ks)).
Proof.
  intros Hty. rewrite (resolve_ok_iff instruction_history n vs i ws Hty). split.
  - intros (h1 & params & h2 & E & P & _).
    assert (I : In (n, i, params) instruction_history) by (rewrite E; apply in_or_app; right; now left).
    rewrite instruction_history_kinds in I. apply in_map_iff in I. destruct I as ([m ks] & [= -> <- <-] & I). cbn [fst snd] in *.
    apply promotes_quantum in P; [|eapply registered_quantum; eauto]. destruct P as [-> P]. split; [reflexivity|]. eauto.
  - intros (-> & ks & I & F & ->).
    assert (D : resolve (register_all instruction_history) n vs = Ok (mkInstruction n (map make_type ks), vs)).
    { destruct (resolve_total instruction_history n vs Hty) as [[[i' ws'] R]|[e R]].
      - rewrite R. apply resolve_ok_iff in R; [|exact Hty]. destruct R as (h1 & params & h2 & E & P & _).
        assert (I' : In (n, i', params) instruction_history) by (rewrite E; apply in_or_app; right; now left).
        rewrite instruction_history_kinds in I'. apply in_map_iff in I'. destruct I' as ([m ks'] & [= -> <- <-] & I'). cbn [fst snd] in *.
        apply promotes_quantum in P; [|eapply registered_quantum; eauto]. destruct P as [-> P].
        now rewrite (has_kinds_unique vs ks' ks P F).
      - exfalso. assert (N : ~ exists r, resolve (register_all instruction_history) n vs = Ok r) by (rewrite R; intros [? ?]; discriminate).
        apply N. apply (C17_success_iff_applicable _ instruction_history n vs Hty), Exists_exists. exists (n, mkInstruction n (map make_type ks), map make_type ks).
        split; [|split; [reflexivity|]].
        + rewrite instruction_history_kinds. apply in_map_iff. exists (n, ks). auto.
        + exists vs. cbn [snd]. apply promotes_quantum; [eapply registered_quantum; eauto|auto]. }
    now apply resolve_ok_iff in D.
Qed.
