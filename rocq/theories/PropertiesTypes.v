(** Properties C14-C18: promotion, overload resolution, tables. *)
From Coq Require Import Reals SpecFloat.
From Verif Require Import Base ModelError ModelTypes ModelOverload SpecTypes ProofsFloat ProofsTypes.
Local Open Scope string_scope.

(** C14, constants: promote succeeds exactly on the type itself and on the types
    above it; it never fails with an error. *)
Theorem C14_promote_iff : forall (v : value) (t : type), is_const v ->
  ((exists w, promote v t = Ok (Some w)) <-> const_kind v = kind t \/ below (const_kind v) (kind t)) /\
  (~ (const_kind v = kind t \/ below (const_kind v) (kind t)) -> promote v t = Ok None).
Proof.
  intros v t H. destruct (promote_const v t H) as (H1 & H2 & H3). split; [split|].
  - intros [w Hw]. destruct (kind_eq_dec (const_kind v) (kind t)) as [|N]; [now left|].
    assert (D : below (const_kind v) (kind t) \/ ~ below (const_kind v) (kind t))
      by (destruct (const_kind v), (kind t); cbn; tauto).
    destruct D as [D|D]; [now right|]. rewrite (H2 N D) in Hw. discriminate.
  - intros [E|B]; [eauto|]. destruct (H3 B) as (w & Hw & _). eauto.
  - intros N. apply H2; tauto.
Qed.
(** The result has the target type and denotes the same number; only an integer
    promoted to float is rounded, to the nearest double. A value of the target
    type is returned as it is, and a double made from another type is finite. *)
Theorem C14_promote_denotes : forall (v : value) (t : type) (w : value),
  is_const v -> (forall z, v = VInt z -> in_int64 z = true) -> promote v t = Ok (Some w) ->
  is_const w /\ const_kind w = kind t /\ (const_kind v = kind t -> w = v) /\
  (const_kind v <> TFloat -> forall f, w = VFloat f -> finite_double f) /\
  (number_of w = number_of v \/
   exists z, v = VInt z /\ kind t = TFloat /\ number_of w = nearest_double (IZR z)).
Proof.
  intros v t w Hc Hr Hw.
  assert (Hr' : value_in_range v) by (destruct v; cbn; auto).
  destruct (promote_const_number v t w Hc Hr' Hw) as (H1 & H2 & _ & H3).
  split; [exact H1|]. split; [exact H2|]. split; [|split; [|exact H3]].
  - intros E. destruct (promote_const v t Hc) as (P & _). rewrite (P E) in Hw. now injection Hw.
  - intros N f ->. now apply (promoted_finite v t f).
Qed.
(** References promote only to their own type, unchanged. *)
Theorem C14_promote_references : forall (v : value) (tv t : type) (w : value),
  language_reference v -> type_of v = Ok tv ->
  (promote v t = Ok (Some w) <-> kind t = kind tv /\ w = v).
Proof.
  intros v tv t w Hl Ht. apply promote_ref; auto.
  - now destruct v.
  - destruct v as [| | |x|x idx]; cbn in Hl; try contradiction; cbn in Ht.
    + now injection Ht as <-.
    + destruct (_ =? _)%Z; [|injection Ht as <-; destruct Hl as [-> | ->]; exact I].
      unfold element_type_of, type_check in Ht. cbn in Ht.
      destruct Hl as [E|E]; rewrite E in Ht; injection Ht as <-; exact I.
Qed.
Example C14_case : is_const (VInt 9007199254740993) /\
  promote (VInt 9007199254740993) (make_type TFloat) = Ok (Some (VFloat (S754_finite false 4503599627370496 1))) /\
  promote (VFloat (S754_zero true)) (make_type TInt) = Ok None /\
  promote (VBool true) (make_type TInt) = Ok (Some (VInt 1)) /\
  language_reference (VIndex (mkVariable 0 "q" (mkType TQubitArray 3)) [1; 2]%Z).
Proof. repeat split; try reflexivity. now left. Qed.
Print Assumptions C14_promote_iff.
Print Assumptions C14_promote_denotes.
Print Assumptions C14_promote_references.

(** C15 *)
Theorem C15_check_promote_agrees : forall (v : value) (tv t : type),
  is_const v \/ language_reference v -> type_of v = Ok tv ->
  (check_promote tv t = true <-> exists w, promote v t = Ok (Some w)).
Proof.
  intros v tv t H Ht. apply check_promote_agrees; [exact Ht|]. destruct H as [H|Hl]; [now left|right].
  destruct v as [| | |x|x idx]; cbn in Hl; try contradiction; cbn in Ht.
  - now injection Ht as <-.
  - destruct (_ =? _)%Z; [|injection Ht as <-; destruct Hl as [-> | ->]; exact I].
    unfold element_type_of, type_check in Ht. cbn in Ht.
    destruct Hl as [E|E]; rewrite E in Ht; injection Ht as <-; exact I.
Qed.
Theorem C15_check_promote_iff : forall a b : type,
  check_promote a b = true <-> kind a = kind b \/ below (kind a) (kind b).
Proof. exact check_promote_iff. Qed.
Theorem C15_check_promote_preorder :
  (forall t, check_promote t t = true) /\
  (forall a b c, check_promote a b = true -> check_promote b c = true -> check_promote a c = true).
Proof. exact (conj check_promote_refl check_promote_trans). Qed.
(** Outside the language: a variable of type bool, which only an API user can
    register, is promised a promotion to float that promote does not perform. *)
Theorem C15_boolean_variable_disagrees : exists (v : value) (tv t : type),
  type_of v = Ok tv /\ check_promote tv t = true /\ promote v t = Ok None.
Proof. exists (VVar (mkVariable 0 "b" (make_type TBool))), (make_type TBool), (make_type TFloat). auto. Qed.
Example C15_case : check_promote (make_type TBool) (make_type TFloat) = true /\
  check_promote (make_type TFloat) (make_type TInt) = false.
Proof. split; reflexivity. Qed.
Print Assumptions C15_check_promote_agrees.
Print Assumptions C15_check_promote_iff.
Print Assumptions C15_check_promote_preorder.
Print Assumptions C15_boolean_variable_disagrees.

(** C16: an integer is promoted to a finite double, the rounding of n to nearest
    even; no finite double is closer; exact up to 2^53. *)
Theorem C16_int_to_nearest_double : forall (n : Z), in_int64 n = true ->
  exists f, promote (VInt n) (make_type TFloat) = Ok (Some (VFloat f)) /\
    finite_double f /\ real_of f = nearest_double (IZR n) /\
    (forall g, finite_double g -> (Rabs (real_of f - IZR n) <= Rabs (real_of g - IZR n))%R) /\
    ((Z.abs n <= 2 ^ 53)%Z -> real_of f = IZR n).
Proof.
  intros n Hn. exists (float_of_Z n). split; [reflexivity|].
  destruct (float_of_Z_correct n (int64_abs n Hn)) as [H1 H2]. repeat split; try apply H1; auto.
  - intros g Hg. rewrite H2. now apply nearest_double_closest.
  - intros H. rewrite H2. now apply nearest_exact.
Qed.
Example C16_case : in_int64 9223372036854775807 = true /\
  promote (VInt 9223372036854775807) (make_type TFloat) = Ok (Some (VFloat (S754_finite false 4503599627370496 11))).
Proof. split; reflexivity. Qed.
Print Assumptions C16_int_to_nearest_double.

(** C17: after any history of registrations, a lookup succeeds with [tag] and
    [args'] exactly when [tag] was registered under that name with parameter
    types the arguments promote to, giving [args'], and no later registration of
    that name is applicable. *)
Theorem C17_last_applicable_wins : forall (T : Type) (h : list (registration T)) (name : string)
    (args : list value) (tag : T) (args' : list value),
  Forall typed args ->
  (resolve (register_all h) name args = Ok (tag, args') <->
   exists h1 params h2, h = (h1 ++ (name, tag, params) :: h2)%list /\
     promotes_all args params args' /\ Forall (fun r => ~ applicable name args r) h2).
Proof. exact @resolve_ok_iff. Qed.
(** It succeeds iff some registration is applicable, and is an error otherwise. *)
Theorem C17_success_iff_applicable : forall (T : Type) (h : list (registration T)) (name : string) (args : list value),
  Forall typed args ->
  ((exists r, resolve (register_all h) name args = Ok r) <-> Exists (applicable name args) h) /\
  ((exists e, resolve (register_all h) name args = Err e) <-> ~ Exists (applicable name args) h).
Proof.
  intros T h name args Hty.
  assert (S : (exists r, resolve (register_all h) name args = Ok r) <-> Exists (applicable name args) h).
  { split.
    - intros [[tag args'] H]. apply resolve_ok_iff in H; [|exact Hty].
      destruct H as (h1 & ps & h2 & -> & P & _). apply Exists_app. right. left. split; [reflexivity|cbn; eauto].
    - intros E. destruct (resolve_total h name args Hty) as [R|[e R]]; [exact R|exfalso].
      induction h as [|r h IH] using rev_ind; [now inversion E|].
      (* the last applicable registration yields a success *)
      assert (L : exists h1 r0 h2, (h ++ [r])%list = (h1 ++ r0 :: h2)%list /\ applicable name args r0 /\
                    Forall (fun x => ~ applicable name args x) h2).
      { clear - E Hty. revert E. generalize (h ++ [r])%list. intros l E.
        induction l as [|x l IHl]; [now inversion E|].
        destruct (resolve_loop_spec args (map (fun r => mkOverload (snd (fst r)) (snd r)) (filter (fun r => fst (fst r) =? name) l)) Hty)
          as [(l1 & o & l2 & a' & Eq & _ & P & _)|(N & _)].
        + destruct IHl as (h1 & r0 & h2 & -> & A & F).
          { apply (overloads_of_split name) in Eq. destruct Eq as (h1 & h2 & -> & _ & _).
            apply Exists_app. right. left. split; [reflexivity|cbn; eauto]. }
          exists (x :: h1), r0, h2. auto.
        + apply (overloads_of_applicable name) in N. inversion E as [? ? A|? ? A]; subst.
          * exists [], x, l. auto.
          * exfalso. apply Exists_exists in A. destruct A as (y & Hy & A).
            rewrite Forall_forall in N. exact (N y Hy A). }
      destruct L as (h1 & [[n tag] ps] & h2 & Eq & [Hn (a' & P)] & F). cbn in Hn, P. subst n.
      assert (R' : resolve (register_all (h ++ [r])) name args = Ok (tag, a')).
      { apply resolve_ok_iff; [exact Hty|]. eauto 8. }
      congruence. }
  split; [exact S|]. rewrite <- S.
  destruct (resolve_total h name args Hty) as [[r R]|[e R]]; rewrite R; split.
  - intros [e E]. discriminate.
  - intros N. exfalso. eauto.
  - intros _ [r E]. discriminate.
  - eauto.
Qed.
Theorem C17_other_names_no_effect : forall (T : Type) (h : list (registration T)) (name : string) (args : list value),
  resolve (register_all h) name args =
  resolve (register_all (filter (fun r => fst (fst r) =? name) h)) name args.
Proof. exact @resolve_other_names. Qed.
Example C17_case :
  let h := [("f", 1%nat, [make_type TFloat]); ("g", 2%nat, [make_type TInt]); ("f", 3%nat, [make_type TInt]);
            ("f", 4%nat, [make_type TInt; make_type TInt])] in
  Forall typed [VBool true] /\
  resolve (register_all h) "f" [VBool true] = Ok (3%nat, [VInt 1]) /\
  resolve (register_all h) "f" [VFloat (S754_zero false)] = Ok (1%nat, [VFloat (S754_zero false)]) /\
  (exists e, resolve (register_all h) "F" [VBool true] = Err e).
Proof.
  repeat split; try reflexivity.
  - repeat constructor. eexists. reflexivity.
  - eexists. reflexivity.
Qed.
Print Assumptions C17_last_applicable_wins.
Print Assumptions C17_success_iff_applicable.
Print Assumptions C17_other_names_no_effect.

(** C18: functions and instructions: a further registration under another name
    changes nothing, and what is found was registered under exactly that name. *)
Theorem C18_overloads_independent : forall (T : Type) (t : table T) (n : string) (tag : T) (ps : list type)
    (name : string) (args : list value),
  n <> name -> resolve (add_overload n tag ps t) name args = resolve t name args.
Proof. exact @resolve_add_other. Qed.
(** Variables: after any history of declarations, a lookup finds exactly the
    first value declared under that name, and is an error if there is none. *)
Theorem C18_variables_first_declared : forall (h : list (string * value)) (name : string) (v : value),
  variable_resolve name (declare_all h) = Ok v <->
  exists h1 h2, h = (h1 ++ (name, v) :: h2)%list /\ Forall (fun r => fst r <> name) h1.
Proof. exact declare_all_resolve. Qed.
Theorem C18_variables_unknown : forall (h : list (string * value)) (name : string),
  (exists e, variable_resolve name (declare_all h) = Err e) <-> Forall (fun r => fst r <> name) h.
Proof. exact declare_all_none. Qed.
Theorem C18_variables_independent : forall (n name : string) (v : value) (t t' : variable_table),
  n <> name -> variable_add n v t = Ok t' -> variable_resolve name t' = variable_resolve name t.
Proof.
  intros n name v t t' Hn H. rewrite (variable_add_resolve n v t t' name H).
  destruct (String.eqb_spec n name); [contradiction|reflexivity].
Qed.
Example C18_case :
  variable_resolve "q" (declare_all [("Q", VInt 1); ("q", VInt 2); ("q", VInt 3)]) = Ok (VInt 2) /\
  "Q" <> "q".
Proof. split; [reflexivity|discriminate]. Qed.
Print Assumptions C18_overloads_independent.
Print Assumptions C18_variables_first_declared.
Print Assumptions C18_variables_unknown.
Print Assumptions C18_variables_independent.
