(** Sentences whose separators are changed (C47, C54). *)
From Verif Require Import Base ModelLexer ModelParser SpecParser ProofsParser ProofsParser2 ProofsParser3 ProofsParser4.
Local Open Scope list_scope.

(** ** Operators that could be read with their neighbour *)
Definition is_div (t : token) : bool := match tk_kind t with T_DIVISION_OP => true | _ => false end.
Definition is_star (t : token) : bool := match tk_kind t with T_PRODUCT_OP | T_POWER_OP => true | _ => false end.
Definition is_quote (t : token) : bool := match tk_kind t with T_TRIPLE_QUOTE => true | _ => false end.
(** No triple quote, no / before * or **; [p]: the previous token is /. *)
Fixpoint ok (p : bool) (ts : list token) : bool :=
  match ts with
  | [] => negb p
  | t :: r => negb (is_quote t) && negb (p && is_star t) && ok (is_div t) r
  end.
Lemma ok_app p a b : ok p a = true -> ok false b = true -> ok p (a ++ b) = true.
Proof.
  revert p. induction a as [|t a IH]; intros p Ha Hb; cbn [ok app] in *; [destruct p; [discriminate|exact Hb]|].
  apply andb_true_iff in Ha. destruct Ha as [Hq Ha]. rewrite Hq. now apply IH.
Qed.
Lemma ok_weak p ts : ok true ts = true -> ok p ts = true.
Proof. destruct p; [auto|]. destruct ts as [|t r]; cbn; [discriminate|]. destruct (is_quote t), (is_star t); cbn; auto; discriminate. Qed.
Lemma ok_end p a t : ok p a = true -> is_quote t = false -> is_div t = false -> is_star t = false -> ok p (a ++ [t]) = true.
Proof. intros H Hq Hd Hs. apply ok_app; [exact H|]. cbn. now rewrite Hq, Hd. Qed.
Ltac tk := unfold is, one_of in *; unfold is_quote, is_star, is_div; match goal with H : tk_kind ?t = _ |- context [tk_kind ?t] => rewrite H; reflexivity end.
Lemma ok_plain k p t r : is k t -> match k with T_TRIPLE_QUOTE | T_DIVISION_OP | T_PRODUCT_OP | T_POWER_OP => False | _ => True end -> ok false r = true -> ok p (t :: r) = true.
Proof. intros K N H. unfold is in K. cbn [ok]. unfold is_quote, is_star, is_div. rewrite K. destruct k; try contradiction; cbn; destruct p; exact H. Qed.
Lemma ok_one k p t : is k t -> match k with T_TRIPLE_QUOTE | T_DIVISION_OP | T_PRODUCT_OP | T_POWER_OP => False | _ => True end -> ok p [t] = true.
Proof. intros K N. eapply ok_plain; eauto. Qed.
Ltac okp := match goal with K : is ?k ?t |- ok ?p (?t :: ?r) = true => apply (ok_plain k p t r K I) end.
Ltac oks := repeat first [ okp | reflexivity | assumption | match goal with H : ok true ?u = true |- ok _ ?u = true => apply ok_weak; exact H end
  | match goal with |- ok _ (_ ++ _) = true => apply ok_app end ].
Lemma expr_ok :
  (forall e u, expr_tokens e u -> ok true u = true) /\ (forall es u, exprs_tokens es u -> ok true u = true) /\
  (forall i u, entry_tokens i u -> ok true u = true) /\ (forall is u, entries_tokens is u -> ok true u = true).
Proof.
  apply expr_tokens_mutind; intros; oks.
  - match goal with H : one_of prefix_operators t |- _ => rename H into Ho end. assert (exists k, is k t /\ In k prefix_operators) as (k & Kk & Ik) by (exists (tk_kind t); split; [reflexivity|exact Ho]).
    apply (ok_plain k); [exact Kk|cbn in Ik; destruct Ik as [<-|[<-|[<-|[<-|[]]]]]; exact I|]. oks.
  - match goal with H : one_of (concat binary_operators) t |- _ => rename H into Ho end. cbn [ok andb]. assert (is_quote t = false) as -> by (unfold is_quote; unfold one_of in Ho; cbn in Ho; repeat (destruct Ho as [<-|Ho]; [reflexivity|]); contradiction).
    cbn [negb andb]. apply ok_weak; assumption.
Qed.
Lemma params_ok ps u : params_tokens ps u -> ok false u = true.
Proof. intros H. inversion H; subst; [reflexivity|]. oks. apply ok_weak. eapply (proj1 (proj2 expr_ok)); eauto. Qed.
Ltac okx := repeat match goal with
  | H : expr_tokens _ ?u |- _ => apply (proj1 expr_ok) in H
  | H : exprs_tokens _ ?u |- _ => apply (proj1 (proj2 expr_ok)) in H
  | H : params_tokens _ ?u |- _ => apply params_ok in H
  end.
Lemma gate_ok g u : gate_tokens g u -> ok false u = true.
Proof. induction 1; okx; oks. Qed.
Lemma statement_ok s u : statement_tokens s u -> ok false u = true.
Proof.
  intros H. inversion H; subst; okx; try match goal with T : gate_tokens _ _ |- _ => apply gate_ok in T end; oks.
  match goal with T : type_tokens _ _ |- _ => inversion T as [t K|t o i c K K1 K2 K3]; subst end; unfold one_of in K; cbn in K;
    (destruct K as [K|[K|[]]]; [assert (is T_QUBIT_TYPE t) by (now symmetry)|assert (is T_BIT_TYPE t) by (now symmetry)]); oks.
Qed.
Lemma separators_ok seps r : Forall separator seps -> ok false r = true -> ok false (seps ++ r) = true.
Proof.
  intros F Hr. induction F as [|t seps K F IH]; [exact Hr|]. cbn [app]. unfold separator, one_of in K. cbn in K.
  destruct K as [K|[K|[]]]; [assert (is T_NEW_LINE t) by (now symmetry)|assert (is T_SEMICOLON t) by (now symmetry)]; oks.
Qed.
Lemma program_ok p u : program_tokens p u -> ok false u = true.
Proof.
  intros [seps v n ss ts F Kv Kn Tb]. apply separators_ok; [exact F|]. oks. induction Tb as [seps' eof F' Ke|seps' s ts ss ts' F' Ne Ts Tb IH].
  - apply separators_ok; [exact F'|oks].
  - apply separators_ok; [exact F'|]. apply statement_ok in Ts. oks.
Qed.
Lemma ok_pair p a y z b : ok p (a ++ y :: z :: b) = true -> tk_kind y = T_DIVISION_OP -> ~ In (tk_kind z) [T_PRODUCT_OP; T_POWER_OP].
Proof.
  revert p. induction a as [|t a IH]; intros p H K; cbn [ok app] in H.
  - apply andb_true_iff in H. destruct H as [_ H]. unfold is_div at 1 in H. rewrite K in H. unfold is_star in H. destruct (tk_kind z); cbn in *; try (intuition discriminate); rewrite ?andb_false_r in H; cbn in H; discriminate.
  - apply andb_true_iff in H. destruct H as [_ H]. eapply IH; eauto.
Qed.
Lemma ok_no_quote p ts : ok p ts = true -> Forall (fun t => tk_kind t <> T_TRIPLE_QUOTE) ts.
Proof.
  revert p. induction ts as [|t ts IH]; intros p H; [constructor|]. cbn [ok] in H. apply andb_true_iff in H. destruct H as [H1 H]. constructor; [|eapply IH; eauto].
  intros K. unfold is_quote in H1. rewrite K in H1. discriminate.
Qed.

(** ** Separators *)
Definition not_separator (t : token) : Prop := ~ separator t.
Lemma inner_not_separator u : Forall inner u -> Forall not_separator u.
Proof. apply Forall_impl. intros t (E & _) S. unfold separator, one_of in S. cbn in S. destruct S as [S|[S|[]]]; rewrite <- S in E; discriminate. Qed.
Lemma kind_not_separator k t : is k t -> match k with T_NEW_LINE | T_SEMICOLON => False | _ => True end -> not_separator t.
Proof. unfold is. intros K N S. unfold separator, one_of in S. rewrite K in S. cbn in S. destruct S as [<-|[<-|[]]]; exact N. Qed.
Lemma statement_no_separator s u : statement_tokens s u -> u <> [] /\ Forall not_separator u.
Proof.
  intros T. split.
  - inversion T; subst; try discriminate; match goal with |- ?a ++ ?b <> [] => intros E; apply app_eq_nil in E; destruct E as [E1 E2] end; try discriminate.
    subst. match goal with H : gate_tokens _ [] |- _ => inversion H end.
  - inversion T; subst;
      repeat match goal with
      | H : type_tokens _ _ |- _ => inversion H; subst; clear H
      | |- Forall _ (_ ++ _) => apply Forall_app; split
      | K : is ?k ?t |- Forall _ (?t :: _) => constructor; [exact (kind_not_separator k t K I)|]
      | |- Forall _ (_ :: _) => constructor
      | |- Forall _ [] => constructor
      | H : expr_tokens _ ?u |- Forall _ ?u => apply inner_not_separator; exact (proj1 expr_inner _ _ H)
      | H : exprs_tokens _ ?u |- Forall _ ?u => apply inner_not_separator; exact (proj1 (proj2 expr_inner) _ _ H)
      | H : params_tokens _ ?u |- Forall _ ?u => apply inner_not_separator; exact (params_inner _ _ H)
      | H : gate_tokens _ ?u |- Forall _ ?u => apply inner_not_separator; exact (gate_inner _ _ H)
      | H : one_of _ ?t |- not_separator ?t => unfold one_of in H; cbn in H; destruct H as [H|[H|[]]]; intros S; unfold separator, one_of in S; rewrite <- H in S; cbn in S; intuition discriminate
      end.
Qed.
Lemma app_split {A} (a b c d : list A) : a ++ b = c ++ d -> (exists x, a = c ++ x /\ d = x ++ b) \/ (exists x, c = a ++ x /\ x <> [] /\ b = x ++ d).
Proof.
  revert c. induction a as [|t a IH]; intros c E; cbn [app] in E.
  - destruct c as [|y c]; [left; exists []; auto|right]. exists (y :: c). split; [reflexivity|]. split; [discriminate|exact E].
  - destruct c as [|y c]; cbn [app] in E; [left; exists (t :: a); auto|]. injection E as -> E. destruct (IH c E) as [(x & -> & ->)|(x & -> & N & ->)]; [left|right]; exists x; auto.
Qed.
(** A run of separators before something that is none *)
Lemma separators_prefix S B x y r : Forall separator S -> not_separator y -> S ++ B = x ++ y :: r -> exists z, x = S ++ z /\ B = z ++ y :: r.
Proof.
  intros F Ny E. apply app_split in E. destruct E as [(z & -> & E)|(z & -> & N & ->)]; [|exists z; auto].
  destruct z as [|t z]; [exists []; rewrite !app_nil_r in *; auto|]. cbn [app] in E. injection E as <- _. apply Forall_app in F. destruct F as [_ F]. inversion F; contradiction.
Qed.
Lemma block_end ss ts : block_tokens ss ts -> ts <> [].
Proof. induction 1 as [seps eof|seps s ts ss ts' F N Ts Tb IH]; intros E; apply app_eq_nil in E; destruct E as [_ E]; [discriminate|]. apply app_eq_nil in E. tauto. Qed.
Definition one_token (B : list token) : Prop := exists t, B = [t].
Lemma swap_block ss ts : block_tokens ss ts -> forall A S B S', ts = A ++ S ++ B -> Forall separator S -> Forall separator S' -> B <> [] ->
  (S = [] <-> S' = []) \/ one_token B -> block_tokens ss (A ++ S' ++ B).
Proof.
  induction 1 as [seps eof F Ke|seps s ts ss ts' F N Ts Tb IH]; intros A S B S' E FS FS' NB C.
  - destruct (exists_last NB) as (B' & x & ->). rewrite !app_assoc in E. apply app_inj_tail in E. destruct E as [-> <-]. rewrite !app_assoc. apply bt_end; [|exact Ke].
    apply Forall_app in F. destruct F as [F F2]. apply Forall_app in F. destruct F as [F F1]. apply Forall_app. split; [|exact F2]. apply Forall_app. auto.
  - destruct (statement_no_separator s ts Ts) as [Nt Ft]. pose proof (block_end ss ts' Tb) as Nt'. apply app_split in E. destruct E as [(x & -> & E)|(x & -> & Nx & E)].
    + destruct ts as [|t ts]; [congruence|]. inversion Ft as [|? ? Nst _]; subst. cbn [app] in E. destruct (separators_prefix S B x t (ts ++ ts') FS Nst E) as (z & -> & ->).
      replace (A ++ S' ++ z ++ t :: ts ++ ts') with ((A ++ S' ++ z) ++ (t :: ts) ++ ts') by (rewrite <- !app_assoc; reflexivity).
      apply Forall_app in F. destruct F as [FA F]. apply Forall_app in F. destruct F as [_ Fz]. constructor; auto.
      * apply Forall_app. split; [exact FA|]. apply Forall_app. auto.
      * intros E0. destruct C as [C|[q C]].
        -- apply N. apply app_eq_nil in E0. destruct E0 as [-> E0]. apply app_eq_nil in E0. destruct E0 as [E0 ->]. apply C in E0. now rewrite E0.
        -- apply (f_equal (@List.length token)) in C. rewrite app_length in C. cbn [List.length] in C. rewrite app_length in C. destruct ts'; [congruence|]. cbn [List.length] in C. lia.
    + apply app_split in E. destruct E as [(a & -> & E)|(a & -> & Na & E)].
      * destruct a as [|t a].
        -- rewrite app_nil_r in *. cbn [app] in E. rewrite <- app_assoc. constructor; auto. exact (IH [] S B S' (eq_sym E) FS FS' NB C).
        -- assert (S = []) as ->.
           { destruct S as [|q S]; [reflexivity|]. cbn [app] in E. injection E as -> _. inversion FS; subst. apply Forall_app in Ft. destruct Ft as [_ Ft]. inversion Ft; contradiction. }
           assert (S' = []) as ->.
           { destruct C as [C|[q C]]; [now apply C|]. cbn [app] in E. rewrite E in C. injection C as -> C. apply app_eq_nil in C. tauto. }
           cbn [app] in *. rewrite E. replace ((seps ++ x) ++ t :: a ++ ts') with (seps ++ (x ++ t :: a) ++ ts') by (rewrite <- !app_assoc; reflexivity). constructor; auto.
      * rewrite <- app_assoc. rewrite <- app_assoc. constructor; auto. exact (IH a S B S' E FS FS' NB C).
Qed.
Lemma swap_program p A S B S' : program_tokens p (A ++ S ++ B) -> Forall separator S -> Forall separator S' -> B <> [] ->
  (S = [] <-> S' = []) \/ A = [] \/ one_token B -> program_tokens p (A ++ S' ++ B).
Proof.
  intros T FS FS' NB C. remember (A ++ S ++ B) as w eqn:E. destruct T as [seps v n ss ts F Kv Kn Tb]. pose proof (block_end ss ts Tb) as Nt. apply app_split in E. destruct E as [(x & -> & E)|(x & -> & Nx & E)].
  - destruct (separators_prefix S B x v (n :: ts) FS (kind_not_separator _ _ Kv I) E) as (z & -> & ->).
    replace (A ++ S' ++ z ++ v :: n :: ts) with ((A ++ S' ++ z) ++ v :: n :: ts) by (rewrite <- !app_assoc; reflexivity).
    apply Forall_app in F. destruct F as [FA F]. apply Forall_app in F. destruct F as [_ Fz]. constructor; auto. apply Forall_app. split; [exact FA|]. apply Forall_app. auto.
  - assert (C' : (S = [] <-> S' = []) \/ one_token B).
    { destruct C as [C|[C|C]]; auto. apply app_eq_nil in C. tauto. }
    destruct x as [|v' x]; [congruence|]. cbn [app] in E. injection E as <- E. destruct x as [|n' x]; cbn [app] in E.
    + assert (S = []) as ->.
      { destruct S as [|q S]; [reflexivity|]. cbn [app] in E. injection E as -> _. inversion FS; subst. destruct (kind_not_separator _ _ Kn I); assumption. }
      assert (S' = []) as ->.
      { destruct C' as [C'|[q C']]; [now apply C'|]. cbn [app] in E. rewrite C' in E. injection E as _ E. congruence. }
      cbn [app] in *. rewrite <- E, <- app_assoc. cbn [app]. constructor; auto.
    + injection E as <- E. rewrite <- app_assoc. cbn [app]. constructor; auto. exact (swap_block ss ts Tb x S B S' E FS FS' NB C').
Qed.
