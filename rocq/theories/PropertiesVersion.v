(** Property C08, continued: exactly which texts are versions. *)
From Verif Require Import Base ModelVersion SpecUtils SpecLexer SpecSyntax SpecVersion ProofsVersion2.
Local Open Scope string_scope.

(** A text is accepted, with these components, exactly when it is empty or each
    part between its dots begins with an integer between 0 and 2^31 - 1; any other
    text makes the constructor throw. *)
Theorem C08_version_texts : forall (E : Type) s v,
  @version_of_string E s = Ok v <-> version_text s v /\ Forall (fun c => 0 <= c <= 2 ^ 31 - 1)%Z v.
Proof. exact @version_text_reads. Qed.
Theorem C08_else_throws : forall (E : Type) s, (exists v, @version_of_string E s = Ok v) \/ exists w, @version_of_string E s = Throw w.
Proof. exact @version_else_throws. Qed.
Example C08_texts_case : version_text "3. +4rc" [3; 4]%Z /\ version_text "-1.0" [-1; 0]%Z /\ (forall E, exists w, @version_of_string E "-1.0" = Throw w).
Proof.
  assert (N : forall c r, "" = String c r -> ~ digit c) by discriminate.
  split; [|split].
  - apply (vt_parts ["3"; " +4rc"] [3; 4]%Z); try discriminate; [repeat constructor; discriminate|]. constructor; [|constructor; [|constructor]].
    + apply (front_plain "" "" "3" ""); auto; try discriminate; try exact I. cbn. unfold digit, code_between. cbn. split; [lia|exact I].
    + apply (front_plain " " "+" "4" "rc"); auto; try discriminate.
      * split; [now left|exact I].
      * cbn. unfold digit, code_between. cbn. split; [lia|exact I].
      * intros c r [= <- <-]. unfold digit, code_between. cbn. lia.
  - apply (vt_parts ["-1"; "0"] [-1; 0]%Z); try discriminate; [repeat constructor; discriminate|]. constructor; [|constructor; [|constructor]].
    + apply (front_minus "" "1" ""); auto; try discriminate; try exact I. cbn. unfold digit, code_between. cbn. split; [lia|exact I].
    + apply (front_plain "" "" "0" ""); auto; try discriminate; try exact I. cbn. unfold digit, code_between. cbn. split; [lia|exact I].
  - intros E. eexists. reflexivity.
Qed.
Print Assumptions C08_version_texts.
Print Assumptions C08_else_throws.
