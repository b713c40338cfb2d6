(** Proofs about ModelPrimitives (C56, C67). *)
From Verif Require Import Base ModelVersion ModelError ModelTypes ModelOverload ModelLexer ModelPrimitives SpecUtils SpecReading SpecPrimitives ProofsUtils ProofsUtf8.
Local Open Scope string_scope.

Lemma mapM_map {A B C} (f : B -> outcome error C) (g : A -> B) (h : A -> C) l : (forall x, f (g x) = Ok (h x)) -> mapM f (map g l) = Ok (map h l).
Proof. intros H. induction l as [|x l IH]; [reflexivity|]. cbn [map mapM]. now rewrite H, IH. Qed.

Section Types.
  Variables (write_type : type -> string) (read_type : string -> outcome error type).
  Hypothesis round : forall t, read_type (write_type t) = Ok t.
  Lemma read_types ts : mapM (fun e => let! s := as_binary e in read_type s) (map (fun t => CBytes (write_type t)) ts) = Ok ts.
  Proof. rewrite (mapM_map _ _ (fun t => t)); [now rewrite map_id|]. intros t. exact (round t). Qed.
  Lemma instruction_round r : deserialize_instruction read_type (serialize_instruction write_type r) = Ok r.
  Proof.
    destruct r as [[n ts]|]; [|reflexivity]. unfold deserialize_instruction, serialize_instruction. cbn -[map mapM]. cbn [instr_name operand_types]. rewrite read_types. reflexivity.
  Qed.
  Lemma function_round r : deserialize_function read_type (serialize_function write_type r) = Ok r.
  Proof.
    destruct r as [[n ts t]|]; [|reflexivity]. unfold deserialize_function, serialize_function. cbn -[map mapM]. cbn [fn_name fn_params fn_return]. rewrite read_types. cbn [bind]. rewrite round. reflexivity.
  Qed.
End Types.
Lemma version_round v : deserialize_version (serialize_version v) = Ok v.
Proof. unfold deserialize_version, serialize_version. cbn -[map mapM]. rewrite (mapM_map _ _ (fun z => z)); [now rewrite map_id|reflexivity]. Qed.
Lemma py_version_read v : py_deserialize_version (serialize_version v) = Ok v.
Proof. unfold py_deserialize_version, serialize_version. cbn -[map mapM]. rewrite (mapM_map _ _ (fun z => z)); [now rewrite map_id|reflexivity]. Qed.
Lemma py_str_read s : utf8 s -> py_deserialize_str (serialize_str s) = Ok s.
Proof. intros U. unfold py_deserialize_str, serialize_str, py_decode. cbn -[valid_utf8]. apply valid_utf8_iff in U. now rewrite U. Qed.
Lemma py_str_raises s : ~ utf8 s -> py_deserialize_str (serialize_str s) = Throw "UnicodeDecodeError".
Proof. intros U. unfold py_deserialize_str, serialize_str, py_decode. cbn -[valid_utf8]. destruct (valid_utf8 s) eqn:V; [apply valid_utf8_iff in V; contradiction|reflexivity]. Qed.
Lemma py_instruction_lost w r read : py_deserialize_instruction read (serialize_instruction w r) = Ok None.
Proof. destruct r; reflexivity. Qed.
Lemma py_instruction_round w read : (forall t, read (w t) = Ok t) -> forall r, py_deserialize_instruction read (py_serialize_instruction w r) = Ok r.
Proof. intros H [[n ts]|]; [|reflexivity]. unfold py_deserialize_instruction, py_serialize_instruction. cbn -[map mapM]. cbn [instr_name operand_types]. rewrite (mapM_map _ _ (fun t => t)); [cbn [bind]; now rewrite map_id|exact H]. Qed.

(** ** Printed signatures *)
Lemma has_app c a b : has c (a ++ b) <-> has c a \/ has c b.
Proof. unfold has. induction a as [|x a IH]; cbn; [tauto|]. rewrite IH. tauto. Qed.
(** Pieces that do not contain the character between them *)
Lemma split_at c a b a' b' : ~ has c a -> ~ has c a' -> a ++ String c b = a' ++ String c b' -> a = a' /\ b = b'.
Proof.
  revert a'. induction a as [|x a IH]; intros [|y a'] H H' E; cbn in *.
  - injection E as ->. auto.
  - injection E as -> _. exfalso. apply H'. left. reflexivity.
  - injection E as -> _. exfalso. apply H. left. reflexivity.
  - injection E as -> E. assert (N : ~ has c a) by (intros X; apply H; right; exact X). assert (N' : ~ has c a') by (intros X; apply H'; right; exact X). destruct (IH _ N N' E) as [-> ->]. auto.
Qed.
Lemma type_text_plain t c : c = ","%char \/ c = ")"%char -> ~ has c (type_to_string t).
Proof. intros [-> | ->]; destruct t as [[] z]; cbn; intuition discriminate. Qed.
Lemma type_text_kind t u : type_to_string t = type_to_string u -> kind t = kind u.
Proof. destruct t as [[] z], u as [[] z']; cbn; congruence || reflexivity. Qed.
Lemma types_text_kinds ts us : types_to_string ts = types_to_string us -> map kind ts = map kind us.
Proof.
  unfold types_to_string. revert us. induction ts as [|t ts IH]; intros us E.
  - destruct us as [|u us]; [reflexivity|]. cbn [map] in E. destruct u as [[] z], (map type_to_string us); cbn in E; discriminate E.
  - destruct us as [|u us]; [cbn [map] in E; destruct t as [[] z], (map type_to_string ts); cbn in E; discriminate E|]. cbn [map].
    destruct ts as [|t2 ts], us as [|u2 us]; cbn [map join] in E.
    + now rewrite (type_text_kind _ _ E).
    + exfalso. apply (type_text_plain t ","); auto. rewrite E. apply has_app. right. left. reflexivity.
    + exfalso. apply (type_text_plain u ","); auto. rewrite <- E. apply has_app. right. left. reflexivity.
    + cbn [append] in E. apply split_at in E; [|now apply type_text_plain; auto..]. destruct E as [E1 E2]. injection E2 as E2. rewrite (type_text_kind _ _ E1). f_equal. apply (IH (u2 :: us)). exact E2.
Qed.
Lemma types_text_plain ts : ~ has ")" (types_to_string ts).
Proof.
  unfold types_to_string. induction ts as [|t ts IH]; [cbn; auto|]. destruct ts as [|t2 ts]; [exact (type_text_plain t ")" (or_intror eq_refl))|].
  cbn [map join] in *. rewrite !has_app. intros [H|[H|H]]; [now apply (type_text_plain t ")") in H; auto|cbn in H; intuition discriminate|contradiction].
Qed.
Lemma paren_names a b x y : ~ has "(" a -> ~ has "(" b -> a ++ "(" ++ x = b ++ "(" ++ y -> a = b /\ x = y.
Proof. intros A B E. exact (split_at _ _ _ _ _ A B E). Qed.
Lemma instruction_text i j : ~ has "(" (instr_name i) -> ~ has "(" (instr_name j) -> instruction_to_string i = instruction_to_string j ->
  instr_name i = instr_name j /\ map kind (operand_types i) = map kind (operand_types j).
Proof.
  intros A B E. apply paren_names in E; auto. destruct E as [N E]. split; [exact N|]. apply types_text_kinds. apply split_at in E; [tauto|apply types_text_plain..].
Qed.
Lemma function_text f g : ~ has "(" (fn_name f) -> ~ has "(" (fn_name g) -> function_to_string f = function_to_string g ->
  fn_name f = fn_name g /\ map kind (fn_params f) = map kind (fn_params g) /\ kind (fn_return f) = kind (fn_return g).
Proof.
  intros A B E. apply paren_names in E; auto. destruct E as [N E]. split; [exact N|]. cbn [append] in E. apply split_at in E; [|apply types_text_plain..]. destruct E as [E1 E2]. injection E2 as E2. split; [now apply types_text_kinds|now apply type_text_kind].
Qed.
