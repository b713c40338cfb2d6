(** Properties C56 and C67: serialisation and printing of primitives. *)
From Verif Require Import Base ModelVersion ModelError ModelTypes ModelOverload ModelLexer ModelPrimitives SpecUtils SpecLexer SpecReading SpecPrimitives SpecDiagnosis ProofsDiagnosis ProofsUtf8 ProofsPrimitives.
Local Open Scope string_scope.

(** ** C56: primitives survive serialisation. *)

(** C++ to C++: every value is read back. *)
Theorem C56_primitives :
  (forall s, deserialize_str (serialize_str s) = Ok s) /\
  (forall a, deserialize_axis (serialize_axis a) = Ok a) /\
  (forall b, deserialize_bool (serialize_bool b) = Ok b) /\
  (forall z, deserialize_int (serialize_int z) = Ok z) /\
  (forall f, deserialize_float (serialize_float f) = Ok f) /\
  (forall c, deserialize_complex (serialize_complex c) = Ok c) /\
  (forall v, deserialize_version (serialize_version v) = Ok v).
Proof. repeat split; try (intros []; reflexivity); try (intros; reflexivity); exact version_round. Qed.
(** References to instructions and functions, given that the nodes of types are
    read back *)
Theorem C56_references : forall write_type read_type, (forall t, read_type (write_type t) = Ok t) ->
  (forall r, deserialize_instruction read_type (serialize_instruction write_type r) = Ok r) /\
  (forall r, deserialize_function read_type (serialize_function write_type r) = Ok r).
Proof. intros w r H. split; [exact (instruction_round w r H)|exact (function_round w r H)]. Qed.

(** C++ to Python: the numbers and versions are the same; a string is the same if it
    is UTF-8 and is an exception if it is not. *)
Theorem C56_python :
  (forall s, utf8 s -> py_deserialize_str (serialize_str s) = Ok s) /\
  (forall s, ~ utf8 s -> py_deserialize_str (serialize_str s) = Throw "UnicodeDecodeError") /\
  (forall b, py_deserialize_bool (serialize_bool b) = Ok b) /\
  (forall z, py_deserialize_int (serialize_int z) = Ok z) /\
  (forall f, py_deserialize_float (serialize_float f) = Ok f) /\
  (forall v, py_deserialize_version (serialize_version v) = Ok v).
Proof. repeat split; try (intros; reflexivity); [exact py_str_read|exact py_str_raises|exact py_version_read]. Qed.
(** Python to Python *)
Theorem C56_python_alone :
  (forall s, py_deserialize_str (py_serialize_str s) = Ok s) /\
  (forall b, py_deserialize_bool (py_serialize_bool b) = Ok b) /\
  (forall z, py_deserialize_int (py_serialize_int z) = Ok z) /\
  (forall f, py_deserialize_float (py_serialize_float f) = Ok f) /\
  (forall v, py_deserialize_version (py_serialize_version v) = Ok v) /\
  (forall write_type read_type, (forall t, read_type (write_type t) = Ok t) ->
     forall r, py_deserialize_instruction read_type (py_serialize_instruction write_type r) = Ok r).
Proof. repeat split; try (intros; reflexivity); [exact py_version_read|exact py_instruction_round]. Qed.
(** But a reference to an instruction is never read by Python: the two use different
    keys, and every reference arrives unresolved. *)
Theorem C56_python_references : forall write_type read_type r, py_deserialize_instruction read_type (serialize_instruction write_type r) = Ok None.
Proof. intros w read r. exact (py_instruction_lost w r read). Qed.
Theorem C56_refuted : exists r, forall write_type read_type, py_deserialize_instruction read_type (serialize_instruction write_type r) <> Ok r.
Proof. exists (Some (mkInstruction "H" [make_type TQubit])). intros w read. rewrite C56_python_references. discriminate. Qed.

(** A way to write types that is read back *)
Fixpoint bits (p : positive) : string := match p with xH => "" | xO p => "0" ++ bits p | xI p => "1" ++ bits p end.
Fixpoint of_bits (s : string) : positive := match s with "" => xH | String c s => if Ascii.eqb c "0" then xO (of_bits s) else xI (of_bits s) end.
Definition z_text (z : Z) : string := match z with Z0 => "z" | Zpos p => "p" ++ bits p | Zneg p => "n" ++ bits p end.
Definition of_z_text (s : string) : Z :=
  match s with String c s => if Ascii.eqb c "p" then Zpos (of_bits s) else if Ascii.eqb c "n" then Zneg (of_bits s) else Z0 | "" => Z0 end.
Definition kind_letter (k : type_kind) : ascii := match k with TQubit => "Q" | TBit => "B" | TBool => "b" | TInt => "i" | TFloat => "f" | TQubitArray => "V" | TBitArray => "W" end.
Definition sample_write (t : type) : string := String (kind_letter (kind t)) (z_text (tsize t)).
Definition sample_read (s : string) : outcome error type :=
  match s with String c s => let! t := type_of_char c in Ok (mkType (kind t) (of_z_text s)) | "" => wrong end.
Lemma sample_round t : sample_read (sample_write t) = Ok t.
Proof.
  assert (B : forall p, of_bits (bits p) = p) by (induction p as [p IH|p IH|]; cbn; [now rewrite IH..|reflexivity]).
  destruct t as [k z]. unfold sample_write. cbn [kind tsize sample_read]. replace (type_of_char (kind_letter k)) with (Ok (make_type k) : outcome error type) by (destruct k; reflexivity). cbn [bind make_type kind]. destruct z; cbn; now rewrite ?B.
Qed.
Definition sample_instruction : option instruction := Some (mkInstruction "CRk" [make_type TQubit; mkType TQubitArray 5; make_type TInt]).
Example C56_case : (forall t, sample_read (sample_write t) = Ok t) /\
  serialize_instruction sample_write sample_instruction = [("name", CText "CRk"); ("operand_types", CArray [CBytes "Qz"; CBytes "Vp10"; CBytes "iz"])] /\
  utf8 "qubit" /\ ~ utf8 (String (ascii_of_nat 255) "").
Proof.
  split; [exact sample_round|]. split; [reflexivity|]. split; [apply valid_utf8_iff; reflexivity|]. rewrite <- valid_utf8_iff. discriminate.
Qed.
Print Assumptions C56_primitives. Print Assumptions C56_references. Print Assumptions C56_python. Print Assumptions C56_python_alone. Print Assumptions C56_python_references. Print Assumptions C56_refuted.

(** ** C67: the printed signature of an instruction or function identifies it: its
    name and the kinds of its types. *)
Theorem C67_instructions : forall i j, ~ has "(" (instr_name i) -> ~ has "(" (instr_name j) ->
  instruction_to_string i = instruction_to_string j -> instr_name i = instr_name j /\ map kind (operand_types i) = map kind (operand_types j).
Proof. exact instruction_text. Qed.
Theorem C67_functions : forall f g, ~ has "(" (fn_name f) -> ~ has "(" (fn_name g) -> function_to_string f = function_to_string g ->
  fn_name f = fn_name g /\ map kind (fn_params f) = map kind (fn_params g) /\ kind (fn_return f) = kind (fn_return g).
Proof. exact function_text. Qed.
(** It is the name and the types in words. *)
Theorem C67_texts :
  (forall i, instruction_to_string i = instr_name i ++ "(" ++ String.concat ", " (map (fun t => kind_text (kind t)) (operand_types i)) ++ ")") /\
  (forall f, function_to_string f = fn_name f ++ "(" ++ String.concat ", " (map (fun t => kind_text (kind t)) (fn_params f)) ++ ") -> " ++ kind_text (kind (fn_return f))).
Proof. split; intros x; unfold instruction_to_string, function_to_string, types_to_string; rewrite join_concat; reflexivity. Qed.
(** The list of types in the messages about overloads identifies their kinds. *)
Theorem C67_types : forall ts us, types_to_string ts = types_to_string us -> map kind ts = map kind us.
Proof. exact types_text_kinds. Qed.
(** A reference is written as "unresolved" exactly if it is not resolved. *)
Lemma not_unresolved a b : a ++ "(" ++ b <> "unresolved".
Proof. intros H. assert (N : ~ has "(" "unresolved") by (cbn; intuition discriminate). apply N. rewrite <- H. clear. induction a; cbn; auto. Qed.
Theorem C67_references :
  (forall r, ref_to_string instruction_to_string r = "unresolved" <-> r = None) /\ (forall r, ref_to_string function_to_string r = "unresolved" <-> r = None).
Proof. split; intros [x|]; cbn [ref_to_string]; split; try reflexivity; try discriminate; intros H; destruct (not_unresolved _ _ H). Qed.
Example C67_case : match sample_instruction with Some i => instruction_to_string i = "CRk(qubit, qubit array, int)" /\ ~ has "(" (instr_name i) | None => False end /\
  function_to_string (mkSignature "operator+" [make_type TInt; make_type TFloat] (make_type TFloat)) = "operator+(int, float) -> float" /\ ~ has "(" "operator+".
Proof. cbn. repeat split; intuition discriminate. Qed.
Print Assumptions C67_instructions. Print Assumptions C67_functions. Print Assumptions C67_texts. Print Assumptions C67_references. Print Assumptions C67_types.
