(** Property C101: the messages of the analysis are plain ASCII, so the JSON of a
    rejected text is legal on every platform. *)
From Verif Require Import Base ModelUtils ModelVersion ModelError ModelTypes ModelOverload ModelFunctions ModelInstructionSet ModelAst ModelAnalyzer ModelSemantic ModelLexer ModelParser ModelSyntactic ModelApi
  SpecUtils SpecError SpecTypes SpecFunctions SpecInstructions SpecAnalyzer SpecLexer SpecParser SpecSyntax SpecTree SpecReading SpecPrint SpecMachine SpecVersion SpecApi SpecMeaning SpecOutcome SpecEntry SpecAscii
  ProofsAnalyzer2 ProofsFunctions ProofsAscii PropertiesUtils PropertiesSyntax PropertiesPrint PropertiesDiagnosis PropertiesMachine PropertiesMeaning PropertiesOutcome PropertiesEntry PropertiesReuse.
Local Open Scope string_scope.

(** Whatever a text that parses contains, every message about it is printable ASCII; *)
Theorem C101_messages : forall lm rtl st data file s p st' r, ordinary lm st -> version_same (api_version st) [3; 0]%Z -> text_of data s -> utf8 s ->
  parse_string file rtl data = Ok (mkResult (Some p) []) -> analyze_string rtl st data file = Ok (st', r) ->
  Forall (fun e => printable (message e)) (res_errors r).
Proof.
  intros lm rtl st data file s p st' r Ho V T U E A. destruct (C82_text lm rtl st data file s p st' r Ho V T U E A) as (ves & es & -> & Hv & Hd).
  apply Forall_app. split; [exact (version_error_printable _ _ _ _ Hv)|]. apply (diagnosed_printable _ _ _ Hd). apply program_statements_writable. exact (C50_parsed_writable file rtl data s p T U E).
Qed.
(** so is the message about a literal out of its range. *)
Theorem C101_literals : forall file rtl data s ts, text_of data s -> utf8 s -> tokens_of s ts -> sentence ts -> ~ all_in_range ts ->
  exists e, parse_string file rtl data = Ok (mkResult None [e]) /\ printable (message e).
Proof.
  intros file rtl data s ts T U To S N. destruct (C51_out_of_range file rtl data s ts T U To S N) as (t & k & lit & col & I & L & _ & E).
  eexists. split; [exact E|]. apply out_of_range_printable. exact (token_literals s ts t k lit col To I L).
Qed.
Lemma rejected_printable lm api file data s es : SpecVersion.version_text "3.0" api -> version_same api [3; 0]%Z -> machine_libm lm -> text_of data s -> utf8 s ->
  text_rejected lm api file s es -> es <> [] /\ Forall (fun e => printable (message e)) es.
Proof.
  intros V Sv L T U R. apply (rejected_run lm "3.0" api false data s V Sv L T U) in R. destruct R as (q & Q & N). split; [exact N|].
  destruct (read_text lm "3.0" api file false data s V Sv T U) as [(p & M & G & _ & _ & E)|(_ & e & E)].
  - rewrite E in Q. assert (Wp : writable_program p) by (apply (C50_parsed_writable file false data s p T U); now apply (ProofsReading.parse_reads file false data s p T U)).
    clear E. match type of Q with bind ?X _ = _ => destruct X as [[st' r]| | |] eqn:A end; cbn [bind snd] in Q; try discriminate Q. injection Q as ->.
    destruct (C82_program lm _ p st' _ (default_ordinary_any lm api 0) Sv G A) as (ves & es' & F & Hv & Hd). cbn [res_errors] in F. subst es.
    apply Forall_app. split; [exact (version_error_printable _ _ _ _ Hv)|]. apply (diagnosed_printable _ _ _ Hd). now apply program_statements_writable.
  - rewrite E in Q. discriminate Q.
Qed.
(** The JSON functions of Python and JavaScript tell the errors of every rejected text in
    legal JSON, whether char is signed or not. *)
Theorem C101_json : forall lm api rtl signed dump data s file es, SpecVersion.version_text "3.0" api -> version_same api [3; 0]%Z -> machine_libm lm -> text_of data s -> utf8 s ->
  text_rejected lm api (named file) s es ->
  exists j ds, js_analyze_string_to_json rtl signed dump lm data file = Ok j /\
    (let! st := v3x_analyzer lm "3.0" false in let! x := v3x_analyze_string_to_json rtl signed dump st data file in Ok (snd x)) = Ok j /\
    reads_as_json j (JObj [("errors", JArr ds)]) /\ Forall2 tells es ds.
Proof.
  intros lm api rtl signed dump data s file es V Sv L T U R. destruct (C95_json lm api rtl signed dump data s file V Sv L T U) as (_ & J & _). destruct (J es R) as [J1 J2].
  destruct (rejected_printable lm api (named file) data s es V Sv L T U R) as [N F].
  assert (P : Forall (fun e => signed = false \/ ascii_text (message e)) es) by (eapply Forall_impl; [|exact F]; intros e H; right; now apply printable_ascii).
  destruct (C12_errors_to_json signed es N P) as (ds & D & Fd). exists (errors_to_json signed es), ds. split; [exact J1|]. split; [exact J2|]. split; [exact D|].
  clear - P Fd. induction Fd as [|e d es ds H Fd IH]; [constructor|]. inversion P as [|? ? Pe Pes]; subst. constructor; [|auto].
  destruct (C12_error_to_json signed e Pe) as (uri & Hu & Hm). exists uri. split; [exact (C01_json_reading_unique _ _ _ H Hu)|].
  destruct (location e) as [[[f|] rg]|]; exact Hm.
Qed.

(** Texts with other characters, in a comment and in assembly: one with errors, one with a
    literal out of range *)
Definition e_acute : string := String (ascii_of_N 195) (String (ascii_of_N 169) "").
Definition text_foreign : string := "version 3.0; qubit q /* " ++ e_acute ++ " */; X z; asm(A) ''' " ++ e_acute ++ " '''; Rx(q) q".
Definition text_large : string := "version 3.0; qubit[9223372036854775808] q // " ++ e_acute.
Lemma faulty_case lm data (Q : list error -> Prop) : match run lm false "3.0" data (named "a b.cq") with Ok (mkResult (Some _) es) => es <> [] /\ Q es | _ => False end ->
  exists q es, run lm false "3.0" data (named "a b.cq") = Ok (mkResult (Some q) es) /\ es <> [] /\ Q es.
Proof. destruct (run lm false "3.0" data (named "a b.cq")) as [[[q|] es]| | |]; try contradiction. eauto. Qed.
Lemma some_byte P a c b : all_bytes P (a ++ String c b) -> P c.
Proof. induction a; cbn; tauto. Qed.
Lemma too_large : ~ literal_in_range T_INTEGER_LITERAL "9223372036854775808".
Proof. cbn [literal_in_range]. apply Z.nle_gt, Z.ltb_lt. vm_compute. reflexivity. Qed.
Example C101_case : SpecVersion.version_text "3.0" [3; 0]%Z /\ version_same [3; 0]%Z [3; 0]%Z /\ machine_libm same_libm /\
  text_of text_foreign text_foreign /\ utf8 text_foreign /\ ~ ascii_text text_foreign /\
  (exists es, text_rejected same_libm [3; 0]%Z (named "a b.cq") text_foreign es /\
     map message es = ["failed to resolve variable 'z'"; "failed to resolve 'Rx' with parameter type (qubit)"]) /\
  text_of text_large text_large /\ utf8 text_large /\
  (exists ts, tokens_of text_large ts /\ sentence ts /\ ~ all_in_range ts).
Proof.
  destruct C92_case as (_ & _ & _ & _ & _ & V & L & _).
  assert (T : text_of text_foreign text_foreign) by text_case. assert (U : utf8 text_foreign) by utf8_case.
  split; [exact V|]. split; [intros i; reflexivity|]. split; [exact L|]. split; [exact T|]. split; [exact U|]. split; [|split; [|split; [text_case|split; [utf8_case|]]]].
  - intros A. apply (some_byte (byte_below 128) "version 3.0; qubit q /* ") in A. discriminate A.
  - destruct (faulty_case same_libm text_foreign (fun es => map message es = ["failed to resolve variable 'z'"; "failed to resolve 'Rx' with parameter type (qubit)"])) as (q & es & R & N & M).
    { vm_compute. split; [discriminate|reflexivity]. }
    exists es. split; [|exact M]. apply (rejected_run same_libm "3.0" [3; 0]%Z false text_foreign text_foreign V (fun i => eq_refl) L T U). eauto.
  - assert (C : match tokenize text_large with Some ts => existsb (fun t => (if token_kind_eq_dec (tk_kind t) T_INTEGER_LITERAL then true else false) && (tk_text t =? "9223372036854775808")) ts = true /\
        match parse_program ts with POk _ [e] => tk_kind e = T_EOF | _ => False end | None => False end) by (vm_compute; split; reflexivity).
    destruct (ProofsSyntax.tokenize_spec text_large) as (ls & rest & body & line & col & Ls & Ta & G & E & _). rewrite E in C. destruct C as [X C].
    destruct (parse_program _) as [p [|e [|? ?]]| |] eqn:P; try contradiction.
    assert (K := P). apply ProofsSyntax2.parse_body in K; [|exact G|apply ProofsSyntax2.end_not_plain]. destruct K as (_ & Ke & Tp & _).
    exists (body ++ [ProofsSyntax.end_token rest line col])%list. split; [|split; [now exists p|]].
    + apply ProofsSyntax.tokenize_tokens_of. split; [exact E|]. eauto.
    + intros A. apply existsb_exists in X. destruct X as (t & I & Ht). apply andb_true_iff in Ht. destruct Ht as [Hk Ht]. apply String.eqb_eq in Ht.
      clear - I Hk Ht A. destruct (token_kind_eq_dec (tk_kind t) T_INTEGER_LITERAL) as [Kt|]; [|discriminate]. specialize (A t _ _ _ I (lit_int t Kt)). rewrite Ht in A. exact (too_large A).
Qed.
Print Assumptions C101_messages. Print Assumptions C101_literals. Print Assumptions C101_json.
