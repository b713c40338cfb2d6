(** Property C100: Python sees the bytes of trees and the characters of messages. *)
From Verif Require Import Base ModelUtils ModelVersion ModelError ModelTypes ModelOverload ModelFunctions ModelInstructionSet ModelAst ModelAnalyzer ModelSemantic ModelLexer ModelSyntactic ModelApi ModelPython
  SpecUtils SpecError SpecTypes SpecFunctions SpecInstructions SpecAnalyzer SpecHull SpecLexer SpecSyntax SpecReading SpecMachine SpecVersion SpecApi SpecEvaluate SpecMeaning SpecOutcome SpecEntry SpecPython
  ProofsFunctions ProofsAnalyzer2 ProofsPipeline ProofsSyntax2 ProofsPython PropertiesAnalyzer PropertiesSyntax PropertiesApi PropertiesMachine PropertiesMeaning PropertiesOutcome PropertiesEntry.
Local Open Scope string_scope.

(** ** C100 *)

(** Any bytes that the library returns come out of the str unchanged. *)
Theorem C100_bytes : forall s, to_utf8 (of_utf8 s) = Ok s.
Proof. exact bytes_kept. Qed.
(** The str of an encoded text is the text, and the other way round. *)
Theorem C100_characters : forall t, is_text t -> of_utf8 (encoded t) = t /\ to_utf8 t = Ok (encoded t) /\ py_argument t = Ok (encoded t).
Proof. intros t H. split; [now apply text_decoded|]. split; [now apply text_encoded|now apply text_argument]. Qed.
(** A str that is not a text never reaches the library. *)
Theorem C100_refused : forall T lm rtl write_tree write_syntax (read_tree : string -> T) version data file, is_str data -> ~ is_text data -> is_text version -> (exists st, v3x_analyzer lm (encoded version) false = Ok st) ->
  (exists w, python_analyze_string read_tree rtl lm write_tree version data file = Throw w) /\ (exists w, python_parse_string read_tree rtl write_syntax data file = Throw w).
Proof.
  intros T lm rtl write writes read v data file S N V [st E]. destruct (argument_refused _ S N) as [w W]. unfold python_analyze_string, python_parse_string. rewrite (text_argument _ V), W. cbn [bind]. rewrite E. cbn [bind]. eauto.
Qed.
(** Python's analyze_string returns what is read from the bytes of the tree, or
    the messages. *)
Theorem C100_analyses : forall (T : Type) lm rtl write_tree (read_tree : string -> T) version data file, is_text version -> is_text data -> is_text file ->
  match run lm rtl (encoded version) (encoded data) (named (encoded file)) with
  | Ok (mkResult root es) => python_analyze_string read_tree rtl lm write_tree version data file =
      Ok (match es with [] => inl (read_tree (write_tree root)) | _ => inr (map (fun e => of_utf8 (what e)) es) end)
  | Err e => python_analyze_string read_tree rtl lm write_tree version data file = Err e
  | Throw w => python_analyze_string read_tree rtl lm write_tree version data file = Throw w
  | UB k => python_analyze_string read_tree rtl lm write_tree version data file = UB k
  end.
Proof.
  intros T lm rtl write read v data file V D F. pose proof (C68_python_analyses T lm rtl write read (encoded v) (encoded data) (encoded file)) as P.
  assert (E : python_analyze_string read rtl lm write v data file =
    let! x := py_analyze_string lm rtl write read (encoded v) (encoded data) (encoded file) in Ok (match x with inl t => inl t | inr ms => inr (map of_utf8 ms) end)).
  { unfold python_analyze_string, py_analyze_string. rewrite !text_argument by assumption. cbn [bind]. destruct (v3x_analyzer lm (encoded v) false) as [st| | |]; cbn [bind]; try reflexivity.
    destruct (v3x_analyze_string_ rtl write st (encoded data) (encoded file)) as [x| | |]; cbn [bind]; try reflexivity. apply return_strings. }
  rewrite E. destruct (run lm rtl (encoded v) (encoded data) (named (encoded file))) as [[root es]| | |]; rewrite P; cbn [bind]; try reflexivity. destruct es; [reflexivity|]. now rewrite map_map.
Qed.
(** No text makes parse_string fail with an exception: a tree or messages come back. *)
Theorem C100_parses : forall (T : Type) rtl write_tree (read_tree : string -> T) data file, is_text data -> is_text file ->
  (exists p, parse_string (named (encoded file)) rtl (encoded data) = Ok (mkResult (Some p) []) /\ python_parse_string read_tree rtl write_tree data file = Ok (inl (read_tree (write_tree (Some p))))) \/
  (exists e, parse_string (named (encoded file)) rtl (encoded data) = Ok (mkResult None [e]) /\ python_parse_string read_tree rtl write_tree data file = Ok (inr [of_utf8 (what e)])).
Proof.
  intros T rtl write read data file D F.
  pose proof (strip_bom_text (encoded data)) as Ts. set (s := strip_bom (encoded data)) in *.
  pose proof (text_of_utf8 _ _ (text_utf8 _ D) Ts) as U. unfold python_parse_string. rewrite !text_argument by assumption. cbn [bind].
  destruct (program_or_error (named (encoded file)) rtl (encoded data) s Ts U) as [[p E]|[e E]]; [left; exists p|right; exists e]; (split; [exact E|]);
    pose proof (C68_python_parses T rtl write read (encoded data) (encoded file) _ E) as P; destruct (v3x_parse_string rtl write (encoded data) (encoded file)) as [x| | |]; cbn [bind] in *; try discriminate P;
    rewrite return_strings; injection P as ->; reflexivity.
Qed.
(** What Python's analyze_string returns for every str that is a text *)
Theorem C100_texts : forall (W : Type) lm version api rtl write_tree (read_tree : string -> W) data s file, is_text version -> is_text data -> is_text file ->
  SpecVersion.version_text (encoded version) api -> version_same api [3; 0]%Z -> machine_libm lm -> text_of (encoded data) s ->
  let result := python_analyze_string read_tree rtl lm write_tree version data file in let name := named (encoded file) in
  (forall q, text_accepted lm api name s q -> result = Ok (inl (read_tree (write_tree (Some q))))) /\
  (forall es, text_rejected lm api name s es -> result = Ok (inr (map (fun e => of_utf8 (what e)) es))) /\
  (not_a_text name s -> exists e, result = Ok (inr [of_utf8 (what e)])) /\
  (text_without_result lm api name s -> exists k, result = UB k).
Proof.
  intros W lm v api rtl write read data s file Tv Td Tf V Sv L T result name. pose proof (text_of_utf8 _ _ (text_utf8 _ Td) T) as U.
  pose proof (C100_analyses W lm rtl write read v data file Tv Td Tf) as P. fold result name in P. split; [|split; [|split]].
  - intros q H. apply (accepted_run lm _ api rtl _ s V Sv L T U) in H. now rewrite H in P.
  - intros es H. apply (rejected_run lm _ api rtl _ s V Sv L T U) in H. destruct H as (q & R & N). rewrite R in P. now destruct es.
  - intros H. apply (not_a_text_run lm _ api rtl _ s V Sv L T U) in H. destruct H as (e & R). exists e. now rewrite R in P.
  - intros H. apply (without_run lm _ api rtl _ s V Sv L T U) in H. destruct H as (k & R). exists k. now rewrite R in P.
Qed.
(** Bytes that are not UTF-8 in all ways, and a text with characters of every length *)
Example C100_case : exists t, of_utf8 (SpecReading.bytes [65; 255; 195; 228; 189; 237; 160; 128; 194; 169]%N) = t /\ t = [65; 56575; 56515; 56548; 56509; 56557; 56480; 56448; 169]%N /\
  is_text [65; 233; 8364; 128169]%N /\ String.length (encoded [65; 233; 8364; 128169]%N) = 10%nat /\ is_str [65; 56575]%N /\ ~ is_text [65; 56575]%N /\
  is_text (of_utf8 text_meaning) /\ encoded (of_utf8 text_meaning) = text_meaning /\ text_of (encoded (of_utf8 text_meaning)) text_meaning /\ encoded (of_utf8 "3") = "3".
Proof.
  eexists. split; [reflexivity|]. split; [vm_compute; reflexivity|]. split; [repeat constructor; unfold scalar_value; lia|]. split; [reflexivity|].
  split; [repeat constructor|]. split; [intros H; inversion H as [|? ? _ H']; subst; inversion H' as [|? ? S _]; subst; unfold scalar_value in S; lia|].
  split; [apply Forall_forall; intros n I; left; vm_compute in I; repeat (destruct I as [<-|I]; [reflexivity|]); contradiction|].
  split; [vm_compute; reflexivity|]. split; [|reflexivity].
  assert (E : encoded (of_utf8 text_meaning) = text_meaning) by (vm_compute; reflexivity). rewrite E. text_case.
Qed.
Print Assumptions C100_bytes. Print Assumptions C100_characters. Print Assumptions C100_refused. Print Assumptions C100_analyses. Print Assumptions C100_parses. Print Assumptions C100_texts.
