(** C105: the errors of a text come in the order of the text, and each lies in the
    part of the text of its own statement. *)
From Verif Require Import Base ModelUtils ModelVersion ModelError ModelTypes ModelFunctions ModelAst ModelLexer ModelParser ModelAnalyzer ModelSemantic ModelSyntactic SpecUtils SpecTypes SpecInstructions SpecAnalyzer SpecError SpecLexer SpecParser SpecSyntax SpecTree SpecReading SpecSites SpecSorted
  ProofsExpr ProofsAnalyzer2 ProofsUtf8 ProofsReading ProofsText ProofsPipeline ProofsSorted PropertiesAnalyzer PropertiesSyntax.
Local Open Scope string_scope.

(** The text is cut into one piece for the version and one for each statement, in
    this order; each of them has at most one error, which is located in its piece. *)
Theorem C105_pieces : forall lm rtl st data file s p st' r, ordinary lm st -> version_same (api_version st) [3; 0]%Z -> text_of data s -> utf8 s ->
  parse_string file rtl data = Ok (mkResult (Some p) []) -> analyze_string rtl st data file = Ok (st', r) ->
  exists ess, res_errors r = List.concat ess /\ List.length ess = S (List.length (prog_statements p)) /\ shares file "" ess s.
Proof.
  intros lm rtl st data file s p st' r O V T U E A. unfold analyze_string in A. rewrite E in A. cbn [bind analyze res_errors res_root] in A.
  apply (parse_reads file rtl data s p T U) in E. eapply text_shares; eauto.
Qed.
(** So an error never comes after one that lies further on in the text, and no two
    errors have the same location. *)
Theorem C105_order : forall lm rtl st data file s p st' r u e1 v e2 w, ordinary lm st -> version_same (api_version st) [3; 0]%Z -> text_of data s -> utf8 s ->
  parse_string file rtl data = Ok (mkResult (Some p) []) -> analyze_string rtl st data file = Ok (st', r) ->
  res_errors r = (u ++ e1 :: v ++ e2 :: w)%list -> comes_before e1 e2.
Proof.
  intros lm rtl st data file s p st' r u e1 v e2 w O V T U E A R. destruct (C105_pieces lm rtl st data file s p st' r O V T U E A) as (ess & Ee & _ & S).
  rewrite Ee in R. eapply shares_sorted; eauto.
Qed.

(** A wrong version, an undeclared name, a duplicate declaration after several lines
    of comment, and two errors on one line. *)
Definition text_sorted : string := "version 3.1; qubit q" ++ nl ++ "X p; /* " ++ nl ++ nl ++ " */ bit q" ++ nl ++ "  CNOT q, q[1:0]; Rx(true && 1) q".
Lemma parses file data : (match parse_string file false data with Ok (mkResult (Some _) []) => true | _ => false end) = true -> exists p, parse_string file false data = Ok (mkResult (Some p) []).
Proof. destruct (parse_string file false data) as [[[p|] [|]]| | |]; try discriminate. eauto. Qed.
Example C105_case : text_of text_sorted text_sorted /\ utf8 text_sorted /\ forall lm, ordinary lm (fresh_analyzer lm) /\ version_same (api_version (fresh_analyzer lm)) [3; 0]%Z /\
  (exists p, parse_string (Some "f") false text_sorted = Ok (mkResult (Some p) [])) /\
  exists st' r, analyze_string false (fresh_analyzer lm) text_sorted (Some "f") = Ok (st', r) /\
    map (fun e => option_map (fun l => (first (loc_range l), last (loc_range l))) (location e)) (res_errors r) =
      map (fun '(a, b, c) => Some (mkIndex a b, mkIndex a c)) [(1, 9, 12); (2, 3, 4); (4, 9, 10); (5, 11, 12); (5, 27, 29)]%N.
Proof.
  split; [text_case|]. split; [utf8_case|]. intros lm. split; [apply analyses_ordinary, an_default, fresh_is_default|]. split; [vm_compute; reflexivity|].
  split; [apply parses; vm_compute; reflexivity|]. apply ok_case. vm_compute. reflexivity.
Qed.
Print Assumptions C105_pieces. Print Assumptions C105_order.
