(** Specification of what may happen to analyzers and results as objects (C72,
    C73). *)
From Verif Require Import Base ModelVersion ModelError ModelTypes ModelAst ModelAnalyzer ModelSemantic ModelObjects SpecAnalyzer.

(** The calls of a program so far have led to this world, and ended like this. *)
Definition history (cs : list user_call) (w : world) (es : list ending) : Prop := perform_all empty_world cs = Ok (w, es).

(** The analyzer a call is made on *)
Definition subject (c : user_call) : option nat :=
  match c with
  | CNew _ | CDefault _ _ | CCopy _ => None
  | CRegisterVariable i _ _ | CRegisterFunction i _ _ _ | CRegisterInstruction i _ | CPush i | CPop i | CAnalyze i _ => Some i
  end.
Definition is_copy (c : user_call) : Prop := match c with CCopy _ => True | _ => False end.

(** The call analyses with, or copies, only analyzers numbered from n on. *)
Definition leaves_alone (n : nat) (c : user_call) : Prop :=
  match c with CAnalyze i _ | CCopy i => (n <= i)%nat | _ => True end.

(** The later program has the statements of the earlier one, then perhaps more,
    and otherwise agrees with it. *)
Definition program_grown (p q : sem_program) : Prop :=
  sp_api_version q = sp_api_version p /\ sp_version q = sp_version p /\ sp_version_loc q = sp_version_loc p /\
  sp_variables q = sp_variables p /\ prefix_of (blk_statements (sp_block p)) (blk_statements (sp_block q)).
Definition result_grown (r q : result sem_program) : Prop :=
  res_errors q = res_errors r /\
  match res_root r, res_root q with
  | Some p, Some p' => program_grown p p'
  | None, None => True
  | _, _ => False
  end.

(** Scopes that differ at most in their blocks, the second having perhaps more
    statements. *)
Definition scope_grown (s t : scope) : Prop :=
  sc_variables_table t = sc_variables_table s /\ sc_functions t = sc_functions s /\ sc_instructions t = sc_instructions s /\
  sc_variables t = sc_variables s /\ prefix_of (blk_statements (sc_block s)) (blk_statements (sc_block t)).

(** The value of a call *)
Definition ending_value (w : world) (e : ending) : outcome error (result sem_program) :=
  match e with
  | EReturns r => Ok (show_result w r)
  | EThrows k => Throw k
  | EFails x => Err x
  | EDone => UB EmptyContainer
  end.
