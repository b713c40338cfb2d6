(** Independent specification of C99: statements that can change places. *)
From Coq Require Import Permutation.
From Verif Require Import Base ModelVersion ModelError ModelTypes ModelOverload ModelFunctions ModelAst ModelAnalyzer ModelSemantic SpecAnalyzer SpecRename.
Local Open Scope string_scope.

Definition declares (s : statement) (n : string) : Prop := exists l t an, s = SVariable l n t an.
(** Neither statement declares what the other one declares or mentions. *)
Definition independent (s t : statement) : Prop :=
  forall n, (declares s n -> ~ declares t n /\ ~ mentions t n) /\ (declares t n -> ~ mentions s n).

(** The numbers of the nodes of two variables change places. *)
Definition exchange (k i : nat) : nat := if Nat.eqb i k then S k else if Nat.eqb i (S k) then k else i.
(** Nodes of variables are numbered in the order of the declarations. *)
Definition exchanged_numbers (s t : statement) (number : nat -> nat) : Prop :=
  match s, t with
  | SVariable _ _ _ _, SVariable _ _ _ _ => exists k, number = exchange k
  | _, _ => number = (fun i => i)
  end.

(** The result of a program in which s stands before t, and the result when t stands
    before s: what the two statements contribute changes places. *)
Definition statements_swapped (s t : statement) (r r' : result sem_program) : Prop :=
  exists number c d es1 es2 vs1 vs2 xs1 xs2, exchanged_numbers s t number /\ contributes s c /\ contributes t d /\
    res_errors r = (es1 ++ new_errors c ++ new_errors d ++ es2)%list /\
    res_errors r' = (es1 ++ new_errors d ++ new_errors c ++ es2)%list /\
    results_with r r' (fun q q' =>
      sp_variables q = (vs1 ++ new_variables c ++ new_variables d ++ vs2)%list /\
      sp_variables q' = map (rename_sem_variable same_name number) (vs1 ++ new_variables d ++ new_variables c ++ vs2) /\
      blk_statements (sp_block q) = (xs1 ++ new_statements c ++ new_statements d ++ xs2)%list /\
      blk_statements (sp_block q') = map (rename_sem_statement same_name number) (xs1 ++ new_statements d ++ new_statements c ++ xs2) /\
      (is_declaration s \/ is_declaration t -> blk_loc (sp_block q') = blk_loc (sp_block q))).

(** Independent neighbours may change places any number of times. *)
Inductive reordered : list statement -> list statement -> Prop :=
| reordered_same ss : reordered ss ss
| reordered_swap ss1 s t ss2 ss : independent s t -> reordered (ss1 ++ t :: s :: ss2) ss -> reordered (ss1 ++ s :: t :: ss2) ss.
(** The same up to the order and the numbers of the variables *)
Definition same_but_order (r r' : result sem_program) : Prop :=
  exists number, (forall i j, number i = number j -> i = j) /\
    Permutation (res_errors r) (res_errors r') /\
    results_with r r' (fun q q' =>
      Permutation (map (rename_sem_variable same_name number) (sp_variables q)) (sp_variables q') /\
      Permutation (map (rename_sem_statement same_name number) (blk_statements (sp_block q))) (blk_statements (sp_block q'))).

(** All declarations first, then all instructions, both in the order of the program. *)
Definition declaration (s : statement) : bool := match s with SVariable _ _ _ _ => true | _ => false end.
Definition declarations_first (ss : list statement) : list statement :=
  (filter declaration ss ++ filter (fun s => negb (declaration s)) ss)%list.
