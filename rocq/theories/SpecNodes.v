(** Independent specification of where nodes are in memory (C97): trees, what an
    analyzer in memory stands for, and what stays as it was. *)
From Verif Require Import Base ModelError ModelTypes ModelOverload ModelAst ModelAnalyzer ModelLocated ModelNodes.

(** From a node, the child at each position of a path in turn *)
Fixpoint walk (h : heap) (a : addr) (path : list nat) : option addr :=
  match nth_error h a with
  | None => None
  | Some c => match path with
              | [] => Some a
              | i :: path' => match nth_error (children (c_node c)) i with
                              | Some b => walk h b path'
                              | None => None
                              end
              end
  end.
(** Every node below a root is at one place only. *)
Definition no_node_twice (h : heap) (root : addr) : Prop :=
  forall p q b, walk h root p = Some b -> walk h root q = Some b -> p = q.

(** All nodes of a finite tree, or of several; a node that is at several places is
    listed several times. *)
Inductive tree_at (h : heap) : addr -> list addr -> Prop :=
| tree_node a c ns : nth_error h a = Some c -> trees_at h (children (c_node c)) ns -> tree_at h a (a :: ns)
with trees_at (h : heap) : list addr -> list addr -> Prop :=
| trees_none : trees_at h [] []
| trees_more a l ns ms : tree_at h a ns -> trees_at h l ms -> trees_at h (a :: l) (ns ++ ms).

(** A scope in memory stands for a scope of ModelAnalyzer.v. *)
Definition scope_in (h : heap) (m : hscope) (s : scope) : Prop :=
  hs_functions m = sc_functions s /\ hs_instructions m = sc_instructions s /\
  Forall2 (fun x y => fst x = fst y /\ read_value h (snd x) = Some (bare (snd y))) (hs_table m) (sc_variables_table s) /\
  (exists ls, read_block h (hs_block m) = Some (blk_loc (sc_block s), ls) /\ map erase_statement ls = blk_statements (sc_block s)) /\
  omap (read_variable h) (hs_variables m) = Some (sc_variables s).
(** What the scopes own: blocks and variables *)
Definition roots (l : list hscope) : list addr := flat_map (fun m => hs_block m :: hs_variables m) l.
(** An analyzer in memory stands for an analyzer of ModelAnalyzer.v: no node is at
    two places in its blocks and variables, and the registered values are nodes apart. *)
Definition analyzer_in (h : heap) (m : hanalyzer) (st : analyzer) : Prop :=
  h_version m = api_version st /\ h_next m = next_id st /\ Forall2 (scope_in h) (h_scopes m) (scopes st) /\
  exists ns, trees_at h (roots (h_scopes m)) ns /\ NoDup ns /\
    forall s x ms b, In s (h_scopes m) -> In x (hs_table s) -> tree_at h (snd x) ms -> In b ms -> ~ In b ns.
(** The block that statements are added to *)
Definition current_node (m : hanalyzer) : option addr := match h_scopes m with [] => None | s :: _ => Some (hs_block s) end.
(** A scope that nothing has been added to *)
Definition new_scope (s : scope) : Prop := sc_block s = mkBlock [] None /\ sc_variables s = [].
(** What one analyzer in memory becomes: it is made, then it analyses programs. *)
Inductive reached (keep : bool) : heap -> hanalyzer -> analyzer -> Prop :=
| reached_new st h h' m : Forall new_scope (scopes st) -> load st h = (h', (Ok m, [])) -> reached keep h' m st
| reached_analyzed h m st p h' m' r st' r' ls :
    reached keep h m st -> hanalyze keep m p h = (h', Ok (m', r)) -> lanalyze_ast keep st p = Ok (st', r', ls) -> reached keep h' m' st'.
