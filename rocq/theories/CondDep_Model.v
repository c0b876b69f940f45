(** Model of the search for conditionally dependent variables.
    Source: /repo/pymc_extras/model/marginal/graph_analysis.py (lines 22-62) and the graph walk of
    PyTensor it relies on (pytensor.graph.basic: [walk], [ancestors]). *)
From Verif Require Import Common.

(** A PyTensor graph.  Variables are numbered so that a variable's inputs have smaller numbers (graphs are
    acyclic); [inputs v = None]: no owner.  [static_shape v]: output of a [Shape] node whose input has a
    fully static shape (lines 24-33); [is_const v]: Constant or SharedVariable. *)
Record graph := {
  g_size : nat;
  inputs : nat -> option (list nat);
  static_shape : nat -> bool;
  is_const : nat -> bool;
}.

Definition mem (x : nat) (l : list nat) : bool := existsb (Nat.eqb x) l.

(** pytensor.graph.basic.walk (depth first): pop from the end, skip visited, push the expansion. The
    Python deque's right end is the head of the list here; [Err RuntimeError] = out of fuel. *)
Fixpoint walk (expand : nat -> list nat) (fuel : nat) (stack visited : list nat) : res (list nat) :=
  match stack with
  | [] => Ok (rev visited)
  | v :: stack' =>
      match fuel with
      | O => Err RuntimeError
      | S fuel' =>
          if mem v visited then walk expand fuel' stack' visited
          else walk expand fuel' (expand v ++ stack') (v :: visited)
      end
  end.

(** pytensor.graph.basic.ancestors: [expand] pushes [reversed(owner.inputs)] unless the variable is a
    blocker; popping from the right end makes the first input come first. *)
Definition expand_of (g : graph) (blockers : list nat) (v : nat) : list nat :=
  match inputs g v with
  | Some l => if mem v blockers then [] else l
  | None => []
  end.
Definition walk_fuel (expand : nat -> list nat) (n : nat) (stack : list nat) : nat :=
  length stack + fold_right (fun v a => length (expand v) + a) 0 (seq 0 n).
Definition ancestors (g : graph) (vars blockers : list nat) : res (list nat) :=
  walk (expand_of g blockers) (walk_fuel (expand_of g blockers) (g_size g) (rev vars)) (rev vars) [].

(** lines 22-33 *)
Definition static_shape_ancestors (g : graph) (vars : list nat) : res (list nat) :=
  do a <- ancestors g vars [];
  Ok (filter (static_shape g) a).

(** lines 36-44 *)
Definition find_conditional_input_rvs (g : graph) (output_rvs all_rvs : list nat) : res (list nat) :=
  do st <- static_shape_ancestors g (all_rvs ++ output_rvs);
  let blockers := filter (fun o => negb (mem o output_rvs)) all_rvs ++ st in
  do a <- ancestors g output_rvs blockers;
  Ok (filter (fun v => mem v blockers ||
                       (match inputs g v with None => true | _ => false end && negb (is_const g v))) a).

(** lines 47-53 *)
Definition is_conditional_dependent (g : graph) (dependent dependable : nat) (all_rvs : list nat) : res bool :=
  do l <- find_conditional_input_rvs g [dependent] all_rvs;
  Ok (mem dependable l).

(** lines 56-62 *)
Fixpoint find_dependents_loop (g : graph) (dependable : nat) (all_rvs : list nat) (rvs : list nat) : res (list nat) :=
  match rvs with
  | [] => Ok []
  | rv :: rest =>
      do keep <- (if Nat.eqb rv dependable then Ok false
                  else is_conditional_dependent g rv dependable all_rvs);
      do r <- find_dependents_loop g dependable all_rvs rest;
      Ok (if keep then rv :: r else r)
  end.
Definition find_conditional_dependent_rvs (g : graph) (dependable : nat) (all_rvs : list nat) : res (list nat) :=
  find_dependents_loop g dependable all_rvs all_rvs.
