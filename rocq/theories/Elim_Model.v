(** Model of MarginalModel.logp for a whole model: which variables are pulled into which marginalized node, in which order, and what is summed.
    Source: pymc_extras/model/marginal/marginal_model.py (_marginalize 143-200, logp 205-211, replace_finite_discrete_marginal_subgraph 551-595).

    The graph is taken at the level of model variables: every variable comes with the variables it reads (what find_conditional_input_rvs returns; the walk over the PyTensor
    graph is CondDep_Model) and its log-probability, a function of the values of the model's variables.  Variables are numbers.  Left out here: the analysis of batch dimensions
    (Dims_Model, DimsAlign_Model), the entries inside one marginalized node (MargLogp_Model, Nested_Model) and value transforms. *)
From Verif Require Import Common LogR.
Open Scope nat_scope.

Definition mem (x : nat) (l : list nat) : bool := existsb (Nat.eqb x) l.

Section Elim.
Context {V : Type}.
Definition asg := nat -> V.
Definition upd (a : asg) (v : nat) (x : V) : asg := fun w => if Nat.eqb w v then x else a w.

(** a node of the graph: the variables it defines (one for a plain random variable, the dependents for a marginalized node), what it reads, the variables summed inside it,
    and its log-probability (of several outputs the first one carries it, distributions.py:197-204) *)
Record node := { outs : list nat; ins : list nat; hidden : list nat; term : asg -> lr }.
(** deterministics and potentials: what they read, and (for potentials) their value *)
Record model := { nodes : list node; dets : list (list nat); pots : list (list nat * (asg -> lr)); toposort : list nat; domain : nat -> list V }.

(** graph_analysis.py:56-62 [find_conditional_dependent_rvs] *)
Definition reads (ns : list node) (w v : nat) : bool := existsb (fun n => mem w (outs n) && mem v (ins n)) ns.
Definition dependents (ns : list node) (all_rvs : list nat) (v : nat) : list nat := filter (fun w => negb (w =? v) && reads ns w v) all_rvs.

(** replace_finite_discrete_marginal_subgraph, marginal_model.py:551-595: one node for v and everything that depends on it, reading what these read from the outside;
    its log-probability sums over the domain of v (distributions.py:144-204).  Returns the new node and the nodes that stay as they are *)
Definition replace_subgraph (domain : nat -> list V) (ns : list node) (all_rvs : list nat) (v : nat) : res (node * list node) :=
  let deps := dependents ns all_rvs v in
  match deps, find (fun n => mem v (outs n)) ns with
  | [], _ => Err ValueError
  | _, None => Err KeyError
  | _, Some nv =>
      let touched := filter (fun n => negb (mem v (outs n)) && existsb (fun w => mem w deps) (outs n)) ns in
      let rest := filter (fun n => negb (mem v (outs n)) && negb (existsb (fun w => mem w deps) (outs n))) ns in
      let new := {| outs := deps;
                    ins := nodup Nat.eq_dec (filter (fun w => negb (w =? v) && negb (mem w deps)) (ins nv ++ concat (map ins touched)));
                    hidden := v :: concat (map hidden touched);
                    term := fun a => logsumexp (map (fun x => lsum (term nv (upd a v x) :: map (fun n => term n (upd a v x)) touched)) (domain v)) |} in
      Ok (new, rest)
  end.
(** what a deterministic or potential reads once the variables outs of the node new have been replaced (fgraph.replace_all, marginal_model.py:594): it is not part of fg, so it goes on
    reading the replaced variables, which are no model variables any more and stop no walk; they read the first output of the new node, hence all that the new node reads.
    Assumes that it shares no intermediate expression with a random variable (fg would update that one) *)
Definition reads_after (new : node) (rd : list nat) : list nat :=
  if existsb (fun w => mem w (outs new)) rd then filter (fun w => negb (mem w (outs new))) rd ++ ins new else rd.
(** the loop of _marginalize, marginal_model.py:151-176.  basic: the variables that stay; left: rvs_left_to_marginalize; others: what deterministics and potentials read;
    stale: the names of variables that were replaced *)
Fixpoint marginalize_loop (domain : nat -> list V) (basic left : list nat) (ns : list node) (others : list (list nat)) (stale order : list nat) : res (list node * list nat) :=
  match order with
  | [] => Ok (ns, stale)
  | v :: rest =>
      if existsb (mem v) others then Err NotImplementedError else
      do p <- replace_subgraph domain ns (basic ++ left) v;
      marginalize_loop domain basic (filter (fun w => negb (w =? v)) left) (fst p :: snd p) (map (reads_after (fst p)) others) (stale ++ outs (fst p)) rest
  end.
(** sorted(marginalized_rvs, key=toposort.index, reverse=True), marginal_model.py:148-152 *)
Definition order (m : model) (marginalized : list nat) : list nat := filter (fun v => mem v marginalized) (rev (toposort m)).
Definition basic_rvs (m : model) (marginalized : list nat) : list nat := filter (fun v => negb (mem v marginalized)) (concat (map outs (nodes m))).
Definition marginalize (m : model) (marginalized : list nat) : res (list node * list nat) :=
  marginalize_loop (domain m) (basic_rvs m marginalized) marginalized (nodes m) (dets m ++ map fst (pots m)) [] (order m marginalized).

(** PyTensor needs a topological order of the rewritten graph (every traversal of it, here construct_ir_fgraph in PyMC's logp): take nodes whose inputs are computed,
    until none is left.  Without one there is no result; the model calls that a ValueError *)
Definition ready (ns : list node) (n : node) : bool := forallb (fun i => negb (existsb (fun k => mem i (outs k)) ns)) (ins n).
Fixpoint has_order (fuel : nat) (ns : list node) : bool :=
  match ns with
  | [] => true
  | _ => match fuel with
         | 0 => false
         | S f => if existsb (ready ns) ns then has_order f (filter (fun n => negb (ready ns n)) ns) else false
         end
  end.
(** MarginalModel.logp(), marginal_model.py:205-211: the sum of the log-probabilities of all nodes, and the potentials.  In the potentials PyMC puts the given values for the
    variables of the model (_transfer_rv_mappings moved the value variables to the new variables, 117-141); a replaced variable is not one of them and stays a random draw *)
Definition logp (m : model) (marginalized : list nat) (draws a : asg) : res lr :=
  do p <- marginalize m marginalized;
  if has_order (length (fst p)) (fst p) then
    Ok (lsum (map (fun n => term n a) (fst p) ++ map (fun q => snd q (fun w => if mem w (snd p) then draws w else a w)) (pots m)))
  else Err ValueError.
End Elim.
Arguments node : clear implicits.
Arguments model : clear implicits.
Arguments asg : clear implicits.
