(** Model of marginalizing a variable whose dependents are themselves results of an earlier marginalization.
    Source: pymc_extras/model/marginal/distributions.py (23-44, 74-119, 144-204), graph_analysis.py (65-70, 149-177),
    marginal_model.py (143-180: variables are marginalized one after the other, last in the graph first). *)
From Verif Require Import Common LogR Dims_Model MargLogp_Model.
From Coq Require Import ZArith.

(** distributions.py:29-44 [MarginalRV.support_axes] for one dependent with [dims_connection] [d]; [k] is the number of core
    dimensions of the marginalized variable (0 for finite discrete variables, 1 for a Markov chain).  The list holds the
    positive i of the axes -i. *)
Fixpoint support_axes_from (i : nat) (rdims : dims) (marginalized_supp_axes : nat) : list nat :=
  match rdims with
  | [] => []
  | None :: r => i :: support_axes_from (S i) r marginalized_supp_axes
  | Some dim :: r => if marginalized_supp_axes <? dim then i :: support_axes_from (S i) r marginalized_supp_axes
                     else support_axes_from (S i) r marginalized_supp_axes
  end.
Definition support_axes (k : nat) (d : dims) : list nat := support_axes_from 1 (rev d) (length d - k).

(** graph_analysis.py:149-177: dims of one output of a MarginalRV node; [inner]: what the analysis of the inner graph found
    for this output, [sup]: its support axes. *)
Definition marginal_output_dims (inner : option dims) (sup : list nat) : res (option dims) :=
  match inner with
  | None => Ok None
  | Some d => if existsb (fun i => match nth (length d - i) d None with Some _ => true | None => false end) sup
              then Err ValueError else Ok (Some d)
  end.

(** A variable [x] with [batch] entries is marginalized after a variable [z].  [inner c] is the marginal op of z when x has the
    value c.  [conn j]: the entry of x with which entry j of the joint log-probability of z's op is lined up, by the
    connection found for the op's *first* dependent, which carries that log-probability; [None] when this first dependent is
    not connected to x, so that all its axes are summed.
    Simplification: as in MargLogp_Model, axes are already flattened and permuted (DimsAlign_Model treats that). *)
Definition inner_terms (inner : list Z -> marg_op) (conn : option (nat -> nat)) (c : list Z) (b : nat) : list lr :=
  match get_domain (mop_dist (inner c)) with
  | Ok dom =>
      map (marginal_logp_entry (inner c) dom)
          (match conn with
           | Some beta => filter (fun j => Nat.eqb (beta j) b) (seq 0 (batch (inner c)))
           | None => seq 0 (batch (inner c))
           end)
  | Err _ => []
  end.
(** distributions.py:144-204 applied to x: its dependents are [others] (not touched by z) and the dependents of z's op, of which
    the first has the terms above and the remaining [extra] a constant zero (lines 203-204, DUMMY_ZERO, a scalar). *)
Definition nested_op (dx : dist) (n : nat) (lpx : list Z -> nat -> lr) (others : list (list Z -> nat -> list lr))
    (inner : list Z -> marg_op) (conn : option (nat -> nat)) (extra : nat) : marg_op :=
  {| mop_dist := dx; batch := n; lp_x := lpx;
     deps := others ++ inner_terms inner conn :: repeat (fun _ _ => [Fin 0%R]) extra |}.

(** The same with a Markov chain in place of z: the log-probability of the chain's dependents is a scalar
    (distributions.py:264-276), so [reduce_batch_dependent_logps] leaves it alone (line 98) and adds it to every entry of x. *)
Definition chain_terms (inner : list Z -> hmm_op) (c : list Z) (b : nat) : list lr :=
  match marginal_hmm_logp (inner c) with Ok (row :: _) => [lsum row] | _ => [] end.
Definition nested_chain_op (dx : dist) (n : nat) (lpx : list Z -> nat -> lr) (inner : list Z -> hmm_op) : marg_op :=
  {| mop_dist := dx; batch := n; lp_x := lpx; deps := [chain_terms inner] |}.
