(** Model of the logp of marginalized variables and of [recover_marginals].
    Source: /repo/pymc_extras/model/marginal/distributions.py and marginal_model.py. *)
From Verif Require Import Common LogR.
From Coq Require Import ZArith.

(** A distribution parameter after [constant_fold] (distributions.py:65):
    a constant scalar, a constant vector, or something that does not fold. *)
Inductive param := PScalar (z : Z) | PVector (l : list Z) | PSymbolic.

(** The distribution [rv.owner.op] of a variable handed to marginalize
    (distributions.py:55-71, marginal_model.py:276-289).  The class counts [k] of
    Categorical / DiscreteMarkovChain are [p.shape[-1]] / [P.shape[-1]], assumed to fold. *)
Inductive dist :=
| Bernoulli
| Categorical (k : nat)
| DiscreteUniform (lower upper : param)
| DiscreteMarkovChain (k : nat)
| OtherDist.

(** [np.arange(lower, upper + 1)] for integers. *)
Definition arange (lo hi : Z) : list Z :=
  map (fun i => (lo + Z.of_nat i)%Z) (seq 0 (Z.to_nat (hi - lo))).

(** [constant_fold] + implicit conversion of 0-d / length-1 arrays by [np.arange]
    (longer arrays are a TypeError; non-constants raise in constant_fold). *)
Definition fold_param (p : param) : res Z :=
  match p with
  | PScalar z => Ok z
  | PVector [z] => Ok z
  | PVector _ => Err TypeError
  | PSymbolic => Err ValueError
  end.

(** distributions.py:55-71 [get_domain_of_finite_discrete_rv]. *)
Definition get_domain (d : dist) : res (list Z) :=
  match d with
  | Bernoulli => Ok [0; 1]%Z
  | Categorical k => Ok (map Z.of_nat (seq 0 k))
  | DiscreteUniform lower upper =>
      do lo <- fold_param lower;
      do hi <- fold_param upper;
      Ok (arange lo (hi + 1))
  | DiscreteMarkovChain k => Ok (map Z.of_nat (seq 0 k))
  | OtherDist => Err NotImplementedError
  end.

(** What the logp of a [MarginalFiniteDiscreteRV] is computed from.  The marginalized
    variable's value tensor is flattened to a [list Z] of length [batch].
    [lp_x c b]: entry [b] of the marginalized variable's own logp at value [c];
    [deps]: for each dependent, [dep c b] lists the entries of its logp (over the axes not
    connected to the marginalized variable) that belong to batch entry [b].
    Simplification: axis bookkeeping ([reduce_batch_dependent_logps]'s transposition) is the
    subject of DimsAlign_Model.v; here the dependents are already lined up. *)
Record marg_op := {
  mop_dist : dist;
  batch : nat;
  lp_x : list Z -> nat -> lr;
  deps : list (list Z -> nat -> list lr)
}.

(** distributions.py:155-161: [joint_logp = marginalized_logp + reduce_batch_dependent_logps(..)];
    the sum over supp_axes is line 111, the addition over dependents line 119. *)
Definition joint_logp (op : marg_op) (c : list Z) (b : nat) : lr :=
  ladd (lp_x op c b) (lsum (map (fun dep => lsum (dep c b)) (deps op))).

(** distributions.py:169-197: the joint is evaluated once per domain value, replicated over the
    whole batch ([pt.full]), then [logsumexp(axis=0)]. *)
Definition marginal_logp_entry (op : marg_op) (dom : list Z) (b : nat) : lr :=
  logsumexp (map (fun v => joint_logp op (repeat v (batch op)) b) dom).

(** distributions.py:144-204 [finite_discrete_marginal_rv_logp]: first value variable gets the
    marginal logp tensor, the others a dummy zero (lines 202-204). *)
Definition finite_discrete_marginal_rv_logp (op : marg_op) : res (list (list lr)) :=
  do dom <- get_domain (mop_dist op);
  Ok (map (marginal_logp_entry op dom) (seq 0 (batch op))
      :: repeat [Fin 0] (length (deps op) - 1)).

(** [Model.logp(sum=True)]: all terms of all variables are added. *)
Definition total_logp (terms : list (list lr)) : lr := lsum (concat terms).

(** A [MarginalDiscreteMarkovChainRV] (one chain, one lag): [k] states, transition matrix,
    logp of the initial distribution, chain length, dependents' logp entries per time step as a
    function of the whole chain value.  Batches of chains are independent copies (not modelled). *)
Record hmm_op := {
  states : nat;
  trans : nat -> nat -> R;
  lp_init : nat -> lr;
  chain_len : nat;
  emis : list (list nat -> nat -> list lr)
}.

(** distributions.py:225-229 *)
Definition reduced_logp_emission (op : hmm_op) (c : list nat) (t : nat) : lr :=
  lsum (map (fun dep => lsum (dep c t)) (emis op)).
(** distributions.py:232-234: emission table, chain set to the constant state [s]. *)
Definition batch_logp_emissions (op : hmm_op) (s t : nat) : lr :=
  reduced_logp_emission op (repeat s (chain_len op)) t.
(** distributions.py:246-249 *)
Definition log_alpha_init (op : hmm_op) (s : nat) : lr :=
  ladd (lp_init op s) (batch_logp_emissions op s 0).
(** distributions.py:251-253 [step_alpha]: [logsumexp(log_alpha[:, None] + log_P, axis=0)];
    [log_P = pt.log(P)] (line 256). *)
Definition step_alpha (op : hmm_op) (logp_emission : nat -> lr) (log_alpha : nat -> lr) (s' : nat) : lr :=
  ladd (logp_emission s')
       (logsumexp (map (fun s => ladd (log_alpha s) (lln (trans op s s'))) (seq 0 (states op)))).
(** distributions.py:257-263: scan over the emissions [1:]. *)
Fixpoint scan_alpha (op : hmm_op) (ts : list nat) (alpha : nat -> lr) : list (nat -> lr) :=
  match ts with
  | [] => []
  | t :: ts' =>
      let a := step_alpha op (fun s => batch_logp_emissions op s t) alpha in
      a :: scan_alpha op ts' a
  end.
(** distributions.py:207-276 [marginal_hmm_logp]; [log_alpha_seq[-1]] is an IndexError when the
    scan ran zero steps. *)
Definition marginal_hmm_logp (op : hmm_op) : res (list (list lr)) :=
  let seq_alpha := scan_alpha op (seq 1 (chain_len op - 1)) (log_alpha_init op) in
  match rev seq_alpha with
  | [] => Err IndexError
  | last :: _ =>
      Ok ([logsumexp (map last (seq 0 (states op)))] :: repeat [Fin 0] (length (emis op) - 1))
  end.

(** [log_softmax] over one axis: subtract the logsumexp; None is NaN (all entries -inf). *)
Definition lsub (a z : lr) : option lr :=
  match z with
  | NInf => None
  | Fin z => Some (match a with NInf => NInf | Fin x => Fin (x - z) end)
  end.
Definition log_softmax (row : list lr) : list (option lr) :=
  map (fun a => lsub a (logsumexp row)) row.

(** marginal_model.py:443-461: batched joint over the domain for batch entry [b]; lp_{name}. *)
Definition recover_lp (op : marg_op) (b : nat) : res (list (option lr)) :=
  do dom <- get_domain (mop_dist op);
  Ok (log_softmax (map (fun v => joint_logp op (repeat v (batch op)) b) dom)).

(** marginal_model.py:463-465: a categorical draw [i] becomes the reported value
    ([rv_draws += rv_domain[0]] for DiscreteUniform only); 416-421: other distributions,
    including DiscreteMarkovChain, are refused. *)
Definition recover_draw (d : dist) (i : nat) : res Z :=
  match d with
  | DiscreteUniform _ _ =>
      do dom <- get_domain d;
      match dom with
      | [] => Err IndexError
      | d0 :: _ => Ok (Z.of_nat i + d0)%Z
      end
  | Bernoulli | Categorical _ => Ok (Z.of_nat i)
  | _ => Err NotImplementedError
  end.
