(** Property theorems C01-C04: marginal logp, HMM logp, domains, recovery. *)
From Verif Require Import Common LogR MargLogp_Model MargLogp_Spec MargLogp_Proofs.
From Coq Require Import ZArith.
Local Open Scope R_scope.

(** C01. *)
Theorem C01_marginal_logp_is_log_marginal_sum : forall op supp out,
  scalar_params (mop_dist op) ->
  NoDup supp -> (forall v, In v supp <-> in_support (mop_dist op) v) ->
  separable (batch op) (lp_x op) -> Forall (separable (batch op)) (deps op) ->
  deps op <> [] ->
  finite_discrete_marginal_rv_logp op = Ok out ->
  total_logp out = lln (marginal_probability op supp)
  /\ lexp (total_logp out) = marginal_probability op supp
  /\ length out = length (deps op)
  /\ (forall i, (0 < i < length out)%nat -> nth_error out i = Some [Fin 0]).
Proof. exact finite_marginal_sum_supp. Qed.
Print Assumptions C01_marginal_logp_is_log_marginal_sum.

(** C02. *)
Theorem C02_hmm_logp_is_log_sum_over_paths : forall op,
  (forall s s', 0 <= trans op s s') -> (2 <= chain_len op)%nat ->
  Forall (separable (chain_len op)) (emis op) -> emis op <> [] ->
  exists out, marginal_hmm_logp op = Ok out
    /\ total_logp out = lln (hmm_probability op)
    /\ lexp (total_logp out) = hmm_probability op
    /\ length out = length (emis op)
    /\ (forall i, (0 < i < length out)%nat -> nth_error out i = Some [Fin 0]).
Proof. exact hmm_forward. Qed.
Print Assumptions C02_hmm_logp_is_log_sum_over_paths.

(** The bound 2 is exact: a chain of length 1 (or 0) has no logp at all. *)
Theorem C02_one_step_chain_has_no_logp : forall op,
  (chain_len op < 2)%nat -> marginal_hmm_logp op = Err IndexError.
Proof. exact hmm_short_chain. Qed.
Print Assumptions C02_one_step_chain_has_no_logp.

(** C03. *)
Theorem C03_domain_is_support : forall d dom,
  get_domain d = Ok dom -> scalar_params d ->
  increasing dom /\ (forall v, In v dom <-> in_support d v).
Proof. exact get_domain_spec. Qed.
Print Assumptions C03_domain_is_support.

Theorem C03_domain_total : forall d,
  scalar_params d -> d <> OtherDist -> exists dom, get_domain d = Ok dom.
Proof. exact get_domain_total. Qed.
Print Assumptions C03_domain_total.

Theorem C03_unsupported_refused : get_domain OtherDist = Err NotImplementedError.
Proof. reflexivity. Qed.
Print Assumptions C03_unsupported_refused.

(** A DiscreteUniform with a batch of bounds cannot be enumerated: refused, never mis-enumerated. *)
Theorem C03_batched_bounds_refused : forall a b l hi,
  get_domain (DiscreteUniform (PVector (a :: b :: l)) hi) = Err TypeError.
Proof. reflexivity. Qed.
Print Assumptions C03_batched_bounds_refused.

(** C04: Bayes' rule for every batch entry and domain value, and sum to one. *)
Theorem C04_recovered_lp_is_bayes_posterior : forall op supp b dom,
  scalar_params (mop_dist op) ->
  NoDup supp -> (forall v, In v supp <-> in_support (mop_dist op) v) ->
  get_domain (mop_dist op) = Ok dom ->
  separable (batch op) (lp_x op) -> Forall (separable (batch op)) (deps op) ->
  (b < batch op)%nat -> 0 < marginal_probability op supp ->
  exists lps, recover_lp op b = Ok lps
    /\ length lps = length dom
    /\ Rsum (map (fun o => match o with Some l => lexp l | None => 0 end) lps) = 1
    /\ forall i v, nth_error dom i = Some v ->
         exists l, nth_error lps i = Some (Some l)
           /\ lexp l = joint_probability_at op supp b v / marginal_probability op supp.
Proof. exact recover_bayes_supp. Qed.
Print Assumptions C04_recovered_lp_is_bayes_posterior.

Theorem C04_draw_is_domain_value : forall d dom i v,
  get_domain d = Ok dom -> nth_error dom i = Some v ->
  match d with DiscreteMarkovChain _ => recover_draw d i = Err NotImplementedError
             | _ => recover_draw d i = Ok v end.
Proof. exact recover_draw_spec. Qed.
Print Assumptions C04_draw_is_domain_value.

(** Non-vacuity: a Bernoulli vector of two entries with one dependent of three observations each,
    one value of which is impossible. *)
Definition demo_op : marg_op := {|
  mop_dist := Bernoulli; batch := 2;
  lp_x := fun c b => match nth_error c b with Some 0%Z => lln (1/3) | Some 1%Z => lln (2/3) | _ => NInf end;
  deps := [fun c b => match nth_error c b with
                      | Some 0%Z => [Fin 0; Fin (-1); Fin (-2)]
                      | _ => [Fin (-3); NInf; Fin 1] end] |}.
Example C01_hypotheses_met :
  scalar_params (mop_dist demo_op)
  /\ NoDup [0; 1]%Z /\ (forall v, In v [0; 1]%Z <-> in_support Bernoulli v)
  /\ separable (batch demo_op) (lp_x demo_op)
  /\ Forall (separable (batch demo_op)) (deps demo_op)
  /\ deps demo_op <> []
  /\ exists out, finite_discrete_marginal_rv_logp demo_op = Ok out.
Proof.
  split; [exact I|]. split; [repeat constructor; simpl; intuition lia|].
  split; [intros v; simpl; lia|].
  split; [|split; [|split; [discriminate | eexists; reflexivity]]].
  - intros c c' b _ _ _ E. simpl. now rewrite E.
  - constructor; [|constructor]. intros c c' b _ _ _ E. now rewrite E.
Qed.
(** and its marginal probability is positive: (1/3 e^-3)^2. *)
Example C04_hypotheses_met : 0 < marginal_probability demo_op [0; 1]%Z.
Proof.
  rewrite marginal_probability_prod.
  - assert (H0 : forall b, (b < 2)%nat -> 0 < local_weight demo_op b 0%Z).
    { intros b Hb. unfold local_weight. rewrite lexp_joint_logp.
      destruct b as [|[|b]]; [| |lia]; cbn [lp_x demo_op batch repeat nth_error deps map Rprod fold_right lexp];
        rewrite lexp_lln by lra;
        repeat (apply Rmult_lt_0_compat); try lra; try apply exp_pos. }
    assert (H1 : forall b, 0 <= local_weight demo_op b 1%Z) by (intros; apply lexp_nonneg).
    change (batch demo_op) with 2%nat. cbn [map seq Rprod Rsum fold_right].
    pose proof (H0 0%nat ltac:(lia)). pose proof (H0 1%nat ltac:(lia)).
    pose proof (H1 0%nat). pose proof (H1 1%nat).
    apply Rmult_lt_0_compat; [lra|]. apply Rmult_lt_0_compat; lra.
  - intros c c' b _ _ _ E. simpl. now rewrite E.
  - constructor; [|constructor]. intros c c' b _ _ _ E. now rewrite E.
Qed.
Definition demo_hmm : hmm_op := {|
  states := 2; trans := fun s s' => if Nat.eqb s s' then 3/4 else 1/4;
  lp_init := fun s => lln (1/2); chain_len := 3;
  emis := [fun c t => match nth_error c t with Some 0%nat => [Fin 0] | _ => [Fin (-1); Fin 2] end] |}.
Example C02_hypotheses_met :
  (forall s s', 0 <= trans demo_hmm s s') /\ (2 <= chain_len demo_hmm)%nat
  /\ Forall (separable (chain_len demo_hmm)) (emis demo_hmm) /\ emis demo_hmm <> [].
Proof.
  split; [intros s s'; simpl; destruct (Nat.eqb s s'); lra|].
  split; [simpl; lia|]. split; [|discriminate].
  constructor; [|constructor]. intros c c' b _ _ _ E. now rewrite E.
Qed.
Example C03_domain_example : get_domain (DiscreteUniform (PScalar (-1)) (PScalar 2)) = Ok [-1; 0; 1; 2]%Z.
Proof. reflexivity. Qed.
Example C04_draw_example : recover_draw (DiscreteUniform (PScalar (-1)) (PScalar 2)) 3 = Ok 2%Z.
Proof. reflexivity. Qed.
