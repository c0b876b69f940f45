(** C84: marginalizing several variables one after the other. *)
From Verif Require Import Common LogR Dims_Model MargLogp_Model MargLogp_Spec MargLogp_Proofs MargLogp_Props Nested_Model.
From Coq Require Import ZArith Reals Lra Permutation.
Local Open Scope R_scope.

(** ** Specification *)
(** Probability of everything else when both x (n entries) and z are summed out, over all values of both. *)
Definition joint_marginal (suppx suppz : list Z) (n m : nat) (lpx : list Z -> nat -> lr) (others : list (list Z -> nat -> list lr))
    (lpz : list Z -> list Z -> nat -> lr) (depz : list Z -> list (list Z -> nat -> list lr)) : R :=
  Rsum (map (fun cx => Rsum (map (fun cz => lexp (full_joint n lpx others cx) * lexp (full_joint m (lpz cx) (depz cx) cz))
                                 (configs suppz m))) (configs suppx n)).

(** ** The two marginalizations agree with the joint sum *)
Lemma Rprod_perm l1 l2 : Permutation l1 l2 -> Rprod l1 = Rprod l2.
Proof. induction 1; simpl; lra || nra. Qed.
Lemma filter_partition n m (beta : nat -> nat) : (forall j, (j < m)%nat -> (beta j < n)%nat) ->
  Permutation (flat_map (fun b => filter (fun j => Nat.eqb (beta j) b) (seq 0 m)) (seq 0 n)) (seq 0 m).
Proof.
  intros H. assert (G : forall l, Forall (fun j => (beta j < n)%nat) l -> Permutation (flat_map (fun b => filter (fun j => Nat.eqb (beta j) b) l) (seq 0 n)) l).
  { induction l as [|j l IH]; intros F.
    - induction (seq 0 n); cbn; auto.
    - inversion F as [|? ? F1 F2]; subst. specialize (IH F2).
      assert (K : forall bs, NoDup bs -> Permutation (flat_map (fun b => filter (fun j => Nat.eqb (beta j) b) (j :: l)) bs)
                (if existsb (Nat.eqb (beta j)) bs then j :: flat_map (fun b => filter (fun j => Nat.eqb (beta j) b) l) bs else flat_map (fun b => filter (fun j => Nat.eqb (beta j) b) l) bs)).
      { induction bs as [|b bs IHb]; intros N; [cbn; auto|]. inversion N as [|? ? N1 N2]; subst. specialize (IHb N2). cbn [flat_map existsb filter]. destruct (Nat.eqb_spec (beta j) b) as [E|E]; cbn [orb].
        - cbn [app]. constructor. apply Permutation_app_head. destruct (existsb (Nat.eqb (beta j)) bs) eqn:X; auto.
          apply existsb_exists in X as (b' & Hb & Eb). apply Nat.eqb_eq in Eb. subst b'. rewrite E in Hb. contradiction.
        - destruct (existsb (Nat.eqb (beta j)) bs) eqn:X.
          + rewrite IHb. symmetry. apply Permutation_middle.
          + apply Permutation_app_head. exact IHb. }
      rewrite K by apply seq_NoDup. assert (existsb (Nat.eqb (beta j)) (seq 0 n) = true) as ->.
      { apply existsb_exists. exists (beta j). split; [apply in_seq; lia|apply Nat.eqb_refl]. }
      constructor. exact IH. }
  apply G. apply Forall_forall. intros j Hj. apply in_seq in Hj. apply H. lia.
Qed.
Lemma lexp_rows n m (beta : nat -> nat) (f : nat -> lr) : (forall j, (j < m)%nat -> (beta j < n)%nat) ->
  lexp (lsum (flat_map (fun b => map f (filter (fun j => Nat.eqb (beta j) b) (seq 0 m))) (seq 0 n))) = lexp (lsum (map f (seq 0 m))).
Proof.
  intros H. rewrite !lexp_lsum. apply Rprod_perm. apply Permutation_map. 
  replace (flat_map (fun b => map f (filter (fun j => Nat.eqb (beta j) b) (seq 0 m))) (seq 0 n)) with (map f (flat_map (fun b => filter (fun j => Nat.eqb (beta j) b) (seq 0 m)) (seq 0 n))).
  - apply Permutation_map. apply filter_partition; auto.
  - generalize (seq 0 n). induction l; cbn; auto. rewrite map_app. f_equal. auto.
Qed.
Lemma zeros_sum n : lexp (lsum (flat_map (fun _ : nat => [Fin 0]) (seq 0 n))) = 1.
Proof. rewrite lexp_lsum. generalize (seq 0 n). induction l; [reflexivity|]. cbn [flat_map app map lexp]. unfold Rprod in *. cbn [fold_right]. rewrite IHl, exp_0. lra. Qed.

(** Whenever the first dependent of z is connected to x: for all variables, values, batches, dependents. *)
Theorem C84_joint dx dz n m lpx others lpz depz beta suppx suppz out extra :
  let inner c := {| mop_dist := dz; batch := m; lp_x := lpz c; deps := depz c |} in
  scalar_params dx -> scalar_params dz -> dz <> OtherDist ->
  NoDup suppx -> (forall v, In v suppx <-> in_support dx v) -> NoDup suppz -> (forall v, In v suppz <-> in_support dz v) ->
  (* entries of x only influence what they are connected to *)
  separable n lpx -> Forall (separable n) others ->
  (forall j, (j < m)%nat -> (beta j < n)%nat) ->
  (forall c c' z j, (j < m)%nat -> length c = n -> length c' = n -> nth_error c (beta j) = nth_error c' (beta j) ->
     joint_logp (inner c) z j = joint_logp (inner c') z j) ->
  (* entries of z only influence their own slice of its dependents *)
  (forall c, separable m (lpz c)) -> (forall c, Forall (separable m) (depz c)) -> (forall c, depz c <> []) ->
  finite_discrete_marginal_rv_logp (nested_op dx n lpx others inner (Some beta) extra) = Ok out ->
  total_logp out = lln (joint_marginal suppx suppz n m lpx others lpz depz).
Proof.
  intros inner Hx Hz Hd Nx Sx Nz Sz Lx Lo Hb Lin Lz Ld Hne E.
  destruct (get_domain_total dz Hz Hd) as [dom Edom].
  destruct (C01_marginal_logp_is_log_marginal_sum (nested_op dx n lpx others inner (Some beta) extra) suppx out) as (T & _); auto.
  - cbn. apply Forall_app. split; auto. constructor.
    + intros c c' b Hbn Lc Lc' Ec. unfold inner_terms. cbn. rewrite Edom. apply map_ext_in. intros j Hj. apply filter_In in Hj as [Hj Eb]. apply in_seq in Hj. apply Nat.eqb_eq in Eb.
      unfold marginal_logp_entry. f_equal. apply map_ext. intros v. cbn. apply Lin; auto; [lia|]. rewrite Eb. auto.
    + apply Forall_forall. intros d Hd'. apply repeat_spec in Hd'. subst. intros c c' b _ _ _ _. auto.
  - cbn. destruct others; discriminate.
  - rewrite T. f_equal. unfold marginal_probability, joint_marginal. cbn [batch lp_x deps nested_op]. apply Rsum_map_ext. intros cx Hcx.
    rewrite Rsum_map_mult_l. unfold full_joint at 1. rewrite map_app, lsum_app. cbn [map lsum fold_right]. fold (lsum (map (fun dep => lsum (flat_map (dep cx) (seq 0 n))) (repeat (fun (_ : list Z) (_ : nat) => [Fin 0]) extra))).
    rewrite !lexp_ladd. unfold full_joint at 1. rewrite lexp_ladd.
    assert (Z1 : lexp (lsum (map (fun dep => lsum (flat_map (dep cx) (seq 0 n))) (repeat (fun (_ : list Z) (_ : nat) => [Fin 0]) extra))) = 1).
    { clear. induction extra; cbn [repeat map lsum fold_right]; [cbn; apply exp_0|]. rewrite lexp_ladd. fold (lsum (map (fun dep => lsum (flat_map (dep cx) (seq 0 n))) (repeat (fun (_ : list Z) (_ : nat) => [Fin 0]) extra))). rewrite IHextra.
      rewrite zeros_sum. lra. }
    rewrite Z1. 
    assert (I : lexp (lsum (flat_map (inner_terms inner (Some beta) cx) (seq 0 n))) = Rsum (map (fun cz => lexp (full_joint m (lpz cx) (depz cx) cz)) (configs suppz m))).
    { unfold inner_terms. cbn [mop_dist batch inner]. rewrite Edom. rewrite lexp_rows by auto.
      destruct (C01_marginal_logp_is_log_marginal_sum (inner cx) suppz (map (marginal_logp_entry (inner cx) dom) (seq 0 m) :: repeat [Fin 0] (length (depz cx) - 1))) as (_ & U & _); cbn; auto.
      - unfold finite_discrete_marginal_rv_logp. cbn. rewrite Edom. reflexivity.
      - rewrite total_logp_cons_dummies in U. exact U. }
    rewrite I. ring.
Qed.

(** ** Which axes of a dependent its log-probability has already summed *)
(** A connection to a variable of rank r labels axes by numbers below r, each at most once. *)
Definition connection_of (r : nat) (d : dims) : Prop := NoDup (known_dims d) /\ forall k j, nth k d None = Some j -> (j < r)%nat.
Lemma support_from i rd t : (forall j, In (Some j) rd -> (j <= t)%nat) ->
  forall a, In a (support_axes_from i rd t) <-> (i <= a < i + length rd)%nat /\ nth (a - i) rd None = None.
Proof.
  revert i. induction rd as [|o rd IH]; intros i H a; cbn [support_axes_from length nth]; [split; [intros []|lia]|].
  assert (H' : forall j, In (Some j) rd -> (j <= t)%nat) by (intros; apply H; right; auto). specialize (IH (S i) H' a).
  assert (R : In a (support_axes_from (S i) rd t) <-> ((i <= a < i + S (length rd))%nat /\ nth (a - i) (o :: rd) None = None) /\ a <> i).
  { rewrite IH. split.
    - intros [A B]. replace (a - i)%nat with (S (a - S i)) by lia. cbn. repeat split; auto; lia.
    - intros [[A B] C]. replace (a - i)%nat with (S (a - S i)) in B by lia. cbn in B. split; auto. lia. }
  destruct o as [j|].
  - replace (t <? j)%nat with false by (symmetry; apply Nat.ltb_ge; apply H; left; auto). rewrite R. split; [tauto|]. intros [A B]. split; auto.
    intros ->. rewrite Nat.sub_diag in B. discriminate.
  - cbn [In]. rewrite R. split.
    + intros [->|?]; [|tauto]. rewrite Nat.sub_diag. split; [lia|auto].
    + intros [A B]. destruct (Nat.eq_dec i a); [auto|right; split; auto].
Qed.
Lemma nth_rev_dims (d : dims) a : (1 <= a <= length d)%nat -> nth (a - 1) (rev d) None = nth (length d - a) d None.
Proof. intros H. rewrite rev_nth by lia. f_equal. lia. Qed.
(** Finite discrete variables: exactly the axes not connected to the marginalized variable, counted from the right. *)
Theorem C84_support_axes_finite r d a : connection_of r d -> (r <= length d)%nat ->
  In a (support_axes 0 d) <-> (1 <= a <= length d)%nat /\ nth (length d - a) d None = None.
Proof.
  intros [_ H] Hr. unfold support_axes. rewrite support_from.
  - rewrite rev_length. split; intros [A B].
    + rewrite nth_rev_dims in B by lia. split; auto. lia.
    + split; [lia|]. rewrite nth_rev_dims by lia. auto.
  - intros j Hj. apply in_rev in Hj. apply (In_nth _ _ None) in Hj as (k & Hk & E). apply H in E. lia.
Qed.
(** A later marginalization of x is refused exactly when x reaches a summed axis. *)
Theorem C84_summed_axis_refused r dz dx : connection_of r dz -> (r <= length dz)%nat -> length dx = length dz ->
  marginal_output_dims (Some dx) (support_axes 0 dz) = Err ValueError <-> exists k, (k < length dz)%nat /\ nth k dz None = None /\ nth k dx None <> None.
Proof.
  intros H Hr L. unfold marginal_output_dims. set (p := fun i => _). destruct (existsb p (support_axes 0 dz)) eqn:E; split; try discriminate; auto.
  - intros _. apply existsb_exists in E as (a & Ha & Pa). apply (C84_support_axes_finite r) in Ha as [A B]; auto. exists (length dz - a)%nat. unfold p in Pa. rewrite L in Pa. repeat split; auto; [lia|].
    destruct (nth (length dz - a) dx None); [discriminate|congruence].
  - intros (k & Hk & A & B). assert (existsb p (support_axes 0 dz) = true); [|congruence]. apply existsb_exists. exists (length dz - k)%nat. split.
    + apply (C84_support_axes_finite r); auto. split; [lia|]. replace (length dz - (length dz - k))%nat with k by lia. auto.
    + unfold p. rewrite L. replace (length dz - (length dz - k))%nat with k by lia. destruct (nth k dx None); congruence.
Qed.
(** Refuted for Markov chains: the time axis (label r-1), over which the log-probability of the chain's dependents is summed,
    is never among the support axes. *)
Theorem C84_support_axes_chain_refuted r d k : connection_of r d -> (1 <= r <= length d)%nat -> nth k d None = Some (r - 1)%nat ->
  ~ In (length d - k)%nat (support_axes 1 d).
Proof.
  intros [_ H] Hr E I. unfold support_axes in I. rewrite support_from in I.
  - rewrite rev_length in I. destruct I as [A B]. rewrite nth_rev_dims in B by lia. replace (length d - (length d - k))%nat with k in B by lia. congruence.
  - intros j Hj. apply in_rev in Hj. apply (In_nth _ _ None) in Hj as (i & Hi & Ei). apply H in Ei. lia.
Qed.

(** ** Refuted: what goes wrong *)
(** Weight of an observation given the entry of x it belongs to. *)
Definition w (a b : R) (c : list Z) (j : nat) : R := if Z.eqb (nth j c 0%Z) 0 then a else b.
Definition half (_ : list Z) (_ : nat) : lr := lln (1 / 2).
(** z has two dependents: y1, which does not depend on x, and y2, which does.  If y1 comes first the joint log-probability is
    lined up by y1's (missing) connection to x: x = two fair coins gives ((a^2+b^2)/2)^2 instead of ((a+b)/2)^2. *)
Theorem C84_first_dependent_unconnected_refuted a b : 0 < a -> 0 < b ->
  let inner c := {| mop_dist := Bernoulli; batch := 2; lp_x := half; deps := [(fun _ _ => [Fin 0]); (fun _ j => [lln (w a b c j)])] |} in
  exists out, finite_discrete_marginal_rv_logp (nested_op Bernoulli 2 half [] inner None 1) = Ok out /\
    lexp (total_logp out) = ((a ^ 2 + b ^ 2) / 2) ^ 2 /\
    joint_marginal [0; 1]%Z [0; 1]%Z 2 2 half [] (fun _ => half) (fun c => deps (inner c)) = ((a + b) / 2) ^ 2.
Proof.
  intros Ha Hb inner.
  assert (LH : lexp (lln (1 / 2)) = 1 / 2) by (apply lexp_lln; lra). assert (LA : lexp (lln a) = a) by (apply lexp_lln; lra). assert (LB : lexp (lln b) = b) by (apply lexp_lln; lra).
  eexists. split; [reflexivity|]. split.
  - cbn -[Rdiv logsumexp lln lexp lsum ladd]. unfold total_logp. cbn [concat app]. unfold inner_terms. cbn -[Rdiv logsumexp lln lexp lsum ladd].
    repeat (rewrite ?lexp_lsum, ?lexp_ladd, ?lexp_logsumexp; cbn -[Rdiv logsumexp lln lexp lsum ladd pow]; unfold marginal_logp_entry, joint_logp; cbn -[Rdiv logsumexp lln lexp lsum ladd pow]).
    unfold half, w. cbn -[Rdiv logsumexp lln lexp lsum ladd pow]. rewrite ?LH, ?LA, ?LB. unfold lexp. rewrite ?exp_0. field.
  - unfold joint_marginal. cbn -[Rdiv logsumexp lln lexp lsum ladd pow]. unfold full_joint. cbn -[Rdiv logsumexp lln lexp lsum ladd pow].
    repeat (rewrite ?lexp_lsum, ?lexp_ladd; cbn -[Rdiv logsumexp lln lexp lsum ladd pow]). unfold half, w. cbn -[Rdiv logsumexp lln lexp lsum ladd pow]. rewrite ?LH, ?LA, ?LB. unfold lexp. rewrite ?exp_0. field.
Qed.
(** A chain of two states whose emissions also depend on x (one fair coin per time): accepted, since the time axis is not a
    support axis, and the whole chain's log-probability is added to every entry of x. *)
Theorem C84_chain_refuted a b : 0 < a -> 0 < b ->
  let inner c := {| states := 2; trans := fun _ _ => 1 / 2; lp_init := fun _ => lln (1 / 2); chain_len := 2; emis := [fun _ t => [lln (w a b c t)]] |} in
  marginal_output_dims (Some [Some 0%nat]) (support_axes 1 [Some 0%nat]) = Ok (Some [Some 0%nat]) /\
  exists out, finite_discrete_marginal_rv_logp (nested_chain_op Bernoulli 2 half inner) = Ok out /\
    lexp (total_logp out) = ((a ^ 2 + b ^ 2) / 2) ^ 2 /\
    Rsum (map (fun cx => Rprod (map (fun t => lexp (half cx t)) (seq 0 2)) * hmm_probability (inner cx)) (configs [0; 1]%Z 2)) = ((a + b) / 2) ^ 2.
Proof.
  intros Ha Hb inner. split; [reflexivity|].
  assert (LH : lexp (lln (1 / 2)) = 1 / 2) by (apply lexp_lln; lra). assert (LA : lexp (lln a) = a) by (apply lexp_lln; lra). assert (LB : lexp (lln b) = b) by (apply lexp_lln; lra).
  assert (W : forall c j, lexp (lln (w a b c j)) = w a b c j). { intros c j. apply lexp_lln. unfold w. destruct (Z.eqb _ 0); lra. }
  assert (HP : forall c, hmm_probability (inner c) = w a b c 0 * w a b c 1).
  { intros c. unfold hmm_probability, path_probability. cbn -[Rdiv lexp lln w]. rewrite LH, !W. field. }
  assert (CT : forall c k, lexp (lsum (chain_terms inner c k)) = w a b c 0 * w a b c 1).
  { intros c k. destruct (C02_hmm_logp_is_log_sum_over_paths (inner c)) as (out & E & _ & T & L & _).
    - cbn. intros; lra.
    - cbn. lia.
    - cbn. constructor; auto. intros ? ? ? _ _ _ _. auto.
    - discriminate.
    - unfold chain_terms. rewrite E. destruct out as [|row [|row2 out]]; cbn in L; try discriminate. rewrite HP in T. unfold total_logp in T. cbn [concat] in T. rewrite app_nil_r in T.
      rewrite lexp_lsum. cbn. rewrite T. lra. }
  eexists. split; [reflexivity|]. split.
  - change (lexp (total_logp ([marginal_logp_entry (nested_chain_op Bernoulli 2 half inner) [0; 1]%Z 0; marginal_logp_entry (nested_chain_op Bernoulli 2 half inner) [0; 1]%Z 1] :: repeat [Fin 0] 0)) = ((a ^ 2 + b ^ 2) / 2) ^ 2).
    rewrite total_logp_cons_dummies, lexp_lsum. cbn [map Rprod fold_right]. unfold marginal_logp_entry. rewrite !lexp_logsumexp. cbn [map Rsum fold_right]. rewrite !lexp_joint_logp. cbn [map Rprod fold_right deps nested_chain_op batch lp_x].
    rewrite <- !lexp_lsum, !CT. unfold half. rewrite !LH. unfold w. cbn -[Rdiv pow]. field.
  - cbn -[Rdiv lexp half w hmm_probability pow inner]. rewrite !HP. unfold half. rewrite !LH. unfold w. cbn -[Rdiv pow]. field.
Qed.
Example C84_wrong_value : ((1/2) ^ 2 + (1/4) ^ 2) / 2 <> (1/2 + 1/4) / 2.
Proof. lra. Qed.
(** Hypotheses of C84_joint are met: two coins x, four coins z, two per coin of x, one observation each. *)
Example C84_example : exists out, finite_discrete_marginal_rv_logp (nested_op Bernoulli 2 half []
   (fun c => {| mop_dist := Bernoulli; batch := 4; lp_x := half; deps := [fun z j => [lln (w 1 2 c (j / 2) + w 3 4 z j)]] |}) (Some (fun j => j / 2)%nat) 0) = Ok out /\
  total_logp out = lln (joint_marginal [0; 1]%Z [0; 1]%Z 2 4 half [] (fun _ => half) (fun c => [fun z j => [lln (w 1 2 c (j / 2) + w 3 4 z j)]])).
Proof.
  eexists. split; [reflexivity|]. apply (C84_joint Bernoulli Bernoulli 2 4 half [] (fun _ => half) (fun c => [fun z j => [lln (w 1 2 c (j / 2) + w 3 4 z j)]]) (fun j => j / 2)%nat [0;1]%Z [0;1]%Z _ 0); cbn; auto; try discriminate.
  - repeat constructor; cbn; intuition discriminate.
  - intros v; split; intros H; [destruct H as [<-|[<-|[]]]; auto|destruct H; subst; auto].
  - repeat constructor; cbn; intuition discriminate.
  - intros v; split; intros H; [destruct H as [<-|[<-|[]]]; auto|destruct H; subst; auto].
  - intros ? ? ? _ _ _ _. reflexivity.
  - intros j Hj. destruct j as [|[|[|[|j]]]]; cbn; lia.
  - assert (N : forall (l : list Z) k d, nth k l d = match nth_error l k with Some v => v | None => d end) by (intros l k d; revert k; induction l as [|h l IHl]; intros [|k]; cbn; auto).
    intros c c' z j Hj L L' E. unfold joint_logp. cbn -[Nat.div]. unfold w. rewrite !(N c), !(N c').
    rewrite E. reflexivity.
  - intros c ? ? ? _ _ _ _. reflexivity.
  - intros c. constructor; auto. intros z z' j _ _ _ E. unfold w. 
    assert (N : forall (l : list Z) k d, nth k l d = match nth_error l k with Some v => v | None => d end) by (intros l k d; revert k; induction l as [|h l IHl]; intros [|k]; cbn; auto).
    rewrite !(N z), !(N z'), E. reflexivity.
Qed.
