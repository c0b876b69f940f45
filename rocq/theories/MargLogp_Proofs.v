From Verif Require Import Common LogR MargLogp_Model MargLogp_Spec.
From Coq Require Import ZArith Permutation.
Local Open Scope R_scope.

(** ** C03: domains *)

Lemma fold_param_scalar z : fold_param (PScalar z) = Ok z.
Proof. reflexivity. Qed.

Lemma in_arange lo hi v : In v (arange lo hi) <-> (lo <= v < hi)%Z.
Proof.
  unfold arange. rewrite in_map_iff. split.
  - intros [i [<- Hi]]. apply in_seq in Hi. lia.
  - intros H. exists (Z.to_nat (v - lo)). split; [lia|]. apply in_seq. lia.
Qed.

Lemma map_seq_sorted (f : nat -> Z) s n :
  (forall i, (f i < f (S i))%Z) ->
  forall i j, (i < j < n)%nat -> (nth i (map f (seq s n)) 0 < nth j (map f (seq s n)) 0)%Z.
Proof.
  intros Hf i j Hij.
  rewrite !(nth_indep _ 0%Z (f 0%nat)) by (rewrite map_length, seq_length; lia).
  rewrite !map_nth, !seq_nth by lia.
  assert (Hm : forall k, (0 < k)%nat -> (f (s + i)%nat < f (s + i + k)%nat)%Z).
  { induction k as [|k IH]; intros Hk; [lia|].
    destruct k as [|k].
    - replace (s + i + 1)%nat with (S (s + i)) by lia. apply Hf.
    - replace (s + i + S (S k))%nat with (S (s + i + S k)) by lia.
      specialize (IH ltac:(lia)). specialize (Hf (s + i + S k)%nat). lia. }
  replace (s + j)%nat with (s + i + (j - i))%nat by lia. apply Hm. lia.
Qed.

Lemma increasing_NoDup l : increasing l -> NoDup l.
Proof.
  intros H. apply (NoDup_nth l 0%Z). intros i j Hi Hj E.
  destruct (Nat.lt_trichotomy i j) as [Hlt|[Heq|Hlt]]; auto.
  - specialize (H i j ltac:(lia)). lia.
  - specialize (H j i ltac:(lia)). lia.
Qed.

Lemma get_domain_spec d dom :
  get_domain d = Ok dom ->
  scalar_params d ->
  increasing dom /\ (forall v, In v dom <-> in_support d v).
Proof.
  assert (Hseq : forall k, increasing (map Z.of_nat (seq 0 k)) /\
             forall v, In v (map Z.of_nat (seq 0 k)) <-> (0 <= v < Z.of_nat k)%Z).
  { intros k. split.
    - intros i j Hij. rewrite map_length, seq_length in Hij.
      apply map_seq_sorted; [intros; lia | lia].
    - intros v. rewrite in_map_iff. split.
      + intros [i [<- Hi]]. apply in_seq in Hi. lia.
      + intros Hv. exists (Z.to_nat v). split; [lia|]. apply in_seq. lia. }
  destruct d as [|k|lo hi|k|]; intros Hd Hs.
  - simpl in Hd. injection Hd as <-. split.
    + intros [|[|i]] [|[|j]]; simpl; intros; lia.
    + intros v; simpl; lia.
  - simpl in Hd. injection Hd as <-. apply Hseq.
  - destruct Hs as [a [b [-> ->]]]. simpl in Hd. injection Hd as <-. split.
    + intros i j Hij. unfold arange in *. rewrite map_length, seq_length in Hij.
      apply map_seq_sorted; [intros; lia | lia].
    + intros v. rewrite in_arange. simpl. lia.
  - simpl in Hd. injection Hd as <-. apply Hseq.
  - discriminate.
Qed.

(** ** C01: the marginal sum *)

(** product of [f b (c_b)] along a configuration, batch index starting at [s] *)
Fixpoint prodc {A} (f : nat -> A -> R) (s : nat) (c : list A) : R :=
  match c with [] => 1 | v :: c' => f s v * prodc f (S s) c' end.

Lemma distribute {A} (f : nat -> A -> R) dom n s :
  Rsum (map (prodc f s) (configs dom n))
  = Rprod (map (fun b => Rsum (map (f b) dom)) (seq s n)).
Proof.
  revert s. induction n as [|n IH]; intros s; simpl.
  - ring.
  - rewrite Rsum_flat_map, <- IH, <- Rsum_map_mult_r.
    apply Rsum_map_ext. intros v _. rewrite map_map. simpl.
    rewrite Rsum_map_mult_l. reflexivity.
Qed.

Lemma prodc_seq {A} (f : nat -> A -> R) (d : A) s c :
  prodc f s c = Rprod (map (fun b => f b (nth (b - s) c d)) (seq s (length c))).
Proof.
  revert s. induction c as [|v c IH]; intros s; simpl; [reflexivity|].
  rewrite Nat.sub_diag. rewrite IH. f_equal. f_equal. apply map_ext_in.
  intros b Hb. apply in_seq in Hb. replace (b - s)%nat with (S (b - S s))%nat by lia. reflexivity.
Qed.

Lemma Rsum_permutation l1 l2 : Permutation l1 l2 -> Rsum l1 = Rsum l2.
Proof. induction 1; simpl; lra. Qed.

Lemma Rprod_flat_map {A} (f : A -> list R) l :
  Rprod (flat_map f l) = Rprod (map (fun a => Rprod (f a)) l).
Proof. induction l as [|a l IH]; simpl; [reflexivity | rewrite Rprod_app, IH; reflexivity]. Qed.

Lemma map_flat_map {A B C} (g : B -> C) (f : A -> list B) l :
  map g (flat_map f l) = flat_map (fun a => map g (f a)) l.
Proof. induction l as [|a l IH]; simpl; [reflexivity | rewrite map_app, IH; reflexivity]. Qed.

Lemma Rprod_swap {A B} (f : A -> B -> R) la lb :
  Rprod (map (fun a => Rprod (map (f a) lb)) la)
  = Rprod (map (fun b => Rprod (map (fun a => f a b) la)) lb).
Proof.
  induction la as [|a la IH]; simpl.
  - induction lb as [|b lb IHb]; simpl; [reflexivity | rewrite <- IHb; ring].
  - rewrite IH. rewrite <- Rprod_map_mult. reflexivity.
Qed.

Lemma lexp_joint_logp op c b :
  lexp (joint_logp op c b)
  = lexp (lp_x op c b) * Rprod (map (fun dep => Rprod (map lexp (dep c b))) (deps op)).
Proof.
  unfold joint_logp. rewrite lexp_ladd, lexp_lsum, map_map. f_equal. f_equal.
  apply map_ext. intros dep. apply lexp_lsum.
Qed.

Lemma lexp_full_joint op c :
  lexp (full_joint (batch op) (lp_x op) (deps op) c)
  = Rprod (map (fun b => lexp (joint_logp op c b)) (seq 0 (batch op))).
Proof.
  unfold full_joint. rewrite lexp_ladd, !lexp_lsum, !map_map.
  transitivity (Rprod (map (fun b => lexp (lp_x op c b)) (seq 0 (batch op)))
    * Rprod (map (fun dep => Rprod (map (fun b => Rprod (map lexp (dep c b))) (seq 0 (batch op)))) (deps op))).
  - f_equal. f_equal. apply map_ext. intros dep.
    rewrite lexp_lsum, map_flat_map, Rprod_flat_map. reflexivity.
  - rewrite Rprod_swap, <- Rprod_map_mult. f_equal. apply map_ext. intros b.
    now rewrite lexp_joint_logp.
Qed.

Lemma nth_error_repeat_lt {A} (v : A) n b : (b < n)%nat -> nth_error (repeat v n) b = Some v.
Proof.
  revert b. induction n as [|n IH]; intros [|b] Hb; simpl; try lia; auto. apply IH. lia.
Qed.

Lemma joint_sep op c b v :
  separable (batch op) (lp_x op) -> Forall (separable (batch op)) (deps op) ->
  (b < batch op)%nat -> length c = batch op -> nth_error c b = Some v ->
  joint_logp op c b = joint_logp op (repeat v (batch op)) b.
Proof.
  intros Hx Hd Hb Hc Hn. unfold joint_logp.
  assert (E : nth_error c b = nth_error (repeat v (batch op)) b)
    by (rewrite nth_error_repeat_lt by lia; exact Hn).
  f_equal.
  - apply Hx; auto. now rewrite repeat_length.
  - f_equal. apply map_ext_in. intros dep Hdep. f_equal.
    rewrite Forall_forall in Hd. apply (Hd dep Hdep); auto. now rewrite repeat_length.
Qed.

Definition local_weight (op : marg_op) (b : nat) (v : Z) : R :=
  lexp (joint_logp op (repeat v (batch op)) b).

Lemma full_joint_prodc op c :
  separable (batch op) (lp_x op) -> Forall (separable (batch op)) (deps op) ->
  length c = batch op ->
  lexp (full_joint (batch op) (lp_x op) (deps op) c) = prodc (local_weight op) 0 c.
Proof.
  intros Hx Hd Hc. rewrite lexp_full_joint, (prodc_seq _ 0%Z), Hc.
  f_equal. apply map_ext_in. intros b Hb. apply in_seq in Hb.
  rewrite Nat.sub_0_r. unfold local_weight.
  f_equal. apply joint_sep; auto; try lia.
  apply nth_error_nth'. lia.
Qed.

Lemma marginal_probability_prod op supp :
  separable (batch op) (lp_x op) -> Forall (separable (batch op)) (deps op) ->
  marginal_probability op supp
  = Rprod (map (fun b => Rsum (map (local_weight op b) supp)) (seq 0 (batch op))).
Proof.
  intros Hx Hd. unfold marginal_probability. rewrite <- distribute.
  apply Rsum_map_ext. intros c Hc. apply configs_complete in Hc as [Hl _].
  now apply full_joint_prodc.
Qed.

Lemma total_logp_cons_dummies row n :
  total_logp (row :: repeat [Fin 0] n) = lsum row.
Proof.
  unfold total_logp. simpl. rewrite lsum_app.
  replace (lsum (concat (repeat [Fin 0] n))) with (Fin 0); [apply ladd_0_r|].
  induction n as [|n IH]; simpl; [reflexivity|]. rewrite <- IH. f_equal. ring.
Qed.

Lemma finite_marginal_sum op supp out :
  (exists dom, get_domain (mop_dist op) = Ok dom /\ Permutation dom supp) ->
  separable (batch op) (lp_x op) -> Forall (separable (batch op)) (deps op) ->
  deps op <> [] ->
  finite_discrete_marginal_rv_logp op = Ok out ->
  total_logp out = lln (marginal_probability op supp)
  /\ lexp (total_logp out) = marginal_probability op supp
  /\ length out = length (deps op)
  /\ (forall i, (0 < i < length out)%nat -> nth_error out i = Some [Fin 0]).
Proof.
  intros [dom [Hdom Hperm]] Hx Hd Hne Hout.
  unfold finite_discrete_marginal_rv_logp in Hout. rewrite Hdom in Hout. simpl in Hout.
  injection Hout as <-.
  assert (E : lexp (total_logp (map (marginal_logp_entry op dom) (seq 0 (batch op))
              :: repeat [Fin 0] (length (deps op) - 1))) = marginal_probability op supp).
  { rewrite total_logp_cons_dummies, marginal_probability_prod by assumption.
    rewrite lexp_lsum, map_map. f_equal. apply map_ext. intros b.
    unfold marginal_logp_entry. rewrite lexp_logsumexp, map_map.
    apply Rsum_permutation. apply Permutation_map. exact Hperm. }
  split; [|split; [exact E | split]].
  - rewrite <- E. now rewrite lln_lexp.
  - simpl. rewrite repeat_length. destruct (deps op); [contradiction | simpl; lia].
  - simpl. rewrite repeat_length. intros [|i] Hi; [lia|]. simpl.
    apply nth_error_repeat_lt. lia.
Qed.

(** ** C04: recovery is Bayes' rule *)

Definition pin (f : nat -> Z -> R) (b : nat) (v : Z) (b' : nat) (u : Z) : R :=
  if Nat.eqb b' b then (if Z.eqb u v then f b' u else 0) else f b' u.

Lemma prodc_pin f b v s c :
  (s <= b)%nat ->
  prodc (pin f b v) s c
  = if match nth_error c (b - s) with Some u => Z.eqb u v | None => true end
    then prodc f s c else 0.
Proof.
  revert s. induction c as [|u c IH]; intros s Hs; simpl.
  - destruct (b - s)%nat; reflexivity.
  - destruct (Nat.eq_dec s b) as [->|Hne].
    + rewrite Nat.sub_diag. simpl. unfold pin at 1. rewrite Nat.eqb_refl.
      assert (Ht : forall s', (b < s')%nat -> prodc (pin f b v) s' c = prodc f s' c).
      { clear. induction c as [|w c IH]; intros s' Hs'; simpl; [reflexivity|].
        rewrite IH by lia. unfold pin. destruct (Nat.eqb_spec s' b); [lia | reflexivity]. }
      rewrite Ht by lia. destruct (Z.eqb u v); ring.
    + replace (b - s)%nat with (S (b - S s)) by lia. simpl. rewrite IH by lia.
      unfold pin at 1. destruct (Nat.eqb_spec s b); [lia|].
      destruct (match nth_error c (b - S s) with Some u0 => Z.eqb u0 v | None => true end); ring.
Qed.

Lemma Rsum_filter {A} (p : A -> bool) (f : A -> R) l :
  Rsum (map f (filter p l)) = Rsum (map (fun a => if p a then f a else 0) l).
Proof.
  induction l as [|a l IH]; simpl; [reflexivity|].
  destruct (p a); simpl; rewrite IH; ring.
Qed.

Lemma Rsum_indicator (f : Z -> R) v l :
  NoDup l -> In v l -> Rsum (map (fun u => if Z.eqb u v then f u else 0) l) = f v.
Proof.
  intros Hnd Hin. induction Hnd as [|u l Hu Hnd IH]; [destruct Hin|]. simpl.
  destruct (Z.eqb_spec u v) as [->|Hne].
  - replace (Rsum _) with 0; [ring|].
    transitivity (Rsum (map (fun _ : Z => 0) l)); [symmetry; apply Rsum_zero|].
    apply Rsum_map_ext. intros w Hw.
    destruct (Z.eqb_spec w v); [subst; contradiction | reflexivity].
  - destruct Hin as [->|Hin]; [congruence|]. rewrite IH by assumption. ring.
Qed.

Lemma Rprod_split (g : nat -> R) b n :
  (b < n)%nat ->
  exists rest, Rprod (map g (seq 0 n)) = g b * rest /\
   forall h, (forall i, i <> b -> h i = g i) -> Rprod (map h (seq 0 n)) = h b * rest.
Proof.
  intros Hb.
  replace n with (b + S (n - b - 1))%nat by lia.
  rewrite seq_app. simpl.
  exists (Rprod (map g (seq 0 b)) * Rprod (map g (seq (S b) (n - b - 1)))). split.
  - rewrite map_app, Rprod_app. simpl. ring.
  - intros h Hh. rewrite map_app, Rprod_app. simpl.
    rewrite (map_ext_in h g (seq 0 b)) by (intros i Hi; apply in_seq in Hi; apply Hh; lia).
    rewrite (map_ext_in h g (seq (S b) _)) by (intros i Hi; apply in_seq in Hi; apply Hh; lia).
    ring.
Qed.

Lemma joint_probability_at_prod op supp b v :
  separable (batch op) (lp_x op) -> Forall (separable (batch op)) (deps op) ->
  NoDup supp -> In v supp -> (b < batch op)%nat ->
  exists rest,
    marginal_probability op supp = Rsum (map (local_weight op b) supp) * rest
    /\ joint_probability_at op supp b v = local_weight op b v * rest.
Proof.
  intros Hx Hd Hnd Hv Hb.
  destruct (Rprod_split (fun b => Rsum (map (local_weight op b) supp)) b (batch op) Hb)
    as [rest [Hrest Hother]].
  exists rest. split; [rewrite marginal_probability_prod by assumption; exact Hrest|].
  unfold joint_probability_at. rewrite Rsum_filter.
  transitivity (Rsum (map (prodc (pin (local_weight op) b v) 0) (configs supp (batch op)))).
  - apply Rsum_map_ext. intros c Hc. apply configs_complete in Hc as [Hl _].
    rewrite prodc_pin by lia. rewrite Nat.sub_0_r.
    destruct (nth_error c b) as [u|] eqn:E.
    + destruct (Z.eqb u v); [apply full_joint_prodc; auto | reflexivity].
    + apply nth_error_None in E. lia.
  - rewrite distribute.
    rewrite (Hother (fun b' => Rsum (map (pin (local_weight op) b v b') supp))).
    + f_equal. unfold pin. rewrite Nat.eqb_refl. apply Rsum_indicator; assumption.
    + intros i Hi. apply Rsum_map_ext. intros u _. unfold pin.
      destruct (Nat.eqb_spec i b); [contradiction | reflexivity].
Qed.

Lemma lsub_lexp a z r : lsub a z = Some r -> lexp r = lexp a / lexp z.
Proof.
  destruct z as [|z]; simpl; [discriminate|]. intros H. injection H as <-.
  destruct a as [|x]; simpl.
  - unfold Rdiv. ring.
  - unfold Rminus. rewrite exp_plus, exp_Ropp. reflexivity.
Qed.

Lemma recover_bayes op supp b dom :
  get_domain (mop_dist op) = Ok dom -> NoDup dom -> Permutation dom supp ->
  separable (batch op) (lp_x op) -> Forall (separable (batch op)) (deps op) ->
  (b < batch op)%nat -> 0 < marginal_probability op supp ->
  exists lps, recover_lp op b = Ok lps
    /\ length lps = length dom
    /\ Rsum (map (fun o => match o with Some l => lexp l | None => 0 end) lps) = 1
    /\ forall i v, nth_error dom i = Some v ->
         exists l, nth_error lps i = Some (Some l)
           /\ lexp l = joint_probability_at op supp b v / marginal_probability op supp.
Proof.
  intros Hdom Hnd Hperm Hx Hd Hb Hpos.
  unfold recover_lp. rewrite Hdom. simpl. eexists. split; [reflexivity|].
  set (row := map (fun v => joint_logp op (repeat v (batch op)) b) dom).
  assert (Hrow : lexp (logsumexp row) = Rsum (map (local_weight op b) dom)).
  { rewrite lexp_logsumexp. unfold row. rewrite map_map. reflexivity. }
  assert (Hndsupp : NoDup supp) by (eapply Permutation_NoDup; eauto).
  assert (Hsums : Rsum (map (local_weight op b) dom) = Rsum (map (local_weight op b) supp))
    by (apply Rsum_permutation, Permutation_map; assumption).
  assert (Hnz : Rsum (map (local_weight op b) dom) <> 0).
  { destruct dom as [|v dom'] eqn:Edom.
    - exfalso. apply Permutation_nil in Hperm. subst supp.
      revert Hpos. unfold marginal_probability. destruct (batch op) as [|n]; [lia|].
      simpl. lra.
    - destruct (joint_probability_at_prod op supp b v) as [rest [Hr _]]; auto.
      + eapply Permutation_in; [exact Hperm | now left].
      + rewrite Hsums. intros E. rewrite Hr, E in Hpos. lra. }
  assert (Hsome : exists z, logsumexp row = Fin z).
  { destruct (logsumexp row) as [|z] eqn:E; [|now exists z].
    simpl in Hrow. congruence. }
  destruct Hsome as [z Hz].
  assert (Hval : forall a, lsub a (logsumexp row) = Some (match a with NInf => NInf | Fin x => Fin (x - z) end)).
  { intros a. rewrite Hz. reflexivity. }
  split; [|split].
  - unfold log_softmax. rewrite map_length. unfold row. now rewrite map_length.
  - unfold log_softmax. rewrite map_map.
    transitivity (Rsum (map (fun a => lexp a * / lexp (logsumexp row)) row)).
    + apply Rsum_map_ext. intros a _. rewrite Hval. apply (lsub_lexp a (logsumexp row)), Hval.
    + rewrite Rsum_map_mult_r, <- lexp_logsumexp. apply Rinv_r. rewrite Hrow. exact Hnz.
  - intros i v Hi.
    exists (match joint_logp op (repeat v (batch op)) b with NInf => NInf | Fin x => Fin (x - z) end).
    split.
    + unfold log_softmax. rewrite nth_error_map. unfold row. rewrite nth_error_map, Hi. simpl.
      fold row. now rewrite Hval.
    + assert (Hv : In v supp).
      { eapply Permutation_in; [exact Hperm|]. eapply nth_error_In; eauto. }
      destruct (joint_probability_at_prod op supp b v) as [rest [Hr Hj]]; auto.
      rewrite Hj, Hr. rewrite (lsub_lexp _ _ _ (Hval _)), Hrow, Hsums.
      fold (local_weight op b v).
      assert (rest <> 0) by (intros ->; rewrite Hr in Hpos; lra).
      field. split; [assumption|]. rewrite <- Hsums. exact Hnz.
Qed.

Lemma recover_draw_spec d dom i v :
  get_domain d = Ok dom -> nth_error dom i = Some v ->
  match d with DiscreteMarkovChain _ => recover_draw d i = Err NotImplementedError
             | _ => recover_draw d i = Ok v end.
Proof.
  destruct d as [|k|lo hi|k|]; intros Hd Hi; try discriminate; simpl; auto.
  - simpl in Hd. injection Hd as <-. destruct i as [|[|i]]; simpl in *; try congruence.
    destruct i; discriminate.
  - simpl in Hd. injection Hd as <-. rewrite nth_error_map in Hi.
    destruct (nth_error (seq 0 k) i) as [j|] eqn:E; [|discriminate]. simpl in Hi.
    injection Hi as <-.
    assert (Hlt : (i < k)%nat) by (rewrite <- (seq_length k 0); apply nth_error_Some; congruence).
    apply nth_error_nth with (d := 0%nat) in E. rewrite seq_nth in E by assumption.
    subst. reflexivity.
  - simpl in Hd. destruct (fold_param lo) as [a|]; [|discriminate].
    destruct (fold_param hi) as [b|]; [|discriminate]. simpl in *. injection Hd as <-.
    unfold arange in *. rewrite nth_error_map in Hi.
    set (n := Z.to_nat (b + 1 - a)) in *.
    destruct (nth_error (seq 0 n) i) as [j|] eqn:E; [|discriminate]. simpl in Hi. injection Hi as <-.
    assert (Hlt : (i < n)%nat) by (rewrite <- (seq_length n 0); apply nth_error_Some; congruence).
    apply nth_error_nth with (d := 0%nat) in E. rewrite seq_nth in E by assumption.
    destruct n as [|n]; [lia|]. simpl. f_equal. lia.
Qed.

(** ** C02: forward algorithm *)

Definition em_weight (op : hmm_op) (t s : nat) : R := lexp (batch_logp_emissions op s t).

(** weight of continuing from state [s] at time [t] along [rest] *)
Fixpoint tail_weight (op : hmm_op) (t s : nat) (rest : list nat) : R :=
  match rest with
  | [] => 1
  | s' :: r => trans op s s' * em_weight op (S t) s' * tail_weight op (S t) s' r
  end.

Lemma step_alpha_exp op t alpha s' :
  (forall s s', 0 <= trans op s s') ->
  lexp (step_alpha op (fun s => batch_logp_emissions op s t) alpha s')
  = em_weight op t s' * Rsum (map (fun s => lexp (alpha s) * trans op s s') (seq 0 (states op))).
Proof.
  intros HP. unfold step_alpha. rewrite lexp_ladd, lexp_logsumexp, map_map. unfold em_weight.
  f_equal. apply Rsum_map_ext. intros s _. rewrite lexp_ladd, lexp_lln by apply HP. reflexivity.
Qed.

Lemma scan_alpha_sum op n t alpha last pre :
  (forall s s', 0 <= trans op s s') ->
  scan_alpha op (seq (S t) (S n)) alpha = pre ++ [last] ->
  Rsum (map (fun s => lexp (last s)) (seq 0 (states op)))
  = Rsum (map (fun s => lexp (alpha s)
        * Rsum (map (tail_weight op t s) (configs (seq 0 (states op)) (S n)))) (seq 0 (states op))).
Proof.
  intros HP. revert t alpha pre. induction n as [|n IH]; intros t alpha pre Hscan.
  - cbn [seq scan_alpha] in Hscan.
    assert (pre = [] /\ last = step_alpha op (fun s => batch_logp_emissions op s (S t)) alpha) as [-> ->].
    { destruct pre as [|a pre]; simpl in Hscan.
      - injection Hscan as ->. auto.
      - exfalso. injection Hscan as _ Hscan. destruct pre; discriminate. }
    set (K := seq 0 (states op)).
    transitivity (Rsum (map (fun s' => Rsum (map (fun s => lexp (alpha s) * (trans op s s' * em_weight op (S t) s')) K)) K)).
    + apply Rsum_map_ext. intros s' _. rewrite step_alpha_exp by assumption. fold K.
      rewrite <- Rsum_map_mult_l. apply Rsum_map_ext. intros s _. ring.
    + rewrite Rsum_swap. apply Rsum_map_ext. intros s _.
      rewrite Rsum_map_mult_l. f_equal. cbn [configs]. rewrite Rsum_flat_map.
      apply Rsum_map_ext. intros s' _. simpl. ring.
  - assert (Hsc : exists pre', scan_alpha op (seq (S (S t)) (S n))
        (step_alpha op (fun s => batch_logp_emissions op s (S t)) alpha) = pre' ++ [last]).
    { cbn [seq] in Hscan. cbn [scan_alpha] in Hscan. cbn [seq scan_alpha].
      destruct pre as [|a pre]; simpl in Hscan.
      - discriminate.
      - injection Hscan as _ Hscan. exists pre. exact Hscan. }
    destruct Hsc as [pre' Hsc]. apply IH in Hsc. rewrite Hsc. clear IH Hsc Hscan.
    set (K := seq 0 (states op)).
    set (W := fun s' => Rsum (map (tail_weight op (S t) s') (configs K (S n)))).
    transitivity (Rsum (map (fun s' => Rsum (map (fun s => lexp (alpha s) * (trans op s s' * em_weight op (S t) s' * W s')) K)) K)).
    + apply Rsum_map_ext. intros s' _. rewrite step_alpha_exp by assumption. fold K. fold (W s').
      rewrite <- Rsum_map_mult_l, <- Rsum_map_mult_r. apply Rsum_map_ext. intros s _. ring.
    + rewrite Rsum_swap. apply Rsum_map_ext. intros s _.
      rewrite Rsum_map_mult_l. f_equal.
      change (configs K (S (S n))) with (flat_map (fun v => map (cons v) (configs K (S n))) K).
      rewrite Rsum_flat_map. apply Rsum_map_ext. intros s' _.
      rewrite map_map. unfold W. rewrite <- Rsum_map_mult_l. reflexivity.
Qed.

Lemma tail_weight_split op t s rest :
  tail_weight op t s rest
  = transitions (trans op) s rest * prodc (em_weight op) (S t) rest.
Proof.
  revert t s. induction rest as [|s' r IH]; intros t s; simpl; [ring|].
  rewrite IH. ring.
Qed.

Lemma emission_paths op path :
  Forall (separable (chain_len op)) (emis op) -> length path = chain_len op ->
  Rprod (map (fun t => Rprod (map (fun dep => Rprod (map lexp (dep path t))) (emis op)))
             (seq 0 (chain_len op)))
  = prodc (em_weight op) 0 path.
Proof.
  intros Hsep Hl. rewrite (prodc_seq _ 0%nat), Hl. f_equal. apply map_ext_in.
  intros t Ht. apply in_seq in Ht. rewrite Nat.sub_0_r.
  unfold em_weight, batch_logp_emissions, reduced_logp_emission.
  rewrite lexp_lsum, map_map. f_equal. apply map_ext_in. intros dep Hdep.
  rewrite lexp_lsum. f_equal. f_equal. rewrite Forall_forall in Hsep.
  apply (Hsep dep Hdep); auto; try lia.
  - now rewrite repeat_length.
  - rewrite nth_error_repeat_lt by lia. apply nth_error_nth'. lia.
Qed.

Lemma hmm_forward op :
  (forall s s', 0 <= trans op s s') -> (2 <= chain_len op)%nat ->
  Forall (separable (chain_len op)) (emis op) -> emis op <> [] ->
  exists out, marginal_hmm_logp op = Ok out
    /\ total_logp out = lln (hmm_probability op)
    /\ lexp (total_logp out) = hmm_probability op
    /\ length out = length (emis op)
    /\ (forall i, (0 < i < length out)%nat -> nth_error out i = Some [Fin 0]).
Proof.
  intros HP HT Hsep Hne.
  destruct (chain_len op) as [|[|n]] eqn:ET; try lia.
  unfold marginal_hmm_logp. rewrite ET.
  replace (S (S n) - 1)%nat with (S n) by lia.
  set (sc := scan_alpha op (seq 1 (S n)) (log_alpha_init op)).
  assert (Hrev : exists last pre, sc = pre ++ [last]).
  { destruct (exists_last (l := sc)) as [pre [last Hl]].
    - unfold sc. simpl. discriminate.
    - exists last, pre. exact Hl. }
  destruct Hrev as [last [pre Hsc]].
  rewrite Hsc, rev_app_distr. simpl.
  eexists. split; [reflexivity|].
  assert (E : lexp (total_logp ([logsumexp (map last (seq 0 (states op)))]
                :: repeat [Fin 0] (length (emis op) - 1))) = hmm_probability op).
  { rewrite total_logp_cons_dummies. simpl. rewrite ladd_0_r, lexp_logsumexp, map_map.
    rewrite (scan_alpha_sum op n 0 (log_alpha_init op) last pre HP Hsc).
    unfold hmm_probability. rewrite ET.
    change (configs (seq 0 (states op)) (S (S n))) with
      (flat_map (fun v => map (cons v) (configs (seq 0 (states op)) (S n))) (seq 0 (states op))).
    rewrite Rsum_flat_map. apply Rsum_map_ext. intros s _.
    rewrite map_map, <- Rsum_map_mult_l. apply Rsum_map_ext. intros rest Hrest.
    apply configs_complete in Hrest as [Hl _].
    unfold path_probability. rewrite emission_paths; [|now rewrite ET|rewrite ET; simpl; lia].
    simpl prodc. rewrite tail_weight_split. unfold log_alpha_init.
    rewrite lexp_ladd. fold (em_weight op 0 s). ring. }
  split; [|split; [exact E|split]].
  - rewrite <- E. now rewrite lln_lexp.
  - simpl. rewrite repeat_length. destruct (emis op); [contradiction | simpl; lia].
  - simpl. rewrite repeat_length. intros [|i] Hi; [lia|]. simpl. apply nth_error_repeat_lt. lia.
Qed.

Lemma hmm_short_chain op : (chain_len op < 2)%nat -> marginal_hmm_logp op = Err IndexError.
Proof.
  intros H. unfold marginal_hmm_logp. replace (chain_len op - 1)%nat with 0%nat by lia. reflexivity.
Qed.

Lemma support_permutation d dom supp :
  get_domain d = Ok dom -> scalar_params d ->
  NoDup supp -> (forall v, In v supp <-> in_support d v) -> Permutation dom supp.
Proof.
  intros Hd Hs Hnd Hin. destruct (get_domain_spec d dom Hd Hs) as [Hinc Hdom].
  apply NoDup_Permutation; [now apply increasing_NoDup | assumption|].
  intros v. rewrite Hdom, Hin. reflexivity.
Qed.

Lemma finite_marginal_sum_supp op supp out :
  scalar_params (mop_dist op) ->
  NoDup supp -> (forall v, In v supp <-> in_support (mop_dist op) v) ->
  separable (batch op) (lp_x op) -> Forall (separable (batch op)) (deps op) ->
  deps op <> [] ->
  finite_discrete_marginal_rv_logp op = Ok out ->
  total_logp out = lln (marginal_probability op supp)
  /\ lexp (total_logp out) = marginal_probability op supp
  /\ length out = length (deps op)
  /\ (forall i, (0 < i < length out)%nat -> nth_error out i = Some [Fin 0]).
Proof.
  intros Hs Hnd Hin Hx Hd Hne Hout.
  destruct (get_domain (mop_dist op)) as [dom|e] eqn:Edom.
  - apply (finite_marginal_sum op supp out); auto. exists dom. split; [exact Edom|].
    eapply support_permutation; eauto.
  - unfold finite_discrete_marginal_rv_logp in Hout. rewrite Edom in Hout. discriminate.
Qed.

Lemma recover_bayes_supp op supp b dom :
  scalar_params (mop_dist op) ->
  NoDup supp -> (forall v, In v supp <-> in_support (mop_dist op) v) ->
  get_domain (mop_dist op) = Ok dom ->
  separable (batch op) (lp_x op) -> Forall (separable (batch op)) (deps op) ->
  (b < batch op)%nat -> 0 < marginal_probability op supp ->
  exists lps, recover_lp op b = Ok lps
    /\ length lps = length dom
    /\ Rsum (map (fun o => match o with Some l => lexp l | None => 0 end) lps) = 1
    /\ forall i v, nth_error dom i = Some v ->
         exists l, nth_error lps i = Some (Some l)
           /\ lexp l = joint_probability_at op supp b v / marginal_probability op supp.
Proof.
  intros Hs Hnd Hin Hd. intros. apply recover_bayes; auto.
  - apply increasing_NoDup. eapply get_domain_spec; eauto.
  - eapply support_permutation; eauto.
Qed.

Lemma get_domain_total d :
  scalar_params d -> d <> OtherDist -> exists dom, get_domain d = Ok dom.
Proof.
  destruct d as [|k|lo hi|k|]; intros Hs Hne; simpl; eauto.
  - destruct Hs as [a [b [-> ->]]]. simpl. eauto.
  - congruence.
Qed.
