(** C84 for any number of variables: marginalizations nested to any depth. *)
From Coq Require Import ZArith Reals Lra Permutation.
From Verif Require Import Common LogR Dims_Model MargLogp_Model MargLogp_Spec MargLogp_Proofs MargLogp_Props Nested_Model Nested_Props.
Local Open Scope R_scope.

(** ** Model *)
(** A marginalized variable with [n] entries, its own logp [lpx], the dependents [others] that no other marginalization touches,
    and [k] groups of dependents that an earlier marginalization has turned into an operator of its own; [inner i c] is the
    i-th of those operators when this variable has the value [c], [beta i] the connection of its first dependent to the
    entries of this variable, [extra i] the number of its further dependents (constant zeros).
    Source: marginal_model.py:143-180 (one variable after the other, so that an operator's inner graph contains the operators
    made before it), distributions.py:144-204.  [MEnd] is no operator: it fills [inner i] for i >= k. *)
Inductive mtree :=
| MEnd
| MNode (d : dist) (n : nat) (lpx : list Z -> nat -> lr) (others : list (list Z -> nat -> list lr))
        (k : nat) (beta : nat -> nat -> nat) (extra : nat -> nat) (inner : nat -> list Z -> mtree).
Definition tdist (t : mtree) : dist := match t with MEnd => OtherDist | MNode d _ _ _ _ _ _ _ => d end.
Definition tsize (t : mtree) : nat := match t with MEnd => 0%nat | MNode _ n _ _ _ _ _ _ => n end.
(** distributions.py:144-204: the operator of the whole nest. *)
Fixpoint tree_op (t : mtree) : marg_op :=
  match t with
  | MEnd => {| mop_dist := OtherDist; batch := 0; lp_x := fun _ _ => Fin 0; deps := [] |}
  | MNode d n lpx others k beta extra inner =>
      {| mop_dist := d; batch := n; lp_x := lpx;
         deps := others ++ flat_map (fun i => inner_terms (fun c => tree_op (inner i c)) (Some (beta i)) :: repeat (fun _ _ => [Fin 0]) (extra i)) (seq 0 k) |}
  end.
(** The same operators under a Markov chain (distributions.py:207-276): [inner i c] for the chain value [c]. *)
Definition chain_tree_op (S : nat) (P : nat -> nat -> R) (init : nat -> lr) (T : nat) (others : list (list nat -> nat -> list lr))
    (k : nat) (beta : nat -> nat -> nat) (inner : nat -> list nat -> mtree) : hmm_op :=
  {| states := S; trans := P; lp_init := init; chain_len := T;
     emis := others ++ map (fun i c t => inner_terms (fun _ => tree_op (inner i c)) (Some (beta i)) [] t) (seq 0 k) |}.

(** ** Specification *)
(** All products of one factor out of each list. *)
Fixpoint products (ls : list (list R)) : list R :=
  match ls with [] => [1] | l :: r => flat_map (fun x => map (Rmult x) (products r)) l end.
(** One number for every joint assignment of values to all entries of all variables of the nest: the joint probability (density)
    of that assignment and everything observed. *)
Fixpoint joint_weights (supp : dist -> list Z) (t : mtree) : list R :=
  match t with
  | MEnd => []
  | MNode d n lpx others k _ _ inner =>
      flat_map (fun c => map (Rmult (lexp (full_joint n lpx others c))) (products (map (fun i => joint_weights supp (inner i c)) (seq 0 k))))
               (configs (supp d) n)
  end.
(** Entry [j] of two nests is the same: same logps at entry [j], and the same entries of all nested operators connected to it. *)
Fixpoint same_entry (j : nat) (t t' : mtree) : Prop :=
  match t, t' with
  | MNode d n lpx others k beta extra inner, MNode d' n' lpx' others' k' beta' extra' inner' =>
      d = d' /\ n = n' /\ k = k' /\ (forall c, lpx c j = lpx' c j) /\
      Forall2 (fun f g => forall c, f c j = g c j) others others' /\
      (forall i, (i < k)%nat -> extra i = extra' i /\ (forall b, beta i b = beta' i b) /\
         forall c, tdist (inner i c) = tdist (inner' i c) /\ tsize (inner i c) = tsize (inner' i c) /\
           forall b, (b < tsize (inner i c))%nat -> beta i b = j -> same_entry b (inner i c) (inner' i c))
  | _, _ => False
  end.
(** Finite discrete variables with plain parameters, each entry of which only influences what it is connected to. *)
Fixpoint well_formed (supp : dist -> list Z) (t : mtree) : Prop :=
  match t with
  | MEnd => False
  | MNode d n lpx others k beta extra inner =>
      scalar_params d /\ d <> OtherDist /\ NoDup (supp d) /\ (forall v, In v (supp d) <-> in_support d v) /\
      separable n lpx /\ Forall (separable n) others /\ (others <> [] \/ (0 < k)%nat) /\
      forall i, (i < k)%nat -> (forall c, well_formed supp (inner i c)) /\
        (forall c b, (b < tsize (inner i c))%nat -> (beta i b < n)%nat) /\
        forall c c', tdist (inner i c) = tdist (inner i c') /\ tsize (inner i c) = tsize (inner i c') /\
          forall b, (b < tsize (inner i c))%nat -> length c = n -> length c' = n ->
            nth_error c (beta i b) = nth_error c' (beta i b) -> same_entry b (inner i c) (inner i c')
  end.

(** ** Proofs *)
Lemma tree_batch t : batch (tree_op t) = tsize t. Proof. destruct t; reflexivity. Qed.
Lemma tree_dist t : mop_dist (tree_op t) = tdist t. Proof. destruct t; reflexivity. Qed.
Lemma Rsum_flat_mult l1 l2 : Rsum (flat_map (fun x => map (Rmult x) l2) l1) = Rsum l1 * Rsum l2.
Proof.
  induction l1 as [|x l IH]; [cbn; ring|]. cbn [flat_map]. rewrite Rsum_app, IH. unfold Rsum at 4. cbn [fold_right]. fold (Rsum l).
  replace (Rsum (map (Rmult x) l2)) with (x * Rsum l2); [ring|]. clear. induction l2; cbn; [ring|]. unfold Rsum in *. rewrite <- IHl2. ring.
Qed.
Lemma products_sum ls : Rsum (products ls) = Rprod (map Rsum ls).
Proof. induction ls as [|l r IH]; [cbn; ring|]. cbn [products map]. rewrite Rsum_flat_mult, IH. reflexivity. Qed.
Lemma Rsum_flat_map {A} (f : A -> list R) l : Rsum (flat_map f l) = Rsum (map (fun a => Rsum (f a)) l).
Proof. induction l; cbn [flat_map map]; [reflexivity|]. rewrite Rsum_app, IHl. reflexivity. Qed.
Lemma Rsum_scale x l : Rsum (map (Rmult x) l) = x * Rsum l.
Proof. induction l; cbn; [ring|]. unfold Rsum in *. rewrite IHl. ring. Qed.

Lemma same_entry_joint t : forall t' j z, same_entry j t t' -> joint_logp (tree_op t) z j = joint_logp (tree_op t') z j.
Proof.
  induction t as [|d n lpx others k beta extra inner IH]; [intros ? ? ? []|]. intros [|d' n' lpx' others' k' beta' extra' inner'] j z H; [destruct H|].
  cbn in H. destruct H as (-> & -> & <- & Hl & Ho & Hi). unfold joint_logp. cbn [tree_op lp_x deps]. rewrite Hl. f_equal.
  rewrite !map_app, !lsum_app. f_equal.
  - f_equal. clear -Ho. induction Ho; cbn; auto. rewrite H, IHHo. auto.
  - assert (G : forall l, (forall i, In i l -> (i < k)%nat) ->
      map (fun dep : list Z -> nat -> list lr => lsum (dep z j)) (flat_map (fun i => inner_terms (fun c => tree_op (inner i c)) (Some (beta i)) :: repeat (fun _ _ => [Fin 0]) (extra i)) l) =
      map (fun dep : list Z -> nat -> list lr => lsum (dep z j)) (flat_map (fun i => inner_terms (fun c => tree_op (inner' i c)) (Some (beta' i)) :: repeat (fun _ _ => [Fin 0]) (extra' i)) l)).
    { induction l as [|i l IHl]; intros Hk; [reflexivity|]. cbn [flat_map]. rewrite !map_app. rewrite IHl by (intros; apply Hk; right; auto). f_equal.
      destruct (Hi i) as (E1 & E2 & E3); [apply Hk; left; auto|]. destruct (E3 z) as (F1 & F2 & F3). rewrite <- E1. cbn [map]. f_equal. f_equal.
      unfold inner_terms. rewrite !tree_dist, !tree_batch, <- F1, <- F2. destruct (get_domain _) as [dom|]; [|reflexivity].
      assert (Ef : filter (fun b => Nat.eqb (beta' i b) j) (seq 0 (tsize (inner i z))) = filter (fun b => Nat.eqb (beta i b) j) (seq 0 (tsize (inner i z)))).
      { apply filter_ext. intros b. rewrite E2. auto. }
      rewrite Ef. apply map_ext_in. intros b Hb. apply filter_In in Hb as [Hb Eb]. apply in_seq in Hb. apply Nat.eqb_eq in Eb.
      unfold marginal_logp_entry. rewrite !tree_batch, <- F2. f_equal. apply map_ext. intros v. apply IH. apply F3; auto. lia. }
    rewrite G; auto. intros i Hin. apply in_seq in Hin. lia.
Qed.

Lemma lexp_deps_app n (l1 l2 : list (list Z -> nat -> list lr)) c :
  lexp (lsum (map (fun dep => lsum (flat_map (dep c) (seq 0 n))) (l1 ++ l2))) =
  lexp (lsum (map (fun dep => lsum (flat_map (dep c) (seq 0 n))) l1)) * lexp (lsum (map (fun dep => lsum (flat_map (dep c) (seq 0 n))) l2)).
Proof. rewrite map_app, lsum_app, lexp_ladd. reflexivity. Qed.
Lemma lexp_dummies n e (c : list Z) : lexp (lsum (map (fun dep : list Z -> nat -> list lr => lsum (flat_map (dep c) (seq 0 n))) (repeat (fun _ _ => [Fin 0]) e))) = 1.
Proof.
  induction e; [cbn; apply exp_0|]. cbn [repeat map lsum fold_right]. rewrite lexp_ladd.
  fold (lsum (map (fun dep : list Z -> nat -> list lr => lsum (flat_map (dep c) (seq 0 n))) (repeat (fun _ _ => [Fin 0]) e))). rewrite IHe, zeros_sum. ring.
Qed.

Lemma well_formed_entries supp t : well_formed supp t -> Forall (separable (batch (tree_op t))) (deps (tree_op t)) /\ deps (tree_op t) <> [].
Proof.
  destruct t as [|d n lpx others k beta extra inner]; [intros []|]. intros (Hs & Hd & Hn & Hv & Lx & Lo & Hne & Hi). cbn [tree_op batch deps]. split.
  - apply Forall_app. split; auto. apply Forall_forall. intros f Hf. apply in_flat_map in Hf as (i & Hi' & Hf). apply in_seq in Hi'.
    destruct (Hi i) as (W & B & A); [lia|]. destruct Hf as [<-|Hf].
    + intros c c' b Hb Lc Lc' E. destruct (A c c') as (A1 & A2 & A3). unfold inner_terms. rewrite !tree_dist, !tree_batch, <- A1, <- A2.
      destruct (get_domain _); [|reflexivity]. apply map_ext_in. intros x Hx. apply filter_In in Hx as [Hx Ex]. apply in_seq in Hx. apply Nat.eqb_eq in Ex.
      unfold marginal_logp_entry. rewrite !tree_batch, <- A2. f_equal. apply map_ext. intros v. apply same_entry_joint. apply A3; auto; [lia|]. rewrite Ex. auto.
    + apply repeat_spec in Hf. subst. intros ? ? ? _ _ _ _. reflexivity.
  - destruct Hne as [Hne|Hk]; [destruct others; [contradiction|discriminate]|]. destruct k; [lia|]. destruct others; discriminate.
Qed.

Lemma tree_total supp t : well_formed supp t -> exists out, finite_discrete_marginal_rv_logp (tree_op t) = Ok out /\
  total_logp out = lln (Rsum (joint_weights supp t)) /\ lexp (total_logp out) = Rsum (joint_weights supp t).
Proof.
  induction t as [|d n lpx others k beta extra inner IH]; intros W; [destruct W|]. pose proof (well_formed_entries _ _ W) as [Sd Sne]. set (t := MNode d n lpx others k beta extra inner) in *.
  pose proof W as (Hs & Hd & Hn & Hv & Lx & Lo & Hne & Hi). fold (well_formed supp) in Hi.
  destruct (get_domain_total d Hs Hd) as [dom Edom].
  eexists. assert (E : finite_discrete_marginal_rv_logp (tree_op t) = Ok (map (marginal_logp_entry (tree_op t) dom) (seq 0 n) :: repeat [Fin 0] (length (deps (tree_op t)) - 1))).
  { unfold finite_discrete_marginal_rv_logp. rewrite tree_dist. cbn [tdist t]. rewrite Edom. cbn [bind]. rewrite tree_batch. reflexivity. }
  split; [exact E|].
  destruct (C01_marginal_logp_is_log_marginal_sum (tree_op t) (supp d) _ Hs Hn Hv Lx Sd Sne E) as (T1 & T2 & _).
  assert (M : marginal_probability (tree_op t) (supp d) = Rsum (joint_weights supp t)).
  { unfold marginal_probability. cbn [t tree_op batch lp_x deps joint_weights]. rewrite Rsum_flat_map. apply Rsum_map_ext. intros c Hc.
    rewrite Rsum_scale, products_sum. rewrite map_map. unfold full_joint. rewrite !lexp_ladd, lexp_deps_app. rewrite Rmult_assoc. f_equal. f_equal.
    assert (G : forall l, (forall i, In i l -> (i < k)%nat) ->
       lexp (lsum (map (fun dep : list Z -> nat -> list lr => lsum (flat_map (dep c) (seq 0 n)))
         (flat_map (fun i => inner_terms (fun c0 => tree_op (inner i c0)) (Some (beta i)) :: repeat (fun _ _ => [Fin 0]) (extra i)) l))) =
       Rprod (map (fun i => Rsum (joint_weights supp (inner i c))) l)).
    { induction l as [|i l IHl]; intros Hk; [cbn; apply exp_0|]. cbn [flat_map]. rewrite lexp_deps_app. rewrite IHl by (intros; apply Hk; right; auto).
      cbn [map]. unfold Rprod at 2. cbn [fold_right]. fold (Rprod (map (fun i => Rsum (joint_weights supp (inner i c))) l)). f_equal.
      cbn [lsum fold_right]. rewrite lexp_ladd. fold (lsum (map (fun dep : list Z -> nat -> list lr => lsum (flat_map (dep c) (seq 0 n))) (repeat (fun _ _ => [Fin 0]) (extra i)))).
      rewrite lexp_dummies, Rmult_1_r. destruct (Hi i) as (Wi & Bi & _); [apply Hk; left; auto|].
      destruct (IH i c (Wi c)) as (out & Eo & _ & To). rewrite <- To.
      unfold finite_discrete_marginal_rv_logp in Eo. destruct (get_domain (mop_dist (tree_op (inner i c)))) as [di|] eqn:Edi; [|discriminate]. cbn [bind] in Eo. injection Eo as <-.
      rewrite total_logp_cons_dummies. unfold inner_terms. rewrite Edi. rewrite tree_batch. apply lexp_rows. apply Bi. }
    apply G. intros i Hin. apply in_seq in Hin. lia. }
  rewrite <- M. auto.
Qed.

(** ** Theorems *)
(** Any number of variables, nested in any way: the logp of the outermost operator is the log of the sum, over all joint values
    of all of them, of the joint density. *)
Theorem C84_joint_nested supp t : well_formed supp t -> exists out, finite_discrete_marginal_rv_logp (tree_op t) = Ok out /\
  total_logp out = lln (Rsum (joint_weights supp t)).
Proof. intros W. destruct (tree_total supp t W) as (out & E & T & _). eauto. Qed.
Print Assumptions C84_joint_nested.

(** A Markov chain over nests (for instance a hidden Markov model with mixture emissions). *)
Theorem C84_chain_over_nests supp S P init T others k beta inner :
  (forall s s', 0 <= P s s') -> (2 <= T)%nat -> Forall (separable T) others -> (others <> [] \/ (0 < k)%nat) ->
  (forall i, (i < k)%nat -> (forall c, well_formed supp (inner i c)) /\
     (forall c b, (b < tsize (inner i c))%nat -> (beta i b < T)%nat) /\
     forall c c', tdist (inner i c) = tdist (inner i c') /\ tsize (inner i c) = tsize (inner i c') /\
       forall b, (b < tsize (inner i c))%nat -> length c = T -> length c' = T ->
         nth_error c (beta i b) = nth_error c' (beta i b) -> same_entry b (inner i c) (inner i c')) ->
  exists out, marginal_hmm_logp (chain_tree_op S P init T others k beta inner) = Ok out /\
    total_logp out = lln (Rsum (map (fun path =>
        match path with [] => 0 | s0 :: rest => lexp (init s0) * transitions P s0 rest end *
        Rprod (map (fun t => Rprod (map (fun dep => Rprod (map lexp (dep path t))) others)) (seq 0 T)) *
        Rprod (map (fun i => Rsum (joint_weights supp (inner i path))) (seq 0 k)))
      (configs (seq 0 S) T))).
Proof.
  intros HP HT Lo Hne Hi.
  assert (Sep : Forall (separable T) (emis (chain_tree_op S P init T others k beta inner))).
  { cbn. apply Forall_app. split; auto. apply Forall_forall. intros f Hf. apply in_map_iff in Hf as (i & <- & Hi'). apply in_seq in Hi'.
    destruct (Hi i) as (W & B & A); [lia|]. intros c c' b Hb Lc Lc' E. destruct (A c c') as (A1 & A2 & A3). unfold inner_terms. rewrite !tree_dist, !tree_batch, <- A1, <- A2.
    destruct (get_domain _); [|reflexivity]. apply map_ext_in. intros x Hx. apply filter_In in Hx as [Hx Ex]. apply in_seq in Hx. apply Nat.eqb_eq in Ex.
    unfold marginal_logp_entry. rewrite !tree_batch, <- A2. f_equal. apply map_ext. intros v. apply same_entry_joint. apply A3; auto; [lia|]. rewrite Ex. auto. }
  destruct (C02_hmm_logp_is_log_sum_over_paths (chain_tree_op S P init T others k beta inner)) as (out & E & Tt & _); auto.
  { cbn. destruct Hne as [Hne|Hk]; [destruct others; [contradiction|discriminate]|]. destruct k; [lia|]. destruct others; discriminate. }
  exists out. split; [exact E|]. rewrite Tt. f_equal. unfold hmm_probability. cbn [states chain_len chain_tree_op]. apply Rsum_map_ext. intros path Hp.
  unfold path_probability. cbn [lp_init trans chain_len emis chain_tree_op]. rewrite (Rmult_assoc _ (Rprod _) (Rprod _)). f_equal.
  assert (Rm : forall (f g : nat -> R) l, Rprod (map (fun t => f t * g t) l) = Rprod (map f l) * Rprod (map g l)).
  { intros f g. induction l; unfold Rprod in *; cbn; [ring|]. rewrite IHl. ring. }
  assert (Ra : forall l1 l2, Rprod (l1 ++ l2) = Rprod l1 * Rprod l2).
  { induction l1; intros; unfold Rprod in *; cbn; [ring|]. rewrite IHl1. ring. }
  transitivity (Rprod (map (fun t => Rprod (map (fun dep => Rprod (map lexp (dep path t))) others) *
      Rprod (map (fun i => Rprod (map lexp (inner_terms (fun _ => tree_op (inner i path)) (Some (beta i)) [] t))) (seq 0 k))) (seq 0 T))).
  { f_equal. apply map_ext. intros t. rewrite map_app, Ra, map_map. reflexivity. }
  rewrite Rm. f_equal.
  assert (G : forall l, (forall i, In i l -> (i < k)%nat) ->
     Rprod (map (fun t => Rprod (map (fun i => Rprod (map lexp (inner_terms (fun _ => tree_op (inner i path)) (Some (beta i)) [] t))) l)) (seq 0 T)) =
     Rprod (map (fun i => Rsum (joint_weights supp (inner i path))) l)).
  { induction l as [|i l IHl]; intros Hk.
    - cbn. clear. generalize (seq 0 T). induction l; unfold Rprod in *; cbn; [ring|]. rewrite IHl. ring.
    - transitivity (Rprod (map (fun t => Rprod (map lexp (inner_terms (fun _ => tree_op (inner i path)) (Some (beta i)) [] t)) * Rprod (map (fun i => Rprod (map lexp (inner_terms (fun _ => tree_op (inner i path)) (Some (beta i)) [] t))) l)) (seq 0 T))); [reflexivity|].
      rewrite Rm, IHl by (intros; apply Hk; right; auto). cbn [map]. unfold Rprod at 4. cbn [fold_right]. fold (Rprod (map (fun i => Rsum (joint_weights supp (inner i path))) l)). f_equal.
      destruct (Hi i) as (Wi & Bi & _); [apply Hk; left; auto|].
      destruct (tree_total supp (inner i path) (Wi path)) as (o & Eo & _ & To). rewrite <- To.
      unfold finite_discrete_marginal_rv_logp in Eo. destruct (get_domain (mop_dist (tree_op (inner i path)))) as [di|] eqn:Edi; [|discriminate]. cbn [bind] in Eo. injection Eo as <-.
      rewrite total_logp_cons_dummies. rewrite tree_batch. rewrite <- (lexp_rows T (tsize (inner i path)) (beta i)) by (intros j Hj; apply (Bi path); auto).
      unfold inner_terms. rewrite Edi, tree_batch. generalize (seq 0 T). clear. induction l; cbn [map flat_map]; [unfold Rprod; cbn; rewrite exp_0; auto|].
      rewrite lsum_app, lexp_ladd, <- IHl. unfold Rprod at 1. cbn [fold_right]. f_equal. rewrite lexp_lsum. reflexivity. }
  apply G. intros i Hin. apply in_seq in Hin. lia.
Qed.
Print Assumptions C84_chain_over_nests.

(** ** Example *)
(** Three levels: one coin x, two coins z depending on x, four coins w (two for each z) depending on x and z, an observation for
    each w that depends on all three. *)
Definition entry_weight (c : list Z) (b : nat) : R := match nth_error c b with Some v => if Z.eqb v 0 then 1 else 2 | None => 1 end.
Definition coins_w (x z : list Z) : mtree :=
  MNode Bernoulli 4 (fun w j => lln (entry_weight w j + entry_weight z (j / 2)))
        [fun w j => [lln (entry_weight x 0 * 3 + entry_weight z (j / 2) * 5 + entry_weight w j)]]
        0 (fun _ j => j) (fun _ => 0%nat) (fun _ _ => MEnd).
Definition coins_z (x : list Z) : mtree :=
  MNode Bernoulli 2 (fun z j => lln (entry_weight z j + entry_weight x 0)) [] 1 (fun _ j => (j / 2)%nat) (fun _ => 0%nat) (fun _ z => coins_w x z).
Definition coins_x : mtree :=
  MNode Bernoulli 1 (fun x j => lln (entry_weight x j)) [] 1 (fun _ _ => 0%nat) (fun _ => 1%nat) (fun _ x => coins_z x).
Example C84_three_levels : well_formed (fun _ => [0; 1]%Z) coins_x /\ length (joint_weights (fun _ => [0; 1]%Z) coins_x) = (2 * 4 * 16)%nat /\
  exists out, finite_discrete_marginal_rv_logp (tree_op coins_x) = Ok out /\ total_logp out = lln (Rsum (joint_weights (fun _ => [0; 1]%Z) coins_x)).
Proof.
  assert (N : NoDup [0; 1]%Z) by (repeat constructor; cbn; intuition discriminate).
  assert (S : forall v, In v [0; 1]%Z <-> in_support Bernoulli v).
  { intros v; split; intros H; [destruct H as [<-|[<-|[]]]; cbn; auto|destruct H; subst; cbn; auto]. }
  assert (Kw : forall x z x' z' b, nth_error x 0 = nth_error x' 0 -> nth_error z (b / 2) = nth_error z' (b / 2) -> same_entry b (coins_w x z) (coins_w x' z')).
  { intros x z x' z' b E1 E2. refine (conj eq_refl (conj eq_refl (conj eq_refl (conj _ (conj _ _))))); try (intros; lia).
    - intros c. unfold entry_weight. rewrite E2. auto.
    - repeat constructor. intros c. unfold entry_weight. rewrite E1, E2. auto. }
  assert (W : forall x z, well_formed (fun _ => [0; 1]%Z) (coins_w x z)).
  { intros x z. refine (conj I (conj _ (conj N (conj S (conj _ (conj _ (conj _ _))))))); try (intros; lia); try discriminate.
    - intros c c' b _ _ _ E. unfold entry_weight. rewrite E. auto.
    - repeat constructor. intros c c' b _ _ _ E. unfold entry_weight. rewrite E. auto.
    - left. discriminate. }
  assert (Wz : forall x, well_formed (fun _ => [0; 1]%Z) (coins_z x)).
  { intros x. refine (conj I (conj _ (conj N (conj S (conj _ (conj _ (conj _ _))))))); try discriminate; auto.
    - intros c c' b _ _ _ E. unfold entry_weight. rewrite E. auto.
    - intros i Hi. split; [intros c; apply W|]. split.
      + intros c b Hb. cbn in Hb. destruct b as [|[|[|[|b]]]]; cbn; lia.
      + intros c c'. split; [reflexivity|]. split; [reflexivity|]. intros b _ _ _ E. apply Kw; auto. }
  assert (Wx : well_formed (fun _ => [0; 1]%Z) coins_x).
  { refine (conj I (conj _ (conj N (conj S (conj _ (conj _ (conj _ _))))))); try discriminate; auto.
    - intros c c' b _ _ _ E. unfold entry_weight. rewrite E. auto.
    - intros i Hi. split; [intros c; apply Wz|]. split; [intros; lia|]. 
      intros x x'. split; [reflexivity|]. split; [reflexivity|]. intros b _ _ _ E.
      refine (conj eq_refl (conj eq_refl (conj eq_refl (conj _ (conj _ _))))); auto.
      + intros c. unfold entry_weight. rewrite E. auto.
      + intros j Hj. split; [reflexivity|]. split; [reflexivity|]. intros c. split; [reflexivity|]. split; [reflexivity|]. intros b' _ Eb. apply Kw; auto. }
  split; [exact Wx|]. split; [|apply C84_joint_nested; auto].
  cbn [joint_weights coins_x coins_z coins_w]. cbn -[Rmult Rplus lexp full_joint]. reflexivity.
Qed.
(** Hidden Markov model with two states over three steps, each emission a mixture of two components. *)
Definition step_weight (c : list nat) (t : nat) : R := match nth_error c t with Some 0%nat => 1 | Some _ => 2 | None => 3 end.
Definition mixtures (path : list nat) : mtree :=
  MNode Bernoulli 3 (fun z t => lln (entry_weight z t + step_weight path t))
        [fun z t => [lln (step_weight path t * 3 + entry_weight z t)]] 0 (fun _ t => t) (fun _ => 0%nat) (fun _ _ => MEnd).
Example C84_mixture_emissions : exists out,
  marginal_hmm_logp (chain_tree_op 2 (fun _ _ => / 2) (fun _ => lln (/ 2)) 3 [] 1 (fun _ t => t) (fun _ c => mixtures c)) = Ok out /\
  total_logp out = lln (Rsum (map (fun path =>
      match path with [] => 0 | s0 :: rest => lexp (lln (/ 2)) * transitions (fun _ _ => / 2) s0 rest end *
      Rprod (map (fun t => Rprod (map (fun dep : list nat -> nat -> list lr => Rprod (map lexp (dep path t))) [])) (seq 0 3)) *
      Rprod (map (fun i => Rsum (joint_weights (fun _ => [0; 1]%Z) (mixtures path))) (seq 0 1)))
    (configs (seq 0 2) 3))).
Proof.
  apply (C84_chain_over_nests (fun _ => [0; 1]%Z)); auto; [intros; lra|].
  intros i Hi. split; [|split].
  - intros path. refine (conj I (conj _ (conj _ (conj _ (conj _ (conj _ (conj _ _))))))); try (intros; lia); try discriminate.
    + repeat constructor; cbn; intuition discriminate.
    + intros v; split; intros H; [destruct H as [<-|[<-|[]]]; cbn; auto|destruct H; subst; cbn; auto].
    + intros c c' b _ _ _ E. unfold entry_weight. rewrite E. auto.
    + repeat constructor. intros c c' b _ _ _ E. unfold entry_weight. rewrite E. auto.
    + left. discriminate.
  - intros; cbn in *; lia.
  - intros c c'. split; [reflexivity|]. split; [reflexivity|]. intros b _ _ _ E.
    refine (conj eq_refl (conj eq_refl (conj eq_refl (conj _ (conj _ _))))); try (intros; lia).
    + intros z. unfold step_weight. rewrite E. auto.
    + repeat constructor. intros z. unfold step_weight. rewrite E. auto.
Qed.
