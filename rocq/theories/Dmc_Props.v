(** C53: the DiscreteMarkovChain log-probability; C68: its support point; C69: the Gibbs sampler's coordinates. *)
From Coq Require Import Reals Lra Permutation Sorted.
From Verif Require Import Common LogR Dmc_Model Dmc_Spec.
Open Scope nat_scope.

Lemma index_axis_ok k x : x < k -> index_axis k (Z.of_nat x) = Ok x.
Proof.
  intros H. unfold index_axis. replace ((0 <=? Z.of_nat x) && (Z.of_nat x <? Z.of_nat k))%Z with true.
  - rewrite Nat2Z.id. auto.
  - symmetry. apply andb_true_iff. split; [apply Z.leb_le|apply Z.ltb_lt]; lia.
Qed.
Lemma index_all_ok k w : Forall (fun x => x < k) w -> index_all k (map Z.of_nat w) = Ok w.
Proof.
  induction 1; simpl; auto. rewrite index_axis_ok by auto. simpl. rewrite IHForall. auto.
Qed.
Lemma mapm_ok {A B} (f : A -> res B) (g : A -> B) l :
  (forall x, In x l -> f x = Ok (g x)) -> mapm f l = Ok (map g l).
Proof.
  induction l as [|a l IH]; intros H; simpl; auto.
  rewrite H by (left; auto). simpl. rewrite IH by (intros; apply H; right; auto). auto.
Qed.

Lemma nth_firstn_lt {A} (d : A) l n t : t < n -> nth t (firstn n l) d = nth t l d.
Proof.
  revert l t. induction n; intros l t H; [lia|]. destruct l; simpl; [destruct t; auto|].
  destruct t; auto. apply IHn. lia.
Qed.
Lemma nth_skipn_add {A} (d : A) l n t : nth t (skipn n l) d = nth (n + t) l d.
Proof. revert l. induction n; intros l; simpl; auto. destruct l as [|a l]; [destruct t; auto|apply IHn]. Qed.

Lemma pyslice_stop {A} (v : list A) n i : i <= n ->
  pyslice v i (if n =? i then None else Some (- (Z.of_nat n - Z.of_nat i))%Z) = skipn i (firstn (length v - (n - i)) v).
Proof.
  intros H. unfold pyslice. destruct (Nat.eqb_spec n i) as [->|E].
  - rewrite Nat.sub_diag, Nat.sub_0_r. auto.
  - destruct (Z.ltb_spec (- (Z.of_nat n - Z.of_nat i)) 0); [|lia]. do 2 f_equal. lia.
Qed.

Lemma nth_all_indexes n (v : list nat) t : n <= length v -> t < length v - n ->
  nth_all 0%Z (indexes n (map Z.of_nat v)) t = map Z.of_nat (window n v t).
Proof.
  intros Hn Ht. unfold nth_all, indexes. rewrite map_map.
  transitivity (map (fun i => Z.of_nat (nth (t + i) v 0)) (seq 0 (n + 1))).
  - apply map_ext_in. intros i Hi. apply in_seq in Hi. rewrite pyslice_stop by lia.
    rewrite nth_skipn_add, nth_firstn_lt by (rewrite map_length; lia).
    change 0%Z with (Z.of_nat 0). rewrite map_nth. do 2 f_equal. lia.
  - rewrite <- (map_map (fun i => nth (t + i) v 0) Z.of_nat). f_equal.
    unfold window. apply nth_ext with (d := 0) (d' := 0).
    + rewrite map_length, seq_length, firstn_length, skipn_length. lia.
    + intros i Hi. rewrite map_length, seq_length in Hi.
      rewrite nth_indep with (d' := (fun i => nth (t + i) v 0) 0) by (rewrite map_length, seq_length; auto).
      rewrite (map_nth (fun i => nth (t + i) v 0)), seq_nth by auto. simpl.
      rewrite nth_firstn_lt, nth_skipn_add by lia. auto.
Qed.

Lemma Forall_window k n v t : Forall (fun x => x < k) v -> Forall (fun x => x < k) (window n v t).
Proof.
  intros H. unfold window. apply Forall_forall. intros x Hx. rewrite Forall_forall in H. apply H.
  rewrite <- (firstn_skipn t v). apply in_or_app. right.
  rewrite <- (firstn_skipn (n + 1) (skipn t v)). apply in_or_app. auto.
Qed.

(** *** C53 *)

(** exp(logp) of a chain over the states 0..k-1, at least as long as the number of lags, is its probability. *)
Theorem C53_logp_is_chain_probability k n P init v :
  (forall w, 0 <= P w)%R -> n <= length v -> Forall (fun x => x < k) v ->
  exists l, mc_logp k n P init (map Z.of_nat v) = Ok l /\
            lexp l = chain_probability n P (fun x => lexp (init (Z.of_nat x))) v.
Proof.
  intros HP Hn Hv. unfold mc_logp. eexists. split.
  - rewrite (mapm_ok _ (fun t => lln (P (window n v t)))).
    + reflexivity.
    + intros t Ht. apply in_seq in Ht. cbn [Nat.add] in Ht.
      assert (HL : length (nth 0 (indexes n (map Z.of_nat v)) []) = length v - n).
      { unfold indexes. rewrite Nat.add_1_r. cbn [seq map nth].
        rewrite pyslice_stop by lia. simpl. rewrite firstn_length, map_length. lia. }
      rewrite nth_all_indexes by lia. rewrite index_all_ok by (apply Forall_window; auto). reflexivity.
  - assert (HL : length (nth 0 (indexes n (map Z.of_nat v)) []) = length v - n).
    { unfold indexes. rewrite Nat.add_1_r. cbn [seq map nth].
      rewrite pyslice_stop by lia. simpl. rewrite firstn_length, map_length. lia. }
    rewrite HL, lexp_ladd, !lexp_lsum, !map_map. unfold chain_probability. f_equal.
    + f_equal. unfold pyslice. destruct (Z.ltb_spec (Z.of_nat n) 0); [lia|].
      rewrite Nat2Z.id, map_length, Nat.min_l by auto. simpl. rewrite firstn_map, map_map. auto.
    + f_equal. apply map_ext. intros t. apply lexp_lln. auto.
Qed.

Lemma window_app n hist rest : window n (hist ++ rest) (length hist - n)
  = firstn (n + 1) (skipn (length hist - n) hist ++ rest).
Proof. unfold window. rewrite skipn_app. replace (length hist - n - length hist) with 0 by lia. auto. Qed.

Lemma chain_prob_windows k P n hist rest : n <= length hist ->
  chain_prob k P n hist rest
  = Rprod (map (fun t => P (window n (hist ++ rest) (length hist - n + t))) (seq 0 (length rest))).
Proof.
  revert hist. induction rest as [|x r IH]; intros hist H; simpl; auto. f_equal.
  - f_equal. rewrite Nat.add_0_r, window_app.
    rewrite firstn_app. rewrite skipn_length.
    rewrite firstn_all2 by (rewrite skipn_length; lia).
    replace (n + 1 - (length hist - (length hist - n))) with 1 by lia. reflexivity.
  - rewrite IH by (rewrite app_length; simpl; lia). rewrite <- seq_shift, map_map. f_equal.
    apply map_ext. intros t. rewrite <- app_assoc. simpl. do 2 f_equal. rewrite app_length. simpl. lia.
Qed.

(** The sampler draws a chain with exactly the probability that logp reports. *)
Theorem C53_sampler_matches_logp k n P init v :
  (forall w, 0 <= P w)%R -> n <= length v -> Forall (fun x => x < k) v ->
  exists l, mc_logp k n P init (map Z.of_nat v) = Ok l /\ lexp l = draw_prob k n P init v.
Proof.
  intros HP Hn Hv. destruct (C53_logp_is_chain_probability k n P init v HP Hn Hv) as (l&E&EL).
  exists l. split; auto. rewrite EL. unfold chain_probability, draw_prob. f_equal.
  rewrite chain_prob_windows by (rewrite firstn_length; lia).
  rewrite firstn_skipn, skipn_length. f_equal. apply map_ext. intros t. do 2 f_equal.
  rewrite firstn_length. lia.
Qed.

Lemma seqs_spec k n v : In v (seqs k n) <-> length v = n /\ Forall (fun x => x < k) v.
Proof.
  revert v. induction n; intros v; simpl.
  - split.
    + intros [<-|[]]. auto.
    + intros [H _]. destruct v; [auto|discriminate].
  - rewrite in_flat_map. split.
    + intros (x&Hx&Hv). apply in_seq in Hx. apply in_map_iff in Hv. destruct Hv as (w&<-&Hw).
      apply IHn in Hw. destruct Hw as [H1 H2]. simpl. split; [lia|]. constructor; [lia|auto].
    + intros [H1 H2]. destruct v as [|x w]; [discriminate|]. inversion H2; subst. exists x.
      split; [apply in_seq; lia|]. apply in_map. apply IHn. simpl in H1. split; auto.
Qed.

Lemma Rsum_seqs_S k n (f : list nat -> R) :
  Rsum (map f (seqs k (S n))) = Rsum (map (fun x => Rsum (map (fun w => f (x :: w)) (seqs k n))) (seq 0 k)).
Proof.
  simpl. rewrite Rsum_flat_map. apply Rsum_map_ext. intros x _. rewrite map_map. auto.
Qed.
Lemma Rsum_seqs_app k n m (f : list nat -> R) :
  Rsum (map f (seqs k (n + m))) = Rsum (map (fun h => Rsum (map (fun r => f (h ++ r)) (seqs k m))) (seqs k n)).
Proof.
  revert f. induction n; intros f.
  - simpl. rewrite Rplus_0_r. reflexivity.
  - cbn [Nat.add]. rewrite !Rsum_seqs_S. apply Rsum_map_ext. intros x _.
    rewrite (IHn (fun w => f (x :: w))). auto.
Qed.

Lemma chain_prob_total k P n : stochastic k n P -> forall m hist, n <= length hist ->
  Forall (fun x => x < k) hist -> Rsum (map (chain_prob k P n hist) (seqs k m)) = 1%R.
Proof.
  intros [_ HS] m. induction m; intros hist Hn Hh.
  - simpl. lra.
  - rewrite Rsum_seqs_S.
    rewrite <- (HS (skipn (length hist - n) hist)).
    + apply Rsum_map_ext. intros x Hx. apply in_seq in Hx. simpl. rewrite Rsum_map_mult_l.
      rewrite IHm; [lra| rewrite app_length; simpl; lia|]. apply Forall_app. split; auto. constructor; [lia|auto].
    + rewrite skipn_length. lia.
    + apply Forall_forall. intros y Hy. rewrite Forall_forall in Hh. apply Hh.
      rewrite <- (firstn_skipn (length hist - n) hist). apply in_or_app. auto.
Qed.

Lemma init_total k (g : nat -> R) n : Rsum (map g (seq 0 k)) = 1%R ->
  Rsum (map (fun h => Rprod (map g h)) (seqs k n)) = 1%R.
Proof.
  intros H. induction n; [simpl; lra|]. rewrite Rsum_seqs_S. rewrite <- H at 1.
  apply Rsum_map_ext. intros x _. cbn [map Rprod fold_right]. rewrite Rsum_map_mult_l.
  change (fun a => fold_right Rmult 1%R (map g a)) with (fun h => Rprod (map g h)). rewrite IHn. lra.
Qed.

(** Summed over all chains of a given length, exp(logp) is one. *)
Theorem C53_probabilities_sum_to_one k n P init N :
  stochastic k n P -> Rsum (map (fun x => lexp (init (Z.of_nat x))) (seq 0 k)) = 1%R -> n <= N ->
  Rsum (map (fun v => match mc_logp k n P init (map Z.of_nat v) with Ok l => lexp l | Err _ => 0%R end) (seqs k N)) = 1%R.
Proof.
  intros HS HI HN. replace N with (n + (N - n)) by lia. rewrite Rsum_seqs_app.
  rewrite <- (init_total k (fun x => lexp (init (Z.of_nat x))) n HI).
  apply Rsum_map_ext. intros h Hh. apply seqs_spec in Hh. destruct Hh as [Lh Fh].
  rewrite (Rsum_map_ext _ (fun r => Rprod (map (fun x => lexp (init (Z.of_nat x))) h) * chain_prob k P n h r)%R).
  - rewrite Rsum_map_mult_l, chain_prob_total by (auto; lia). lra.
  - intros r Hr. apply seqs_spec in Hr. destruct Hr as [Lr Fr].
    destruct (C53_sampler_matches_logp k n P init (h ++ r)) as (l&E&EL).
    + apply HS.
    + rewrite app_length. lia.
    + apply Forall_app. auto.
    + rewrite E, EL. unfold draw_prob.
      assert (E1 : firstn n (h ++ r) = h).
      { subst n. rewrite firstn_app, Nat.sub_diag, firstn_all, firstn_O. apply app_nil_r. }
      assert (E2 : skipn n (h ++ r) = r).
      { subst n. rewrite skipn_app, Nat.sub_diag, skipn_all. auto. }
      rewrite E1, E2. auto.
Qed.

(** A concrete chain with two lags. *)
Definition P_ex : list nat -> R := fun _ => (1 / 2)%R.
Definition init_ex : Z -> lr := fun z => if ((0 <=? z) && (z <? 2))%Z then lln (1 / 2) else NInf.
Example C53_example : stochastic 2 2 P_ex /\ Rsum (map (fun x => lexp (init_ex (Z.of_nat x))) (seq 0 2)) = 1%R.
Proof.
  split; [split|].
  - intros. unfold P_ex. lra.
  - intros h _ _. simpl. unfold P_ex. lra.
  - simpl. unfold init_ex. simpl. rewrite lexp_lln by lra. lra.
Qed.

(** States outside 0..k-1 have probability zero, but logp does not say so: a negative later state is read as an index
    from the end and gets a finite log-probability, a too large one raises an IndexError. *)
Theorem C53_outside_support_refuted :
  (exists l, mc_logp 2 1 P_ex init_ex [0; -1]%Z = Ok l /\ l <> NInf) /\
  mc_logp 2 1 P_ex init_ex [0; 2]%Z = Err IndexError.
Proof.
  split; [|reflexivity]. eexists. split; [reflexivity|].
  unfold init_ex. simpl. unfold P_ex, lln. destruct (Rle_dec (1/2) 0); [lra|]. simpl. discriminate.
Qed.

(** In general the later state -j is scored as the state k - j. *)
Theorem C53_negative_state_refuted k P init x j : x < k -> 1 <= j <= k ->
  mc_logp k 1 P init [Z.of_nat x; (- Z.of_nat j)%Z]
  = Ok (ladd (lsum [init (Z.of_nat x)]) (lsum [lln (P [x; k - j])])).
Proof.
  intros Hx Hj. unfold mc_logp. cbn [pyslice indexes length Nat.add Nat.eqb map seq].
  assert (E : index_axis k (- Z.of_nat j) = Ok (k - j)).
  { unfold index_axis. replace (0 <=? - Z.of_nat j)%Z with false by (symmetry; apply Z.leb_gt; lia). simpl.
    replace ((- Z.of_nat k <=? - Z.of_nat j) && (- Z.of_nat j <? 0))%Z with true.
    - f_equal. lia.
    - symmetry. apply andb_true_intro. split; [apply Z.leb_le|apply Z.ltb_lt]; lia. }
  simpl. rewrite index_axis_ok by auto. simpl. rewrite E. reflexivity.
Qed.

(** With one transition matrix for each chain of a batch the shape of logp is never the batch shape: the states index
    the batch axis of P. *)
Theorem C53_batched_P_refuted b T k : 0 < b -> 2 <= T ->
  last_axes_square [b; k; k] 1 = true /\ mc_logp_shape 1 [b] T [b; k; k] <> Some [b].
Proof.
  intros Hb HT. split.
  - unfold last_axes_square. simpl. rewrite Nat.eqb_refl. auto.
  - unfold mc_logp_shape, broadcast. simpl.
    destruct (Nat.eqb_spec b (T - 1)); simpl; [discriminate|].
    destruct (Nat.eqb_spec b 1); simpl; [discriminate|].
    destruct (Nat.eqb_spec (T - 1) 1); simpl; discriminate.
Qed.
(** With a shared transition array it is the batch shape. *)
Lemma removelast_snoc (l : list nat) x : removelast (l ++ [x]) = l.
Proof. rewrite removelast_app by discriminate. simpl. apply app_nil_r. Qed.
Lemma broadcast_rev_same l : broadcast_rev l l = Some l.
Proof. induction l; simpl; auto. rewrite IHl, Nat.eqb_refl. auto. Qed.
Theorem C53_shared_P_shape n batch T pshape :
  length pshape = n + 1 -> mc_logp_shape n batch T pshape = Some batch.
Proof.
  intros H. unfold mc_logp_shape. rewrite skipn_all2 by lia. rewrite app_nil_r, removelast_snoc.
  unfold broadcast. rewrite broadcast_rev_same. simpl. rewrite rev_involutive. auto.
Qed.

(** *** C68 *)

(** The greedy continuation: every later entry is the most probable state given the n entries before it. *)
Definition greedy_path (P : list nat -> R) (argmax : (nat -> R) -> nat) (n : nat) (v : list nat) : Prop :=
  forall t, n <= t -> t < length v ->
    nth t v 0 = argmax (fun j => P (skipn (t - n) (firstn t v) ++ [j])).

Lemma greedy_spec P argmax n steps : forall hist t, t < steps ->
  nth (length hist + t) (hist ++ greedy P argmax n hist steps) 0
  = argmax (fun j => P (skipn (length hist + t - n) (firstn (length hist + t) (hist ++ greedy P argmax n hist steps)) ++ [j])).
Proof.
  induction steps; intros hist t Ht; [lia|]. simpl.
  set (x := argmax (fun j => P (skipn (length hist - n) hist ++ [j]))).
  destruct t as [|t].
  - rewrite Nat.add_0_r. rewrite app_nth2, Nat.sub_diag by lia. simpl.
    rewrite firstn_app, Nat.sub_diag, firstn_all, firstn_O, app_nil_r. reflexivity.
  - specialize (IHsteps (hist ++ [x]) t ltac:(lia)). rewrite app_length in IHsteps. simpl in IHsteps.
    rewrite <- app_assoc in IHsteps. simpl in IHsteps. replace (length hist + S t) with (length hist + 1 + t) by lia.
    exact IHsteps.
Qed.
Lemma greedy_length P argmax n steps : forall hist, length (greedy P argmax n hist steps) = steps.
Proof. induction steps; intros hist; simpl; auto. Qed.

(** The support point is the greedy path from the initial support point when the initial draw happens to equal it. *)
Theorem C68_support_point_partial P argmax n steps m : length m = n ->
  greedy_path P argmax n (support_point P argmax n steps m m).
Proof.
  intros H t Hn Ht. unfold support_point in *. rewrite app_length, greedy_length in Ht.
  pose proof (greedy_spec P argmax n steps m (t - length m) ltac:(lia)) as E.
  replace (length m + (t - length m)) with t in E by lia. exact E.
Qed.
(** Otherwise it need not be: here the chain repeats its last state, but the support point jumps. *)
Definition argmax2 (f : nat -> R) : nat := if Rlt_dec (f 0) (f 1) then 1 else 0.
Theorem C68_support_point_refuted :
  ~ forall P n steps m d, length m = n -> length d = n ->
      greedy_path P argmax2 n (support_point P argmax2 n steps m d).
Proof.
  intros H.
  specialize (H (fun w => match w with [a; b] => if a =? b then 1%R else 0%R | _ => 0%R end) 1 1 [0] [1] eq_refl eq_refl).
  specialize (H 1 ltac:(lia) ltac:(simpl; lia)). revert H.
  unfold support_point. simpl. unfold argmax2.
  destruct (Rlt_dec 0 1) as [_|]; [|intros; lra].
  destruct (Rlt_dec 1 0); [lra|]. discriminate.
Qed.
Theorem C68_support_point_length P argmax n steps m d :
  length (support_point P argmax n steps m d) = length m + steps.
Proof. unfold support_point. rewrite app_length, greedy_length. auto. Qed.

(** *** C69 *)
(** The categories listed for the sampler: variable after variable, each entry once. *)
Definition categories (vars : list (nat * nat)) : list nat := flat_map (fun v => repeat (fst v) (snd v)) vars.

Lemma dimcats_snoc vars v : dimcats (vars ++ [v]) =
  dimcats vars ++ map (fun d => (d, fst v)) (seq (length (dimcats vars)) (snd v)).
Proof. unfold dimcats. rewrite fold_left_app. reflexivity. Qed.
Lemma dimcats_spec vars : dimcats vars = combine (seq 0 (length (categories vars))) (categories vars).
Proof.
  induction vars as [|v vars IH] using rev_ind; [reflexivity|].
  rewrite dimcats_snoc. unfold categories. rewrite flat_map_app. fold (categories vars). simpl. rewrite app_nil_r.
  rewrite app_length, repeat_length, seq_app. simpl.
  assert (L : length (dimcats vars) = length (categories vars)).
  { rewrite IH, combine_length, seq_length. lia. }
  rewrite L, IH.
  assert (forall A B (a : list A) (b : list B) a' b', length a = length b ->
    combine (a ++ a') (b ++ b') = combine a b ++ combine a' b') as CA.
  { clear. induction a; intros [|y b] a' b' H; simpl in *; try discriminate; auto. f_equal. auto. }
  rewrite CA by (rewrite seq_length; auto). f_equal.
  generalize (length (categories vars)). generalize (fst v). generalize (snd v). clear.
  induction n; intros c s; simpl; auto. f_equal. apply IHn.
Qed.
Theorem C69_gibbs_coordinates vars :
  gibbs_dims vars None = Ok (combine (seq 0 (length (categories vars))) (categories vars)).
Proof. unfold gibbs_dims. rewrite dimcats_spec. auto. Qed.

Lemma insert_perm x l : Permutation (insert x l) (x :: l).
Proof.
  induction l; simpl; auto. destruct (x <=? a); auto. rewrite IHl. apply perm_swap.
Qed.
Lemma sorted_perm l : Permutation (sorted l) l.
Proof. induction l; simpl; auto. rewrite insert_perm. auto. Qed.
Lemma insert_sorted x l : StronglySorted le l -> StronglySorted le (insert x l).
Proof.
  induction 1; simpl; [repeat constructor|]. destruct (Nat.leb_spec x a).
  - constructor; [constructor; auto|]. constructor; auto. eapply Forall_impl; [|exact H0]. simpl. intros; lia.
  - constructor; auto. apply Forall_forall. intros y Hy. apply (Permutation_in _ (insert_perm x l)) in Hy.
    destruct Hy as [<-|Hy]; [lia|]. rewrite Forall_forall in H0. auto.
Qed.
Lemma sorted_sorted l : StronglySorted le (sorted l).
Proof. induction l; simpl; [constructor|apply insert_sorted; auto]. Qed.
Lemma seq_sorted a n : StronglySorted le (seq a n).
Proof.
  revert a. induction n; intros a; simpl; constructor; auto. apply Forall_forall. intros y Hy. apply in_seq in Hy. lia.
Qed.
Lemma sorted_unique l l' : StronglySorted le l -> StronglySorted le l' -> Permutation l l' -> l = l'.
Proof.
  revert l'. induction l as [|x l IH]; intros l' H1 H2 HP.
  - apply Permutation_nil in HP. auto.
  - destruct l' as [|y l']; [apply Permutation_sym, Permutation_nil in HP; discriminate|].
    inversion H1; subst. inversion H2; subst.
    assert (x = y).
    { rewrite Forall_forall in H4, H6. assert (In x (y :: l')) by (apply (Permutation_in _ HP); left; auto).
      assert (In y (x :: l)) by (apply (Permutation_in _ (Permutation_sym HP)); left; auto).
      destruct H, H0; try congruence. specialize (H4 _ H0). specialize (H6 _ H). lia. }
    subst y. f_equal. apply IH; auto. apply Permutation_cons_inv in HP. auto.
Qed.
(** An explicit order is accepted exactly when it is a permutation of the coordinates, and then every coordinate is
    visited exactly once with its own number of categories, in the given order. *)
Theorem C69_gibbs_order vars o :
  let d := combine (seq 0 (length (categories vars))) (categories vars) in
  (Permutation o (seq 0 (length (categories vars))) <-> is_ok (gibbs_dims vars (Some o)) = true) /\
  forall r, gibbs_dims vars (Some o) = Ok r -> map fst r = o /\ Permutation r d.
Proof.
  intros d.
  assert (LD : length (dimcats vars) = length (categories vars)) by (rewrite dimcats_spec, combine_length, seq_length; lia).
  assert (EQ : Permutation o (seq 0 (length (categories vars))) <-> sorted o = seq 0 (length (dimcats vars))).
  { rewrite LD. split.
    - intros H. apply sorted_unique; [apply sorted_sorted|apply seq_sorted|]. rewrite sorted_perm. auto.
    - intros H. rewrite <- H. symmetry. apply sorted_perm. }
  assert (NF : forall (l : list nat) s j, j < length l -> fst (nth j (combine (seq s (length l)) l) (0, 0)) = s + j).
  { clear. induction l; intros s [|j] H; simpl in *; try lia. rewrite IHl by lia. lia. }
  split.
  - rewrite EQ. unfold gibbs_dims, list_eqb. destruct (list_eq_dec Nat.eq_dec (sorted o) _); simpl; split; auto; discriminate.
  - intros r. unfold gibbs_dims, list_eqb. destruct (list_eq_dec Nat.eq_dec (sorted o) _) as [e|]; [|discriminate].
    intros H. inversion H; subst r; clear H. assert (HP := proj2 EQ e).
    split.
    + rewrite map_map. rewrite <- (map_id o) at 2. apply map_ext_in. intros j Hj.
      apply (Permutation_in _ HP) in Hj. apply in_seq in Hj.
      rewrite dimcats_spec, NF by lia. auto.
    + rewrite HP, dimcats_spec. fold d.
      assert (forall A (l : list A) x0, map (fun j => nth j l x0) (seq 0 (length l)) = l) as MN.
      { clear. intros A l x0. induction l; simpl; auto. f_equal. rewrite <- seq_shift, map_map. auto. }
      assert (length d = length (categories vars)) as <- by (unfold d; rewrite combine_length, seq_length; lia).
      rewrite MN. auto.
Qed.
Example C69_example : gibbs_dims [(3, 2); (4, 1)] (Some [2; 0; 1]) = Ok [(2, 4); (0, 3); (1, 3)]
  /\ gibbs_dims [(3, 2); (4, 1)] (Some [2; 0; 0]) = Err ValueError.
Proof. split; reflexivity. Qed.
