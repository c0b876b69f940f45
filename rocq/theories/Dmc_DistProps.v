(** C101: the arguments of DiscreteMarkovChain.dist, and what the parameter checks of its logp guarantee. *)
From Coq Require Import Reals Lra.
From Verif Require Import Common LogR Dmc_Model Dmc_Spec Dmc_Props Dmc_Dist.
Open Scope nat_scope.

(** one of P and logit_P, but not both *)
Definition exactly_one (P logit_P : option parr) : Prop := (P = None /\ logit_P <> None) \/ (P <> None /\ logit_P = None).
(** the number of steps is known and the sources agree *)
Definition steps_known (steps : option Z) (shape : option (list Z)) (n_lags : nat) : Prop :=
  match shape with
  | None => steps <> None
  | Some s => exists s' d, s = s' ++ [d] /\ forall t, steps = Some t -> (t + Z.of_nat n_lags = d)%Z
  end.
Definition init_accepted (i : init_arg) : Prop := i = NoInit \/ exists d f, i = Unregistered d f /\ d <= 1.

Lemma support_steps_spec steps shape n : is_ok (support_steps steps shape (Z.of_nat n)) = true /\ support_steps steps shape (Z.of_nat n) <> Ok None <-> steps_known steps shape n.
Proof.
  unfold support_steps, steps_known. destruct shape as [s|].
  - destruct (rev s) as [|d r] eqn:E.
    + split; [intros [H _]; discriminate|]. intros (s' & d & -> & _). rewrite rev_app_distr in E. discriminate.
    + assert (Es : s = rev r ++ [d]) by (rewrite <- (rev_involutive s), E; reflexivity). split.
      * intros [H1 H2]. exists (rev r), d. split; [exact Es|]. intros t ->. destruct (Z.eqb_spec (d - Z.of_nat n) t); [lia|discriminate].
      * intros (s' & d' & E' & H). rewrite Es in E'. apply app_inj_tail in E' as [_ <-]. destruct steps as [t|]; [|split; [reflexivity|discriminate]].
        specialize (H t eq_refl). destruct (Z.eqb_spec (d - Z.of_nat n) t); [split; [reflexivity|discriminate] | lia].
  - split; [intros [_ H] ->; apply H; reflexivity|]. intros H. split; [reflexivity|]. intros E. injection E as ->. apply H. reflexivity.
Qed.
(** The call is accepted exactly when one of P and logit_P is given, the number of steps is known, and init_dist is
    absent or an unregistered distribution of scalar or vector support. *)
Theorem C101_accepted P logit_P steps shape init n_lags :
  is_ok (dist P logit_P steps shape init n_lags) = true <-> exactly_one P logit_P /\ steps_known steps shape n_lags /\ init_accepted init.
Proof.
  rewrite <- support_steps_spec. unfold dist. destruct (support_steps steps shape (Z.of_nat n_lags)) as [[t|]|e]; cbn [bind is_ok].
  2: { split; [discriminate|]. intros (_ & (_ & H) & _). exfalso. apply H. reflexivity. }
  2: { split; [discriminate|]. intros (_ & (H & _) & _). discriminate. }
  assert (I : forall p : parr, is_ok (do i <- match init with NotDist => Err ValueError | Registered => Err ValueError | Unregistered d f => if 1 <? d then Err ValueError else Ok f | NoInit => Ok (default_init (last (pshape p) 0)) end;
     Ok {| trans := p; steps_ := t; lags := n_lags; init_logp := i |}) = true <-> init_accepted init).
  { intros p. unfold init_accepted. destruct init as [| | |d f]; cbn [bind is_ok].
    - split; [left; reflexivity | reflexivity].
    - split; [discriminate|]. intros [H|(?&?&H&_)]; discriminate.
    - split; [discriminate|]. intros [H|(?&?&H&_)]; discriminate.
    - destruct (Nat.ltb_spec 1 d); cbn [bind is_ok].
      + split; [discriminate|]. intros [H0|(d'&f'&H0&H1)]; [discriminate|]. injection H0 as -> ->. lia.
      + split; [|reflexivity]. intros _. right. exists d, f. split; [reflexivity|lia]. }
  unfold exactly_one. destruct P as [p|], logit_P as [l|]; cbn [bind is_ok].
  - split; [discriminate|]. intros ([[H _]|[_ H]]&_); discriminate.
  - rewrite I. split.
    + intros H. split; [right; split; [discriminate|reflexivity]|]. split; [split; [reflexivity|discriminate] | exact H].
    + intros (_&_&H). exact H.
  - rewrite I. split.
    + intros H. split; [left; split; [reflexivity|discriminate]|]. split; [split; [reflexivity|discriminate] | exact H].
    + intros (_&_&H). exact H.
  - split; [discriminate|]. intros ([[_ H]|[H _]]&_); exfalso; apply H; reflexivity.
Qed.
(** A draw has the length given by shape, or n_lags more than the given number of steps. *)
Theorem C101_draw_length P logit_P steps shape init n_lags c : dist P logit_P steps shape init n_lags = Ok c ->
  (forall s d, shape = Some (s ++ [d]) -> draw_length c = d) /\ (forall t, steps = Some t -> draw_length c = (Z.of_nat n_lags + t)%Z).
Proof.
  unfold dist. destruct (support_steps steps shape (Z.of_nat n_lags)) as [[t|]|e] eqn:E; cbn [bind]; try discriminate.
  intros H. assert (Hc : steps_ c = t /\ lags c = n_lags).
  { destruct P as [p|], logit_P as [l|]; cbn [bind] in H; try discriminate;
    (destruct init as [| | |d f]; cbn [bind] in H; try discriminate; [|destruct (1 <? d); cbn [bind] in H; try discriminate]; injection H as <-; split; reflexivity). }
  destruct Hc as [H1 H2]. unfold draw_length. rewrite H1, H2. unfold support_steps in E. split.
  - intros s d ->. rewrite rev_app_distr in E. cbn in E. destruct steps as [t'|].
    + destruct (Z.eqb_spec (d - Z.of_nat n_lags) t'); [injection E as <-; lia | discriminate].
    + injection E as <-. lia.
  - intros t' ->. destruct shape as [s|]; [|injection E as ->; lia]. destruct (rev s); [discriminate|].
    destruct (Z.eqb_spec (z - Z.of_nat n_lags) t'); [injection E as <-; lia | discriminate].
Qed.
(** The order of the arguments' checks leaves P and logit_P untouched: P is used as it is. *)
Theorem C101_P_kept p steps shape init n_lags c : dist (Some p) None steps shape init n_lags = Ok c -> trans c = p /\ lags c = n_lags.
Proof.
  unfold dist. destruct (support_steps steps shape (Z.of_nat n_lags)) as [[t|]|e]; cbn [bind]; try discriminate.
  destruct init as [| | |d f]; cbn [bind]; try discriminate; [|destruct (1 <? d); cbn [bind]; try discriminate]; intros H; injection H as <-; split; reflexivity.
Qed.

(** *** the parameter checks *)
Lemma all_indices_spec s h : In h (all_indices s) <-> Forall2 (fun i d => i < d) h s.
Proof.
  revert h. induction s as [|d s IH]; intros h; simpl.
  - split; [intros [<-|[]]; constructor|]. inversion 1. auto.
  - rewrite in_flat_map. split.
    + intros (x & Hx & H). apply in_seq in Hx. apply in_map_iff in H as (w & <- & Hw). constructor; [lia | apply IH, Hw].
    + intros H. inversion H; subst. exists x. split; [apply in_seq; lia|]. apply in_map, IH. assumption.
Qed.
Lemma square_spec s n : length s = n + 1 -> (last_axes_square s n = true <-> forall i, i < n + 1 -> nth i s 0 = last s 0) .
Proof.
  intros L. unfold last_axes_square. rewrite L, Nat.sub_diag. cbn [skipn]. rewrite forallb_forall. split.
  - intros H i Hi. apply Nat.eqb_eq, H, nth_In. lia.
  - intros H x Hx. apply In_nth with (d := 0) in Hx as (i & Hi & <-). apply Nat.eqb_eq, H. lia.
Qed.
(** the documented tolerance of numpy's allclose around one: 1e-8 + 1e-5 *)
Definition near_one (x : R) : Prop := (1 - 1001 / 100000000 <= x <= 1 + 1001 / 100000000)%R.
Lemma allclose1b_spec x : allclose1b x = true <-> near_one x.
Proof.
  unfold allclose1b, near_one. destruct (Rle_dec (Rabs (x - 1)) (1 / 100000000 + 1 / 100000 * 1)) as [H|H].
  - split; [intros _|reflexivity]. revert H. unfold Rabs. destruct (Rcase_abs (x - 1)); lra.
  - split; [discriminate|]. intros K. exfalso. apply H. apply Rabs_le. lra.
Qed.
(** For a transition array with n_lags + 1 axes, logp raises unless all axes have one length and every row of
    probabilities sums to one up to the tolerance; it accepts every other array. *)
Theorem C101_checks c value : length (pshape (trans c)) = lags c + 1 ->
  (params_ok c = true <->
   (forall i, i < lags c + 1 -> nth i (pshape (trans c)) 0 = last (pshape (trans c)) 0) /\
   (forall h, Forall2 (fun i d => i < d) h (removelast (pshape (trans c))) -> near_one (row_sum (trans c) h))) /\
  (params_ok c = false -> checked_logp c value = Err ValueError).
Proof.
  intros L. split; [|intros H; unfold checked_logp; rewrite H; reflexivity].
  unfold params_ok. rewrite andb_true_iff, square_spec by exact L. rewrite forallb_forall. split.
  - intros [H1 H2]. split; [exact H1|]. intros h Hh. apply allclose1b_spec, H2, all_indices_spec, Hh.
  - intros [H1 H2]. split; [exact H1|]. intros h Hh. apply allclose1b_spec, H2, all_indices_spec, Hh.
Qed.
(** a hypercube of k states and n lags *)
Definition cube (k n : nat) : list nat := repeat k (n + 1).
Lemma cube_last k n : last (cube k n) 0 = k.
Proof. unfold cube. rewrite Nat.add_1_r. induction n; [reflexivity|]. cbn [repeat] in *. destruct (repeat k n); exact IHn || reflexivity. Qed.
Lemma cube_removelast k n : removelast (cube k n) = repeat k n.
Proof.
  unfold cube. assert (E : repeat k (n + 1) = repeat k n ++ [k]) by (rewrite repeat_app; reflexivity). rewrite E. apply removelast_last.
Qed.
Lemma cube_len k n : length (cube k n) = n + 1. Proof. apply repeat_length. Qed.
Lemma f2_repeat k n h : Forall2 (fun i d => i < d) h (repeat k n) <-> length h = n /\ Forall (fun x => x < k) h.
Proof.
  revert h. induction n; intros h; cbn [repeat].
  - split; [inversion 1; auto|]. intros [H _]. destruct h; [constructor|discriminate].
  - split.
    + inversion 1; subst. match goal with H : Forall2 _ _ _ |- _ => apply IHn in H as [? ?] end. split; [cbn; lia | constructor; assumption].
    + intros [H1 H2]. destruct h; [discriminate|]. inversion H2; subst. constructor; [assumption|]. apply IHn. cbn in H1. split; [lia|assumption].
Qed.
Lemma last_cube_nth k n i : i < n + 1 -> nth i (cube k n) 0 = k.
Proof. intros H. unfold cube. revert i H. induction (n + 1) as [|m IH]; intros i H; [lia|]. destruct i; [reflexivity|]. apply IH. lia. Qed.

Lemma Rsum_pos_exp {A} (f : A -> R) l : (0 <= Rsum (map (fun x => exp (f x)) l))%R /\ (l <> [] -> (0 < Rsum (map (fun x => exp (f x)) l))%R).
Proof.
  induction l as [|a l [I1 I2]]; cbn [map Rsum fold_right].
  - split; [unfold Rsum; simpl; lra|]. intros H. exfalso. apply H. reflexivity.
  - pose proof (exp_pos (f a)). unfold Rsum in *. cbn [fold_right] in *. split; [lra|]. intros _. lra.
Qed.
Lemma softmax_stochastic l k n : 0 < k -> pshape l = cube k n -> stochastic k n (pat (softmax_last l)).
Proof.
  intros Hk Hs. unfold softmax_last. cbn [pat]. rewrite Hs, cube_last. split.
  - intros w. destruct (Rsum_pos_exp (fun j => pat l (removelast w ++ [j])) (seq 0 k)) as [_ P].
    assert (P' : (0 < Rsum (map (fun j => exp (pat l (removelast w ++ [j]))) (seq 0 k)))%R) by (apply P; destruct k; [lia|discriminate]).
    apply Rlt_le, Rdiv_lt_0_compat; [apply exp_pos | exact P'].
  - intros h _ _. rewrite (Rsum_map_ext _ (fun x => (exp (pat l (h ++ [x])) * / Rsum (map (fun j => exp (pat l (h ++ [j]))) (seq 0 k)))%R)).
    + rewrite (Rsum_map_mult_r (/ Rsum (map (fun j => exp (pat l (h ++ [j]))) (seq 0 k))) (fun x => exp (pat l (h ++ [x])))).
      apply Rinv_r. apply Rgt_not_eq. apply (Rsum_pos_exp (fun j => pat l (h ++ [j]))). destruct k; [lia|discriminate].
    + intros x _. rewrite removelast_last. reflexivity.
Qed.
Lemma default_init_total k : 0 < k -> Rsum (map (fun x => lexp (default_init k (Z.of_nat x))) (seq 0 k)) = 1%R.
Proof.
  intros Hk. assert (Hp : (0 < INR k)%R) by (apply lt_0_INR, Hk).
  rewrite (Rsum_map_ext _ (fun _ => (1 / INR k)%R)).
  - assert (E : forall l, Rsum (map (fun _ : nat => (1 / INR k)%R) l) = (INR (length l) * (1 / INR k))%R).
    { induction l as [|a l IH]; [unfold Rsum; simpl; lra|]. cbn [map length]. rewrite S_INR. unfold Rsum in *. cbn [fold_right]. rewrite IH. lra. }
    rewrite E, seq_length. field. lra.
  - intros x Hx. apply in_seq in Hx. unfold default_init. replace ((0 <=? Z.of_nat x) && (Z.of_nat x <? Z.of_nat k))%Z with true.
    + apply lexp_lln. apply Rlt_le, Rdiv_lt_0_compat; lra.
    + symmetry. apply andb_true_iff. split; [apply Z.leb_le|apply Z.ltb_lt]; lia.
Qed.
(** Logits are always accepted: every array of logits with n_lags + 1 axes of k states passes the checks of logp, and
    with the default initial distribution the probabilities of the chains of each length sum to one. *)
Theorem C101_logits_normalised l k n steps shape c N : 0 < k -> pshape l = cube k n -> dist None (Some l) steps shape NoInit n = Ok c -> n <= N ->
  params_ok c = true /\
  Rsum (map (fun v => match checked_logp c (map Z.of_nat v) with Ok p => lexp p | Err _ => 0%R end) (seqs k N)) = 1%R.
Proof.
  intros Hk Hs Hd HN. assert (S := softmax_stochastic l k n Hk Hs).
  assert (Hc : trans c = softmax_last l /\ lags c = n /\ init_logp c = default_init k).
  { unfold dist in Hd. destruct (support_steps steps shape (Z.of_nat n)) as [[t|]|e]; cbn [bind] in Hd; try discriminate. injection Hd as <-. cbn [trans lags init_logp].
    split; [reflexivity|]. split; [reflexivity|]. change (pshape (softmax_last l)) with (pshape l). rewrite Hs, cube_last. reflexivity. }
  destruct Hc as (Ht & Hl & Hi).
  assert (Sh : pshape (trans c) = cube k n) by (rewrite Ht; exact Hs).
  assert (K : params_ok c = true).
  { apply (C101_checks c []); [rewrite Sh, Hl; apply cube_len|]. rewrite Sh, cube_last, cube_removelast, Hl. split; [intros i Hi'; apply last_cube_nth, Hi'|].
    intros h Hh. apply f2_repeat in Hh as [H1 H2]. unfold row_sum. rewrite Sh, cube_last, Ht. destruct S as [_ S2]. rewrite (S2 h H1 H2). unfold near_one. lra. }
  split; [exact K|]. unfold checked_logp. rewrite K, Sh, cube_last, Hl, Hi, Ht.
  apply C53_probabilities_sum_to_one; [exact S | apply default_init_total, Hk | exact HN].
Qed.

(** *** what acceptance guarantees for P *)
Lemma Rsum_le {A} (f g : A -> R) l : (forall x, In x l -> (f x <= g x)%R) -> (Rsum (map f l) <= Rsum (map g l))%R.
Proof.
  induction l as [|a l IH]; intros H; [unfold Rsum; simpl; lra|]. unfold Rsum in *. cbn [map fold_right].
  apply Rplus_le_compat; [apply H; left; reflexivity | apply IH; intros; apply H; right; assumption].
Qed.
Lemma chain_prob_nonneg k P n m hist : (forall w, 0 <= P w)%R -> (0 <= chain_prob k P n hist m)%R.
Proof. intros HP. revert hist. induction m as [|x m IH]; intros hist; cbn [chain_prob]; [lra|]. apply Rmult_le_pos; [apply HP | apply IH]. Qed.
Lemma chain_prob_bounds k P n lo hi : (forall w, 0 <= P w)%R -> (0 <= lo)%R ->
  (forall h, length h = n -> Forall (fun x => x < k) h -> (lo <= Rsum (map (fun x => P (h ++ [x])) (seq 0 k)) <= hi)%R) ->
  forall m hist, n <= length hist -> Forall (fun x => x < k) hist -> (lo ^ m <= Rsum (map (chain_prob k P n hist) (seqs k m)) <= hi ^ m)%R.
Proof.
  intros HP Hlo HS m. induction m; intros hist Hn Hh.
  - simpl. lra.
  - rewrite Rsum_seqs_S. set (h := skipn (length hist - n) hist).
    assert (B : (lo <= Rsum (map (fun x => P (h ++ [x])) (seq 0 k)) <= hi)%R).
    { apply HS; unfold h; [rewrite skipn_length; lia|]. apply Forall_forall. intros y Hy. rewrite Forall_forall in Hh. apply Hh. rewrite <- (firstn_skipn (length hist - n) hist). apply in_or_app. auto. }
    assert (HM : (0 <= lo ^ m)%R) by (apply pow_le, Hlo).
    assert (E : forall x, Rsum (map (fun w => chain_prob k P n hist (x :: w)) (seqs k m)) = (P (h ++ [x]) * Rsum (map (chain_prob k P n (hist ++ [x])) (seqs k m)))%R).
    { intros x. cbn [chain_prob]. rewrite Rsum_map_mult_l. reflexivity. }
    rewrite (Rsum_map_ext _ _ _ (fun x _ => E x)).
    assert (I : forall x, In x (seq 0 k) -> (lo ^ m <= Rsum (map (chain_prob k P n (hist ++ [x])) (seqs k m)) <= hi ^ m)%R).
    { intros x Hx. apply in_seq in Hx. apply IHm; [rewrite app_length; simpl; lia|]. apply Forall_app. split; auto. constructor; [lia|auto]. }
    split.
    + apply Rle_trans with (Rsum (map (fun x => P (h ++ [x]) * lo ^ m)%R (seq 0 k))).
      * rewrite Rsum_map_mult_r. simpl. apply Rmult_le_compat_r; [exact HM | apply B].
      * apply Rsum_le. intros x Hx. apply Rmult_le_compat_l; [apply HP | apply I, Hx].
    + apply Rle_trans with (Rsum (map (fun x => P (h ++ [x]) * hi ^ m)%R (seq 0 k))).
      * apply Rsum_le. intros x Hx. apply Rmult_le_compat_l; [apply HP | apply I, Hx].
      * rewrite Rsum_map_mult_r. simpl. assert (0 <= hi ^ m)%R by (apply pow_le; lra). apply Rmult_le_compat_r; [assumption | apply B].
Qed.
(** Nonnegative arrays that logp accepts need not be normalised; the total over all chains of length N is off by at
    most the tolerance per transition. *)
Theorem C101_accepted_total p k n steps shape init c N : pshape p = cube k n -> (forall w, 0 <= pat p w)%R ->
  dist (Some p) None steps shape init n = Ok c -> params_ok c = true -> Rsum (map (fun x => lexp (init_logp c (Z.of_nat x))) (seq 0 k)) = 1%R -> n <= N ->
  ((1 - 1001 / 100000000) ^ (N - n) <= Rsum (map (fun v => match checked_logp c (map Z.of_nat v) with Ok q => lexp q | Err _ => 0%R end) (seqs k N)) <= (1 + 1001 / 100000000) ^ (N - n))%R.
Proof.
  intros Hs HP Hd HK HI HN. destruct (C101_P_kept _ _ _ _ _ _ Hd) as [Ep El].
  assert (L : length (pshape (trans c)) = lags c + 1) by (rewrite Ep, El, Hs; apply cube_len).
  destruct (proj1 (proj1 (C101_checks c [] L)) HK) as [_ R]. rewrite Ep, Hs, cube_removelast in R.
  unfold checked_logp. rewrite HK, Ep, El, Hs, cube_last.
  match goal with |- (_ <= Rsum (map ?F0 _) <= _)%R => assert (E0 : Rsum (map F0 (seqs k N)) = Rsum (map (fun h => Rsum (map (fun r => F0 (h ++ r)) (seqs k (N - n)))) (seqs k n))) end.
  { replace N with (n + (N - n)) at 1 by lia. apply Rsum_seqs_app. }
  rewrite E0. clear E0.
  set (g := fun x => lexp (init_logp c (Z.of_nat x))) in *.
  assert (E : forall h, In h (seqs k n) -> Rsum (map (fun r => match mc_logp k n (pat p) (init_logp c) (map Z.of_nat (h ++ r)) with Ok q => lexp q | Err _ => 0%R end) (seqs k (N - n)))
    = (Rprod (map g h) * Rsum (map (chain_prob k (pat p) n h) (seqs k (N - n))))%R).
  { intros h Hh. apply seqs_spec in Hh as [Lh Fh]. rewrite <- Rsum_map_mult_l. apply Rsum_map_ext. intros r Hr. apply seqs_spec in Hr as [Lr Fr].
    destruct (C53_sampler_matches_logp k n (pat p) (init_logp c) (h ++ r)) as (l & E & EL); [exact HP | rewrite app_length; lia | apply Forall_app; auto |].
    rewrite E, EL. unfold draw_prob.
    assert (E1 : firstn n (h ++ r) = h) by (rewrite <- Lh; rewrite firstn_app, Nat.sub_diag, firstn_all, firstn_O; apply app_nil_r).
    assert (E2 : skipn n (h ++ r) = r) by (rewrite <- Lh; rewrite skipn_app, Nat.sub_diag, skipn_all; auto).
    rewrite E1, E2. reflexivity. }
  rewrite (Rsum_map_ext _ _ _ E). pose proof (init_total k g n HI) as T.
  assert (B : forall h, In h (seqs k n) -> ((1 - 1001 / 100000000) ^ (N - n) <= Rsum (map (chain_prob k (pat p) n h) (seqs k (N - n))) <= (1 + 1001 / 100000000) ^ (N - n))%R).
  { intros h Hh. apply seqs_spec in Hh as [Lh Fh]. apply chain_prob_bounds; [exact HP | lra | | lia | exact Fh].
    intros w Lw Fw. assert (W : Forall2 (fun i d => i < d) w (repeat k n)) by (apply f2_repeat; auto). specialize (R w W). unfold row_sum, near_one in R. rewrite Hs, cube_last in R. exact R. }
  assert (G : forall h, (0 <= Rprod (map g h))%R).
  { induction h as [|a h IH]; [simpl; lra|]. cbn [map Rprod fold_right]. apply Rmult_le_pos; [apply lexp_nonneg | exact IH]. }
  set (lo := (1 - 1001 / 100000000)%R) in *. set (hi := (1 + 1001 / 100000000)%R) in *. clearbody lo hi.
  split.
  - apply Rle_trans with (1 * lo ^ (N - n))%R; [lra|]. rewrite <- T, <- Rsum_map_mult_r. apply Rsum_le. intros h Hh. apply Rmult_le_compat_l; [apply G | apply B, Hh].
  - apply Rle_trans with (1 * hi ^ (N - n))%R; [|lra]. rewrite <- T, <- Rsum_map_mult_r. apply Rsum_le. intros h Hh. apply Rmult_le_compat_l; [apply G | apply B, Hh].
Qed.
(** The signs of the entries are not checked: a matrix with a negative "probability" is accepted. *)
Definition neg_P : parr := {| pshape := [2; 2]; pat := fun idx => match idx with [O; O] => 2 | [O; S _] => -1 | [S _; O] => 0 | _ => 1 end%R |}.
Theorem C101_negative_entries_refuted steps : exists c, dist (Some neg_P) None (Some steps) None NoInit 1 = Ok c /\ params_ok c = true /\ (pat (trans c) [0%nat; 1%nat] < 0)%R.
Proof.
  eexists. split; [reflexivity|]. split; [|cbn; lra].
  apply (C101_checks _ []); [reflexivity|]. cbn [trans lags pshape neg_P]. split.
  - intros i Hi. destruct i as [|[|i]]; [reflexivity|reflexivity|lia].
  - intros h Hh. cbn in Hh. inversion Hh as [|i d h' s' Hi Hr]; subst. inversion Hr; subst. destruct i as [|[|i]]; [| |lia]; unfold row_sum, near_one, Rsum; cbn; lra.
Qed.
(** The default initial distribution. *)
Theorem C101_default_initial p steps shape n c k : 0 < k -> pshape p = cube k n -> dist (Some p) None steps shape NoInit n = Ok c ->
  (forall x, x < k -> lexp (init_logp c (Z.of_nat x)) = (1 / INR k)%R) /\ Rsum (map (fun x => lexp (init_logp c (Z.of_nat x))) (seq 0 k)) = 1%R.
Proof.
  intros Hk Hs Hd. unfold dist in Hd. destruct (support_steps steps shape (Z.of_nat n)) as [[t|]|e]; cbn [bind] in Hd; try discriminate. injection Hd as <-.
  cbn [init_logp]. rewrite Hs, cube_last. split; [|apply default_init_total, Hk].
  intros x Hx. unfold default_init. replace ((0 <=? Z.of_nat x) && (Z.of_nat x <? Z.of_nat k))%Z with true.
  - apply lexp_lln. apply Rlt_le, Rdiv_lt_0_compat; [lra | apply lt_0_INR; lia].
  - symmetry. apply andb_true_iff. split; [apply Z.leb_le|apply Z.ltb_lt]; lia.
Qed.
Example C101_example : exactly_one (Some neg_P) None /\ steps_known (Some 99%Z) (Some [4; 100]%Z) 1 /\ init_accepted NoInit /\ pshape neg_P = cube 2 1 /\
  exists c, dist None (Some {| pshape := [3; 3]; pat := fun _ => 0%R |}) None (Some [100]%Z) NoInit 1 = Ok c /\ draw_length c = 100%Z /\ params_ok c = true.
Proof.
  split; [right; split; [discriminate|reflexivity]|]. split; [exists [4%Z], 100%Z; split; [reflexivity|]; intros t H; injection H as <-; reflexivity|].
  split; [left; reflexivity|]. split; [reflexivity|]. eexists. split; [reflexivity|]. split; [reflexivity|].
  eapply (C101_logits_normalised {| pshape := [3; 3]; pat := fun _ => 0%R |} 3 1 None (Some [100%Z]) _ 1); [lia|reflexivity|reflexivity|lia].
Qed.
