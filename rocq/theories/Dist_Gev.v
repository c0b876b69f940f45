(** C54: GenExtreme. *)
From Coq Require Import Reals Lra Lia.
From Coquelicot Require Import Coquelicot.
From Verif Require Import Common LogR Dist_Model.
Open Scope R_scope.

(** The documented support: { x : 1 + xi (x - mu) / sigma > 0 } (continuous.py:72-76). *)
Definition in_support (mu sigma xi x : R) : Prop := 0 < 1 + xi * ((x - mu) / sigma).
Definition valid (sigma xi : R) : Prop := 0 < sigma /\ -1 < xi < 1.

Lemma gev_check_ok sigma xi v : valid sigma xi -> gev_check sigma xi v = Ok v.
Proof.
  intros (H1&H2&H3). unfold gev_check, gtb, ltb.
  destruct (Rlt_dec 0 sigma); [|lra]. destruct (Rlt_dec (-1) xi); [|lra]. destruct (Rlt_dec xi 1); [|lra]. auto.
Qed.
Theorem C54_parameters_checked sigma xi value mu : ~ valid sigma xi ->
  gev_logp value mu sigma xi = Err ValueError /\ gev_logcdf value mu sigma xi = Err ValueError.
Proof.
  intros H. unfold gev_logp, gev_logcdf, gev_check, gtb, ltb, valid in *.
  destruct (Rlt_dec 0 sigma); [|auto]. destruct (Rlt_dec (-1) xi); [|auto]. destruct (Rlt_dec xi 1); [|auto].
  exfalso. apply H. auto.
Qed.

(** logp is -inf exactly outside the support. *)
Theorem C54_logp_support value mu sigma xi : valid sigma xi ->
  exists l, gev_logp value mu sigma xi = Ok l /\ (l <> NInf <-> in_support mu sigma xi value).
Proof.
  intros V. unfold gev_logp. eexists. rewrite gev_check_ok by auto. split; [reflexivity|].
  unfold gtb, in_support. destruct (Rlt_dec 0 (1 + xi * ((value - mu) / sigma))); split; auto; congruence.
Qed.

Lemma support_alt mu sigma xi x : 0 < sigma -> 1 + xi * (x - mu) / sigma = 1 + xi * ((x - mu) / sigma).
Proof. intros. field. lra. Qed.

(** The expression under the switch, and the cdf it gives. *)
Definition lc (mu sigma xi x : R) : R :=
  let z := (x - mu) / sigma in if isclose0 xi then - exp (- z) else - pow (1 + xi * z) (- 1 / xi).
Lemma logcdf_in mu sigma xi x : valid sigma xi -> in_support mu sigma xi x ->
  gev_logcdf x mu sigma xi = Ok (Fin (lc mu sigma xi x)).
Proof.
  intros V H. unfold gev_logcdf. rewrite gev_check_ok by auto. destruct V as [V _].
  rewrite support_alt by auto. unfold gtb, in_support in *. destruct (Rlt_dec 0 (1 + xi * ((x - mu) / sigma))); [|lra].
  reflexivity.
Qed.
Lemma logcdf_out mu sigma xi x : valid sigma xi -> ~ in_support mu sigma xi x -> gev_logcdf x mu sigma xi = Ok NInf.
Proof.
  intros V H. unfold gev_logcdf. rewrite gev_check_ok by auto. destruct V as [V _].
  rewrite support_alt by auto. unfold gtb, in_support in *. destruct (Rlt_dec 0 (1 + xi * ((x - mu) / sigma))); [lra|].
  reflexivity.
Qed.
Lemma not_close xi : isclose0 xi = false -> xi <> 0.
Proof.
  unfold isclose0. destruct (Rle_dec (Rabs xi) (1 / 100000000)); [discriminate|]. intros _ ->.
  rewrite Rabs_R0 in n. lra.
Qed.

(** cdf(x) as a number: exp of the returned value. *)
Definition cdf (mu sigma xi x : R) : R := match gev_logcdf x mu sigma xi with Ok l => lexp l | Err _ => 0 end.
Definition pdf (mu sigma xi x : R) : R := match gev_logp x mu sigma xi with Ok l => lexp l | Err _ => 0 end.

(** logcdf is a number below 0 and strictly increasing on the support, and -inf below a lower end of the support. *)
Theorem C54_logcdf_increasing mu sigma xi x y : valid sigma xi ->
  in_support mu sigma xi x -> in_support mu sigma xi y -> x < y ->
  exists a b, gev_logcdf x mu sigma xi = Ok (Fin a) /\ gev_logcdf y mu sigma xi = Ok (Fin b) /\ a < b < 0.
Proof.
  intros V Hx Hy Hxy. exists (lc mu sigma xi x), (lc mu sigma xi y).
  rewrite !logcdf_in by auto. split; [auto|]. split; [auto|].
  destruct V as (Hs&Hxi). unfold lc, in_support in *.
  assert (Hz : (x - mu) / sigma < (y - mu) / sigma).
  { apply Rmult_lt_compat_r; [apply Rinv_0_lt_compat; auto|lra]. }
  set (z := (x - mu) / sigma) in *. set (w := (y - mu) / sigma) in *.
  destruct (isclose0 xi) eqn:EC.
  - assert (exp (- w) < exp (- z)) by (apply exp_increasing; lra). pose proof (exp_pos (- w)). lra.
  - apply not_close in EC. unfold pow. pose proof (exp_pos (- 1 / xi * ln (1 + xi * w))).
    assert (exp (- 1 / xi * ln (1 + xi * w)) < exp (- 1 / xi * ln (1 + xi * z))); [|lra].
    apply exp_increasing. destruct (Rlt_or_le 0 xi) as [Hp|Hn].
    + assert (ln (1 + xi * z) < ln (1 + xi * w)) by (apply ln_increasing; nra).
      assert (0 < / xi) by (apply Rinv_0_lt_compat; auto). unfold Rdiv. nra.
    + assert (Hn' : xi < 0) by lra.
      assert (ln (1 + xi * w) < ln (1 + xi * z)) by (apply ln_increasing; nra).
      assert (/ xi < 0) by (apply Rinv_lt_0_compat; auto). unfold Rdiv. nra.
Qed.

Theorem C54_logcdf_below mu sigma xi x : valid sigma xi -> 0 <= xi -> ~ in_support mu sigma xi x ->
  gev_logcdf x mu sigma xi = Ok NInf.
Proof. intros V _ H. apply logcdf_out; auto. Qed.

(** Above an upper end of the support (xi < 0) the cdf is one, but logcdf says -inf. *)
Theorem C54_logcdf_above_refuted mu sigma xi x : valid sigma xi -> xi < 0 -> mu - sigma / xi <= x ->
  gev_logcdf x mu sigma xi = Ok NInf.
Proof.
  intros V Hxi Hx. apply logcdf_out; auto. destruct V as [Hs _]. unfold in_support. intros H.
  assert (- / xi <= (x - mu) / sigma).
  { apply Rmult_le_reg_r with sigma; auto. unfold Rdiv. rewrite Rmult_assoc, Rinv_l by lra. unfold Rdiv in Hx. lra. }
  assert (xi * ((x - mu) / sigma) <= xi * - / xi) by (apply Rmult_le_compat_neg_l; lra).
  rewrite <- Ropp_mult_distr_r, Rinv_r in H1 by lra. lra.
Qed.
Example C54_above_example : valid 1 (- (1 / 2)) /\ gev_logcdf 3 0 1 (- (1 / 2)) = Ok NInf.
Proof.
  split; [unfold valid; lra|]. apply C54_logcdf_above_refuted; unfold valid; try lra.
  replace (0 - 1 / - (1 / 2)) with 2 by field. lra.
Qed.

(** The density is the derivative of the cdf, everywhere on the support. *)
Lemma support_open mu sigma xi x : 0 < sigma -> in_support mu sigma xi x ->
  locally x (fun y => in_support mu sigma xi y).
Proof.
  intros Hs H. unfold in_support in *.
  apply (continuous_comp (fun y => 1 + xi * ((y - mu) / sigma)) (fun u => u) x) with (P := fun u => 0 < u); simpl.
  - apply (continuous_plus (fun _ => 1) (fun y => xi * ((y - mu) / sigma))).
    + apply continuous_const.
    + apply (continuous_mult (fun _ => xi) (fun y => (y - mu) / sigma)); [apply continuous_const|].
      apply (continuous_mult (fun y => y - mu) (fun _ => / sigma)); [|apply continuous_const].
      apply (continuous_minus (fun y => y) (fun _ => mu)); [apply continuous_id|apply continuous_const].
  - apply continuous_id.
  - apply (open_gt 0). auto.
Qed.

Theorem C54_density_is_derivative_of_cdf mu sigma xi x : valid sigma xi -> in_support mu sigma xi x ->
  is_derive (cdf mu sigma xi) x (pdf mu sigma xi x).
Proof.
  intros V H. assert (V' := V). destruct V' as (Hs&Hxi).
  apply is_derive_ext_loc with (fun y => exp (lc mu sigma xi y)).
  { generalize (support_open _ _ _ _ Hs H). apply filter_imp. intros y Hy. unfold cdf. rewrite logcdf_in by auto. auto. }
  unfold pdf, gev_logp. rewrite gev_check_ok by auto. unfold in_support in H. unfold gtb.
  destruct (Rlt_dec 0 (1 + xi * ((x - mu) / sigma))); [|lra]. cbn [lexp].
  unfold lc. destruct (isclose0 xi) eqn:EC.
  - unfold Rdiv. auto_derive; auto.
    replace (- ln sigma - (x - mu) * / sigma - exp (- ((x - mu) * / sigma)))
      with (- exp (- ((x - mu) * / sigma)) + (- ((x - mu) * / sigma)) + - ln sigma) by ring.
    rewrite !exp_plus, (exp_Ropp (ln sigma)), exp_ln by auto.
    unfold Rminus. field. lra.
  - apply not_close in EC. unfold pow. unfold Rdiv in *. auto_derive.
    + unfold Rminus in *. auto.
    + set (s := 1 + xi * ((x + - mu) * / sigma)) in *. change (x - mu) with (x + - mu) in *. fold s in H.
      fold s.
      replace (- ln sigma - (xi + 1) * / xi * ln s - exp (-1 * / xi * ln s))
        with (- exp (-1 * / xi * ln s) + (-1 * / xi * ln s) + - ln s + - ln sigma) by (field; auto).
      rewrite !exp_plus, (exp_Ropp (ln sigma)), (exp_Ropp (ln s)), !exp_ln by auto.
      field. repeat split; auto; lra.
Qed.

(** Every probability is reached exactly once: the quantile function. *)
Definition quantile (mu sigma xi p : R) : R :=
  if isclose0 xi then mu - sigma * ln (- ln p) else mu + sigma * (pow (- ln p) (- xi) - 1) / xi.
Theorem C54_cdf_onto mu sigma xi p : valid sigma xi -> (isclose0 xi = false \/ xi = 0) -> 0 < p < 1 ->
  in_support mu sigma xi (quantile mu sigma xi p) /\ cdf mu sigma xi (quantile mu sigma xi p) = p.
Proof.
  intros V HC Hp. assert (V' := V). destruct V' as (Hs&Hxi).
  assert (HL : 0 < - ln p) by (assert (ln p < ln 1) by (apply ln_increasing; lra); rewrite ln_1 in *; lra).
  assert (IS : in_support mu sigma xi (quantile mu sigma xi p)).
  { unfold in_support, quantile. destruct (isclose0 xi) eqn:EC.
    - destruct HC as [HC| HC0]; [discriminate|]. subst xi. lra.
    - apply not_close in EC. replace (1 + xi * _) with (pow (- ln p) (- xi)); [apply exp_pos|].
      field. split; lra. }
  split; auto. unfold cdf. rewrite logcdf_in by auto. cbn [lexp]. unfold lc, quantile in *.
  destruct (isclose0 xi) eqn:EC.
  - replace (- ((mu - sigma * ln (- ln p) - mu) / sigma)) with (ln (- ln p)) by (field; lra).
    rewrite exp_ln by auto. rewrite Ropp_involutive. apply exp_ln. lra.
  - apply not_close in EC.
    replace (1 + xi * _) with (pow (- ln p) (- xi)) by (field; split; lra).
    unfold pow. rewrite ln_exp. replace (- 1 / xi * (- xi * ln (- ln p))) with (ln (- ln p)) by (field; auto).
    rewrite exp_ln by auto. rewrite Ropp_involutive. apply exp_ln. lra.
Qed.

Lemma exp_le_inv' a b : a <= b -> exp a <= exp b.
Proof. intros [H| ->]; [left; apply exp_increasing; auto|right; auto]. Qed.
(** The support point is the mode: no point has a higher density. *)
Lemma entropy_bound a u : 0 < a -> 0 < u -> a * ln u - u <= a * ln a - a.
Proof.
  intros Ha Hu. assert (HE : ln (u / a) <= u / a - 1).
  { assert (0 < u / a) by (apply Rdiv_lt_0_compat; auto).
    pose proof (exp_ineq1_le (ln (u / a))) as E. rewrite exp_ln in E by auto. lra. }
  rewrite ln_div in HE by auto.
  assert (a * (ln u - ln a) <= a * (u / a - 1)) by (apply Rmult_le_compat_l; lra).
  replace (a * (u / a - 1)) with (u - a) in H by (field; lra). lra.
Qed.
Theorem C54_support_point_is_mode mu sigma xi x : valid sigma xi ->
  in_support mu sigma xi (gev_support_point mu sigma xi) /\
  pdf mu sigma xi x <= pdf mu sigma xi (gev_support_point mu sigma xi).
Proof.
  intros V. assert (V' := V). destruct V' as (Hs&Hxi).
  assert (IS : in_support mu sigma xi (gev_support_point mu sigma xi)).
  { unfold in_support, gev_support_point. destruct (isclose0 xi) eqn:EC.
    - replace ((mu - mu) / sigma) with 0 by (field; lra). lra.
    - apply not_close in EC. replace (1 + xi * _) with (pow (1 + xi) (- xi)); [apply exp_pos|].
      field. split; lra. }
  split; auto. unfold pdf, gev_logp. rewrite !gev_check_ok by auto. unfold in_support in IS. unfold gtb.
  destruct (Rlt_dec 0 (1 + xi * ((gev_support_point mu sigma xi - mu) / sigma))); [|lra].
  destruct (Rlt_dec 0 (1 + xi * ((x - mu) / sigma))) as [Hx|]; [|cbn [lexp]; left; apply exp_pos].
  cbn [lexp]. apply exp_le_inv'.
  unfold gev_support_point in *. destruct (isclose0 xi) eqn:EC.
  - replace ((mu - mu) / sigma) with 0 by (field; lra). rewrite Ropp_0, exp_0.
    pose proof (exp_ineq1_le (- ((x - mu) / sigma))). lra.
  - apply not_close in EC.
    assert (G : forall s, 0 < s -> - ln sigma - (xi + 1) / xi * ln s - pow s (- 1 / xi)
                = - ln sigma + ((1 + xi) * ln (pow s (- 1 / xi)) - pow s (- 1 / xi))).
    { intros s Hs'. unfold pow. rewrite ln_exp. field. auto. }
    rewrite !G by auto.
    assert (EM : pow (1 + xi * ((mu + sigma * (pow (1 + xi) (- xi) - 1) / xi - mu) / sigma)) (- 1 / xi) = 1 + xi).
    { replace (1 + xi * _) with (pow (1 + xi) (- xi)) by (field; split; lra).
      unfold pow. rewrite ln_exp. replace (- 1 / xi * (- xi * ln (1 + xi))) with (ln (1 + xi)) by (field; auto).
      apply exp_ln. lra. }
    rewrite EM. apply Rplus_le_compat_l. apply entropy_bound; [lra|apply exp_pos].
Qed.

(** dist(scipy=True) takes the shape parameter with scipy's sign. *)
Theorem C54_scipy_sign mu sigma xi : gev_dist mu sigma xi true = gev_dist mu sigma (- xi) false.
Proof. reflexivity. Qed.

Example C54_example : valid 2 (1 / 2) /\ isclose0 (1 / 2) = false /\ in_support 0 2 (1 / 2) (-3) /\ ~ in_support 0 2 (1 / 2) (-5).
Proof.
  unfold valid, in_support, isclose0. split; [lra|]. split; [|lra].
  destruct (Rle_dec (Rabs (1 / 2)) (1 / 100000000)); auto. rewrite Rabs_right in r; lra.
Qed.
