(** C100: GenExtreme has total mass one and the documented mean and variance. *)
From Coq Require Import Reals Lra Psatz.
From Coquelicot Require Import Coquelicot.
From Verif Require Import Common LogR Dist_Model Dist_Gev Chi_Analysis Chi_Spec Chi_Props Gam_Analysis Gum_Analysis Gev_Spec.
Local Open Scope R_scope.

Section GEV.
Context (mu sigma xi : R) (V : valid sigma xi) (HC : isclose0 xi = false \/ xi = 0).
Let Hs : 0 < sigma := proj1 V.
Definition tt (x : R) : R := - lc mu sigma xi x.
Definition xof (t : R) : R := if isclose0 xi then mu - sigma * ln t else mu + sigma * (Rpower t (- xi) - 1) / xi.
Notation p := (pdf mu sigma xi).
Notation insup := (in_support mu sigma xi).

Lemma close_0 : isclose0 xi = true -> xi = 0.
Proof. destruct HC as [H|H]; [congruence | auto]. Qed.
Lemma tt_pos x : 0 < tt x.
Proof. unfold tt, lc. destruct (isclose0 xi); rewrite Ropp_involutive; [apply exp_pos | unfold pow; apply exp_pos]. Qed.
Lemma xof_tt x : insup x -> xof (tt x) = x.
Proof.
  intros H. unfold xof, tt, lc, in_support in *. destruct (isclose0 xi) eqn:E; rewrite Ropp_involutive.
  - rewrite ln_exp. field. lra.
  - apply not_close in E. unfold Rpower, pow. rewrite ln_exp. replace (- xi * (-1 / xi * ln (1 + xi * ((x - mu) / sigma)))) with (ln (1 + xi * ((x - mu) / sigma))) by (field; exact E).
    rewrite exp_ln by exact H. field. split; lra.
Qed.
Lemma pdf_out x : ~ insup x -> p x = 0.
Proof.
  intros H. destruct (C54_logp_support x mu sigma xi V) as (l & E & I). unfold pdf. rewrite E. destruct l; [reflexivity | exfalso; apply H, I; discriminate].
Qed.
Lemma lc_d x : insup x -> is_derive (lc mu sigma xi) x (p x * exp (tt x)).
Proof.
  intros H. pose proof (C54_density_is_derivative_of_cdf mu sigma xi x V H) as D.
  assert (D2 : is_derive (fun y => exp (lc mu sigma xi y)) x (p x)).
  { apply is_derive_ext_loc with (cdf mu sigma xi); [|exact D]. generalize (support_open _ _ _ _ Hs H). apply filter_imp. intros y Hy. unfold cdf. rewrite logcdf_in by auto. reflexivity. }
  apply is_derive_ext with (fun y => ln (exp (lc mu sigma xi y))); [intros; apply ln_exp|].
  unfold tt. rewrite exp_Ropp. evar_last. apply (is_derive_comp ln (fun y => exp (lc mu sigma xi y)) x); [|exact D2].
  apply is_derive_Reals. apply derivable_pt_lim_ln, exp_pos. reflexivity.
Qed.
Lemma tt_d x : insup x -> is_derive tt x (- (p x * exp (tt x))).
Proof. intros H. apply (is_derive_opp (lc mu sigma xi)). apply lc_d, H. Qed.
Lemma tt_c x : insup x -> continuous tt x.
Proof. intros H. apply (ex_derive_continuous tt). eexists. apply tt_d, H. Qed.
Lemma p_form x : insup x -> p x = if isclose0 xi then / sigma * exp (- ((x - mu) / sigma)) * exp (- tt x) else / sigma * exp (- ((xi + 1) / xi) * ln (1 + xi * ((x - mu) / sigma))) * exp (- tt x).
Proof.
  intros H. unfold pdf, gev_logp. rewrite gev_check_ok by auto. unfold in_support in H. unfold gtb. destruct (Rlt_dec 0 (1 + xi * ((x - mu) / sigma))); [|lra]. cbn [lexp].
  assert (X : / sigma = exp (- ln sigma)) by (rewrite exp_Ropp, exp_ln by exact Hs; reflexivity).
  unfold tt, lc. destruct (isclose0 xi); rewrite Ropp_involutive, X, <- !exp_plus; f_equal; ring.
Qed.
Lemma p_c x : insup x -> continuous p x.
Proof.
  intros H. apply (continuous_ext_loc p (fun x => if isclose0 xi then / sigma * exp (- ((x - mu) / sigma)) * exp (- tt x) else / sigma * exp (- ((xi + 1) / xi) * ln (1 + xi * ((x - mu) / sigma))) * exp (- tt x))).
  { generalize (support_open _ _ _ _ Hs H). apply filter_imp. intros y Hy. symmetry. apply p_form, Hy. }
  assert (Ct : continuous (fun x => exp (- tt x)) x).
  { apply (continuous_comp tt (fun t => exp (- t))); [apply tt_c, H|]. apply (ex_derive_continuous (fun t => exp (- t))). auto_derive. exact I. }
  destruct (isclose0 xi).
  - apply (continuous_mult (fun x => / sigma * exp (- ((x - mu) / sigma))) (fun x => exp (- tt x))); [|exact Ct]. apply (ex_derive_continuous (fun x => / sigma * exp (- ((x - mu) / sigma)))). auto_derive. exact I.
  - apply (continuous_mult (fun x => / sigma * exp (- ((xi + 1) / xi) * ln (1 + xi * ((x - mu) / sigma)))) (fun x => exp (- tt x))); [|exact Ct].
    apply (ex_derive_continuous (fun x => / sigma * exp (- ((xi + 1) / xi) * ln (1 + xi * ((x - mu) / sigma))))). auto_derive. exact H.
Qed.
Lemma insup_between u v x : insup u -> insup v -> u <= x <= v -> insup x.
Proof.
  unfold in_support. intros Hu Hv Hx. assert (0 < / sigma) by (apply Rinv_0_lt_compat, Hs).
  assert ((u - mu) / sigma <= (x - mu) / sigma <= (v - mu) / sigma) by (unfold Rdiv; split; apply Rmult_le_compat_r; lra).
  set (zu := (u - mu) / sigma) in *. set (zv := (v - mu) / sigma) in *. set (z := (x - mu) / sigma) in *. clearbody z zu zv. destruct (Rle_dec 0 xi); nra.
Qed.
(** substitution t = - log cdf *)
Lemma subst (h : R -> R) u v : insup u -> insup v -> u <= v -> (forall t, 0 < t -> continuous (fun t => h (xof t) * exp (- t)) t) ->
  is_RInt (fun x => h x * p x) u v (RInt (fun t => h (xof t) * exp (- t)) (tt v) (tt u)).
Proof.
  intros Hu Hv Huv C. set (F := fun t => h (xof t) * exp (- t)).
  assert (E : is_RInt (fun x => scal (- (p x * exp (tt x))) (F (tt x))) u v (RInt F (tt u) (tt v))).
  { apply (is_RInt_comp F tt (fun x => - (p x * exp (tt x)))); rewrite Rmin_left, Rmax_right by lra; intros x Hx.
    - apply C, tt_pos.
    - split; [apply tt_d, (insup_between u v); auto|]. assert (Hi : insup x) by (apply (insup_between u v); auto).
      apply (continuous_opp (fun x => p x * exp (tt x))). apply (continuous_mult p (fun x => exp (tt x))); [apply p_c, Hi|].
      apply (continuous_comp tt exp); [apply tt_c, Hi|]. apply (ex_derive_continuous exp). auto_derive. exact I. }
  apply (is_RInt_scal _ _ _ (- 1)) in E.
  assert (Sw : RInt F (tt v) (tt u) = - 1 * RInt F (tt u) (tt v)).
  { rewrite <- (opp_RInt_swap F). unfold opp; simpl. ring. apply (@ex_RInt_continuous R_CompleteNormedModule). intros z Hz. apply C. revert Hz. pose proof (tt_pos u). pose proof (tt_pos v). unfold Rmin. destruct (Rle_dec (tt u) (tt v)); lra. }
  rewrite Sw. apply (is_RInt_ext (fun x => scal (- 1) (scal (- (p x * exp (tt x))) (F (tt x))))); [|exact E].
  rewrite Rmin_left, Rmax_right by lra. intros x Hx. unfold F, scal; simpl; unfold mult; simpl. rewrite xof_tt by (apply (insup_between u v); auto; lra).
  rewrite (exp_Ropp (tt x)). field. pose proof (exp_pos (tt x)). lra.
Qed.
(** the ends of the support *)
Lemma tt_low : filterlim tt (lower_end mu sigma xi) (Rbar_locally p_infty).
Proof.
  intros Q [M HM]. set (M1 := Rmax M 1). assert (1 <= M1) by apply Rmax_r. assert (HM1 : M <= M1) by apply Rmax_l. unfold lower_end.
  assert (K : forall x, insup x -> x < xof M1 -> Q (tt x)).
  { intros x Hi Hx. apply HM. apply Rle_lt_trans with M1; [exact HM1|]. rewrite <- (xof_tt x Hi) in Hx. pose proof (tt_pos x) as P. set (t := tt x) in *. clearbody t.
    unfold xof in Hx. destruct (isclose0 xi) eqn:E.
    - apply ln_lt_inv; [lra | lra |]. assert (sigma * (ln t - ln M1) > 0) by lra. nra.
    - apply not_close in E. assert (D : (Rpower t (- xi) - 1) / xi < (Rpower M1 (- xi) - 1) / xi).
      { apply Rmult_lt_reg_l with sigma; [exact Hs|]. unfold Rdiv in *. lra. }
      destruct (Rlt_dec 0 xi) as [Px|Nx].
      + assert (D2 : Rpower t (- xi) < Rpower M1 (- xi)). { apply Rmult_lt_reg_r with (/ xi); [apply Rinv_0_lt_compat, Px|]. unfold Rdiv in D. lra. }
        unfold Rpower in D2. apply exp_lt_inv in D2. apply ln_lt_inv; [lra | lra |]. nra.
      + assert (Hn : / xi < 0) by (apply Rinv_lt_0_compat; lra).
        assert (D2 : Rpower M1 (- xi) < Rpower t (- xi)). { unfold Rdiv in D. nra. }
        unfold Rpower in D2. apply exp_lt_inv in D2. apply ln_lt_inv; [lra | lra |]. nra. }
  destruct (Rlt_dec 0 xi) as [Px|Nx].
  - assert (E : isclose0 xi = false) by (destruct HC as [E|E]; [exact E | lra]).
    assert (P : 0 < xof M1 - (mu - sigma / xi)). { unfold xof. rewrite E. replace (mu + sigma * (Rpower M1 (- xi) - 1) / xi - (mu - sigma / xi)) with (sigma / xi * Rpower M1 (- xi)) by (field; lra). apply Rmult_lt_0_compat; [apply Rdiv_lt_0_compat; assumption | apply exp_pos]. }
    exists (mkposreal _ P). intros y By Hy. unfold ball in By. simpl in By. unfold AbsRing_ball, abs, minus, plus, opp in By. simpl in By. apply Rabs_def2 in By. apply K; [|lra].
    unfold in_support. apply Rmult_lt_reg_l with (sigma / xi); [apply Rdiv_lt_0_compat; assumption|]. rewrite Rmult_0_r. replace (sigma / xi * (1 + xi * ((y - mu) / sigma))) with (y - (mu - sigma / xi)) by (field; split; lra). lra.
  - exists (Rmin (xof M1) mu). intros x Hx. pose proof (Rmin_l (xof M1) mu). pose proof (Rmin_r (xof M1) mu). apply K; [|lra]. unfold in_support. assert (0 < / sigma) by (apply Rinv_0_lt_compat, Hs).
    assert ((x - mu) / sigma <= 0) by (unfold Rdiv; nra). nra.
Qed.
Lemma tt_up : filterlim tt (upper_end mu sigma xi) (at_right 0).
Proof.
  intros Q [d HQ]. set (m := Rmin d 1 / 2). assert (Hm : 0 < m < 1 /\ m < d). { unfold m. pose proof (Rmin_l d 1). pose proof (Rmin_r d 1). assert (0 < Rmin d 1) by (apply Rmin_pos; [apply d | lra]). lra. }
  assert (K : forall x, insup x -> xof m < x -> Q (tt x)).
  { intros x Hi Hx. pose proof (tt_pos x) as P. apply HQ; [|exact P]. unfold ball; simpl; unfold AbsRing_ball, abs, minus, plus, opp; simpl. rewrite Ropp_0, Rplus_0_r, Rabs_right by lra.
    apply Rlt_trans with m; [|tauto]. rewrite <- (xof_tt x Hi) in Hx. set (t := tt x) in *. clearbody t.
    unfold xof in Hx. destruct (isclose0 xi) eqn:E.
    - apply ln_lt_inv; [lra | lra |]. assert (sigma * (ln m - ln t) > 0) by lra. nra.
    - apply not_close in E. assert (D : (Rpower m (- xi) - 1) / xi < (Rpower t (- xi) - 1) / xi).
      { apply Rmult_lt_reg_l with sigma; [exact Hs|]. unfold Rdiv in *. lra. }
      destruct (Rlt_dec 0 xi) as [Px|Nx].
      + assert (D2 : Rpower m (- xi) < Rpower t (- xi)). { apply Rmult_lt_reg_r with (/ xi); [apply Rinv_0_lt_compat, Px|]. unfold Rdiv in D. lra. }
        unfold Rpower in D2. apply exp_lt_inv in D2. apply ln_lt_inv; [lra | lra |]. nra.
      + assert (Hn : / xi < 0) by (apply Rinv_lt_0_compat; lra).
        assert (D2 : Rpower t (- xi) < Rpower m (- xi)). { unfold Rdiv in D. nra. }
        unfold Rpower in D2. apply exp_lt_inv in D2. apply ln_lt_inv; [lra | lra |]. nra. }
  unfold upper_end. destruct (Rlt_dec xi 0) as [Nx|Px].
  - assert (E : isclose0 xi = false) by (destruct HC as [E|E]; [exact E | lra]).
    assert (P : 0 < (mu - sigma / xi) - xof m). { unfold xof. rewrite E. replace (mu - sigma / xi - (mu + sigma * (Rpower m (- xi) - 1) / xi)) with (sigma / (- xi) * Rpower m (- xi)) by (field; lra). apply Rmult_lt_0_compat; [apply Rdiv_lt_0_compat; lra | apply exp_pos]. }
    exists (mkposreal _ P). intros y By Hy. unfold ball in By. simpl in By. unfold AbsRing_ball, abs, minus, plus, opp in By. simpl in By. apply Rabs_def2 in By. apply K; [|lra].
    unfold in_support. apply Rmult_lt_reg_l with (sigma / - xi); [apply Rdiv_lt_0_compat; lra|]. rewrite Rmult_0_r. replace (sigma / - xi * (1 + xi * ((y - mu) / sigma))) with ((mu - sigma / xi) - y) by (field; split; lra). lra.
  - exists (Rmax (xof m) mu). intros x Hx. pose proof (Rmax_l (xof m) mu). pose proof (Rmax_r (xof m) mu). apply K; [|lra]. unfold in_support. assert (0 < / sigma) by (apply Rinv_0_lt_compat, Hs).
    assert (0 <= (x - mu) / sigma) by (unfold Rdiv; nra). nra.
Qed.
Global Instance lower_proper : ProperFilter (lower_end mu sigma xi).
Proof. unfold lower_end. destruct (Rlt_dec 0 xi); apply _. Qed.
Global Instance upper_proper : ProperFilter (upper_end mu sigma xi).
Proof. unfold upper_end. destruct (Rlt_dec xi 0); apply _. Qed.
Lemma ends_ok : filter_prod (lower_end mu sigma xi) (upper_end mu sigma xi) (fun uv => insup (fst uv) /\ insup (snd uv) /\ fst uv <= snd uv).
Proof.
  assert (Si : 0 < / sigma) by (apply Rinv_0_lt_compat, Hs).
  exists (fun x => insup x /\ x < mu) (fun x => insup x /\ mu < x).
  - unfold lower_end. destruct (Rlt_dec 0 xi) as [Px|Nx].
    + assert (P : 0 < sigma / xi) by (apply Rdiv_lt_0_compat; assumption). exists (mkposreal _ P). intros y By Hy. unfold ball in By. simpl in By. unfold AbsRing_ball, abs, minus, plus, opp in By. simpl in By. apply Rabs_def2 in By.
      split; [|lra]. unfold in_support. apply Rmult_lt_reg_l with (sigma / xi); [exact P|]. rewrite Rmult_0_r. replace (sigma / xi * (1 + xi * ((y - mu) / sigma))) with (y - (mu - sigma / xi)) by (field; split; lra). lra.
    + exists mu. intros x Hx. split; [|exact Hx]. unfold in_support. assert ((x - mu) / sigma <= 0) by (unfold Rdiv; nra). nra.
  - unfold upper_end. destruct (Rlt_dec xi 0) as [Nx|Px].
    + assert (P : 0 < sigma / - xi) by (apply Rdiv_lt_0_compat; lra). exists (mkposreal _ P). intros y By Hy. unfold ball in By. simpl in By. unfold AbsRing_ball, abs, minus, plus, opp in By. simpl in By. apply Rabs_def2 in By.
      replace (sigma / - xi) with (- (sigma / xi)) in By by (field; lra).
      split; [|lra]. unfold in_support. apply Rmult_lt_reg_l with (sigma / - xi); [exact P|]. rewrite Rmult_0_r. replace (sigma / - xi * (1 + xi * ((y - mu) / sigma))) with ((mu - sigma / xi) - y) by (field; split; lra). lra.
    + exists mu. intros x Hx. split; [|exact Hx]. unfold in_support. assert (0 <= (x - mu) / sigma) by (unfold Rdiv; nra). nra.
  - intros u v [H1 H2] [H3 H4]. simpl. repeat split; auto; lra.
Qed.
Lemma tt_pair : filterlim (fun uv : R * R => (tt (snd uv), tt (fst uv))) (filter_prod (lower_end mu sigma xi) (upper_end mu sigma xi)) (filter_prod (at_right 0) (Rbar_locally p_infty)).
Proof.
  apply filterlim_pair.
  - apply (filterlim_comp _ _ _ snd tt _ (upper_end mu sigma xi)); [apply filterlim_snd | apply tt_up].
  - apply (filterlim_comp _ _ _ fst tt _ (lower_end mu sigma xi)); [apply filterlim_fst | apply tt_low].
Qed.
Lemma moment (h : R -> R) l : (forall t, 0 < t -> continuous (fun t => h (xof t) * exp (- t)) t) -> is_RInt0 (fun t => h (xof t) * exp (- t)) l ->
  integral_support mu sigma xi (fun x => h x * p x) l.
Proof.
  intros C I P HP. apply RInt0_to in I. unfold filtermapi.
  pose proof (filterlim_comp _ _ _ _ _ _ _ _ tt_pair I P HP) as K. unfold filtermap in K. simpl in K.
  generalize (filter_and _ _ K ends_ok). apply filter_imp. intros [u v] [K1 (K2 & K3 & K4)]. simpl in *. eexists. split; [|exact K1]. apply subst; auto.
Qed.
End GEV.

Lemma isclose_00 : isclose0 0 = true.
Proof. unfold isclose0. destruct (Rle_dec (Rabs 0) (1 / 100000000)); [reflexivity|]. rewrite Rabs_R0 in n. lra. Qed.
Lemma ex0 t : 0 < t -> continuous (fun t => exp (- t)) t.
Proof. intros _. apply (ex_derive_continuous (fun t => exp (- t))). auto_derive. exact I. Qed.
Lemma int_exp : is_RInt0 (fun t => exp (- t)) 1.
Proof. apply (RInt0_ext (gam 1)); [|exact gamma_1]. intros t Ht. unfold gam. replace (1 - 1) with 0 by ring. rewrite Rpower_O by exact Ht. ring. Qed.
Lemma int_pow a G : Gamma_is (1 - a) G -> is_RInt0 (fun t => Rpower t (- a) * exp (- t)) G.
Proof. intros H. apply (RInt0_ext (gam (1 - a))); [|exact H]. intros t Ht. unfold gam. do 2 f_equal. ring. Qed.
Lemma sup_ext mu sigma xi f g l : (forall x, f x = g x) -> integral_support mu sigma xi f l -> integral_support mu sigma xi g l.
Proof. intros E. apply is_RInt_gen_ext. apply filter_forall. intros [a b] x _. apply E. Qed.

(** Total mass one. *)
Theorem C100_total mu sigma xi : valid sigma xi -> (isclose0 xi = false \/ xi = 0) -> total_is mu sigma xi (pdf mu sigma xi) 1.
Proof.
  intros V HC. unfold total_is. apply (sup_ext _ _ _ (fun x => 1 * pdf mu sigma xi x)); [intros; ring|].
  apply (moment mu sigma xi V HC (fun _ => 1) 1).
  - intros t Ht. apply (continuous_ext (fun t => exp (- t))); [intros; symmetry; apply Rmult_1_l | apply ex0, Ht].
  - apply (RInt0_ext (fun t => exp (- t))); [intros; ring | apply int_exp].
Qed.
(** Mean for xi <> 0. *)
Theorem C100_mean mu sigma xi g1 : valid sigma xi -> isclose0 xi = false -> Gamma_is (1 - xi) g1 ->
  gev_mean_is mu sigma xi (pdf mu sigma xi) (mu + sigma * (g1 - 1) / xi).
Proof.
  intros V HC HG. pose proof (not_close _ HC) as N. apply (moment mu sigma xi V (or_introl HC) (fun x => x)); unfold xof; rewrite HC.
  - intros t Ht. apply (ex_derive_continuous (fun t => (mu + sigma * (Rpower t (- xi) - 1) / xi) * exp (- t))). unfold Rpower. auto_derive. exact Ht.
  - apply (RInt0_ext (fun t => (mu - sigma / xi) * exp (- t) + sigma / xi * (Rpower t (- xi) * exp (- t)))).
    + intros t Ht. field. exact N.
    + replace (mu + sigma * (g1 - 1) / xi) with ((mu - sigma / xi) * 1 + sigma / xi * g1) by (field; exact N). apply RInt0_plus; apply RInt0_scal; [apply int_exp | apply int_pow, HG].
Qed.
(** Variance for xi <> 0, xi < 1/2. *)
Theorem C100_variance mu sigma xi g1 g2 : valid sigma xi -> isclose0 xi = false -> xi < 1 / 2 -> Gamma_is (1 - xi) g1 -> Gamma_is (1 - 2 * xi) g2 ->
  gev_variance_is mu sigma xi (pdf mu sigma xi) (mu + sigma * (g1 - 1) / xi) (sigma ^ 2 * (g2 - g1 ^ 2) / xi ^ 2).
Proof.
  intros V HC _ HG1 HG2. pose proof (not_close _ HC) as N. set (m := mu + sigma * (g1 - 1) / xi).
  apply (moment mu sigma xi V (or_introl HC) (fun x => (x - m) ^ 2)); unfold xof; rewrite HC.
  - intros t Ht. apply (ex_derive_continuous (fun t => (mu + sigma * (Rpower t (- xi) - 1) / xi - m) ^ 2 * exp (- t))). unfold Rpower. auto_derive. repeat split; exact Ht.
  - apply (RInt0_ext (fun t => sigma ^ 2 / xi ^ 2 * (Rpower t (- (2 * xi)) * exp (- t) + (- 2 * g1 * (Rpower t (- xi) * exp (- t)) + g1 ^ 2 * exp (- t))))).
    + intros t Ht. replace (Rpower t (- (2 * xi))) with (Rpower t (- xi) ^ 2) by (simpl; rewrite Rmult_1_r, rp_mul; f_equal; ring). unfold m. field. exact N.
    + replace (sigma ^ 2 * (g2 - g1 ^ 2) / xi ^ 2) with (sigma ^ 2 / xi ^ 2 * (g2 + (- 2 * g1 * g1 + g1 ^ 2 * 1))) by (field; exact N).
      apply RInt0_scal, RInt0_plus; [apply int_pow, HG2|]. apply RInt0_plus; apply RInt0_scal; [apply int_pow, HG1 | apply int_exp].
Qed.
(** For 1/2 <= xi < 1 the variance is infinite, about whatever centre. *)
Theorem C100_infinite_variance mu sigma xi m : valid sigma xi -> 1 / 2 <= xi -> gev_variance_infinite mu sigma xi (pdf mu sigma xi) m.
Proof.
  intros V Hx. assert (N : xi <> 0) by lra.
  assert (HC : isclose0 xi = false). { unfold isclose0. destruct (Rle_dec (Rabs xi) (1 / 100000000)) as [L|L]; [|reflexivity]. rewrite Rabs_right in L; lra. }
  destruct V as [Hs Hxi]. assert (V : valid sigma xi) by (split; assumption).
  set (h := fun x => (x - m) ^ 2). set (F := fun t => h (xof mu sigma xi t) * exp (- t)).
  assert (C : forall t, 0 < t -> continuous F t). { intros t Ht. unfold F, h, xof. rewrite HC. apply (ex_derive_continuous (fun t => (mu + sigma * (Rpower t (- xi) - 1) / xi - m) ^ 2 * exp (- t))). unfold Rpower. auto_derive. repeat split; exact Ht. }
  assert (Pos : forall t, 0 <= F t). { intros t. unfold F, h. apply Rmult_le_pos; [apply pow2_ge_0 | left; apply exp_pos]. }
  (* near 0 the integrand is at least a multiple of 1/t *)
  set (k := sigma / xi). assert (Hk : 0 < k) by (apply Rdiv_lt_0_compat; lra).
  set (c := m - mu + k). set (B := 2 * Rabs c / k + 1). assert (HB : 1 <= B). { unfold B. pose proof (Rabs_pos c). assert (0 <= 2 * Rabs c / k) by (apply Rdiv_le_0_compat; lra). lra. }
  set (d := Rpower B (- / xi)).
  assert (Hd : 0 < d <= 1). { split; [apply exp_pos|]. unfold d, Rpower. rewrite <- exp_0. apply exp_le_inv'. assert (0 <= ln B) by (rewrite <- ln_1; apply Rcomplements.ln_le; lra). assert (0 < / xi) by (apply Rinv_0_lt_compat; lra). nra. }
  set (q := k ^ 2 / 4 * exp (- 1)). assert (Hq : 0 < q). { unfold q. apply Rmult_lt_0_compat; [|apply exp_pos]. apply Rdiv_lt_0_compat; [apply pow_lt, Hk | lra]. }
  assert (Low : forall t, 0 < t <= d -> q * / t <= F t).
  { intros t Ht. set (P := Rpower t (- xi)).
    assert (PB : B <= P). { unfold P. rewrite <- (exp_ln B) by lra. unfold Rpower. apply exp_le_inv'. assert (L : ln t <= ln d) by (apply Rcomplements.ln_le; lra). unfold d, Rpower in L. rewrite ln_exp in L.
      assert (L2 : xi * ln t <= xi * (- / xi * ln B)) by (apply Rmult_le_compat_l; lra). replace (xi * (- / xi * ln B)) with (- ln B) in L2 by (field; exact N). lra. }
    assert (P2 : / t <= P ^ 2). { unfold P. simpl. rewrite Rmult_1_r, rp_mul. rewrite <- (exp_ln t) at 1 by lra. rewrite <- exp_Ropp. unfold Rpower. apply exp_le_inv'. assert (ln t <= 0) by (rewrite <- ln_1; apply Rcomplements.ln_le; lra). nra. }
    assert (Hh : k ^ 2 / 4 * P ^ 2 <= h (xof mu sigma xi t)).
    { unfold h, xof. rewrite HC. fold P. replace (mu + sigma * (P - 1) / xi - m) with (k * P - c) by (unfold k, c, k; field; exact N).
      replace (k ^ 2 / 4 * P ^ 2) with ((k * P / 2) ^ 2) by field. assert (X : c <= k * P / 2). { apply Rle_trans with (Rabs c); [apply Rle_abs|]. assert (k * B <= k * P) by (apply Rmult_le_compat_l; lra). assert (k * B = 2 * Rabs c + k) by (unfold B; field; lra). lra. }
      assert (0 <= k * P / 2) by (apply Rmult_le_pos; [apply Rmult_le_pos; lra | lra]). apply pow_incr. lra. }
    unfold F. assert (E1 : exp (- 1) <= exp (- t)) by (apply exp_le_inv'; lra). pose proof (exp_pos (- 1)). unfold q.
    apply Rle_trans with (k ^ 2 / 4 * P ^ 2 * exp (- 1)).
    - replace (k ^ 2 / 4 * exp (-1) * / t) with (k ^ 2 / 4 * exp (-1) * / t) by ring. replace (k ^ 2 / 4 * P ^ 2 * exp (-1)) with (k ^ 2 / 4 * exp (-1) * P ^ 2) by ring. apply Rmult_le_compat_l; [fold q; lra | exact P2].
    - apply Rmult_le_compat; [|lra|exact Hh|exact E1]. apply Rmult_le_pos; [|apply pow2_ge_0]. apply Rmult_le_pos; [apply pow2_ge_0 | lra]. }
  assert (Big : forall a b, 0 < a <= d -> d <= b -> q * (ln d - ln a) <= RInt F a b).
  { intros a b Ha Hb. rewrite <- (RInt_Chasles F a d b) by (apply int_cont; auto; lra). unfold plus; simpl.
    assert (G1 : 0 <= RInt F d b) by (apply RInt_ge_0; [lra | apply int_cont; auto; lra | intros; apply Pos]).
    assert (G2 : q * (ln d - ln a) <= RInt F a d).
    { assert (D : is_RInt (fun t => q * / t) a d (minus (q * ln d) (q * ln a))).
      { apply (is_RInt_derive (fun t => q * ln t)); rewrite Rmin_left, Rmax_right by lra; intros x Hx0; [auto_derive; [lra|field; lra]|]. apply (ex_derive_continuous (fun t => q * / t)). auto_derive. lra. }
      replace (q * (ln d - ln a)) with (RInt (fun t => q * / t) a d) by (rewrite (is_RInt_unique _ _ _ _ D); unfold minus, plus, opp; simpl; ring).
      apply RInt_le; [lra | eexists; exact D | apply int_cont; auto; lra | intros x Hx0; apply Low; lra]. }
    lra. }
  assert (L0 : filterlim (fun ab => RInt F (fst ab) (snd ab)) (filter_prod (at_right 0) (Rbar_locally p_infty)) (Rbar_locally p_infty)).
  { intros Q [M HM]. set (a0 := d * exp (- (Rabs M / q))). assert (Ha0 : 0 < a0 <= d).
    { unfold a0. pose proof (exp_pos (- (Rabs M / q))). assert (exp (- (Rabs M / q)) <= 1). { rewrite <- exp_0. apply exp_le_inv'. assert (0 <= Rabs M / q) by (apply Rdiv_le_0_compat; [apply Rabs_pos | lra]). lra. } split; [apply Rmult_lt_0_compat; lra | nra]. }
    exists (fun x => 0 < x < a0) (fun x => d < x).
    - exists (mkposreal a0 (proj1 Ha0)). intros y By Hy. unfold ball in By. simpl in By. unfold AbsRing_ball, abs, minus, plus, opp in By. simpl in By. apply Rabs_def2 in By. lra.
    - exists d. intros x Hx0; exact Hx0.
    - intros a b Ha Hb. apply HM. simpl. apply Rlt_le_trans with (q * (ln d - ln a)); [|apply Big; lra]. apply Rle_lt_trans with (Rabs M); [apply Rle_abs|].
      assert (La : ln a < ln a0) by (apply ln_increasing; lra). unfold a0 in La. rewrite ln_mult, ln_exp in La by (try apply exp_pos; lra).
      assert (q * (Rabs M / q) < q * (ln d - ln a)) by (apply Rmult_lt_compat_l; lra). replace (q * (Rabs M / q)) with (Rabs M) in H by (field; lra). exact H. }
  unfold gev_variance_infinite.
  apply filterlim_ext_loc with (fun uv => RInt F (tt mu sigma xi (snd uv)) (tt mu sigma xi (fst uv))).
  - generalize (ends_ok mu sigma xi V). apply filter_imp. intros [u v] (H1 & H2 & H3). simpl in *. symmetry. apply is_RInt_unique. apply (subst mu sigma xi V (or_introl HC) h u v H1 H2 H3 C).
  - apply (filterlim_comp _ _ _ (fun uv => (tt mu sigma xi (snd uv), tt mu sigma xi (fst uv))) (fun ab => RInt F (fst ab) (snd ab)) _ (filter_prod (at_right 0) (Rbar_locally p_infty))); [|exact L0].
    apply tt_pair; [exact V | left; exact HC].
Qed.
(** xi = 0: the Gumbel law. *)
Theorem C100_gumbel mu sigma g : 0 < sigma -> Euler_Mascheroni g ->
  gev_mean_is mu sigma 0 (pdf mu sigma 0) (mu + sigma * g) /\ gev_variance_is mu sigma 0 (pdf mu sigma 0) (mu + sigma * g) (PI ^ 2 / 6 * sigma ^ 2).
Proof.
  intros Hs HE. assert (V : valid sigma 0) by (split; lra). destruct log_exponential as (a & b & HA & HB & Eg & Ev).
  assert (Ea : g = - a). { pose proof (is_lim_seq_unique _ _ HE) as U1. pose proof (is_lim_seq_unique _ _ Eg) as U2. rewrite U1 in U2. injection U2. auto. }
  split.
  - apply (moment mu sigma 0 V (or_intror eq_refl) (fun x => x)); unfold xof; rewrite isclose_00.
    + intros t Ht. apply (ex_derive_continuous (fun t => (mu - sigma * ln t) * exp (- t))). auto_derive. exact Ht.
    + apply (RInt0_ext (fun t => mu * exp (- t) + - sigma * (ln t * exp (- t)))); [intros; ring|].
      replace (mu + sigma * g) with (mu * 1 + - sigma * a) by (rewrite Ea; ring). apply RInt0_plus; apply RInt0_scal; [apply int_exp | exact HA].
  - apply (moment mu sigma 0 V (or_intror eq_refl) (fun x => (x - (mu + sigma * g)) ^ 2)); unfold xof; rewrite isclose_00.
    + intros t Ht. apply (ex_derive_continuous (fun t => (mu - sigma * ln t - (mu + sigma * g)) ^ 2 * exp (- t))). auto_derive. repeat split; exact Ht.
    + apply (RInt0_ext (fun t => sigma ^ 2 * (ln t ^ 2 * exp (- t) + (2 * g * (ln t * exp (- t)) + g ^ 2 * exp (- t))))); [intros; ring|].
      replace (PI ^ 2 / 6 * sigma ^ 2) with (sigma ^ 2 * (b + (2 * g * a + g ^ 2 * 1))) by (rewrite <- Ev, Ea; ring). apply RInt0_scal, RInt0_plus; [exact HB|]. apply RInt0_plus; apply RInt0_scal; [exact HA | apply int_exp].
Qed.
(** Outside the support the density is zero, and Euler's constant and the Gamma values exist. *)
Theorem C100_outside mu sigma xi x : valid sigma xi -> ~ in_support mu sigma xi x -> pdf mu sigma xi x = 0.
Proof. intros V. apply pdf_out, V. Qed.
Theorem C100_constants_exist : (exists g, Euler_Mascheroni g) /\ (forall s, 0 < s -> exists G, 0 < G /\ Gamma_is s G).
Proof.
  split; [destruct log_exponential as (a & _ & _ & _ & E & _); exists (- a); exact E|].
  intros s Hs. destruct (gamma_exists s Hs) as [G HG]. exists G. split; [eapply gamma_pos; exact HG | exact HG].
Qed.
(** the hypotheses can be met *)
Lemma not_close_ex x : 1 / 10 < Rabs x -> isclose0 x = false.
Proof. intros H. unfold isclose0. destruct (Rle_dec (Rabs x) (1 / 100000000)); [lra | reflexivity]. Qed.
Example C100_example : valid 2 (1 / 4) /\ isclose0 (1 / 4) = false /\ 1 / 4 < 1 / 2 /\ valid 2 (- (1 / 2)) /\ isclose0 (- (1 / 2)) = false /\ valid 2 (3 / 4) /\
  exists g1 g2, gev_variance_is 1 2 (1 / 4) (pdf 1 2 (1 / 4)) (1 + 2 * (g1 - 1) / (1 / 4)) (2 ^ 2 * (g2 - g1 ^ 2) / (1 / 4) ^ 2).
Proof.
  unfold valid. repeat split; try lra.
  - apply not_close_ex. rewrite Rabs_right; lra.
  - apply not_close_ex. rewrite Rabs_left; lra.
  - destruct (gamma_exists (1 - 1 / 4)) as [g1 H1]; [lra|]. destruct (gamma_exists (1 - 2 * (1 / 4))) as [g2 H2]; [lra|]. exists g1, g2.
    apply C100_variance; auto; [unfold valid; lra | | lra]. apply not_close_ex. rewrite Rabs_right; lra.
Qed.
