(** C93: Chi and Maxwell follow their documented densities, with the documented means and variances. *)
From Coq Require Import Reals List Lra Psatz.
Import ListNotations.
From Coquelicot Require Import Coquelicot.
From Verif Require Import Common Chi_Analysis Chi_Model Chi_Spec.
Local Open Scope R_scope.

Lemma rp_pos x y : 0 < Rpower x y. Proof. apply exp_pos. Qed.
Lemma rp_half x c : 0 < x -> Rpower (x ^ 2 / 2) c = Rpower x (2 * c) * Rpower 2 (- c).
Proof.
  intros Hx. unfold Rpower. rewrite <- exp_plus. f_equal. unfold Rdiv. rewrite ln_mult; [|apply pow_lt; lra|lra]. rewrite ln_Rinv by lra. rewrite <- Rsqr_pow2. unfold Rsqr. rewrite ln_mult by lra. ring.
Qed.
Lemma sq_half_0 : filterlim (fun x => x ^ 2 / 2) (at_right 0) (at_right 0).
Proof.
  intros Q [d Hd]. assert (P : 0 < Rmin 1 d) by (apply Rmin_pos; [lra | apply d]). exists (mkposreal _ P). intros y B H. unfold ball in B. simpl in B. unfold AbsRing_ball, abs, minus, plus, opp in B. simpl in B. apply Rabs_def2 in B.
  pose proof (Rmin_l 1 d). pose proof (Rmin_r 1 d). apply Hd; [|nra]. unfold ball. simpl. unfold AbsRing_ball, abs, minus, plus, opp. simpl. apply Rabs_def1; nra.
Qed.
Lemma sq_half_oo : filterlim (fun x => x ^ 2 / 2) (Rbar_locally p_infty) (Rbar_locally p_infty).
Proof. intros Q [M HM]. exists (Rmax 2 M). intros x Hx. pose proof (Rmax_l 2 M). pose proof (Rmax_r 2 M). apply HM. nra. Qed.
Lemma scale_0 a : 0 < a -> filterlim (fun x => x / a) (at_right 0) (at_right 0).
Proof.
  intros Ha Q [d Hd]. assert (P : 0 < d * a) by (apply Rmult_lt_0_compat; [apply d | exact Ha]). exists (mkposreal _ P). intros y B H. unfold ball in B. simpl in B. unfold AbsRing_ball, abs, minus, plus, opp in B. simpl in B. apply Rabs_def2 in B.
  assert (0 < y / a) by (apply Rdiv_lt_0_compat; lra). assert (y / a < d) by (apply Rlt_div_l; lra). apply Hd; [|lra]. unfold ball. simpl. unfold AbsRing_ball, abs, minus, plus, opp. simpl. apply Rabs_def1; lra.
Qed.
Lemma scale_oo a : 0 < a -> filterlim (fun x => x / a) (Rbar_locally p_infty) (Rbar_locally p_infty).
Proof. intros Ha Q [M HM]. exists (M * a). intros x Hx. apply HM. apply Rlt_div_r; lra. Qed.

Lemma rp_d x s : 0 < x -> is_derive (fun t => Rpower t s) x (s * Rpower x (s - 1)).
Proof. intros Hx. apply is_derive_Reals. apply derivable_pt_lim_power, Hx. Qed.
Lemma rp_c x s : 0 < x -> continuous (fun t => Rpower t s) x.
Proof. intros Hx. apply (ex_derive_continuous (fun t => Rpower t s)). eexists. apply rp_d, Hx. Qed.
Lemma gam_c s x : 0 < x -> continuous (fun t => Rpower t (s - 1) * exp (- t)) x.
Proof. intros Hx. apply (continuous_mult (fun t => Rpower t (s - 1)) (fun t => exp (- t))); [apply rp_c, Hx |]. apply (ex_derive_continuous (fun t => exp (- t))). auto_derive; trivial. Qed.
Lemma gam_sub s G : is_Gamma s G -> integral_0_oo (fun x => x * (Rpower (x ^ 2 / 2) (s - 1) * exp (- (x ^ 2 / 2)))) G.
Proof.
  intros H. apply (RInt0_comp (fun t => Rpower t (s - 1) * exp (- t)) (fun x => x ^ 2 / 2) (fun x => x)); [intros; apply gam_c; assumption | intros; nra | | intros; apply continuous_id | apply sq_half_0 | apply sq_half_oo | exact H].
  intros x Hx. auto_derive; trivial. field.
Qed.
Lemma rp_0 s : 0 < s -> filterlim (fun t => Rpower t s * exp (- t)) (at_right 0) (locally 0).
Proof.
  intros Hs. replace 0 with (0 * 1) at 2 by ring. apply (filterlim_comp_2 (fun t => Rpower t s) (fun t => exp (- t)) Rmult (F := at_right 0) (G := locally 0) (H := locally 1)).
  - unfold Rpower. apply (filterlim_comp _ _ _ (fun t => s * ln t) exp _ (Rbar_locally m_infty)).
    + apply (filterlim_comp _ _ _ ln (fun y => s * y) _ (Rbar_locally m_infty)). apply is_lim_ln_0.
      intros Q [M HM]. exists (M / s). intros x Hx. apply HM. rewrite Rmult_comm. apply Rlt_div_r in Hx; lra.
    + apply is_lim_exp_m.
  - apply (filterlim_filter_le_1 (F := locally 0)). { intros Q [d Hd]. exists d. intros y B _. apply Hd, B. }
    replace 1 with (exp (- 0)) by (rewrite Ropp_0; apply exp_0). apply (ex_derive_continuous (fun t => exp (- t))). auto_derive; trivial.
  - apply (filterlim_mult 0 1).
Qed.
Lemma rp_oo s : filterlim (fun t => Rpower t s * exp (- t)) (Rbar_locally p_infty) (locally 0).
Proof.
  apply filterlim_ext with (f := fun t => exp (s * ln t - t)). { intros t. unfold Rpower, Rminus. apply exp_plus. }
  apply (filterlim_comp _ _ _ (fun t => s * ln t - t) exp _ (Rbar_locally m_infty)); [|apply is_lim_exp_m].
  change (is_lim (fun t => s * ln t - t) p_infty m_infty).
  apply (is_lim_ext_loc (fun t => t * (s * (ln t / t) - 1))). { exists 0. intros t Ht. field. lra. }
  evar_last. apply is_lim_mult.
  - apply is_lim_id.
  - apply (is_lim_minus' (fun t => s * (ln t / t)) (fun _ => 1) p_infty (s * 0) 1). apply (is_lim_scal_l (fun t => ln t / t) s p_infty 0). apply is_lim_div_ln_p. apply is_lim_const.
  - simpl. lra.
  - replace (s * 0 - 1) with (-1) by ring. unfold Rbar_mult, Rbar_mult'. simpl. destruct (Rle_dec 0 (-1)) as [r|r]; [exfalso; lra | reflexivity].
Qed.
(** Gamma(s + 1) = s Gamma(s) *)
Lemma gamma_rec s G : 0 < s -> is_Gamma s G -> is_Gamma (s + 1) (s * G).
Proof.
  intros Hs H.
  assert (D : is_RInt0 (fun t => s * (Rpower t (s - 1) * exp (- t)) - Rpower t s * exp (- t)) (0 - 0)).
  { apply (RInt0_derive (fun t => Rpower t s * exp (- t))); [| | apply rp_0, Hs | apply rp_oo].
    - intros x Hx. evar_last. apply (is_derive_mult (fun t => Rpower t s) (fun t => exp (- t))); [apply rp_d, Hx | | intros; apply Rmult_comm]. auto_derive; [trivial | reflexivity]. unfold plus, mult. simpl. ring.
    - intros x Hx. apply (continuous_minus (fun t => s * (Rpower t (s - 1) * exp (- t))) (fun t => Rpower t s * exp (- t))).
      + apply (continuous_scal_r s (fun t => Rpower t (s - 1) * exp (- t))). apply gam_c, Hx.
      + generalize (gam_c (s + 1) x Hx). replace (s + 1 - 1) with s by ring. easy. }
  assert (K := is_RInt_gen_minus _ _ _ _ (RInt0_scal _ s _ H) D). unfold minus, plus, opp in K. simpl in K. replace (s * G + - (0 - 0)) with (s * G) in K by ring.
  refine (RInt0_ext _ _ _ _ K). cbv beta. intros x _. replace (s + 1 - 1) with s by ring. ring.
Qed.
Lemma gamma_pos s G : is_Gamma s G -> 0 < G.
Proof.
  intros H. set (f := fun t => Rpower t (s - 1) * exp (- t)). assert (C : forall x, 0 < x -> continuous f x) by (intros; apply gam_c; assumption).
  assert (I : forall a b, 0 < a -> a <= b -> ex_RInt f a b). { intros a b Ha Hab. apply (@ex_RInt_continuous R_CompleteNormedModule). rewrite Rmin_left by lra. intros. apply C. lra. }
  assert (P : forall x, 0 < f x) by (intros; apply Rmult_lt_0_compat; apply exp_pos).
  assert (Q : 0 < RInt f 1 2) by (apply RInt_gt_0; [lra | intros; apply P | intros; apply C; lra]).
  apply Rlt_le_trans with (1 := Q). apply RInt0_to in H.
  refine (filterlim_le (F := filter_prod (at_right 0) (Rbar_locally p_infty)) (fun _ => RInt f 1 2) (fun ab => RInt f (fst ab) (snd ab)) (RInt f 1 2) G _ _ H); [|apply filterlim_const].
  exists (fun x => 0 < x <= 1) (fun x => 2 < x).
  - exists (mkposreal 1 Rlt_0_1). intros y B Hy. unfold ball in B. simpl in B. unfold AbsRing_ball, abs, minus, plus, opp in B. simpl in B. apply Rabs_def2 in B. lra.
  - exists 2. easy.
  - intros x y Hx Hy. simpl. assert (E : RInt f x y = RInt f x 1 + (RInt f 1 2 + RInt f 2 y)).
    { rewrite <- (RInt_Chasles f x 1 y), <- (RInt_Chasles f 1 2 y); try (apply I; lra). reflexivity. }
    rewrite E. assert (0 <= RInt f x 1) by (apply RInt_ge_0; [lra | apply I; lra | intros; apply Rlt_le, P]). assert (0 <= RInt f 2 y) by (apply RInt_ge_0; [lra | apply I; lra | intros; apply Rlt_le, P]). lra.
Qed.
(** Gamma(1/2) = sqrt(PI) *)
Theorem gamma_half : is_Gamma (1 / 2) (sqrt PI).
Proof.
  assert (E : is_RInt0 gs (sqrt PI / 2)).
  { replace (sqrt PI / 2) with (sqrt PI / 2 - 0) by ring. apply (RInt0_derive ga).
    - intros; apply ga_d.
    - intros; apply gs_cont.
    - replace 0 with (ga 0) at 2 by (unfold ga; apply (RInt_point 0 gs)). apply (filterlim_filter_le_1 (F := locally 0)). { intros Q [d Hd]. exists d. intros y B _. apply Hd, B. }
      apply (ex_derive_continuous ga). eexists; apply ga_d.
    - apply gauss_lim. }
  assert (S : is_RInt0 (fun x => / (2 * sqrt x) * gs (sqrt x)) (sqrt PI / 2)).
  { apply (RInt0_comp gs sqrt (fun x => / (2 * sqrt x))); [intros; apply gs_cont | intros; apply sqrt_lt_R0; assumption | | | | | exact E].
    - intros x Hx. apply is_derive_Reals. apply derivable_pt_lim_sqrt, Hx.
    - intros x Hx. apply (ex_derive_continuous (fun x => / (2 * sqrt x))). auto_derive. pose proof (sqrt_lt_R0 x Hx). split; [exact Hx | split; [lra | trivial]].
    - intros Q [d Hd]. assert (P : 0 < d ^ 2) by (apply pow_lt, d). exists (mkposreal _ P). intros y B H. unfold ball in B. simpl in B. unfold AbsRing_ball, abs, minus, plus, opp in B. simpl in B. apply Rabs_def2 in B.
      pose proof (sqrt_lt_R0 y H). apply Hd; [|lra]. unfold ball. simpl. unfold AbsRing_ball, abs, minus, plus, opp. simpl. assert (sqrt y < d). { rewrite <- (sqrt_pow2 d) by (apply Rlt_le, d). apply sqrt_lt_1; simpl; lra. } apply Rabs_def1; lra.
    - intros Q [M HM]. exists ((Rmax 1 M) ^ 2). intros x Hx. pose proof (Rmax_l 1 M). pose proof (Rmax_r 1 M). apply HM. apply Rle_lt_trans with (Rmax 1 M); [lra |]. rewrite <- (sqrt_pow2 (Rmax 1 M)) by lra. apply sqrt_lt_1; simpl in *; nra. }
  assert (K := RInt0_scal _ 2 _ S). replace (2 * (sqrt PI / 2)) with (sqrt PI) in K by field. refine (RInt0_ext _ _ _ _ K). cbv beta. intros x Hx. unfold gs.
  replace (1 / 2 - 1) with (- (/ 2)) by field. rewrite Rpower_Ropp, Rpower_sqrt by exact Hx. replace (sqrt x ^ 2) with x by (simpl; rewrite Rmult_1_r, sqrt_sqrt; lra). pose proof (sqrt_lt_R0 x Hx). field. lra.
Qed.

(** * Chi *)
Lemma chi_pdf_form nu G x : 0 < x -> chi_pdf nu G x = / G * (x * (Rpower (x ^ 2 / 2) (nu / 2 - 1) * exp (- (x ^ 2 / 2)))).
Proof.
  intros Hx. unfold chi_pdf. rewrite rp_half by exact Hx. replace (nu - 1) with (2 * (nu / 2 - 1) + 1) by field. rewrite Rpower_plus, Rpower_Ropp, (Rpower_1 x) by exact Hx.
  pose proof (rp_pos 2 (nu / 2 - 1)). destruct (Req_dec G 0) as [-> | HG]. { unfold Rdiv. rewrite Rmult_0_r, Rinv_0. ring. } field. lra.
Qed.
Lemma chi_pdf_c nu G x : 0 < x -> continuous (chi_pdf nu G) x.
Proof.
  intros Hx. unfold chi_pdf, Rdiv. apply (continuous_mult (fun x => Rpower x (nu - 1) * exp (- (x ^ 2 * / 2))) (fun _ => / (Rpower 2 (nu * / 2 - 1) * G))); [|apply continuous_const].
  apply (continuous_mult (fun x => Rpower x (nu - 1)) (fun x => exp (- (x ^ 2 * / 2)))); [apply rp_c, Hx |]. apply (ex_derive_continuous (fun x => exp (- (x ^ 2 * / 2)))). auto_derive; trivial.
Qed.
Lemma chi2_pdf_c nu G w : 0 < w -> continuous (chi_squared_pdf nu G) w.
Proof.
  intros Hx. unfold chi_squared_pdf, Rdiv. apply (continuous_mult (fun x => Rpower x (nu * / 2 - 1) * exp (- (x * / 2))) (fun _ => / (Rpower 2 (nu * / 2) * G))); [|apply continuous_const].
  apply (continuous_mult (fun x => Rpower x (nu * / 2 - 1)) (fun x => exp (- (x * / 2)))); [apply rp_c, Hx |]. apply (ex_derive_continuous (fun x => exp (- (x * / 2)))). auto_derive; trivial.
Qed.
Lemma chi_interval nu G u v : 0 < u <= v -> RInt (chi_squared_pdf nu G) (u ^ 2) (v ^ 2) = RInt (chi_pdf nu G) u v.
Proof.
  intros Huv. rewrite <- (RInt_comp (chi_squared_pdf nu G) (fun x => x ^ 2) (fun x => 2 * x) u v).
  - apply RInt_ext. rewrite Rmin_left, Rmax_right by lra. intros x Hx. change (2 * x * chi_squared_pdf nu G (x ^ 2) = chi_pdf nu G x). unfold chi_squared_pdf, chi_pdf.
    assert (E : Rpower (x ^ 2) (nu / 2 - 1) = Rpower x (nu - 1) * / x).
    { rewrite <- (Rpower_pow 2 x) by lra. rewrite Rpower_mult. replace (nu - 1) with (INR 2 * (nu / 2 - 1) + 1) by (simpl; field). rewrite Rpower_plus, (Rpower_1 x) by lra. field. lra. }
    rewrite E. replace (nu / 2) with ((nu / 2 - 1) + 1) at 1 by ring. rewrite Rpower_plus, (Rpower_1 2) by lra. pose proof (rp_pos 2 (nu / 2 - 1)).
    destruct (Req_dec G 0) as [-> | HG]. { unfold Rdiv. rewrite !Rmult_0_r, Rinv_0. ring. } field. repeat split; lra.
  - rewrite Rmin_left, Rmax_right by lra. intros x Hx. apply chi2_pdf_c. apply pow_lt. lra.
  - intros x _. split. { auto_derive; trivial. ring. } apply (ex_derive_continuous (fun x => 2 * x)). auto_derive; trivial.
Qed.
Lemma chi_event u v w : 0 < u -> 0 < v -> (u <= chi_dist w <= v <-> u ^ 2 <= w <= v ^ 2).
Proof.
  intros Hu Hv. unfold chi_dist. assert (S : forall c, 0 < c -> sqrt (c ^ 2) = c) by (intros; apply sqrt_pow2; lra). assert (0 < u ^ 2) by (apply pow_lt; lra). assert (0 < v ^ 2) by (apply pow_lt; lra).
  destruct (Rle_lt_dec 0 w) as [Hw | Hw].
  - split; intros [A B]; split.
    + apply sqrt_le_0; try lra. rewrite S; lra.
    + apply sqrt_le_0; try lra. rewrite S; lra.
    + rewrite <- (S u Hu). apply sqrt_le_1; lra.
    + rewrite <- (S v Hv). apply sqrt_le_1; lra.
  - rewrite sqrt_neg_0 by lra. split; intros; lra.
Qed.
(** Interval probabilities of a Chi draw are the integrals of the documented density. *)
Theorem C93_chi_follows_documented_pdf : forall nu G (P : (R -> Prop) -> R),
  0 < nu -> is_Gamma (nu / 2) G -> same_events P -> has_density P (chi_squared_pdf nu G) ->
  has_density (fun A => P (fun w => A (chi_dist w))) (chi_pdf nu G).
Proof.
  intros nu G P Hnu HG SE HD u v Huv. rewrite <- (chi_interval nu G u v Huv). rewrite <- HD.
  - apply SE. intros w. apply chi_event; lra.
  - split; [apply pow_lt; lra | apply pow_incr; lra].
Qed.
Print Assumptions C93_chi_follows_documented_pdf.

(** The documented density integrates to one and has the documented mean and variance. *)
Theorem C93_chi_total_mean_variance : forall nu G G',
  0 < nu -> is_Gamma (nu / 2) G -> is_Gamma ((nu + 1) / 2) G' ->
  let m := sqrt 2 * (G' / G) in
  integral_0_oo (chi_pdf nu G) 1 /\ mean_is (chi_pdf nu G) m /\ variance_is (chi_pdf nu G) m (nu - 2 * (G' / G) ^ 2).
Proof.
  intros nu G G' Hnu HG HG' m. pose proof (gamma_pos _ _ HG) as PG.
  assert (T : is_RInt0 (chi_pdf nu G) 1).
  { assert (K := RInt0_scal _ (/ G) _ (gam_sub _ _ HG)). replace (/ G * G) with 1 in K by (field; lra). refine (RInt0_ext _ _ _ _ K). cbv beta. intros x Hx. symmetry. apply chi_pdf_form, Hx. }
  assert (S2 : Rpower 2 (/ 2) = sqrt 2) by (apply Rpower_sqrt; lra).
  assert (M : is_RInt0 (fun x => x * chi_pdf nu G x) m).
  { assert (K := RInt0_scal _ (sqrt 2 / G) _ (gam_sub _ _ HG')). replace (sqrt 2 / G * G') with m in K by (unfold m; field; lra). refine (RInt0_ext _ _ _ _ K). cbv beta. intros x Hx. rewrite chi_pdf_form by exact Hx.
    replace ((nu + 1) / 2 - 1) with ((nu / 2 - 1) + / 2) by field. rewrite Rpower_plus. rewrite (rp_half x (/ 2) Hx). rewrite Rpower_Ropp, S2. replace (2 * / 2) with 1 by field. rewrite Rpower_1 by exact Hx.
    pose proof (sqrt_lt_R0 2 ltac:(lra)). field. lra. }
  assert (Q : is_RInt0 (fun x => x ^ 2 * chi_pdf nu G x) nu).
  { assert (H2 : is_Gamma (nu / 2 + 1) (nu / 2 * G)) by (apply gamma_rec; [lra | exact HG]).
    assert (K := RInt0_scal _ (2 / G) _ (gam_sub _ _ H2)). replace (2 / G * (nu / 2 * G)) with nu in K by (field; lra). refine (RInt0_ext _ _ _ _ K). cbv beta. intros x Hx. rewrite chi_pdf_form by exact Hx.
    replace (nu / 2 + 1 - 1) with ((nu / 2 - 1) + 1) by field. rewrite Rpower_plus, (Rpower_1 (x ^ 2 / 2)) by (apply Rdiv_lt_0_compat; [apply pow_lt |]; lra). field. lra. }
  split; [exact T | split; [exact M |]].
  assert (K := is_RInt_gen_plus _ _ _ _ (is_RInt_gen_minus _ _ _ _ Q (RInt0_scal _ (2 * m) _ M)) (RInt0_scal _ (m ^ 2) _ T)).
  unfold minus, plus, opp in K. simpl in K. assert (E : nu + - (2 * m * m) + m * (m * 1) * 1 = nu - 2 * (G' / G) ^ 2).
  { replace (nu - 2 * (G' / G) ^ 2) with (nu - (sqrt 2 * sqrt 2) * (G' / G) ^ 2) by (rewrite sqrt_sqrt; lra). unfold m. ring. }
  rewrite E in K. refine (RInt0_ext _ _ _ _ K). cbv beta. intros x _. ring.
Qed.
Print Assumptions C93_chi_total_mean_variance.

(** Every draw is nonnegative (default_transform = log needs it). *)
Theorem C93_chi_nonnegative : forall w, 0 <= chi_dist w /\ (0 < w -> 0 < chi_dist w).
Proof. intros w. split; [apply sqrt_pos | apply sqrt_lt_R0]. Qed.
Print Assumptions C93_chi_nonnegative.

(** * Maxwell *)
Lemma gamma_3_2 : is_Gamma (3 / 2) (sqrt PI / 2).
Proof. replace (3 / 2) with (1 / 2 + 1) by field. replace (sqrt PI / 2) with (1 / 2 * sqrt PI) by field. apply gamma_rec; [lra | apply gamma_half]. Qed.
Lemma gamma_2 : is_Gamma 2 1.
Proof.
  assert (H1 : is_Gamma 1 1).
  { assert (K : is_RInt0 (fun t => exp (- t)) (- 0 - - exp (- 0))).
    { apply (RInt0_derive (fun t => - exp (- t))).
      - intros x _. auto_derive; trivial. ring.
      - intros x _. apply (ex_derive_continuous (fun t => exp (- t))). auto_derive; trivial.
      - apply (filterlim_filter_le_1 (F := locally 0)). { intros Q [d Hd]. exists d. intros y B _. apply Hd, B. } apply (ex_derive_continuous (fun t => - exp (- t))). auto_derive; trivial.
      - apply (is_lim_opp (fun t => exp (- t)) p_infty 0). apply is_lim_comp with (l := m_infty); [apply is_lim_exp_m | | exists 0; discriminate]. evar_last. apply (is_lim_opp (fun x => x)). apply is_lim_id. reflexivity. }
    rewrite Ropp_0, exp_0 in K. replace (0 - - (1)) with 1 in K by ring. refine (RInt0_ext _ _ _ _ K). cbv beta. intros x Hx. replace (1 - 1) with 0 by ring. rewrite Rpower_O by exact Hx. ring. }
  replace 2 with (1 + 1) by ring. replace 1 with (1 * 1) at 3 by ring. apply gamma_rec; [lra | exact H1].
Qed.
Lemma maxwell_form a x : 0 < a -> 0 < x -> maxwell_pdf a x = / a * chi_pdf maxwell_nu (sqrt PI / 2) (x / a).
Proof.
  intros Ha Hx. unfold maxwell_pdf, chi_pdf, maxwell_nu. assert (0 < x / a) by (apply Rdiv_lt_0_compat; lra).
  replace (3 - 1) with (INR 2) by (simpl; ring). rewrite Rpower_pow by assumption. replace (3 / 2 - 1) with (/ 2) by field. rewrite Rpower_sqrt by lra.
  replace (- ((x / a) ^ 2 / 2)) with (- x ^ 2 / (2 * a ^ 2)) by (field; lra). pose proof PI_RGT_0. rewrite sqrt_div_alt by assumption.
  pose proof (sqrt_lt_R0 PI H0). pose proof (sqrt_lt_R0 2 ltac:(lra)). set (E := exp _). transitivity (2 / sqrt 2 / sqrt PI * (x ^ 2 / a ^ 3) * E).
  - replace 2 with (sqrt 2 * sqrt 2) at 2 by (apply sqrt_sqrt; lra). field. repeat split; lra.
  - field. repeat split; lra.
Qed.
Lemma maxwell_c a x : continuous (maxwell_pdf a) x.
Proof. apply (ex_derive_continuous (maxwell_pdf a)). unfold maxwell_pdf, Rdiv. auto_derive. trivial. Qed.
Lemma maxwell_interval a u v : 0 < a -> 0 < u <= v -> RInt (chi_pdf maxwell_nu (sqrt PI / 2)) (u / a) (v / a) = RInt (maxwell_pdf a) u v.
Proof.
  intros Ha Huv. rewrite <- (RInt_comp (chi_pdf maxwell_nu (sqrt PI / 2)) (fun x => x / a) (fun _ => / a) u v).
  - apply RInt_ext. rewrite Rmin_left, Rmax_right by lra. intros x Hx. symmetry. apply maxwell_form; lra.
  - rewrite Rmin_left, Rmax_right by lra. intros x Hx. apply chi_pdf_c. apply Rdiv_lt_0_compat; lra.
  - intros x _. split. { auto_derive; trivial. field. lra. } apply continuous_const.
Qed.
Lemma all_gt0_spec a : all_gt0 a = true <-> List.Forall (fun x => 0 < x) a.
Proof.
  induction a as [|x a IH]; simpl. { split; [constructor | reflexivity]. }
  destruct (Rlt_dec 0 x) as [H | H]; simpl. - rewrite IH. split; [intros; constructor; assumption | intros K; inversion K; assumption].
  - split; [discriminate | intros K; inversion K; contradiction].
Qed.
(** a vector of Maxwell draws with default size: independent entries, entry i with the documented density at a_i; the draws are rejected exactly when some a_i is not positive *)
Theorem C93_maxwell_follows_documented_pdf : forall (a : list R) G (P : (list R -> Prop) -> R),
  is_Gamma (maxwell_nu / 2) G ->
  same_events P -> independent_with P (List.map (fun _ => chi_squared_pdf maxwell_nu G) a) ->
  (List.Forall (fun x => 0 < x) a ->
   independent_with (fun A => P (fun ws => exists xs, length ws = length a /\ maxwell_dist a ws = Ok xs /\ A xs)) (List.map maxwell_pdf a)) /\
  (~ List.Forall (fun x => 0 < x) a -> forall ws, maxwell_dist a ws = Err ValueError).
Proof.
  intros a G P HG SE HD. assert (EG : G = sqrt PI / 2) by (apply (RInt0_unique _ _ _ HG); replace (maxwell_nu / 2) with (3 / 2) by (unfold maxwell_nu; field); apply gamma_3_2).
  split.
  - intros Pa box L B. rewrite List.map_length in L.
    set (cb := List.map (fun bx => ((fst (fst bx) / snd bx) ^ 2, (snd (fst bx) / snd bx) ^ 2)) (List.combine box a)).
    transitivity (P (in_box cb)).
    + apply SE. intros ws. unfold maxwell_dist. rewrite (proj2 (all_gt0_spec a) Pa). unfold cb. clear SE HD cb. revert box ws L B. induction Pa as [|x a Hx Pa IH]; intros [|[u v] box] [|w ws] L B; simpl in *; try discriminate.
      * split; [intros _; constructor | intros _; eexists; repeat split; constructor].
      * split; [intros [xs [Q _]]; discriminate | intros K; inversion K].
      * split; [intros [xs [Q _]]; discriminate | intros K; inversion K].
      * inversion B as [|? ? B1 B2]; subst. simpl in B1. injection L as L. specialize (IH box ws L B2).
        assert (EV : u <= chi_dist w * x <= v <-> (u / x) ^ 2 <= w <= (v / x) ^ 2).
        { rewrite <- chi_event by (apply Rdiv_lt_0_compat; lra). rewrite Rle_div_l, Rle_div_r by lra. reflexivity. }
        split.
        -- intros [xs [Lw [E K]]]. injection E as <-. inversion K; subst. constructor; [simpl in *; apply EV; assumption |]. apply IH. eexists. split; [injection Lw as Lw; exact Lw | split; [reflexivity | assumption]].
        -- intros K. inversion K; subst. match goal with H : List.Forall2 _ _ ws |- _ => apply IH in H; destruct H as [xs [Lw [E F]]] end. injection E as <-. eexists. split; [f_equal; exact Lw | split; [reflexivity |]]. constructor; [simpl in *; apply EV; assumption | exact F].
    + rewrite HD.
      * unfold cb. rewrite EG. clear SE HD cb. revert box L B. induction Pa as [|x a Hx Pa IH]; intros [|[u v] box] L B; simpl in *; try discriminate; [reflexivity |]. inversion B as [|? ? B1 B2]; subst. simpl in B1. injection L as L. rewrite (IH box L B2). f_equal.
        rewrite <- (maxwell_interval x u v Hx B1). apply chi_interval. split; [apply Rdiv_lt_0_compat; lra | apply Rmult_le_compat_r; [apply Rlt_le, Rinv_0_lt_compat, Hx | lra]].
      * unfold cb. rewrite !List.map_length, List.combine_length, L, Nat.min_id. reflexivity.
      * unfold cb. clear SE HD cb. revert box L B. induction Pa as [|x a Hx Pa IH]; intros [|[u v] box] L B; simpl in *; try discriminate; constructor. { inversion B as [|? ? B1 B2]; subst. simpl in *. assert (0 < u / x) by (apply Rdiv_lt_0_compat; lra). split; [apply (pow_lt (u / x) 2); assumption |]. apply (pow_incr (u / x) (v / x) 2). split; [lra |]. apply Rmult_le_compat_r; [apply Rlt_le, Rinv_0_lt_compat, Hx | lra]. }
        inversion B; subst. injection L as L. apply IH; assumption.
  - intros N ws. unfold maxwell_dist. destruct (all_gt0 a) eqn:E; [|reflexivity]. apply all_gt0_spec in E. contradiction.
Qed.
Print Assumptions C93_maxwell_follows_documented_pdf.

(** total one, documented mean and variance, with no assumption about Gamma *)
Theorem C93_maxwell_total_mean_variance : forall a, 0 < a ->
  let m := 2 * a * sqrt (2 / PI) in
  integral_0_oo (maxwell_pdf a) 1 /\ mean_is (maxwell_pdf a) m /\ variance_is (maxwell_pdf a) m (a ^ 2 * (3 * PI - 8) / PI).
Proof.
  intros a Ha m. pose proof PI_RGT_0 as HPI. pose proof (sqrt_lt_R0 PI HPI) as HS.
  assert (A1 : is_Gamma (maxwell_nu / 2) (sqrt PI / 2)) by (replace (maxwell_nu / 2) with (3 / 2) by (unfold maxwell_nu; field); apply gamma_3_2).
  assert (A2 : is_Gamma ((maxwell_nu + 1) / 2) 1) by (replace ((maxwell_nu + 1) / 2) with 2 by (unfold maxwell_nu; field); apply gamma_2).
  destruct (C93_chi_total_mean_variance maxwell_nu _ _ ltac:(unfold maxwell_nu; lra) A1 A2) as [T [M V]].
  set (f := chi_pdf maxwell_nu (sqrt PI / 2)) in *. set (mc := sqrt 2 * (1 / (sqrt PI / 2))) in *.
  assert (EM : a * mc = m). { unfold mc, m. rewrite sqrt_div_alt by assumption. field. lra. }
  assert (Sub : forall (h : R -> R) l, (forall x, 0 < x -> continuous h x) -> is_RInt0 (fun x => h x * f x) l -> is_RInt0 (fun x => h (x / a) * maxwell_pdf a x) l).
  { intros h l Ch K. assert (K2 : is_RInt0 (fun x => / a * (fun y => h y * f y) (x / a)) l).
    { apply (RInt0_comp (fun y => h y * f y) (fun x => x / a) (fun _ => / a)); [| | | | apply scale_0, Ha | apply scale_oo, Ha | exact K].
      - intros x Hx. apply (continuous_mult h f); [apply Ch, Hx | apply chi_pdf_c, Hx].
      - intros x Hx. apply Rdiv_lt_0_compat; lra.
      - intros x Hx. auto_derive; trivial. field. lra.
      - intros x Hx. apply continuous_const. }
    refine (RInt0_ext _ _ _ _ K2). cbv beta. intros x Hx. rewrite (maxwell_form a x Ha Hx). fold f. ring. }
  split; [|split].
  - assert (K := Sub (fun _ => 1) 1 (fun x _ => continuous_const 1 x)). assert (K0 : is_RInt0 (fun x => 1 * f x) 1) by (revert T; apply RInt0_ext; intros; ring). specialize (K K0). refine (RInt0_ext _ _ _ _ K). cbv beta. intros; ring.
  - assert (K := RInt0_scal _ a _ (Sub (fun x => x) mc (fun x _ => continuous_id x) M)). rewrite EM in K. refine (RInt0_ext _ _ _ _ K). cbv beta. intros x Hx. field. lra.
  - assert (K := RInt0_scal _ (a ^ 2) _ (Sub (fun x => (x - mc) ^ 2) _ (fun x _ => ltac:(apply (ex_derive_continuous (fun x => (x - mc) ^ 2)); auto_derive; trivial)) V)).
    assert (E : a ^ 2 * (maxwell_nu - 2 * (1 / (sqrt PI / 2)) ^ 2) = a ^ 2 * (3 * PI - 8) / PI).
    { unfold maxwell_nu. replace PI with (sqrt PI * sqrt PI) at 2 3 by (apply sqrt_sqrt; lra). field. lra. }
    rewrite E in K. refine (RInt0_ext _ _ _ _ K). cbv beta. intros x Hx. rewrite <- EM. field. lra.
Qed.
Print Assumptions C93_maxwell_total_mean_variance.

(** Meets the hypotheses: nu = 3, with Gamma(3/2) = sqrt(PI)/2 and Gamma(2) = 1. *)
Example chi3_moments : mean_is (chi_pdf 3 (sqrt PI / 2)) (sqrt 2 * (1 / (sqrt PI / 2))).
Proof.
  assert (A2 : is_Gamma ((3 + 1) / 2) 1) by (replace ((3 + 1) / 2) with 2 by field; apply gamma_2).
  apply (C93_chi_total_mean_variance 3 _ _ ltac:(lra) gamma_3_2 A2).
Qed.
Example maxwell_rejects : forall ws, maxwell_dist [2; -1] ws = Err ValueError.
Proof. intros ws. unfold maxwell_dist. simpl. destruct (Rlt_dec 0 2); destruct (Rlt_dec 0 (-1)); try reflexivity; exfalso; lra. Qed.

(** Meets the hypotheses: for any nonnegative continuous density there is a P as required (the largest probability of a box inside the event). *)
Lemma mono_int (f : R -> R) u v u' v' : (forall x, 0 < x -> 0 <= f x) -> (forall x, 0 < x -> continuous f x) -> 0 < u <= v -> 0 < u' <= v' -> u <= u' -> v' <= v -> 0 <= RInt f u' v' <= RInt f u v.
Proof.
  intros P C H H' Hu Hv. assert (I : forall a b, 0 < a -> a <= b -> ex_RInt f a b). { intros a b Ha Hab. apply (@ex_RInt_continuous R_CompleteNormedModule). rewrite Rmin_left by lra. intros. apply C. lra. }
  assert (Z : forall a b, 0 < a -> a <= b -> 0 <= RInt f a b) by (intros; apply RInt_ge_0; [assumption | apply I; assumption | intros; apply P; lra]).
  split; [apply Z; lra |]. assert (E : RInt f u v = RInt f u u' + (RInt f u' v' + RInt f v' v)).
  { rewrite <- (RInt_Chasles f u u' v), <- (RInt_Chasles f u' v' v); try (apply I; lra). reflexivity. }
  pose proof (Z u u' ltac:(lra) Hu). pose proof (Z v' v ltac:(lra) Hv). lra.
Qed.
Definition box_prob (pdfs : list (R -> R)) (box : list (R * R)) : R := product (List.map (fun bp => RInt (snd bp) (fst (fst bp)) (snd (fst bp))) (List.combine box pdfs)).
Definition inner (pdfs : list (R -> R)) (A : list R -> Prop) : R :=
  real (Lub_Rbar (fun y => exists box, length box = length pdfs /\ box_ok box /\ (forall ws, in_box box ws -> A ws) /\ y = box_prob pdfs box)).
Lemma inner_ok pdfs : List.Forall (fun f => forall x, 0 < x -> 0 <= f x /\ continuous f x) pdfs -> same_events (inner pdfs) /\ independent_with (inner pdfs) pdfs.
Proof.
  intros OK. split.
  - intros A B E. unfold inner. f_equal. apply Lub_Rbar_eqset. intros y. split; intros [box [L [K [S Q]]]]; exists box; repeat split; try assumption; intros ws H; apply E, S, H.
  - intros box L K. fold (box_prob pdfs box). unfold inner. assert (U : is_lub_Rbar (fun y => exists box', length box' = length pdfs /\ box_ok box' /\ (forall ws, in_box box' ws -> in_box box ws) /\ y = box_prob pdfs box') (box_prob pdfs box)).
    { split.
      - intros y [box' [L' [K' [S ->]]]]. simpl. cut (0 <= box_prob pdfs box' <= box_prob pdfs box); [lra |].
        revert box box' L L' K K' S. induction OK as [|f pdfs Hf OK IH]; intros [|[u v] box] [|[u' v'] box'] L L' K K' S; try discriminate; unfold box_prob; simpl; [lra |].
        inversion K as [|? ? K1 K2]; inversion K' as [|? ? K1' K2']; subst. simpl in *.
        assert (LO : in_box box' (List.map fst box')). { clear - K2'. induction K2'; constructor; [simpl; lra | assumption]. }
        assert (S1 : u <= u'). { specialize (S (u' :: List.map fst box')). assert (Q : in_box ((u, v) :: box) (u' :: List.map fst box')) by (apply S; constructor; [simpl; lra | exact LO]). inversion Q; subst. simpl in *. lra. }
        assert (S2 : v' <= v). { specialize (S (v' :: List.map fst box')). assert (Q : in_box ((u, v) :: box) (v' :: List.map fst box')) by (apply S; constructor; [simpl; lra | exact LO]). inversion Q; subst. simpl in *. lra. }
        assert (S3 : forall ws, in_box box' ws -> in_box box ws). { intros ws H. specialize (S (u' :: ws)). assert (Q : in_box ((u, v) :: box) (u' :: ws)) by (apply S; constructor; [simpl; lra | exact H]). inversion Q; subst. assumption. }
        specialize (IH box box' ltac:(injection L; easy) ltac:(injection L'; easy) K2 K2' S3). unfold box_prob in IH.
        assert (M := mono_int f u v u' v' (fun x Hx => proj1 (Hf x Hx)) (fun x Hx => proj2 (Hf x Hx)) K1 K1' S1 S2).
        destruct M as [M1 M2]. destruct IH as [I1 I2]. split; [apply Rmult_le_pos; assumption | apply Rmult_le_compat; assumption].
      - intros b Hb. apply Hb. exists box. repeat split; try assumption. intros ws H. exact H. }
    rewrite (is_lub_Rbar_unique _ _ U). reflexivity.
Qed.
Example maxwell_hypotheses_met : let P := inner (List.map (fun _ => chi_squared_pdf maxwell_nu (sqrt PI / 2)) [1; 2]) in
  is_Gamma (maxwell_nu / 2) (sqrt PI / 2) /\ same_events P /\ independent_with P (List.map (fun _ => chi_squared_pdf maxwell_nu (sqrt PI / 2)) [1; 2]).
Proof.
  intros P. split; [replace (maxwell_nu / 2) with (3 / 2) by (unfold maxwell_nu; field); apply gamma_3_2 |]. apply inner_ok.
  assert (F : forall x, 0 < x -> 0 <= chi_squared_pdf maxwell_nu (sqrt PI / 2) x /\ continuous (chi_squared_pdf maxwell_nu (sqrt PI / 2)) x).
  { intros x Hx. split; [|apply chi2_pdf_c, Hx]. unfold chi_squared_pdf. pose proof (sqrt_lt_R0 PI PI_RGT_0). apply Rlt_le, Rdiv_lt_0_compat; apply Rmult_lt_0_compat; try apply exp_pos. lra. }
  constructor; [exact F | constructor; [exact F | constructor]].
Qed.
