(** Logarithmic moments of the exponential law: minus the mean of ln t is Euler's constant and its variance is PI^2/6 (used by C100; all proved here). *)
From Coq Require Import Reals Lra Lia Psatz.
From Coquelicot Require Import Coquelicot.
From Verif Require Import Common Chi_Analysis Chi_Spec Chi_Props Gam_Analysis Basel.
Local Open Scope R_scope.

Lemma RInt0_ub (g : R -> R) (l a b : R) : (forall x, 0 < x -> continuous g x) -> (forall x, 0 < x -> 0 <= g x) -> is_RInt0 g l -> 0 < a <= b -> RInt g a b <= l.
Proof.
  intros C P I H. apply RInt0_to in I.
  assert (K : Rbar_le (Finite (RInt g a b)) (Finite l)); [|exact K].
  apply (filterlim_le (F := pos2) (fun _ => RInt g a b) (fun ab => RInt g (fst ab) (snd ab))); [|apply filterlim_const|exact I].
  exists (fun x => 0 < x <= a) (fun x => b < x).
  - exists (mkposreal a (proj1 H)). intros y By Hy. unfold ball in By. simpl in By. unfold AbsRing_ball, abs, minus, plus, opp in By. simpl in By. apply Rabs_def2 in By. lra.
  - exists b. intros x Hx; exact Hx.
  - intros a' b' Ha Hb. simpl.
    assert (E1 : RInt g a' b' = RInt g a' a + RInt g a b + RInt g b b').
    { assert (X : RInt g a' a + RInt g a b = RInt g a' b) by (apply (RInt_Chasles g); apply int_cont; auto; lra). rewrite X. symmetry. apply (RInt_Chasles g); apply int_cont; auto; lra. }
    assert (N1 : 0 <= RInt g a' a) by (apply RInt_ge_0; [lra | apply int_cont; auto; lra | intros x Hx; apply P; lra]).
    assert (N2 : 0 <= RInt g b b') by (apply RInt_ge_0; [lra | apply int_cont; auto; lra | intros x Hx; apply P; lra]).
    lra.
Qed.
(** domination *)
Lemma RInt0_dom (f g : R -> R) (lg : R) : (forall x, 0 < x -> continuous f x) -> (forall x, 0 < x -> continuous g x) ->
  (forall x, 0 < x -> Rabs (f x) <= g x) -> is_RInt0 g lg -> exists l, is_RInt0 f l.
Proof.
  intros Cf Cg D I.
  assert (Cs : forall x, 0 < x -> continuous (fun x => f x + g x) x) by (intros x Hx; apply (continuous_plus f g); auto).
  assert (B : forall x, 0 < x -> 0 <= f x + g x <= 2 * g x).
  { intros x Hx. specialize (D x Hx). apply Rabs_le_between in D. lra. }
  destruct (RInt0_bounded (fun x => f x + g x) (2 * lg)) as [l Hl].
  - exact Cs.
  - intros x Hx. apply B, Hx.
  - intros a b H. apply Rle_trans with (RInt (fun x => 2 * g x) a b).
    + apply RInt_le; [lra | apply int_cont; [exact Cs | lra] | apply int_cont; [|lra] | intros x Hx; apply B; lra].
      intros x Hx. apply (continuous_scal_r 2 g). auto.
    + rewrite (is_RInt_unique (fun x => 2 * g x) a b (2 * RInt g a b)).
      * apply Rmult_le_compat_l; [lra|]. apply RInt0_ub; auto. intros x Hx. specialize (B x Hx). lra.
      * apply (is_RInt_scal g). apply (@RInt_correct R_CompleteNormedModule g). apply int_cont; auto.
  - exists (l + - 1 * lg). apply (RInt0_ext (fun x => (f x + g x) + - 1 * g x)); [intros; ring|]. apply RInt0_plus; [exact Hl | apply RInt0_scal, I].
Qed.

Lemma abs_le_exp y : Rabs y <= exp y + exp (- y).
Proof. pose proof (exp_ineq1_le y). pose proof (exp_ineq1_le (- y)). pose proof (exp_pos y). pose proof (exp_pos (- y)). apply Rabs_le. lra. Qed.
Lemma sq_le_exp y : y ^ 2 <= exp (2 * y) + 2 + exp (- (2 * y)).
Proof.
  pose proof (abs_le_exp y) as H. assert (E : y ^ 2 = Rabs y ^ 2) by (rewrite <- (pow2_abs y); reflexivity). rewrite E.
  apply Rle_trans with ((exp y + exp (- y)) ^ 2); [apply pow_incr; split; [apply Rabs_pos | exact H]|].
  right. replace (2 * y) with (y + y) by ring. rewrite Ropp_plus_distr, !exp_plus. assert (exp y * exp (- y) = 1) by (rewrite <- exp_plus, Rplus_opp_r; apply exp_0). simpl. nra.
Qed.
Lemma rp_mul t a b : Rpower t a * Rpower t b = Rpower t (a + b).
Proof. symmetry. apply Rpower_plus. Qed.
Lemma ln_dom a t : 0 < a -> Rabs (ln t) <= / a * (Rpower t a + Rpower t (- a)).
Proof.
  intros Ha. pose proof (abs_le_exp (a * ln t)) as H. rewrite Rabs_mult, (Rabs_right a) in H by lra. unfold Rpower.
  replace (- a * ln t) with (- (a * ln t)) by ring. apply Rmult_le_reg_l with a; [lra|]. rewrite <- Rmult_assoc, Rinv_r by lra. lra.
Qed.
Lemma ln2_dom a t : 0 < a -> ln t ^ 2 <= / a ^ 2 * (Rpower t (2 * a) + 2 + Rpower t (- (2 * a))).
Proof.
  intros Ha. pose proof (sq_le_exp (a * ln t)) as H. unfold Rpower. rewrite Rpow_mult_distr in H.
  replace (- (2 * a) * ln t) with (- (2 * (a * ln t))) by ring. replace (2 * a * ln t) with (2 * (a * ln t)) by ring.
  assert (0 < a ^ 2) by (apply pow_lt, Ha). apply Rmult_le_reg_l with (a ^ 2); [lra|]. rewrite <- Rmult_assoc, Rinv_r by lra. lra.
Qed.

Definition f1 (s t : R) : R := ln t * gam s t.
Definition f2 (s t : R) : R := ln t ^ 2 * gam s t.
Lemma f1_c s t : 0 < t -> continuous (f1 s) t.
Proof. intros Ht. apply (ex_derive_continuous (f1 s)). unfold f1, gam, Rpower. auto_derive. lra. Qed.
Lemma f2_c s t : 0 < t -> continuous (f2 s) t.
Proof. intros Ht. apply (ex_derive_continuous (f2 s)). unfold f2, gam, Rpower. auto_derive. lra. Qed.
Lemma gam_mul s a t : Rpower t a * gam s t = gam (s + a) t.
Proof. unfold gam. rewrite <- Rmult_assoc, rp_mul. do 2 f_equal. ring. Qed.

Lemma A_exists s : 0 < s -> exists l, is_RInt0 (f1 s) l.
Proof.
  intros Hs. destruct (gamma_exists (s + s / 2)) as [G1 H1]; [lra|]. destruct (gamma_exists (s + - (s / 2))) as [G2 H2]; [lra|].
  apply (RInt0_dom (f1 s) (fun t => / (s / 2) * (gam (s + s / 2) t + gam (s + - (s / 2)) t)) (/ (s / 2) * (G1 + G2))).
  - intros; apply f1_c; assumption.
  - intros t Ht. apply (continuous_scal_r (/ (s / 2)) (fun t => gam (s + s / 2) t + gam (s + - (s / 2)) t)). apply (continuous_plus (gam (s + s / 2)) (gam (s + - (s / 2)))); apply gam_cont, Ht.
  - intros t Ht. unfold f1. rewrite Rabs_mult, (Rabs_right (gam s t)) by (left; apply gam_pos). rewrite <- !gam_mul.
    rewrite <- Rmult_plus_distr_r, <- Rmult_assoc. apply Rmult_le_compat_r; [left; apply gam_pos|]. apply ln_dom. lra.
  - apply RInt0_scal, RInt0_plus; assumption.
Qed.
Lemma B_exists s : 0 < s -> exists l, is_RInt0 (f2 s) l.
Proof.
  intros Hs. set (a := s / 4). assert (Ha : 0 < a) by (unfold a; lra).
  destruct (gamma_exists (s + 2 * a)) as [G1 H1]; [lra|]. destruct (gamma_exists (s + - (2 * a))) as [G2 H2]; [unfold a; lra|]. destruct (gamma_exists s) as [G0 H0]; [lra|].
  apply (RInt0_dom (f2 s) (fun t => / a ^ 2 * (gam (s + 2 * a) t + 2 * gam s t + gam (s + - (2 * a)) t)) (/ a ^ 2 * (G1 + 2 * G0 + G2))).
  - intros; apply f2_c; assumption.
  - intros t Ht. apply (continuous_scal_r (/ a ^ 2) (fun t => gam (s + 2 * a) t + 2 * gam s t + gam (s + - (2 * a)) t)).
    apply (continuous_plus (fun t => gam (s + 2 * a) t + 2 * gam s t) (gam (s + - (2 * a)))); [|apply gam_cont, Ht].
    apply (continuous_plus (gam (s + 2 * a)) (fun t => 2 * gam s t)); [apply gam_cont, Ht|]. apply (continuous_scal_r 2 (gam s)), gam_cont, Ht.
  - intros t Ht. unfold f2. rewrite Rabs_right by (apply Rle_ge, Rmult_le_pos; [apply pow2_ge_0 | left; apply gam_pos]). rewrite <- !gam_mul.
    replace (/ a ^ 2 * (Rpower t (2 * a) * gam s t + 2 * gam s t + Rpower t (- (2 * a)) * gam s t)) with (/ a ^ 2 * (Rpower t (2 * a) + 2 + Rpower t (- (2 * a))) * gam s t) by ring.
    apply Rmult_le_compat_r; [left; apply gam_pos|]. apply ln2_dom, Ha.
  - apply RInt0_scal, RInt0_plus; [apply RInt0_plus; [assumption | apply RInt0_scal; assumption] | assumption].
Qed.
(** boundary terms *)
Lemma lim_dom (F : (R -> Prop) -> Prop) (FF : Filter F) (f g : R -> R) : F (fun t => Rabs (f t) <= g t) -> filterlim g F (locally 0) -> filterlim f F (locally 0).
Proof.
  intros D L Q [e HQ]. specialize (L _ (locally_ball 0 e)). unfold filtermap in *. generalize (filter_and _ _ D L). apply filter_imp.
  intros t [H1 H2]. apply HQ. unfold ball in *. simpl in *. unfold AbsRing_ball, abs, minus, plus, opp in *. simpl in *.
  rewrite Ropp_0, Rplus_0_r in *. pose proof (Rle_abs (g t)). lra.
Qed.
Definition lims (f : R -> R) : Prop := filterlim f (at_right 0) (locally 0) /\ filterlim f (Rbar_locally p_infty) (locally 0).
Lemma lims_gam s : 0 < s -> lims (fun t => Rpower t s * exp (- t)).
Proof. intros Hs. split; [apply rp_0, Hs | apply rp_oo]. Qed.
Lemma lim_scal (F : (R -> Prop) -> Prop) (FF : Filter F) (f : R -> R) c : filterlim f F (locally 0) -> filterlim (fun t => c * f t) F (locally 0).
Proof. intros H. apply (filterlim_comp _ _ _ f (fun y => c * y) F (locally 0) (locally 0) H). rewrite <- (Rmult_0_r c) at 2. apply (continuous_scal_r c (fun y => y) 0). apply continuous_id. Qed.
Lemma lim_plus (F : (R -> Prop) -> Prop) (FF : Filter F) (f g : R -> R) : filterlim f F (locally 0) -> filterlim g F (locally 0) -> filterlim (fun t => f t + g t) F (locally 0).
Proof. intros H K. replace 0 with (0 + 0) at 1 by ring. apply (filterlim_comp_2 f g Rplus H K). apply (filterlim_plus 0 0). Qed.
Lemma lims_dom (f g : R -> R) : (forall t, 0 < t -> Rabs (f t) <= g t) -> lims g -> lims f.
Proof.
  intros D [L1 L2]. split; [apply (lim_dom _ _ f g); [|exact L1] | apply (lim_dom _ _ f g); [|exact L2]].
  - exists (mkposreal 1 Rlt_0_1). intros y _ Hy. apply D, Hy.
  - exists 0. intros y Hy. apply D, Hy.
Qed.
Lemma lims_scal f c : lims f -> lims (fun t => c * f t).
Proof. intros [L1 L2]. split; apply lim_scal; try apply _; assumption. Qed.
Lemma lims_plus f g : lims f -> lims g -> lims (fun t => f t + g t).
Proof. intros [L1 L2] [K1 K2]. split; apply lim_plus; try apply _; assumption. Qed.
Lemma lims_ext f g : (forall t, f t = g t) -> lims f -> lims g.
Proof. intros E [L1 L2]. split; eapply filterlim_ext; eauto. Qed.
Lemma rp_mul' a s t : Rpower t a * (Rpower t s * exp (- t)) = Rpower t (s + a) * exp (- t).
Proof. rewrite <- Rmult_assoc, rp_mul. do 2 f_equal. ring. Qed.
Lemma lims_f1 s : 0 < s -> lims (fun t => ln t * (Rpower t s * exp (- t))).
Proof.
  intros Hs. apply (lims_dom _ (fun t => / (s / 2) * (Rpower t (s + s / 2) * exp (- t) + Rpower t (s + - (s / 2)) * exp (- t)))).
  - intros t Ht. assert (P : 0 < Rpower t s * exp (- t)) by (apply Rmult_lt_0_compat; apply exp_pos). rewrite Rabs_mult, (Rabs_right (Rpower t s * _)) by lra.
    rewrite <- !rp_mul'. set (q := Rpower t s * exp (- t)) in *.
    replace (/ (s / 2) * (Rpower t (s / 2) * q + Rpower t (- (s / 2)) * q)) with (/ (s / 2) * (Rpower t (s / 2) + Rpower t (- (s / 2))) * q) by ring.
    apply Rmult_le_compat_r; [lra|]. apply ln_dom. lra.
  - apply lims_scal, lims_plus; apply lims_gam; lra.
Qed.
Lemma lims_f2 s : 0 < s -> lims (fun t => ln t ^ 2 * (Rpower t s * exp (- t))).
Proof.
  intros Hs. set (a := s / 4). assert (Ha : 0 < a) by (unfold a; lra).
  apply (lims_dom _ (fun t => / a ^ 2 * (Rpower t (s + 2 * a) * exp (- t) + 2 * (Rpower t s * exp (- t)) + Rpower t (s + - (2 * a)) * exp (- t)))).
  - intros t Ht. assert (P : 0 < Rpower t s * exp (- t)) by (apply Rmult_lt_0_compat; apply exp_pos).
    rewrite Rabs_right by (apply Rle_ge, Rmult_le_pos; [apply pow2_ge_0 | lra]). rewrite <- !rp_mul'. set (q := Rpower t s * exp (- t)) in *.
    replace (/ a ^ 2 * (Rpower t (2 * a) * q + 2 * q + Rpower t (- (2 * a)) * q)) with (/ a ^ 2 * (Rpower t (2 * a) + 2 + Rpower t (- (2 * a))) * q) by ring.
    apply Rmult_le_compat_r; [lra|]. apply ln2_dom, Ha.
  - apply lims_scal, lims_plus; [apply lims_plus; [|apply lims_scal]|]; apply lims_gam; unfold a; lra.
Qed.
(** integration by parts *)
Lemma A_rec s A G : 0 < s -> is_RInt0 (f1 s) A -> is_Gamma s G -> is_RInt0 (f1 (s + 1)) (s * A + G).
Proof.
  intros Hs HA HG. destruct (lims_f1 s Hs) as [L0 L1].
  assert (D : is_RInt0 (fun t => gam s t + (s * f1 s t + - 1 * f1 (s + 1) t)) (0 - 0)).
  { apply (RInt0_derive (fun t => ln t * (Rpower t s * exp (- t)))); [| |exact L0|exact L1]; intros x Hx.
    - unfold f1, gam. replace (s + 1 - 1) with s by ring. unfold Rpower. auto_derive; [lra|].
      replace ((s - 1) * ln x) with (s * ln x + - ln x) by ring. rewrite exp_plus, (exp_Ropp (ln x)), exp_ln by lra. field. lra.
    - apply (continuous_plus (gam s) (fun t => s * f1 s t + - 1 * f1 (s + 1) t)); [apply gam_cont, Hx|].
      apply (continuous_plus (fun t => s * f1 s t) (fun t => - 1 * f1 (s + 1) t)); [apply (continuous_scal_r s (f1 s)), f1_c, Hx | apply (continuous_scal_r (- 1) (f1 (s + 1))), f1_c, Hx]. }
  destruct (A_exists (s + 1)) as [A' HA']; [lra|].
  assert (E : 0 - 0 = G + (s * A + - 1 * A')).
  { apply (RInt0_unique _ _ _ D). apply RInt0_plus; [exact HG|]. apply RInt0_plus; apply RInt0_scal; assumption. }
  replace (s * A + G) with A' by lra. exact HA'.
Qed.
Lemma B_rec s A B : 0 < s -> is_RInt0 (f1 s) A -> is_RInt0 (f2 s) B -> is_RInt0 (f2 (s + 1)) (s * B + 2 * A).
Proof.
  intros Hs HA HB. destruct (lims_f2 s Hs) as [L0 L1].
  assert (D : is_RInt0 (fun t => 2 * f1 s t + (s * f2 s t + - 1 * f2 (s + 1) t)) (0 - 0)).
  { apply (RInt0_derive (fun t => ln t ^ 2 * (Rpower t s * exp (- t)))); [| |exact L0|exact L1]; intros x Hx.
    - unfold f1, f2, gam. replace (s + 1 - 1) with s by ring. unfold Rpower. auto_derive; [lra|].
      replace ((s - 1) * ln x) with (s * ln x + - ln x) by ring. rewrite exp_plus, (exp_Ropp (ln x)), exp_ln by lra. simpl. field. lra.
    - apply (continuous_plus (fun t => 2 * f1 s t) (fun t => s * f2 s t + - 1 * f2 (s + 1) t)); [apply (continuous_scal_r 2 (f1 s)), f1_c, Hx|].
      apply (continuous_plus (fun t => s * f2 s t) (fun t => - 1 * f2 (s + 1) t)); [apply (continuous_scal_r s (f2 s)), f2_c, Hx | apply (continuous_scal_r (- 1) (f2 (s + 1))), f2_c, Hx]. }
  destruct (B_exists (s + 1)) as [B' HB']; [lra|].
  assert (E : 0 - 0 = 2 * A + (s * B + - 1 * B')).
  { apply (RInt0_unique _ _ _ D). apply RInt0_plus; [apply RInt0_scal; exact HA|]. apply RInt0_plus; apply RInt0_scal; assumption. }
  replace (s * B + 2 * A) with B' by lra. exact HB'.
Qed.
(** the n-th member of the family *)
Lemma gamma_1 : is_Gamma 1 1.
Proof.
  unfold is_Gamma, integral_0_oo. change (is_RInt0 (fun t => Rpower t (1 - 1) * exp (- t)) 1).
  apply (RInt0_ext (fun t => exp (- t))); [intros t Ht; replace (1 - 1) with 0 by ring; rewrite Rpower_O by exact Ht; ring|].
  replace 1 with (0 - (- 1)) by ring. apply (RInt0_derive (fun t => - exp (- t))).
  - intros x _. auto_derive; [exact I | ring].
  - intros x _. apply (ex_derive_continuous (fun t => exp (- t))). auto_derive. exact I.
  - apply (filterlim_filter_le_1 (F := locally 0)). { intros Q [d Hd]. exists d. intros y B _. apply Hd, B. }
    assert (E1 : -1 = - exp (- 0)) by (rewrite Ropp_0, exp_0; ring). rewrite E1. apply (ex_derive_continuous (fun t => - exp (- t))). auto_derive. exact I.
  - apply filterlim_ext_loc with (fun t => - 1 * (Rpower t 0 * exp (- t))).
    + exists 0. intros t Ht. rewrite Rpower_O by exact Ht. ring.
    + apply (lim_scal _ _ (fun t => Rpower t 0 * exp (- t)) (- 1)). apply rp_oo.
Qed.
Lemma gamma_fact n : is_Gamma (INR n + 1) (INR (fact n)).
Proof.
  induction n; [simpl; rewrite Rplus_0_l; apply gamma_1|]. rewrite S_INR. rewrite fact_simpl, mult_INR, S_INR. apply gamma_rec; [pose proof (pos_INR n); lra | exact IHn].
Qed.
Lemma E_plus (h k : R -> R) s lh lk : is_RInt0 (fun t => h t * gam s t) lh -> is_RInt0 (fun t => k t * gam s t) lk -> is_RInt0 (fun t => (h t + k t) * gam s t) (lh + lk).
Proof. intros H K. apply (RInt0_ext (fun t => h t * gam s t + k t * gam s t)); [intros; ring|]. apply RInt0_plus; assumption. Qed.
Lemma E_scal (h : R -> R) s c l : is_RInt0 (fun t => h t * gam s t) l -> is_RInt0 (fun t => (c * h t) * gam s t) (c * l).
Proof. intros H. apply (RInt0_ext (fun t => c * (h t * gam s t))); [intros; ring|]. apply RInt0_scal; assumption. Qed.
Lemma E_const s c G : is_Gamma s G -> is_RInt0 (fun t => c * gam s t) (c * G).
Proof. intros H. apply RInt0_scal, H. Qed.
Lemma E_id s G : 0 < s -> is_Gamma s G -> is_RInt0 (fun t => t * gam s t) (s * G).
Proof.
  intros Hs H. apply (RInt0_ext (gam (s + 1))); [|apply gamma_rec; assumption].
  intros t Ht. rewrite <- gam_mul, Rpower_1 by exact Ht. reflexivity.
Qed.
Lemma E_inv s G : is_Gamma s G -> is_RInt0 (fun t => / t * gam (s + 1) t) G.
Proof.
  intros H. apply (RInt0_ext (gam s)); [|exact H]. intros t Ht. rewrite <- (gam_mul s 1), Rpower_1 by exact Ht. field. lra.
Qed.
Lemma h_cont (h : R -> R) s : (forall t, 0 < t -> continuous h t) -> forall t, 0 < t -> continuous (fun t => h t * gam s t) t.
Proof. intros C t Ht. apply (continuous_mult h (gam s)); [apply C, Ht | apply gam_cont, Ht]. Qed.
Lemma E_le (h k : R -> R) s lh lk : (forall t, 0 < t -> h t <= k t) -> (forall t, 0 < t -> continuous h t) -> (forall t, 0 < t -> continuous k t) ->
  is_RInt0 (fun t => h t * gam s t) lh -> is_RInt0 (fun t => k t * gam s t) lk -> lh <= lk.
Proof.
  intros L Ch Ck H K. apply (RInt0_le _ _ _ _ (fun t Ht => Rmult_le_compat_r _ _ _ (Rlt_le _ _ (gam_pos s t)) (L t Ht)) H K); apply h_cont; assumption.
Qed.
Lemma ln_tangent t c : 0 < t -> 0 < c -> ln t <= ln c + (t / c - 1).
Proof.
  intros Ht Hc. pose proof (exp_ineq1_le (ln t - ln c)) as Q. unfold Rminus in Q. rewrite exp_plus, exp_Ropp, !exp_ln in Q by assumption. unfold Rdiv. lra.
Qed.
Lemma ln_tangent' t c : 0 < t -> 0 < c -> ln c + (1 - c / t) <= ln t.
Proof. intros Ht Hc. pose proof (ln_tangent c t Hc Ht). lra. Qed.
Lemma sinh_ge u : 0 <= u -> 2 * u <= exp u - exp (- u).
Proof.
  intros Hu. destruct (Req_dec u 0) as [->|N]; [rewrite Ropp_0; lra|].
  destruct (MVT_gen (fun x => exp x - exp (- x) - 2 * x) 0 u (fun x => exp x + exp (- x) - 2)) as (c & _ & Hc).
  - intros y _. auto_derive; [exact I | ring].
  - intros y _. apply continuity_pt_filterlim. apply (ex_derive_continuous (fun x => exp x - exp (- x) - 2 * x)). auto_derive. exact I.
  - rewrite Ropp_0, exp_0 in Hc. assert (E : exp c * exp (- c) = 1) by (rewrite <- exp_plus, Rplus_opp_r; apply exp_0). pose proof (exp_pos c). pose proof (exp_pos (- c)).
    assert (E2 : exp c + exp (- c) - 2 = (exp c - 1) ^ 2 * exp (- c)) by (simpl; nra).
    assert (0 <= exp c + exp (- c) - 2) by (rewrite E2; apply Rmult_le_pos; [apply pow2_ge_0 | lra]). nra.
Qed.
Lemma sq_sinh y : y ^ 2 <= exp y - 2 + exp (- y).
Proof.
  assert (P : forall u, 0 <= u -> (2 * u) ^ 2 <= exp (2 * u) - 2 + exp (- (2 * u))).
  { intros u Hu. apply Rle_trans with ((exp u - exp (- u)) ^ 2); [apply pow_incr; split; [lra | apply sinh_ge, Hu]|]. right.
    replace (2 * u) with (u + u) by ring. rewrite Ropp_plus_distr, !exp_plus. assert (exp u * exp (- u) = 1) by (rewrite <- exp_plus, Rplus_opp_r; apply exp_0). simpl. nra. }
  destruct (Rle_dec 0 y) as [H|H].
  - specialize (P (y / 2) ltac:(lra)). replace (2 * (y / 2)) with y in P by field. exact P.
  - specialize (P (- y / 2) ltac:(lra)). replace (2 * (- y / 2)) with (- y) in P by field. rewrite Ropp_involutive in P. replace ((- y) ^ 2) with (y ^ 2) in P by ring. lra.
Qed.
Lemma ln_sq t c : 0 < t -> 0 < c -> (ln t - ln c) ^ 2 <= t / c - 2 + c / t.
Proof.
  intros Ht Hc. pose proof (sq_sinh (ln t - ln c)) as Q. rewrite Ropp_minus_distr in Q.
  assert (X : forall u v, 0 < u -> 0 < v -> exp (ln u - ln v) = u / v). { intros u v Hu Hv. unfold Rminus. rewrite exp_plus, exp_Ropp, !exp_ln by assumption. reflexivity. }
  rewrite !X in Q by assumption. exact Q.
Qed.
(** normalised logarithmic moments *)
Definition lmom (n : nat) (a b : R) : Prop := is_RInt0 (f1 (INR n + 1)) (INR (fact n) * a) /\ is_RInt0 (f2 (INR n + 1)) (INR (fact n) * b).
Lemma fact_pos n : 0 < INR (fact n). Proof. apply lt_0_INR, lt_O_fact. Qed.
Lemma lmom_step n a b : lmom n a b -> lmom (S n) (a + / INR (S n)) (b + 2 * a * / INR (S n)).
Proof.
  intros [HA HB]. pose proof (pos_INR n) as Hn. assert (Hs : 0 < INR n + 1) by lra. pose proof (A_rec _ _ _ Hs HA (gamma_fact n)) as H1. pose proof (B_rec _ _ _ Hs HA HB) as H2.
  unfold lmom. rewrite fact_simpl, mult_INR, S_INR. split.
  - match goal with |- is_RInt0 _ ?l => match type of H1 with is_RInt0 _ ?l' => replace l with l' by (field; lra) end end. exact H1.
  - match goal with |- is_RInt0 _ ?l => match type of H2 with is_RInt0 _ ?l' => replace l with l' by (field; lra) end end. exact H2.
Qed.
Lemma lmom_0 : exists a b, lmom 0 a b.
Proof.
  destruct (A_exists (INR 0 + 1)) as [a Ha]; [simpl; lra|]. destruct (B_exists (INR 0 + 1)) as [b Hb]; [simpl; lra|]. exists a, b. unfold lmom. simpl fact. simpl INR in *. rewrite !Rmult_1_l. split; assumption.
Qed.
Lemma ln_c t : 0 < t -> continuous ln t.
Proof. intros Ht. apply (ex_derive_continuous ln). auto_derive. exact Ht. Qed.
Ltac cder := match goal with |- continuous ?f ?t => apply (ex_derive_continuous f); auto_derive; try lra; repeat split; lra end.
Lemma lmom_upper n a b : lmom n a b -> a <= ln (INR (S n)).
Proof.
  intros [HA _]. rewrite S_INR. pose proof (pos_INR n) as Hn. set (c := INR n + 1). pose proof (fact_pos n) as F. pose proof (gamma_fact n) as HG. set (G := INR (fact n)) in *.
  assert (L : G * a <= (ln c - 1) * G + / c * (c * G)).
  { apply (E_le ln (fun t => (ln c - 1) + / c * t) c); [| | |exact HA|].
    - intros t Ht. pose proof (ln_tangent t c Ht). unfold Rdiv in H. specialize (H ltac:(unfold c; lra)). lra.
    - intros; apply ln_c; assumption.
    - intros t Ht. cder.
    - apply E_plus; [apply E_const, HG | apply (E_scal (fun t => t)); apply E_id; [unfold c; lra | exact HG]]. }
  replace ((ln c - 1) * G + / c * (c * G)) with (G * ln c) in L by (field; unfold c; lra). apply Rmult_le_reg_l in L; assumption.
Qed.
Lemma lmom_lower n a b : lmom (S n) a b -> ln (INR (S n)) <= a.
Proof.
  intros [HA _]. pose proof (gamma_fact n) as HG. pose proof (gamma_fact (S n)) as HG1. pose proof (fact_pos n) as F. rewrite S_INR in *. pose proof (pos_INR n) as Hn. set (c := INR n + 1) in *.
  pose proof (E_inv c _ HG) as HI. rewrite fact_simpl, mult_INR, S_INR in *. fold c in HA, HG1. set (G := INR (fact n)) in *.
  assert (L : (ln c + 1) * (c * G) + - c * G <= c * G * a).
  { apply (E_le (fun t => (ln c + 1) + - c * / t) ln (c + 1)); [| | | |exact HA].
    - intros t Ht. pose proof (ln_tangent' t c Ht). unfold Rdiv in H. specialize (H ltac:(unfold c; lra)). lra.
    - intros t Ht. cder.
    - intros; apply ln_c; assumption.
    - apply E_plus; [apply E_const, HG1 | apply (E_scal (fun t => / t)), HI]. }
  replace ((ln c + 1) * (c * G) + - c * G) with (c * G * ln c) in L by ring. apply Rmult_le_reg_l in L; [exact L | apply Rmult_lt_0_compat; [unfold c; lra | exact F]].
Qed.
Lemma lmom_var n a b : lmom (S n) a b -> 0 <= b - a ^ 2 <= / INR (S n).
Proof.
  intros [HA HB]. pose proof (gamma_fact n) as HG. pose proof (gamma_fact (S n)) as HG1. pose proof (fact_pos n) as F. rewrite S_INR in *. pose proof (pos_INR n) as Hn. set (c := INR n + 1) in *.
  pose proof (E_inv c _ HG) as HI. rewrite fact_simpl, mult_INR, S_INR in *. fold c in HA, HB, HG1. set (G := INR (fact n)) in *.
  assert (Hc : 0 < c) by (unfold c; lra). assert (HcG : 0 < c * G) by (apply Rmult_lt_0_compat; assumption).
  assert (Q : forall m, is_RInt0 (fun t => (ln t ^ 2 + (- 2 * m * ln t + m ^ 2)) * gam (c + 1) t) (c * G * b + (- 2 * m * (c * G * a) + m ^ 2 * (c * G)))).
  { intros m. apply (E_plus (fun t => ln t ^ 2) (fun t => - 2 * m * ln t + m ^ 2)); [exact HB|]. apply (E_plus (fun t => - 2 * m * ln t) (fun _ => m ^ 2)); [apply (E_scal ln), HA | apply E_const, HG1]. }
  assert (Cq : forall m t, 0 < t -> continuous (fun t => ln t ^ 2 + (- 2 * m * ln t + m ^ 2)) t) by (intros m t Ht; cder).
  split.
  - assert (L : 0 * (c * G) <= c * G * b + (- 2 * a * (c * G * a) + a ^ 2 * (c * G))).
    { apply (E_le (fun _ => 0) (fun t => ln t ^ 2 + (- 2 * a * ln t + a ^ 2)) (c + 1)); [| | | |apply Q].
      - intros t Ht. replace (ln t ^ 2 + (-2 * a * ln t + a ^ 2)) with ((ln t - a) ^ 2) by ring. apply pow2_ge_0.
      - intros; apply continuous_const.
      - intros; apply Cq; assumption.
      - apply E_const, HG1. }
    apply Rmult_le_reg_l with (c * G); [assumption|]. lra.
  - assert (L : c * G * b + (- 2 * ln c * (c * G * a) + ln c ^ 2 * (c * G)) <= - 2 * (c * G) + (/ c * ((c + 1) * (c * G)) + c * G)).
    { apply (E_le (fun t => ln t ^ 2 + (- 2 * ln c * ln t + ln c ^ 2)) (fun t => - 2 + (/ c * t + c * / t)) (c + 1)); [| | |apply Q|].
      - intros t Ht. pose proof (ln_sq t c Ht Hc) as S. unfold Rdiv in S. replace (ln t ^ 2 + (-2 * ln c * ln t + ln c ^ 2)) with ((ln t - ln c) ^ 2) by ring. lra.
      - intros; apply Cq; assumption.
      - intros t Ht. cder.
      - apply E_plus; [apply E_const, HG1|]. apply E_plus; [apply (E_scal (fun t => t)), E_id; [lra | exact HG1] | apply (E_scal (fun t => / t)), HI]. }
    replace (- 2 * (c * G) + (/ c * ((c + 1) * (c * G)) + c * G)) with (G) in L by (field; lra).
    assert (L2 : c * G * (b - a ^ 2) <= G). { pose proof (pow2_ge_0 (a - ln c)). assert (0 <= c * G * (a - ln c) ^ 2) by (apply Rmult_le_pos; lra). lra. }
    apply Rmult_le_reg_l with (c * G); [assumption|]. replace (c * G * / c) with G by (field; lra). exact L2.
Qed.
Lemma lmom_n a b n : lmom 0 a b -> exists a' b', lmom (S n) a' b' /\ a' = a + sum_f_R0 (fun k => / INR (S k)) n /\ b - a ^ 2 = b' - a' ^ 2 + sum_f_R0 (fun k => / INR (S k) ^ 2) n.
Proof.
  intros H0. induction n as [|n (a' & b' & H & E1 & E2)].
  - pose proof (lmom_step _ _ _ H0) as H. eexists _, _. split; [exact H|]. simpl. split; field.
  - pose proof (lmom_step _ _ _ H) as K. eexists _, _. split; [exact K|]. rewrite !tech5, <- Rplus_assoc, <- E1. split; [reflexivity|]. rewrite E2.
    assert (0 < INR (S (S n))) by (apply lt_0_INR; lia). field. lra.
Qed.

Definition euler_gamma (g : R) : Prop := is_lim_seq (fun n => sum_f_R0 (fun k => / INR (S k)) n - ln (INR (S n))) g.
Lemma inv_lim : is_lim_seq (fun n => / INR (S n)) 0.
Proof.
  replace (Finite 0) with (Rbar_inv p_infty) by reflexivity. apply is_lim_seq_inv; [|discriminate]. apply (is_lim_seq_incr_1 INR). apply is_lim_seq_INR.
Qed.
(** the mean of ln t under exp(-t) is minus Euler's constant, its variance is PI^2/6 *)
Theorem log_exponential : exists a b, is_RInt0 (fun t => ln t * exp (- t)) a /\ is_RInt0 (fun t => ln t ^ 2 * exp (- t)) b /\ euler_gamma (- a) /\ b - a ^ 2 = PI ^ 2 / 6.
Proof.
  destruct lmom_0 as (a & b & H). exists a, b. assert (H' := H). destruct H' as [HA HB]. simpl in HA, HB. rewrite Rplus_0_l, Rmult_1_l in HA, HB.
  assert (G1 : forall t, 0 < t -> gam 1 t = exp (- t)) by (intros t Ht; unfold gam; replace (1 - 1) with 0 by ring; rewrite Rpower_O by exact Ht; ring).
  split; [|split; [|split]].
  - apply (RInt0_ext (f1 1)); [|exact HA]. intros t Ht. unfold f1. rewrite G1 by exact Ht. reflexivity.
  - apply (RInt0_ext (f2 1)); [|exact HB]. intros t Ht. unfold f2. rewrite G1 by exact Ht. reflexivity.
  - unfold euler_gamma. apply is_lim_seq_le_le with (fun n => - a) (fun n => - a + / INR (S n)).
    + intros n. destruct (lmom_n a b n H) as (a' & b' & K & E1 & E2). pose proof (lmom_lower _ _ _ K) as L. pose proof (lmom_upper _ _ _ K) as U.
      assert (P : 0 < INR (S n)) by (apply lt_0_INR; lia). pose proof (ln_tangent (INR (S (S n))) (INR (S n)) ltac:(apply lt_0_INR; lia) P) as T. rewrite (S_INR (S n)) in T at 2.
      replace ((INR (S n) + 1) / INR (S n) - 1) with (/ INR (S n)) in T by (field; lra). lra.
    + apply is_lim_seq_const.
    + replace (Finite (- a)) with (Finite (- a + 0)) by (f_equal; ring). apply is_lim_seq_plus'; [apply is_lim_seq_const | apply inv_lim].
  - assert (L : is_lim_seq (fun n => sum_f_R0 (fun k => / INR (S k) ^ 2) n) (b - a ^ 2)).
    { apply is_lim_seq_le_le with (fun n => b - a ^ 2 - / INR (S n)) (fun n => b - a ^ 2).
      - intros n. destruct (lmom_n a b n H) as (a' & b' & K & E1 & E2). pose proof (lmom_var _ _ _ K). lra.
      - replace (Finite (b - a ^ 2)) with (Finite (b - a ^ 2 - 0)) by (f_equal; ring). apply is_lim_seq_minus'; [apply is_lim_seq_const | apply inv_lim].
      - apply is_lim_seq_const. }
    pose proof (is_lim_seq_unique _ _ L) as U1. pose proof (is_lim_seq_unique _ _ basel) as U2. rewrite U1 in U2. injection U2. auto.
Qed.
