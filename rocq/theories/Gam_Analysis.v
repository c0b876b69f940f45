(** The Gamma function as an integral: existence, recursion, log-convexity (the facts C96 needs; all proved here). *)
From Coq Require Import Reals Lra Psatz.
From Coquelicot Require Import Coquelicot.
From Verif Require Import Common Chi_Analysis Chi_Spec Chi_Props.
Local Open Scope R_scope.

(** a nonnegative continuous function with bounded integrals has an improper integral *)
Lemma RInt0_bounded (f : R -> R) (M : R) : (forall x, 0 < x -> continuous f x) -> (forall x, 0 < x -> 0 <= f x) ->
  (forall a b, 0 < a <= b -> RInt f a b <= M) -> exists l, is_RInt0 f l.
Proof.
  intros C P B.
  assert (I : forall a b, 0 < a -> 0 < b -> ex_RInt f a b).
  { intros a b Ha Hb. apply (@ex_RInt_continuous R_CompleteNormedModule). intros z Hz. apply C. revert Hz. unfold Rmin. destruct (Rle_dec a b); lra. }
  set (E := fun v => exists a b, 0 < a <= b /\ v = RInt f a b).
  destruct (completeness E) as [l [U L]].
  - exists M. intros v (a & b & H & ->). apply B, H.
  - exists (RInt f 1 1), 1, 1. split; [lra | reflexivity].
  - exists l. apply RInt0_of; [exact C |]. intros Q [eps HQ].
    assert (K : exists a0 b0, 0 < a0 <= b0 /\ l - eps < RInt f a0 b0).
    { apply Classical_Prop.NNPP. intros N. assert (l <= l - eps). { apply L. intros v (a & b & H & ->). apply Rnot_lt_le. intros Hlt. apply N. exists a, b. split; assumption. } destruct eps as [e He]; simpl in *; lra. }
    destruct K as (a0 & b0 & H0 & K).
    exists (fun x => 0 < x <= a0) (fun x => b0 < x).
    + exists (mkposreal a0 (proj1 H0)). intros y By Hy. unfold ball in By. simpl in By. unfold AbsRing_ball, abs, minus, plus, opp in By. simpl in By. apply Rabs_def2 in By. lra.
    + exists b0. intros x Hx; exact Hx.
    + intros a b Ha Hb. unfold filtermap. apply HQ. simpl.
      assert (E1 : RInt f a b = RInt f a a0 + RInt f a0 b0 + RInt f b0 b).
      { assert (X : RInt f a a0 + RInt f a0 b0 = RInt f a b0) by (apply (RInt_Chasles f); apply I; lra). rewrite X. symmetry. apply (RInt_Chasles f); apply I; lra. }
      assert (N1 : 0 <= RInt f a a0) by (apply RInt_ge_0; [lra | apply I; lra | intros x Hx; apply P; lra]).
      assert (N2 : 0 <= RInt f b0 b) by (apply RInt_ge_0; [lra | apply I; lra | intros x Hx; apply P; lra]).
      assert (N3 : RInt f a b <= l) by (apply U; exists a, b; split; [lra | reflexivity]).
      unfold ball; simpl; unfold AbsRing_ball, abs, minus, plus, opp; simpl. apply Rabs_def1; destruct eps as [e He]; simpl in *; lra.
Qed.
Lemma RInt0_le (f g : R -> R) (lf lg : R) : (forall x, 0 < x -> f x <= g x) -> is_RInt0 f lf -> is_RInt0 g lg ->
  (forall x, 0 < x -> continuous f x) -> (forall x, 0 < x -> continuous g x) -> lf <= lg.
Proof.
  intros H If Ig Cf Cg. apply RInt0_to in If. apply RInt0_to in Ig.
  assert (K : Rbar_le (Finite lf) (Finite lg)); [|exact K].
  apply (filterlim_le (F := pos2) (fun ab => RInt f (fst ab) (snd ab)) (fun ab => RInt g (fst ab) (snd ab))); [|exact If|exact Ig].
  generalize pos2_pos. apply filter_imp. intros [a b] Hab. simpl in *. apply RInt_le; [lra | | | intros x Hx; apply H; lra];
    apply (@ex_RInt_continuous R_CompleteNormedModule); intros z Hz; rewrite Rmin_left in Hz by lra; [apply Cf | apply Cg]; lra.
Qed.
Lemma RInt0_plus (f g : R -> R) (lf lg : R) : is_RInt0 f lf -> is_RInt0 g lg -> is_RInt0 (fun x => f x + g x) (lf + lg).
Proof. intros H K. apply (is_RInt_gen_plus f g lf lg H K). Qed.

Definition gam (s t : R) : R := Rpower t (s - 1) * exp (- t).
Lemma gam_cont s t : 0 < t -> continuous (gam s) t.
Proof. intros Ht. apply (ex_derive_continuous (gam s)). unfold gam, Rpower. auto_derive. lra. Qed.
Lemma gam_pos s t : 0 < gam s t.
Proof. apply Rmult_lt_0_compat; apply exp_pos. Qed.
Lemma int_cont (f : R -> R) a b : (forall x, 0 < x -> continuous f x) -> 0 < a <= b -> ex_RInt f a b.
Proof. intros C H. apply (@ex_RInt_continuous R_CompleteNormedModule). intros z Hz. rewrite Rmin_left in Hz by lra. apply C. lra. Qed.
Lemma ln_bound t k : 0 < t -> 0 < k -> ln t <= t / k + ln k.
Proof.
  intros Ht Hk. assert (H : ln (t / k) <= t / k).
  { assert (Hp : 0 < t / k) by (apply Rdiv_lt_0_compat; assumption). rewrite <- (ln_exp (t / k)) at 2. apply Rcomplements.ln_le; [exact Hp|].
    destruct (Req_dec (t / k) 0) as [E|E]; [rewrite E, exp_0; lra | pose proof (exp_ineq1 (t / k) E); lra]. }
  unfold Rdiv in H at 1. rewrite ln_mult in H; [|assumption|apply Rinv_0_lt_compat; assumption]. rewrite ln_Rinv in H by assumption. lra.
Qed.
(** the Gamma integral converges for every s > 0 *)
Lemma gamma_exists s : 0 < s -> exists G, is_Gamma s G.
Proof.
  intros Hs. set (c := Rabs (s - 1)). set (k := 2 * (c + 1)). assert (Hc : 0 <= c) by apply Rabs_pos. assert (Hk : 0 < k) by (unfold k; lra).
  set (C0 := exp (c * Rabs (ln k))).
  destruct (RInt0_bounded (gam s) (1 / s + 2 * C0)) as [G HG]; [intros; apply gam_cont; assumption | intros; apply Rlt_le, gam_pos | | exists G; exact HG].
  assert (L1 : forall a b, 0 < a <= b -> b <= 1 -> RInt (gam s) a b <= 1 / s).
  { intros a b H Hb. apply Rle_trans with (RInt (fun t => Rpower t (s - 1)) a b).
    - apply RInt_le; [lra | apply int_cont; [intros; apply gam_cont; assumption | lra] | | ].
      + apply int_cont; [|lra]. intros x Hx. apply (ex_derive_continuous (fun t => Rpower t (s - 1))). unfold Rpower. auto_derive. lra.
      + intros x Hx. unfold gam. rewrite <- (Rmult_1_r (Rpower x (s - 1))) at 2. apply Rmult_le_compat_l; [apply Rlt_le, exp_pos|]. rewrite <- exp_0. apply Rlt_le, exp_increasing. lra.
    - assert (D : is_RInt (fun t => Rpower t (s - 1)) a b (minus (Rpower b s / s) (Rpower a s / s))).
      { apply (is_RInt_derive (fun t => Rpower t s / s)); rewrite Rmin_left, Rmax_right by lra; intros x Hx.
        - unfold Rpower. auto_derive; [lra|]. unfold Rminus. rewrite Rmult_plus_distr_r, exp_plus. replace (- (1) * ln x) with (- ln x) by ring. rewrite exp_Ropp, exp_ln by lra. field. split; lra.
        - apply (ex_derive_continuous (fun t => Rpower t (s - 1))). unfold Rpower. auto_derive. lra. }
      rewrite (is_RInt_unique _ _ _ _ D). unfold minus, plus, opp; simpl.
      assert (P1 : Rpower b s <= 1). { unfold Rpower. rewrite <- exp_0. destruct (Req_dec b 1) as [->|N]; [rewrite ln_1, Rmult_0_r; lra|]. apply Rlt_le, exp_increasing. assert (ln b < 0) by (rewrite <- ln_1; apply ln_increasing; lra). nra. }
      assert (P2 : 0 < Rpower a s) by apply exp_pos. unfold Rdiv. assert (0 < / s) by (apply Rinv_0_lt_compat, Hs). nra. }
  assert (L2 : forall a b, 1 <= a -> a <= b -> RInt (gam s) a b <= 2 * C0).
  { intros a b Ha H. apply Rle_trans with (RInt (fun t => C0 * exp (- (t / 2))) a b).
    - apply RInt_le; [lra | apply int_cont; [intros; apply gam_cont; assumption | lra] | |].
      + apply int_cont; [|lra]. intros x Hx. apply (ex_derive_continuous (fun t => C0 * exp (- (t / 2)))). auto_derive. exact I.
      + intros x Hx. unfold gam, C0, Rpower. rewrite <- !exp_plus.
        assert (Q : (s - 1) * ln x + - x <= c * Rabs (ln k) + - (x / 2)).
        { assert (Lx : 0 <= ln x). { rewrite <- ln_1. apply Rcomplements.ln_le; lra. } pose proof (ln_bound x k ltac:(lra) Hk) as B.
          assert (B2 : (s - 1) * ln x <= c * ln x). { apply Rmult_le_compat_r; [exact Lx | apply Rle_abs]. }
          assert (B3 : c * ln x <= c * (x / k) + c * Rabs (ln k)). { rewrite <- Rmult_plus_distr_l. apply Rmult_le_compat_l; [exact Hc|]. pose proof (Rle_abs (ln k)). lra. }
          assert (B4 : c * (x / k) <= x / 2). { unfold k. apply Rmult_le_reg_r with (2 * (c + 1)); [lra|]. replace (c * (x / (2 * (c + 1))) * (2 * (c + 1))) with (c * x) by (field; lra). nra. }
          lra. }
        destruct Q as [Q|Q]; [apply Rlt_le, exp_increasing, Q | rewrite Q; lra].
    - assert (D : is_RInt (fun t => C0 * exp (- (t / 2))) a b (minus (- 2 * C0 * exp (- (b / 2))) (- 2 * C0 * exp (- (a / 2))))).
      { apply (is_RInt_derive (fun t => - 2 * C0 * exp (- (t / 2)))); intros x Hx; [auto_derive; [exact I | match goal with |- @eq _ ?a ?b => change (@eq R a b) end; unfold Rdiv; field]|]. apply (ex_derive_continuous (fun t => C0 * exp (- (t / 2)))). auto_derive. exact I. }
      rewrite (is_RInt_unique _ _ _ _ D). unfold minus, plus, opp; simpl.
      assert (P0 : 0 < C0) by apply exp_pos. assert (P1 : 0 < exp (- (b / 2))) by apply exp_pos. assert (P2 : exp (- (a / 2)) <= 1). { rewrite <- exp_0. apply Rlt_le, exp_increasing. lra. } nra. }
  intros a b H. assert (Hs1 : 0 < 1 / s) by (apply Rdiv_lt_0_compat; lra). assert (P0 : 0 < C0) by apply exp_pos.
  destruct (Rle_dec b 1) as [Hb|Hb]; [specialize (L1 a b H Hb); lra|]. destruct (Rle_dec 1 a) as [Ha|Ha]; [specialize (L2 a b Ha ltac:(lra)); lra|].
  assert (X : RInt (gam s) a 1 + RInt (gam s) 1 b = RInt (gam s) a b). { apply (RInt_Chasles (gam s)); apply int_cont; try lra; intros; apply gam_cont; assumption. }
  specialize (L1 a 1 ltac:(lra) ltac:(lra)). specialize (L2 1 b ltac:(lra) ltac:(lra)). lra.
Qed.
(** weighted arithmetic-geometric mean *)
Lemma young a b w : 0 < a -> 0 < b -> 0 <= w <= 1 -> exp (w * ln a + (1 - w) * ln b) <= w * a + (1 - w) * b.
Proof.
  intros Ha Hb Hw. set (m := w * a + (1 - w) * b). assert (Hm : 0 < m) by (unfold m; destruct (Req_dec w 0) as [->|]; nra).
  assert (T : forall x, 0 < x -> ln x <= ln m + (x - m) / m).
  { intros x Hx. pose proof (exp_ineq1_le (ln x - ln m)) as Q. unfold Rminus in Q. rewrite exp_plus, exp_Ropp, !exp_ln in Q by assumption.
    replace ((x - m) / m) with (x * / m - 1) by (field; lra). lra. }
  pose proof (T a Ha) as Ta. pose proof (T b Hb) as Tb.
  rewrite <- (exp_ln m Hm). assert (Q : w * ln a + (1 - w) * ln b <= ln m).
  { apply Rle_trans with (w * (ln m + (a - m) / m) + (1 - w) * (ln m + (b - m) / m)); [apply Rplus_le_compat; apply Rmult_le_compat_l; lra|].
    apply Req_le. replace (w * (ln m + (a - m) / m) + (1 - w) * (ln m + (b - m) / m)) with (ln m + (w * a + (1 - w) * b - m) / m) by (field; lra). fold m. field. lra. }
  destruct Q as [Q|Q]; [apply Rlt_le, exp_increasing, Q | rewrite Q; lra].
Qed.
(** log-convexity *)
Lemma gamma_logconvex x y w Gx Gy G : 0 < x -> 0 < y -> 0 <= w <= 1 -> is_Gamma x Gx -> is_Gamma y Gy -> is_Gamma (w * x + (1 - w) * y) G ->
  ln G <= w * ln Gx + (1 - w) * ln Gy.
Proof.
  intros Hx Hy Hw HGx HGy HG. pose proof (gamma_pos _ _ HGx) as Px. pose proof (gamma_pos _ _ HGy) as Py. pose proof (gamma_pos _ _ HG) as P.
  set (K := exp (- (w * ln Gx + (1 - w) * ln Gy))).
  assert (L : K * G <= w * (/ Gx * Gx) + (1 - w) * (/ Gy * Gy)).
  { apply (RInt0_le (fun t => K * gam (w * x + (1 - w) * y) t) (fun t => w * (/ Gx * gam x t) + (1 - w) * (/ Gy * gam y t))).
    - intros t Ht. pose proof (young (gam x t / Gx) (gam y t / Gy) w) as Q.
      assert (Q1 : 0 < gam x t / Gx) by (apply Rdiv_lt_0_compat; [apply gam_pos | assumption]). assert (Q2 : 0 < gam y t / Gy) by (apply Rdiv_lt_0_compat; [apply gam_pos | assumption]).
      specialize (Q Q1 Q2 Hw). unfold Rdiv in Q. rewrite !ln_mult in Q by (try apply gam_pos; apply Rinv_0_lt_compat; assumption). rewrite !ln_Rinv in Q by assumption.
      unfold K, gam in *. unfold Rpower in *. rewrite <- !exp_plus in *. rewrite !ln_exp in Q.
      replace (- (w * ln Gx + (1 - w) * ln Gy) + ((w * x + (1 - w) * y - 1) * ln t + - t)) with (w * ((x - 1) * ln t + - t + - ln Gx) + (1 - w) * ((y - 1) * ln t + - t + - ln Gy)) by ring. lra.
    - apply RInt0_scal, HG.
    - apply RInt0_plus; apply RInt0_scal; apply RInt0_scal; assumption.
    - intros t Ht. apply (continuous_scal_r K (gam (w * x + (1 - w) * y))). apply gam_cont, Ht.
    - intros t Ht. apply (continuous_plus (fun t => w * (/ Gx * gam x t)) (fun t => (1 - w) * (/ Gy * gam y t))).
      + apply (continuous_scal_r w (fun t => / Gx * gam x t)). apply (continuous_scal_r (/ Gx) (gam x)). apply gam_cont, Ht.
      + apply (continuous_scal_r (1 - w) (fun t => / Gy * gam y t)). apply (continuous_scal_r (/ Gy) (gam y)). apply gam_cont, Ht. }
  rewrite !Rinv_l in L by lra. assert (L' : K * G <= 1) by lra.
  assert (L2 : ln (K * G) <= 0). { rewrite <- ln_1. apply Rcomplements.ln_le; [apply Rmult_lt_0_compat; [apply exp_pos | assumption] | exact L']. }
  rewrite ln_mult in L2 by (try apply exp_pos; assumption). unfold K in L2. rewrite ln_exp in L2. lra.
Qed.
