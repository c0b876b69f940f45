From Coq Require Import Reals Arith Lia Lra.
From Coquelicot Require Import Coquelicot.
From Verif Require Import Branch_Spec Branch_Proofs Skellam_Props Branch_Series.
Open Scope R_scope.

Section Moments.
Context (lam : R).
Hypothesis lam0 : 0 <= lam.
Hypothesis lam1 : lam < 1.
Notation gp := (gp lam).
Lemma lam1' : lam <= 1. Proof. lra. Qed.
Lemma shift r k : 0 < r -> INR (S k) * gp r (S k) = r / (r + lam) * ((r + lam + lam * INR k) * gp (r + lam) k).
Proof.
  intros H. unfold Branch_Proofs.gp at 1. rewrite fact_S. assert (S0 : INR (S k) <> 0) by (apply not_0_INR; lia). pose proof (INR_fact_neq_0 k).
  replace (- r - lam * INR (S k)) with (- (r + lam) - lam * INR k) by (rewrite S_INR; ring).
  replace (r + lam * INR (S k)) with (r + lam + lam * INR k) by (rewrite S_INR; ring).
  destruct k as [|q].
  - cbn. replace (- (r + lam) - lam * 0) with (- (r + lam)) by ring. field. lra.
  - unfold Branch_Proofs.gp. set (E := exp _). set (b := r + lam + lam * INR (S q)). cbn [pow]. field. split; [auto|split; [lra|auto]].
Qed.
(** partial sums *)
Definition F r K : R := sum_n (gp r) K.
Definition M1 r K : R := sum_n (fun k => INR k * gp r k) K.
Definition M2 r K : R := sum_n (fun k => INR k ^ 2 * gp r k) K.
Lemma sum_shift (a : nat -> R) K : @eq R (sum_n a (S K)) (a 0%nat + sum_n (fun k => a (S k)) K).
Proof. induction K; [rewrite sum_SR, !sum_O; auto|]. rewrite sum_SR, IHK, sum_SR. rewrite Rplus_assoc. reflexivity. Qed.
Lemma sum_lin (a b : nat -> R) x y K : @eq R (sum_n (fun k => x * a k + y * b k) K) (x * sum_n a K + y * sum_n b K).
Proof. induction K; [rewrite !sum_O; ring|]. rewrite !sum_SR, IHK. ring. Qed.
Lemma sum_ext (a b : nat -> R) K : (forall k, @eq R (a k) (b k)) -> @eq R (sum_n a K) (sum_n b K).
Proof. intros H. apply sum_n_ext. exact H. Qed.
Lemma M1_S r K : 0 < r -> M1 r (S K) = r / (r + lam) * ((r + lam) * F (r + lam) K + lam * M1 (r + lam) K).
Proof.
  intros H. unfold M1 at 1. rewrite sum_shift. change (INR 0) with 0. rewrite Rmult_0_l, Rplus_0_l.
  rewrite (sum_ext _ (fun k => (r / (r + lam) * (r + lam)) * gp (r + lam) k + (r / (r + lam) * lam) * (INR k * gp (r + lam) k))) by (intros k; rewrite shift by auto; ring).
  rewrite (sum_lin (gp (r + lam)) (fun k => INR k * gp (r + lam) k)). unfold F, M1. ring.
Qed.
Lemma M2_S r K : 0 < r -> M2 r (S K) = r / (r + lam) * ((r + lam) * F (r + lam) K + (r + lam + lam) * M1 (r + lam) K + lam * M2 (r + lam) K).
Proof.
  intros H. unfold M2 at 1. rewrite sum_shift. change (INR 0) with 0. rewrite pow_i, Rmult_0_l, Rplus_0_l by lia. set (c := r / (r + lam)).
  rewrite (sum_ext _ (fun k => 1 * ((c * (r + lam)) * gp (r + lam) k + (c * (r + lam + lam)) * (INR k * gp (r + lam) k)) + (c * lam) * (INR k ^ 2 * gp (r + lam) k))).
  - rewrite (sum_lin (fun k => (c * (r + lam)) * gp (r + lam) k + (c * (r + lam + lam)) * (INR k * gp (r + lam) k)) (fun k => INR k ^ 2 * gp (r + lam) k)).
    rewrite (sum_lin (gp (r + lam)) (fun k => INR k * gp (r + lam) k)). unfold F, M1, M2. ring.
  - intros k. replace (INR (S k) ^ 2 * gp r (S k)) with (INR (S k) * (INR (S k) * gp r (S k))) by ring. rewrite shift by auto. fold c. rewrite S_INR. ring.
Qed.
Lemma F_le1 r K : 0 <= r -> F r K <= 1.
Proof. intros H. apply sum_le_series; [intros; apply gp0; auto|apply gp_total; auto; lra]. Qed.
Lemma q1 : 0 < 1 - lam. Proof. lra. Qed.
Lemma c_pos r : 0 < r -> 0 < r / (r + lam). Proof. intros. apply Rdiv_lt_0_compat; lra. Qed.
Lemma M1_le K : forall r, 0 < r -> M1 r K <= r / (1 - lam).
Proof.
  induction K; intros r H.
  - unfold M1. rewrite sum_O. cbn. rewrite Rmult_0_l. left. apply Rdiv_lt_0_compat; lra.
  - rewrite M1_S by auto. pose proof (IHK (r + lam) ltac:(lra)). pose proof (F_le1 (r + lam) K ltac:(lra)). pose proof (c_pos r H).
    apply Rle_trans with (r / (r + lam) * ((r + lam) * 1 + lam * ((r + lam) / (1 - lam)))); [|right; field; lra].
    apply Rmult_le_compat_l; [lra|]. apply Rplus_le_compat; apply Rmult_le_compat_l; lra.
Qed.
Definition s_bound r := / (1 - lam) ^ 3 + r / (1 - lam) ^ 2.
Lemma s_bound_pos r : 0 < r -> 0 < s_bound r.
Proof. intros H. unfold s_bound. pose proof q1. apply Rplus_lt_0_compat; [apply Rinv_0_lt_compat, pow_lt; auto|apply Rdiv_lt_0_compat; [auto|apply pow_lt; auto]]. Qed.
Lemma s_bound_rec r : 0 < r -> 1 + (r + lam + lam) / (1 - lam) + lam * s_bound (r + lam) = s_bound r.
Proof. intros H. unfold s_bound. field. lra. Qed.
Lemma M2_le K : forall r, 0 < r -> M2 r K <= r * s_bound r.
Proof.
  induction K; intros r H; pose proof (s_bound_pos r H).
  - unfold M2. rewrite sum_O. cbn. rewrite !Rmult_0_l. nra.
  - rewrite M2_S by auto. pose proof (IHK (r + lam) ltac:(lra)). pose proof (F_le1 (r + lam) K ltac:(lra)). pose proof (M1_le K (r + lam) ltac:(lra)). pose proof (c_pos r H).
    apply Rle_trans with (r / (r + lam) * ((r + lam) * 1 + (r + lam + lam) * ((r + lam) / (1 - lam)) + lam * ((r + lam) * s_bound (r + lam)))).
    + apply Rmult_le_compat_l; [lra|]. repeat apply Rplus_le_compat; apply Rmult_le_compat_l; lra.
    + right. rewrite <- (s_bound_rec r H). field. lra.
Qed.
(** the limits *)
Definition m1 r := Series (fun k => INR k * gp r k).
Definition m2 r := Series (fun k => INR k ^ 2 * gp r k).
Lemma m1_is r : 0 < r -> is_series (fun k => INR k * gp r k) (m1 r) /\ 0 <= m1 r <= r / (1 - lam).
Proof.
  intros H. assert (A0 : forall k, 0 <= INR k * gp r k) by (intros; apply Rmult_le_pos; [apply pos_INR|apply gp0; lra]).
  destruct (incr_series (fun k => INR k * gp r k) (r / (1 - lam)) A0) as (s&Hs&Ls); [intros; apply M1_le; auto|].
  assert (m1 r = s) as -> by (apply is_series_unique; auto). split; auto. split; auto.
  apply Rle_trans with (sum_n (fun k => INR k * gp r k) 0); [rewrite sum_O; auto|apply sum_le_series; auto].
Qed.
Lemma m2_is r : 0 < r -> is_series (fun k => INR k ^ 2 * gp r k) (m2 r) /\ 0 <= m2 r <= r * s_bound r.
Proof.
  intros H. assert (A0 : forall k, 0 <= INR k ^ 2 * gp r k) by (intros; apply Rmult_le_pos; [apply pow_le, pos_INR|apply gp0; lra]).
  destruct (incr_series (fun k => INR k ^ 2 * gp r k) (r * s_bound r) A0) as (s&Hs&Ls); [intros; apply M2_le; auto|].
  assert (m2 r = s) as -> by (apply is_series_unique; auto). split; auto. split; auto.
  apply Rle_trans with (sum_n (fun k => INR k ^ 2 * gp r k) 0); [rewrite sum_O; auto|apply sum_le_series; auto].
Qed.
Lemma lim_shift (u : nat -> R) l1 l2 : is_lim_seq u (Finite l1) -> is_lim_seq (fun n => u (S n)) (Finite l2) -> l1 = l2.
Proof. intros H1 H2. apply (is_lim_seq_incr_1 u l1) in H1. apply is_lim_seq_unique in H1. apply is_lim_seq_unique in H2. congruence. Qed.
Lemma m1_rec r : 0 < r -> m1 r = r / (r + lam) * ((r + lam) * 1 + lam * m1 (r + lam)).
Proof.
  intros H. apply (lim_shift (M1 r)); [apply m1_is; auto|].
  apply (is_lim_seq_ext (fun K => r / (r + lam) * ((r + lam) * F (r + lam) K + lam * M1 (r + lam) K))); [intros; symmetry; apply M1_S; auto|].
  assert (L1 : is_lim_seq (F (r + lam)) 1) by (apply gp_total; lra). assert (L2 : is_lim_seq (M1 (r + lam)) (m1 (r + lam))) by (apply m1_is; lra).
  apply (is_lim_seq_scal_l _ (r / (r + lam)) (Finite _)). apply (is_lim_seq_plus' _ _ ((r + lam) * 1) (lam * m1 (r + lam))); [apply (is_lim_seq_scal_l _ (r + lam) 1 L1)|apply (is_lim_seq_scal_l _ lam _ L2)].
Qed.
Lemma m2_rec r : 0 < r -> m2 r = r / (r + lam) * ((r + lam) * 1 + (r + lam + lam) * m1 (r + lam) + lam * m2 (r + lam)).
Proof.
  intros H. apply (lim_shift (M2 r)); [apply m2_is; auto|].
  apply (is_lim_seq_ext (fun K => r / (r + lam) * ((r + lam) * F (r + lam) K + (r + lam + lam) * M1 (r + lam) K + lam * M2 (r + lam) K))); [intros; symmetry; apply M2_S; auto|].
  assert (L1 : is_lim_seq (F (r + lam)) 1) by (apply gp_total; lra). assert (L2 : is_lim_seq (M1 (r + lam)) (m1 (r + lam))) by (apply m1_is; lra). assert (L3 : is_lim_seq (M2 (r + lam)) (m2 (r + lam))) by (apply m2_is; lra).
  apply (is_lim_seq_scal_l _ (r / (r + lam)) (Finite _)). apply is_lim_seq_plus'; [apply is_lim_seq_plus'|].
  - apply (is_lim_seq_scal_l _ (r + lam) 1 L1).
  - apply (is_lim_seq_scal_l _ (r + lam + lam) _ L2).
  - apply (is_lim_seq_scal_l _ lam _ L3).
Qed.
(** a function with d (r) = lam d (r + lam) that grows at most linearly is zero *)
Lemma nq (q : R) : 0 <= q < 1 -> is_lim_seq (fun n => INR n * q ^ n) 0.
Proof.
  intros (Q0&Q1). assert (ex_series (fun n => INR n * q ^ n)) as E.
  { destruct Q0 as [Q0|<-].
    - apply (ex_series_ext (fun n => (fun n => INR n * q ^ n) n)); [auto|]. 
      assert (D : ex_series (fun n => (fun n => INR (S n) * q ^ (S n)) n)).
      { apply ex_series_Rabs. apply ex_series_DAlembert with q; [lra| |].
        - intros n. apply Rmult_integral_contrapositive. split; [apply not_0_INR; lia|apply pow_nonzero; lra].
        - apply (is_lim_seq_ext (fun n => q * (1 + / INR (S n)))).
          + intros n. assert (INR (S n) <> 0) by (apply not_0_INR; lia). assert (q ^ n <> 0) by (apply pow_nonzero; lra).
            rewrite Rabs_pos_eq; [rewrite (S_INR (S n)); cbn [pow]; field; repeat split; auto; lra|].
            assert (0 < INR (S n)) by (apply lt_0_INR; lia). assert (0 < INR (S (S n))) by (apply lt_0_INR; lia). assert (0 < q ^ S n) by (apply pow_lt; auto). assert (0 < q ^ S (S n)) by (apply pow_lt; auto).
            apply Rdiv_le_0_compat; [apply Rmult_le_pos; lra|apply Rmult_lt_0_compat; auto].
          + replace (Finite q) with (Finite (q * (1 + 0))) by (f_equal; ring). apply (is_lim_seq_scal_l _ q (Finite (1 + 0))). apply is_lim_seq_plus'; [apply is_lim_seq_const|].
            apply (is_lim_seq_incr_1 (fun n => / INR n) 0). change (Finite 0) with (Rbar_inv p_infty). apply is_lim_seq_inv; [apply is_lim_seq_INR|discriminate]. }
      apply (ex_series_incr_1 (fun n => INR n * q ^ n)). exact D.
    - exists (INR 0 * 0 ^ 0). apply (series_first (fun n => INR n * 0 ^ n)). intros k. rewrite pow_i by lia. ring. }
  apply ex_series_lim_0. exact E.
Qed.
Lemma vanish (d : R -> R) a b : (forall r, 0 < r -> d r = lam * d (r + lam)) -> (forall r, 0 < r -> 0 <= d r <= a + b * r) -> forall r, 0 < r -> d r = 0.
Proof.
  intros Rec Bd r H.
  assert (It : forall n, d r = lam ^ n * d (r + INR n * lam)).
  { induction n; [cbn; replace (r + 0 * lam) with r by ring; ring|]. rewrite IHn. pose proof (pos_INR n). rewrite (Rec (r + INR n * lam)) by nra. rewrite S_INR. replace (r + (INR n + 1) * lam) with (r + INR n * lam + lam) by ring. cbn [pow]. ring. }
  assert (Up : forall n, d r <= (a + b * r) * lam ^ n + (b * lam) * (INR n * lam ^ n)).
  { intros n. rewrite (It n). pose proof (pos_INR n). destruct (Bd (r + INR n * lam)) as (_&U); [nra|]. pose proof (pow_le lam n lam0).
    apply Rle_trans with (lam ^ n * (a + b * (r + INR n * lam))); [apply Rmult_le_compat_l; auto|right; ring]. }
  apply Rle_antisym; [|apply Bd; auto].
  refine (is_lim_seq_le (fun _ => d r) _ (d r) 0 Up (is_lim_seq_const _) _).
  replace (Finite 0) with (Finite ((a + b * r) * 0 + (b * lam) * 0)) by (f_equal; ring). apply is_lim_seq_plus'.
  - apply (is_lim_seq_scal_l _ (a + b * r) 0). apply is_lim_seq_geom. rewrite Rabs_pos_eq; lra.
  - apply (is_lim_seq_scal_l _ (b * lam) 0). apply nq. lra.
Qed.
Lemma mean_gp r : 0 < r -> m1 r = r / (1 - lam).
Proof.
  intros H. assert (D : forall r, 0 < r -> / (1 - lam) - m1 r / r = 0).
  { apply (vanish (fun r => / (1 - lam) - m1 r / r) (/ (1 - lam)) 0); intros z Hz.
    - rewrite m1_rec by auto. field. lra.
    - destruct (m1_is z Hz) as (_&A&B). assert (0 <= m1 z / z) by (apply Rdiv_le_0_compat; auto). assert (m1 z / z <= / (1 - lam)).
      { apply Rle_trans with (z / (1 - lam) / z); [|right; field; lra]. unfold Rdiv. apply Rmult_le_compat_r; [left; apply Rinv_0_lt_compat; auto|auto]. } lra. }
  specialize (D r H). replace (r / (1 - lam)) with (r * / (1 - lam)) by reflexivity. replace (/ (1 - lam)) with (m1 r / r) by lra. field. lra.
Qed.
Lemma second_gp r : 0 < r -> m2 r = r * s_bound r.
Proof.
  intros H. assert (D : forall r, 0 < r -> s_bound r - m2 r / r = 0).
  { apply (vanish (fun r => s_bound r - m2 r / r) (/ (1 - lam) ^ 3) (/ (1 - lam) ^ 2)); intros z Hz.
    - rewrite m2_rec by auto. rewrite mean_gp by lra. rewrite <- (s_bound_rec z Hz). field. lra.
    - destruct (m2_is z Hz) as (_&A&B). assert (0 <= m2 z / z) by (apply Rdiv_le_0_compat; auto). assert (m2 z / z <= s_bound z).
      { apply Rle_trans with (z * s_bound z / z); [|right; field; lra]. unfold Rdiv at 1. unfold Rdiv. apply Rmult_le_compat_r; [left; apply Rinv_0_lt_compat; auto|auto]. }
      split; [lra|]. unfold s_bound, Rdiv in *. lra. }
  specialize (D r H). replace (s_bound r) with (m2 r / r) by lra. field. lra.
Qed.
Lemma variance_gp r : 0 < r -> is_series (fun k => (INR k - r / (1 - lam)) ^ 2 * gp r k) (r / (1 - lam) ^ 3).
Proof.
  intros H. destruct (m1_is r H) as (H1&_). destruct (m2_is r H) as (H2&_). assert (H0 : is_series (gp r) 1) by (apply gp_total; lra). rewrite mean_gp in H1 by auto. rewrite second_gp in H2 by auto.
  set (mu := r / (1 - lam)) in *.
  pose proof (is_series_plus _ _ _ _ (is_series_plus _ _ _ _ H2 (is_series_scal (- 2 * mu) _ _ H1)) (is_series_scal (mu ^ 2) _ _ H0)) as K.
  replace (r / (1 - lam) ^ 3) with (plus (plus (r * s_bound r) (scal (- 2 * mu) mu)) (scal (mu ^ 2) 1)).
  - eapply is_series_ext; [|exact K]. intros k. unfold plus, scal; cbn. unfold mult; cbn. ring.
  - unfold plus, scal; cbn. unfold mult; cbn. unfold mu, s_bound. field. lra.
Qed.
End Moments.
