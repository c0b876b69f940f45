(** C83: Skellam is the distribution of the difference of two independent Poisson variables. *)
From Coq Require Import Reals Lra ZArith.
From Coquelicot Require Import Coquelicot.
From Verif Require Import Common Skellam_Model.
Open Scope R_scope.

(** ** Specification *)
(** Poisson probability of k, and of any integer *)
Definition pois (mu : R) (k : nat) : R := exp (- mu) * mu ^ k / INR (fact k).
Definition poisZ (mu : R) (z : Z) : R := if (0 <=? z)%Z then pois mu (Z.to_nat z) else 0.
(** P[X - Y = v] for independent X ~ Poisson(mu1), Y ~ Poisson(mu2): the sum over all values j of Y *)
Definition diff_pmf (mu1 mu2 : R) (v : Z) : R := Series (fun j => poisZ mu1 (Z.of_nat j + v) * pois mu2 j).

(** ** Poisson facts *)
Lemma fact_pos k : 0 < INR (fact k). Proof. apply INR_fact_lt_0. Qed.
Lemma pois_nonneg mu k : 0 <= mu -> 0 <= pois mu k.
Proof. intros H. unfold pois. pose proof (exp_pos (- mu)). pose proof (fact_pos k). pose proof (pow_le mu k H). apply Rdiv_le_0_compat; [nra|auto]. Qed.
Lemma pois_series mu : is_series (pois mu) 1.
Proof.
  pose proof (is_exp_Reals mu) as H. apply (is_series_scal (exp (- mu))) in H.
  replace 1 with (scal (exp (- mu)) (exp mu)) by (unfold scal; cbn; unfold mult; cbn; rewrite <- exp_plus; rewrite <- exp_0; f_equal; lra).
  eapply is_series_ext; [|exact H]. intros n. unfold pois, scal; cbn. unfold mult; cbn. rewrite pow_n_pow. field. apply INR_fact_neq_0.
Qed.
Lemma sum_SR (a : nat -> R) n : sum_n a (S n) = sum_n a n + a (S n).
Proof. exact (sum_Sn a n). Qed.
Lemma series_first (a : nat -> R) : (forall k, a (S k) = 0) -> is_series a (a 0%nat).
Proof.
  intros H. assert (E : forall n, sum_n a n = a 0%nat) by (induction n; [apply sum_O|rewrite sum_SR, IHn, H; lra]).
  change (is_lim_seq (sum_n a) (a 0%nat)). apply (is_lim_seq_ext (fun _ => a 0%nat)); [intros; rewrite E; auto|apply is_lim_seq_const].
Qed.
Lemma sum_le_series a l : (forall n, 0 <= a n) -> is_series a l -> forall n, sum_n a n <= l.
Proof.
  intros P H n. apply (is_lim_seq_incr_compare (sum_n a) l H). intros m. rewrite sum_SR. specialize (P (S m)). lra.
Qed.
Lemma poisZ_nonneg mu z : 0 <= mu -> 0 <= poisZ mu z.
Proof. intros H. unfold poisZ. destruct (0 <=? z)%Z; [apply pois_nonneg; auto|lra]. Qed.
Lemma pois_le1 mu k : 0 <= mu -> pois mu k <= 1.
Proof.
  intros H. eapply Rle_trans; [|apply (sum_le_series (pois mu) 1 (fun n => pois_nonneg mu n H) (pois_series mu) k)].
  destruct k; [rewrite sum_O; lra|]. rewrite sum_SR. 
  assert (0 <= sum_n (pois mu) k). { clear -H. induction k; [rewrite sum_O; apply pois_nonneg; auto|]. rewrite sum_SR. pose proof (pois_nonneg mu (S k) H). lra. } lra.
Qed.
Lemma poisZ_le1 mu z : 0 <= mu -> poisZ mu z <= 1.
Proof. intros H. unfold poisZ. destruct (0 <=? z)%Z; [apply pois_le1; auto|lra]. Qed.
Lemma term_ex mu1 mu2 v : 0 <= mu1 -> 0 <= mu2 -> ex_series (fun j => poisZ mu1 (Z.of_nat j + v) * pois mu2 j).
Proof.
  intros H1 H2. apply (@ex_series_le R_AbsRing R_CompleteNormedModule _ (pois mu2)); [|eexists; apply pois_series].
  intros n. unfold norm; cbn. unfold abs; cbn. pose proof (poisZ_nonneg mu1 (Z.of_nat n + v) H1). pose proof (poisZ_le1 mu1 (Z.of_nat n + v) H1). pose proof (pois_nonneg mu2 n H2).
  rewrite Rabs_pos_eq by nra. nra.
Qed.

(** ** The Bessel series *)
Lemma INR_2 k : (2 * k = k + k)%nat. Proof. lia. Qed.
Lemma sqrt_pow mu k : 0 < mu -> sqrt mu ^ (2 * k) = mu ^ k.
Proof. intros H. rewrite pow_mult. f_equal. cbn. rewrite Rmult_1_r. apply sqrt_sqrt. lra. Qed.
Lemma half_ratio mu1 mu2 n : 0 < mu1 -> 0 < mu2 -> exp (0.5 * INR n * (ln mu1 - ln mu2)) * (sqrt mu1 * sqrt mu2) ^ n = mu1 ^ n.
Proof.
  intros H1 H2. assert (S1 : sqrt mu1 = exp (0.5 * ln mu1)).
  { apply Rsqr_inj; [apply sqrt_pos|left; apply exp_pos|]. rewrite Rsqr_sqrt by lra. unfold Rsqr. rewrite <- exp_plus. replace (0.5 * ln mu1 + 0.5 * ln mu1) with (ln mu1) by lra. rewrite exp_ln; auto. }
  assert (S2 : sqrt mu2 = exp (0.5 * ln mu2)).
  { apply Rsqr_inj; [apply sqrt_pos|left; apply exp_pos|]. rewrite Rsqr_sqrt by lra. unfold Rsqr. rewrite <- exp_plus. replace (0.5 * ln mu2 + 0.5 * ln mu2) with (ln mu2) by lra. rewrite exp_ln; auto. }
  rewrite S1, S2, <- exp_plus.
  assert (P : forall x k, exp x ^ k = exp (INR k * x)).
  { intros x k. induction k; [cbn; rewrite Rmult_0_l, exp_0; auto|]. rewrite S_INR. cbn [pow]. rewrite IHk, <- exp_plus. f_equal. lra. }
  rewrite P, <- exp_plus. transitivity (exp (ln mu1) ^ n); [|rewrite exp_ln; auto]. rewrite P. f_equal. lra.
Qed.
Lemma bessel_term mu1 mu2 n k : 0 < mu1 -> 0 < mu2 ->
  exp (0.5 * INR n * (ln mu1 - ln mu2)) * (2 * sqrt (mu1 * mu2) / 2) ^ (2 * k + n) = mu1 ^ (k + n) * mu2 ^ k.
Proof.
  intros H1 H2. replace (2 * sqrt (mu1 * mu2) / 2) with (sqrt (mu1 * mu2)) by lra. rewrite sqrt_mult by lra. rewrite !pow_add. 
  rewrite Rpow_mult_distr, !sqrt_pow by auto. pose proof (half_ratio mu1 mu2 n H1 H2). nra.
Qed.
(** Both orders: the value n >= 0 with (mu1, mu2) and -n with the two swapped *)
Lemma diff_nonneg mu1 mu2 n : diff_pmf mu1 mu2 (Z.of_nat n) = Series (fun k => exp (- mu1 - mu2) * (mu1 ^ (k + n) * mu2 ^ k / (INR (fact k) * INR (fact (k + n))))).
Proof.
  unfold diff_pmf. apply Series_ext. intros k. unfold poisZ. replace (0 <=? Z.of_nat k + Z.of_nat n)%Z with true by (symmetry; apply Z.leb_le; lia).
  replace (Z.to_nat (Z.of_nat k + Z.of_nat n)) with (k + n)%nat by lia. unfold pois. unfold Rminus. rewrite exp_plus. field. split; apply INR_fact_neq_0.
Qed.
Lemma Series_shift (a : nat -> R) n : (forall j, (j < n)%nat -> a j = 0) -> Series a = Series (fun k => a (n + k)%nat).
Proof.
  revert a. induction n as [|n IH]; intros a H; [apply Series_ext; auto|].
  rewrite Series_incr_1_aux by (apply H; lia). rewrite (IH (fun k => a (S k))) by (intros; apply H; lia). apply Series_ext. intros k. f_equal. 
Qed.
Lemma diff_neg mu1 mu2 n : diff_pmf mu1 mu2 (- Z.of_nat n) = Series (fun k => exp (- mu1 - mu2) * (mu2 ^ (k + n) * mu1 ^ k / (INR (fact k) * INR (fact (k + n))))).
Proof.
  unfold diff_pmf. rewrite (Series_shift _ n).
  - apply Series_ext. intros k. unfold poisZ. replace (0 <=? Z.of_nat (n + k) + - Z.of_nat n)%Z with true by (symmetry; apply Z.leb_le; lia).
    replace (Z.to_nat (Z.of_nat (n + k) + - Z.of_nat n)) with k by lia. unfold pois. unfold Rminus. rewrite exp_plus, (Nat.add_comm n k). field. split; apply INR_fact_neq_0.
  - intros j Hj. unfold poisZ. replace (0 <=? Z.of_nat j + - Z.of_nat n)%Z with false by (symmetry; apply Z.leb_gt; lia). lra.
Qed.
Lemma bessel_ex n x : 0 <= x -> ex_series (fun k => (x / 2) ^ (2 * k + n) / (INR (fact k) * INR (fact (k + n)))).
Proof.
  intros Hx. set (y := (x/2)*(x/2)). apply (@ex_series_le R_AbsRing R_CompleteNormedModule _ (fun k => (x/2)^n * (/ INR (fact k) * y ^ k))).
  - intros k. change (Rabs ((x / 2) ^ (2 * k + n) / (INR (fact k) * INR (fact (k + n)))) <= (x / 2) ^ n * (/ INR (fact k) * y ^ k)). rewrite pow_add, pow_mult. replace ((x / 2) ^ 2) with y by (unfold y; cbn; lra).
    assert (0 <= y) by (unfold y; nra). pose proof (pow_le y k H). assert (0 <= x / 2) by lra. pose proof (pow_le (x/2) n H1). pose proof (fact_pos k).
    assert (1 <= INR (fact (k + n))). { replace 1 with (INR 1) by auto. apply le_INR. pose proof (lt_O_fact (k+n)). lia. }
    rewrite Rabs_pos_eq.
    + replace ((x / 2) ^ n * (/ INR (fact k) * y ^ k)) with (y ^ k * (x / 2) ^ n / (INR (fact k) * 1)) by (field; lra).
      apply Rmult_le_compat_l; [nra|]. apply Rinv_le_contravar; nra.
    + apply Rdiv_le_0_compat; nra.
  - apply (@ex_series_scal R_AbsRing R_NormedModule ((x/2)^n) (fun k => / INR (fact k) * y ^ k)). pose proof (is_exp_Reals y) as E. exists (exp y). eapply is_series_ext; [|exact E]. intros k. unfold scal; cbn. unfold mult; cbn. rewrite pow_n_pow. lra.
Qed.
Lemma iv_pos v x : 0 < x -> 0 < iv v x.
Proof.
  intros Hx. unfold iv. set (n := Z.abs_nat v). assert (E := bessel_ex n x (Rlt_le _ _ Hx)). set (a := fun k => _) in *.
  assert (P : forall k, 0 < a k). { intros k. unfold a. apply Rdiv_lt_0_compat; [apply pow_lt; lra|]. apply Rmult_lt_0_compat; apply fact_pos. }
  eapply Rlt_le_trans; [apply (P 0%nat)|]. rewrite <- sum_O. apply (sum_le_series a (Series a)); [intros; left; auto|apply Series_correct; auto].
Qed.

(** ** The theorems *)
(** For positive rates the log-probability of every integer is a finite number, the logarithm of P[X - Y = v]. *)
Theorem C83_logp mu1 mu2 v : 0 < mu1 -> 0 < mu2 -> exists r, skellam_logp v mu1 mu2 = Ok (Fin r) /\ exp r = diff_pmf mu1 mu2 v.
Proof.
  intros H1 H2. unfold skellam_logp, xlog. destruct (Rle_dec 0 mu1); [|lra]. destruct (Rle_dec 0 mu2); [|lra].
  assert (S0 : 0 < 2 * sqrt (mu1 * mu2)) by (apply Rmult_lt_0_compat; [lra|]; apply sqrt_lt_R0; nra).
  pose proof (iv_pos v _ S0) as I0.
  destruct (Rlt_dec mu1 0); [lra|]. destruct (Req_EM_T mu1 0); [lra|]. destruct (Rlt_dec mu2 0); [lra|]. destruct (Req_EM_T mu2 0); [lra|].
  destruct (Rlt_dec (iv v (2 * sqrt (mu1 * mu2))) 0); [lra|]. destruct (Req_EM_T (iv v (2 * sqrt (mu1 * mu2))) 0); [lra|].
  cbn [xsub xadd xneg xscale]. eexists. split; [reflexivity|]. rewrite !exp_plus, exp_ln by auto. rewrite <- exp_plus.
  assert (G : exists n, v = Z.of_nat n \/ v = (- Z.of_nat n)%Z) by (exists (Z.abs_nat v); lia). destruct G as [m [-> | ->]].
  - rewrite diff_nonneg. unfold iv. replace (Z.abs_nat (Z.of_nat m)) with m by lia. rewrite <- Series_scal_l. apply Series_ext. intros k.
    rewrite <- INR_IZR_INZ. replace (ln mu1 + - ln mu2) with (ln mu1 - ln mu2) by lra. pose proof (bessel_term mu1 mu2 m k H1 H2) as B. rewrite <- B. unfold Rminus. unfold Rdiv. ring.
  - rewrite diff_neg. unfold iv. replace (Z.abs_nat (- Z.of_nat m)) with m by lia. rewrite <- Series_scal_l. apply Series_ext. intros k.
    rewrite opp_IZR, <- INR_IZR_INZ. replace (0.5 * - INR m * (ln mu1 + - ln mu2)) with (0.5 * INR m * (ln mu2 - ln mu1)) by lra.
    pose proof (bessel_term mu2 mu1 m k H2 H1) as B. rewrite (Rmult_comm mu2 mu1) in B. rewrite <- B. unfold Rminus. unfold Rdiv. ring.
Qed.

(** The distribution function of the first Poisson variable, on all integers *)
Definition cdfZ (mu : R) (z : Z) : R := if (0 <=? z)%Z then sum_n (pois mu) (Z.to_nat z) else 0.
Lemma cdfZ_succ mu z : cdfZ mu (z + 1) = cdfZ mu z + poisZ mu (z + 1).
Proof.
  unfold cdfZ, poisZ. destruct (Z.leb_spec 0 z); destruct (Z.leb_spec 0 (z + 1)); try lia; try lra.
  - replace (Z.to_nat (z + 1)) with (S (Z.to_nat z)) by lia. rewrite sum_SR. lra.
  - replace (z + 1)%Z with 0%Z by lia. cbn [Z.to_nat]. rewrite sum_O. lra.
Qed.
Lemma cdfZ_bounds mu z : 0 <= mu -> 0 <= cdfZ mu z <= 1.
Proof.
  intros H. unfold cdfZ. destruct (0 <=? z)%Z; [|lra]. split; [|apply (sum_le_series _ _ (fun n => pois_nonneg mu n H) (pois_series mu))].
  induction (Z.to_nat z); [rewrite sum_O; apply pois_nonneg; auto|]. rewrite sum_SR. pose proof (pois_nonneg mu (S n) H). lra.
Qed.
Lemma cdfZ_mono mu z n : 0 <= mu -> cdfZ mu z <= cdfZ mu (z + Z.of_nat n).
Proof.
  intros H. induction n; [replace (z + Z.of_nat 0)%Z with z by lia; lra|]. replace (z + Z.of_nat (S n))%Z with (z + Z.of_nat n + 1)%Z by lia. rewrite cdfZ_succ. pose proof (poisZ_nonneg mu (z + Z.of_nat n + 1) H). lra.
Qed.
Lemma sum_poisZ mu z n : sum_n (fun k => poisZ mu (z + Z.of_nat k)) n = cdfZ mu (z + Z.of_nat n) - cdfZ mu (z - 1).
Proof.
  induction n. { rewrite sum_O. replace (z + Z.of_nat 0)%Z with (z - 1 + 1)%Z by lia. rewrite cdfZ_succ. lra. }
  rewrite sum_SR, IHn. replace (z + Z.of_nat (S n))%Z with (z + Z.of_nat n + 1)%Z by lia. rewrite cdfZ_succ. lra.
Qed.
Lemma sum_series (f : nat -> nat -> R) (l : nat -> R) n : (forall k, is_series (f k) (l k)) -> is_series (fun j => sum_n (fun k => f k j) n) (sum_n l n).
Proof.
  intros H. induction n.
  - rewrite sum_O. eapply is_series_ext; [|apply H]. intros j. rewrite sum_O. auto.
  - rewrite sum_Sn. eapply is_series_ext; [|apply (is_series_plus _ _ _ _ IHn (H (S n)))]. intros j. rewrite sum_Sn. auto.
Qed.
(** The probabilities of all integers add up to one. *)
Theorem C83_total_mass mu1 mu2 : 0 <= mu1 -> 0 <= mu2 ->
  is_lim_seq (fun N => sum_n (fun k => diff_pmf mu1 mu2 (Z.of_nat k - Z.of_nat N)) (2 * N)) 1.
Proof.
  intros H1 H2. set (b := pois mu2). set (F := cdfZ mu1).
  assert (E : forall N, is_series (fun j => b j * (F (Z.of_nat j + Z.of_nat N)%Z - F (Z.of_nat j - Z.of_nat N - 1)%Z)) (sum_n (fun k => diff_pmf mu1 mu2 (Z.of_nat k - Z.of_nat N)) (2 * N))).
  { intros N. eapply is_series_ext; [|apply (sum_series (fun k j => poisZ mu1 (Z.of_nat j + (Z.of_nat k - Z.of_nat N)) * pois mu2 j))].
    - intros j. cbn beta. rewrite (sum_n_ext _ (fun k => mult (poisZ mu1 (Z.of_nat j - Z.of_nat N + Z.of_nat k)) (b j))).
      + rewrite sum_n_mult_r. rewrite sum_poisZ. unfold mult; cbn [Ring.mult R_Ring]. replace (Z.of_nat j - Z.of_nat N + Z.of_nat (2 * N))%Z with (Z.of_nat j + Z.of_nat N)%Z by lia. unfold F. cbn. lra.
      + intros k. unfold mult; cbn. f_equal. f_equal. lia.
    - intros k. apply Series_correct. apply term_ex; auto. }
  assert (T : forall N j, 0 <= b j * (F (Z.of_nat j + Z.of_nat N)%Z - F (Z.of_nat j - Z.of_nat N - 1)%Z) <= b j).
  { intros N j. pose proof (pois_nonneg mu2 j H2) as B. fold b in B. pose proof (cdfZ_bounds mu1 (Z.of_nat j + Z.of_nat N) H1). pose proof (cdfZ_bounds mu1 (Z.of_nat j - Z.of_nat N - 1) H1).
    pose proof (cdfZ_mono mu1 (Z.of_nat j - Z.of_nat N - 1) (2 * N + 1) H1) as M. replace (Z.of_nat j - Z.of_nat N - 1 + Z.of_nat (2 * N + 1))%Z with (Z.of_nat j + Z.of_nat N)%Z in M by lia. unfold F. split; nra. }
  apply (is_lim_seq_le_le (fun N => sum_n b N * sum_n (pois mu1) N) _ (fun _ => 1)).
  - intros N. specialize (E N). split.
    + eapply Rle_trans; [|apply (sum_le_series _ _ (fun j => proj1 (T N j)) E N)].
      assert (G : forall m, (m <= N)%nat -> sum_n b m * sum_n (pois mu1) N <= sum_n (fun j => b j * (F (Z.of_nat j + Z.of_nat N)%Z - F (Z.of_nat j - Z.of_nat N - 1)%Z)) m).
      { assert (K : forall j, (j <= N)%nat -> b j * sum_n (pois mu1) N <= b j * (F (Z.of_nat j + Z.of_nat N)%Z - F (Z.of_nat j - Z.of_nat N - 1)%Z)).
        { intros j Hj. apply Rmult_le_compat_l; [apply pois_nonneg; auto|]. unfold F, cdfZ at 2. replace (0 <=? Z.of_nat j - Z.of_nat N - 1)%Z with false by (symmetry; apply Z.leb_gt; lia).
          pose proof (cdfZ_mono mu1 (Z.of_nat N) j H1) as M. replace (Z.of_nat N + Z.of_nat j)%Z with (Z.of_nat j + Z.of_nat N)%Z in M by lia.
          unfold cdfZ at 1 in M. replace (0 <=? Z.of_nat N)%Z with true in M by (symmetry; apply Z.leb_le; lia). rewrite Nat2Z.id in M. lra. }
        induction m; intros Hm; [rewrite !sum_O; apply K; lia|]. rewrite !sum_SR. specialize (K (S m) Hm). specialize (IHm ltac:(lia)). lra. }
      apply G. lia.
    + pose proof (is_series_unique _ _ E) as U. rewrite <- U. rewrite <- (is_series_unique _ _ (pois_series mu2)). apply Series_le; [intros; apply T|eexists; apply pois_series].
  - pose proof (pois_series mu1) as A. pose proof (pois_series mu2) as B. replace (Finite 1) with (Rbar_mult 1 1) by (cbn; f_equal; lra). apply is_lim_seq_mult'; auto.
  - apply is_lim_seq_const.
Qed.

(** Rates outside the documented range are rejected. *)
Theorem C83_invalid v mu1 mu2 : skellam_logp v mu1 mu2 = Err ValueError <-> mu1 < 0 \/ mu2 < 0.
Proof. unfold skellam_logp. destruct (Rle_dec 0 mu1); [destruct (Rle_dec 0 mu2)|]; split; intros H; try discriminate; try lra; auto. Qed.

(** Refuted at the edge of the documented range: mu1 = 0 is accepted, X is then 0 and X - Y = -n has the Poisson
    probability of n, but the log-probability is NaN; the same for mu2 = 0 and non-negative values. *)
Lemma iv_zero v : v <> 0%Z -> iv v 0 = 0.
Proof.
  intros H. unfold iv. set (a := fun k => _). assert (Z0 : forall k, a k = 0). { intros k. unfold a. replace (0 / 2) with 0 by lra. rewrite pow_i by lia. unfold Rdiv. lra. }
  rewrite (is_series_unique _ _ (series_first a (fun k => Z0 (S k)))). apply Z0.
Qed.
Lemma pois0 z : poisZ 0 z = if Z.eqb z 0 then 1 else 0.
Proof.
  unfold poisZ. destruct (Z.leb_spec 0 z); destruct (Z.eqb_spec z 0); try lia; auto.
  - subst. cbn. unfold pois. cbn. rewrite Ropp_0, exp_0. lra.
  - unfold pois. rewrite pow_i by lia. unfold Rdiv. lra.
Qed.
Theorem C83_zero_rate_refuted mu n : 0 < mu ->
  (skellam_logp (- Z.of_nat n) 0 mu = Ok NaN /\ diff_pmf 0 mu (- Z.of_nat n) = pois mu n /\ 0 < pois mu n) /\
  (skellam_logp (Z.of_nat n) mu 0 = Ok NaN /\ diff_pmf mu 0 (Z.of_nat n) = pois mu n).
Proof.
  intros H.
  assert (I0 : iv 0 0 > 0).
  { unfold iv. cbn [Z.abs_nat]. set (a := fun k => _). rewrite (is_series_unique a _ (series_first a ltac:(intros k; unfold a; replace (0 / 2) with 0 by lra; rewrite pow_i by lia; unfold Rdiv; lra))).
    unfold a. cbn. lra. }
  assert (LI : forall v, xlog (iv v 0) = MInf \/ exists r, xlog (iv v 0) = Fin r).
  { intros v. destruct (Z.eq_dec v 0) as [->|Hv]; [right|left]; unfold xlog.
    - destruct (Rlt_dec (iv 0 0) 0); [lra|]. destruct (Req_EM_T (iv 0 0) 0); [lra|]. eauto.
    - rewrite iv_zero by auto. destruct (Rlt_dec 0 0); [lra|]. destruct (Req_EM_T 0 0); [auto|lra]. }
  assert (L0 : xlog 0 = MInf). { unfold xlog. destruct (Rlt_dec 0 0); [lra|]. destruct (Req_EM_T 0 0); [auto|lra]. }
  assert (LM : xlog mu = Fin (ln mu)). { unfold xlog. destruct (Rlt_dec mu 0); [lra|]. destruct (Req_EM_T mu 0); [lra|auto]. }
  assert (LZ : forall v, v <> 0%Z -> xlog (iv v 0) = MInf). { intros v Hv. rewrite iv_zero by auto. auto. }
  split; [split; [|split]|split].
  - unfold skellam_logp. destruct (Rle_dec 0 0); [|lra]. destruct (Rle_dec 0 mu); [|lra]. rewrite L0, LM. replace (2 * sqrt (0 * mu)) with 0 by (rewrite Rmult_0_l, sqrt_0; lra).
    cbn [xsub xneg xadd xscale]. destruct n as [|n].
    + cbn. rewrite Rmult_0_r. destruct (Req_EM_T 0 0); [|lra]. auto.
    + rewrite LZ by lia. assert (0.5 * IZR (- Z.of_nat (S n)) < 0). { rewrite opp_IZR, <- INR_IZR_INZ, S_INR. pose proof (pos_INR n). lra. }
      destruct (Req_EM_T _ 0); [lra|]. destruct (Rlt_dec 0 _); [lra|]. reflexivity.
  - rewrite diff_neg. set (a := fun k => _). rewrite (is_series_unique a _ (series_first a ltac:(intros k; unfold a; rewrite (pow_i (S k)) by lia; unfold Rdiv; ring))).
    unfold a, pois. cbn [Nat.add fact pow INR]. replace (- 0 - mu) with (- mu) by lra. field. apply INR_fact_neq_0.
  - unfold pois. apply Rdiv_lt_0_compat; [|apply fact_pos]. apply Rmult_lt_0_compat; [apply exp_pos|apply pow_lt; auto].
  - unfold skellam_logp. destruct (Rle_dec 0 mu); [|lra]. destruct (Rle_dec 0 0); [|lra]. rewrite L0, LM. replace (2 * sqrt (mu * 0)) with 0 by (rewrite Rmult_0_r, sqrt_0; lra).
    cbn [xsub xneg xadd xscale]. destruct n as [|n].
    + cbn. rewrite Rmult_0_r. destruct (Req_EM_T 0 0); [|lra]. auto.
    + rewrite LZ by lia. assert (0 < 0.5 * IZR (Z.of_nat (S n))). { rewrite <- INR_IZR_INZ, S_INR. pose proof (pos_INR n). lra. }
      destruct (Req_EM_T _ 0); [lra|]. destruct (Rlt_dec 0 _); [|lra]. reflexivity.
  - rewrite diff_nonneg. set (a := fun k => _). rewrite (is_series_unique a _ (series_first a ltac:(intros k; unfold a; rewrite (pow_i (S k)) by lia; unfold Rdiv; ring))).
    unfold a, pois. cbn [Nat.add fact pow INR]. replace (- mu - 0) with (- mu) by lra. field. apply INR_fact_neq_0.
Qed.
Example C83_example : exists r, skellam_logp 0 1 1 = Ok (Fin r) /\ exp r = diff_pmf 1 1 0.
Proof. apply C83_logp; lra. Qed.

(** ** Draws *)
(** An index is valid for a shape. *)
Definition valid (sh i : list nat) : Prop := Forall2 (fun d k => (k < d)%nat) sh i.
(** A parameter of shape s seen at entry i of the result: axes of length one are repeated. *)
Definition seen {A} (a : arr A) (i : list nat) : A := entry a (map (fun dk => if Nat.eqb (fst dk) 1 then 0%nat else snd dk) (combine (shape a) i)).
Lemma bindex_valid sh i : valid sh i -> bindex sh i = i.
Proof. intros H. induction H; cbn; auto. rewrite <- IHForall2 at 2. f_equal. destruct (Nat.eqb_spec x 1); auto. lia. Qed.
Lemma bshape_idem s : bshape s s = s.
Proof. induction s; cbn; auto. f_equal; auto. unfold bdim. destruct (Nat.eqb a 1); auto. Qed.
(** Every entry of a draw is the difference of two Poisson draws with the entry's own rates, each made with the generator
    position of that entry and no other: entries are independent, whatever is broadcast. *)
Theorem C83_draws q mu1 mu2 size u1 u2 i :
  let sh := match size with Some s => s | None => bshape (shape mu1) (shape mu2) end in
  valid sh i -> shape (skellam_dist q mu1 mu2 size u1 u2) = sh /\
  entry (skellam_dist q mu1 mu2 size u1 u2) i = (q (seen mu1 i) (u1 i) - q (seen mu2 i) (u2 i))%Z.
Proof.
  intros sh V. unfold skellam_dist, map2, poisson_dist, broadcast. destruct size as [s|]; subst sh; cbn [shape entry]; rewrite ?bshape_idem, !(bindex_valid _ _ V); auto.
Qed.

Example C83_draws_example : let mu1 := {| shape := [2%nat]; entry := fun i => INR (hd 0%nat i) |} in let mu2 := {| shape := [1%nat]; entry := fun _ => 5 |} in
  valid (bshape (shape mu1) (shape mu2)) [1%nat] /\ seen mu1 [1%nat] = 1 /\ seen mu2 [1%nat] = 5.
Proof. cbn. repeat constructor. Qed.
