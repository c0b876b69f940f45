(** C97: the mean and variance of Skellam. *)
From Coq Require Import Reals Lra Lia ZArith.
From Coquelicot Require Import Coquelicot.
From Verif Require Import Common Skellam_Model Skellam_Props.
Open Scope R_scope.
Ltac toR := match goal with |- @eq _ ?a ?b => change (@eq R a b) end.

(** ** Specification: sums over all integers *)
Definition sum_window (f : Z -> R) (N : nat) : R := sum_n (fun k => f (Z.of_nat k - Z.of_nat N)%Z) (2 * N).
(** f sums to l over the integers: the sums over -N, ..., N converge to l *)
Definition sumZ (f : Z -> R) (l : R) : Prop := is_lim_seq (sum_window f) l.
(** absolutely: the order of summation does not matter *)
Definition abs_summable (f : Z -> R) : Prop := exists M, forall N, sum_window (fun v => Rabs (f v)) N <= M.

(** ** Windows *)
Lemma sum_front (a : nat -> R) n : sum_n a (S n) = a 0%nat + sum_n (fun k => a (S k)) n.
Proof. induction n as [|n IH]; [rewrite sum_SR, !sum_O; reflexivity|]. rewrite sum_SR, IH, sum_SR. match goal with |- @eq _ ?a ?b => change (@eq R a b) end. ring. Qed.
Lemma window_S f N : sum_window f (S N) = sum_window f N + (f (Z.of_nat (S N)) + f (- Z.of_nat (S N))%Z).
Proof.
  unfold sum_window. replace (2 * S N)%nat with (S (S (2 * N))) by lia. rewrite sum_front, sum_SR.
  replace (Z.of_nat 0 - Z.of_nat (S N))%Z with (- Z.of_nat (S N))%Z by lia. replace (Z.of_nat (S (S (2 * N))) - Z.of_nat (S N))%Z with (Z.of_nat (S N)) by lia.
  rewrite (sum_n_ext (fun k => f (Z.of_nat (S k) - Z.of_nat (S N))%Z) (fun k => f (Z.of_nat k - Z.of_nat N)%Z)) by (intros k; f_equal; lia). ring.
Qed.
Lemma window_0 f : sum_window f 0 = f 0%Z. Proof. unfold sum_window. cbn [Nat.mul]. rewrite sum_O. reflexivity. Qed.
Lemma window_ext f g N : (forall v, f v = g v) -> sum_window f N = sum_window g N.
Proof. intros H. apply sum_n_ext. intros k. apply H. Qed.
Lemma window_down f N : sum_window (fun v => f (v - 1)%Z) N = sum_window f N + (f (- Z.of_nat N - 1)%Z - f (Z.of_nat N)).
Proof.
  induction N as [|N IH]; [rewrite !window_0; replace (- Z.of_nat 0 - 1)%Z with (0 - 1)%Z by lia; change (Z.of_nat 0) with 0%Z; ring|].
  rewrite !window_S, IH. replace (Z.of_nat (S N) - 1)%Z with (Z.of_nat N) by lia. replace (- Z.of_nat N - 1)%Z with (- Z.of_nat (S N))%Z by lia. ring.
Qed.
Lemma window_up f N : sum_window (fun v => f (v + 1)%Z) N = sum_window f N + (f (Z.of_nat N + 1)%Z - f (- Z.of_nat N)%Z).
Proof.
  induction N as [|N IH]; [rewrite !window_0; change (Z.of_nat 0) with 0%Z; cbn [Z.add Z.opp]; ring|].
  rewrite !window_S, IH. replace (- Z.of_nat (S N) + 1)%Z with (- Z.of_nat N)%Z by lia. replace (Z.of_nat N + 1)%Z with (Z.of_nat (S N)) by lia. ring.
Qed.
Lemma window_lin a b f g N : sum_window (fun v => a * f v + b * g v) N = a * sum_window f N + b * sum_window g N.
Proof. induction N as [|N IH]; [rewrite !window_0; reflexivity|]. rewrite !window_S, IH. ring. Qed.
Lemma window_le f g N : (forall v, f v <= g v) -> sum_window f N <= sum_window g N.
Proof. intros H. induction N as [|N IH]; [rewrite !window_0; apply H|]. rewrite !window_S. pose proof (H (Z.of_nat (S N))). pose proof (H (- Z.of_nat (S N))%Z). lra. Qed.

(** ** The recurrence of the pmf *)
Section Moments.
Context (mu1 mu2 : R) (H1 : 0 <= mu1) (H2 : 0 <= mu2).
Let f := diff_pmf mu1 mu2.
Lemma pois_S mu k : INR (S k) * pois mu (S k) = mu * pois mu k.
Proof. unfold pois. rewrite fact_simpl, mult_INR. cbn [pow]. pose proof (fact_pos k). pose proof (lt_0_INR (S k) ltac:(lia)). field. split; lra. Qed.
Lemma poisZ_rec mu z : IZR z * poisZ mu z = mu * poisZ mu (z - 1).
Proof.
  unfold poisZ. destruct (Z.leb_spec 0 z) as [Hz|Hz]; destruct (Z.leb_spec 0 (z - 1)) as [Hy|Hy]; try lia; try lra.
  - replace (Z.to_nat z) with (S (Z.to_nat (z - 1))) by lia. rewrite <- pois_S. rewrite INR_IZR_INZ. do 2 f_equal. lia.
  - replace z with 0%Z by lia. lra.
Qed.
Lemma f_series v : is_series (fun j => poisZ mu1 (Z.of_nat j + v) * pois mu2 j) (f v).
Proof. apply Series_correct, term_ex; assumption. Qed.
Lemma f_nonneg v : 0 <= f v.
Proof.
  pose proof (sum_le_series _ _ (fun j => Rmult_le_pos _ _ (poisZ_nonneg mu1 (Z.of_nat j + v) H1) (pois_nonneg mu2 j H2)) (f_series v) 0) as Q. rewrite sum_O in Q.
  pose proof (Rmult_le_pos _ _ (poisZ_nonneg mu1 (Z.of_nat 0 + v) H1) (pois_nonneg mu2 0 H2)). lra.
Qed.
Lemma ser_scal (c : R) (a : nat -> R) (l : R) : is_series a l -> is_series (fun n => c * a n) (c * l).
Proof. intros H. exact (is_series_scal c a l H). Qed.
Lemma ser_minus (a b : nat -> R) (l k : R) : is_series a l -> is_series b k -> is_series (fun n => a n - b n) (l - k).
Proof. intros H K. exact (is_series_minus a b l k H K). Qed.
Lemma ser_shift (a : nat -> R) (l : R) : a 0%nat = 0 -> is_series (fun n => a (S n)) l -> is_series a l.
Proof. intros H0 H. apply is_series_decr_1. rewrite H0. match goal with |- is_series _ ?z => replace z with l end; [exact H|]. unfold plus, opp. simpl. ring. Qed.
Lemma f_rec v : IZR v * f v = mu1 * f (v - 1)%Z - mu2 * f (v + 1)%Z.
Proof.
  (* j * P[Y = j] summed: shifted by one *)
  assert (A : is_series (fun j => INR j * (poisZ mu1 (Z.of_nat j + v) * pois mu2 j)) (mu2 * f (v + 1)%Z)).
  { apply ser_shift; [change (INR 0) with 0; ring|]. eapply is_series_ext; [|exact (ser_scal mu2 _ _ (f_series (v + 1)))]. intros j. cbv beta.
    replace (Z.of_nat (S j) + v)%Z with (Z.of_nat j + (v + 1))%Z by lia. transitivity (poisZ mu1 (Z.of_nat j + (v + 1)) * (INR (S j) * pois mu2 (S j))); [rewrite pois_S; toR; ring | toR; ring]. }
  assert (B : is_series (fun j => IZR (Z.of_nat j + v) * poisZ mu1 (Z.of_nat j + v) * pois mu2 j) (mu1 * f (v - 1)%Z)).
  { eapply is_series_ext; [|exact (ser_scal mu1 _ _ (f_series (v - 1)))]. intros j. cbv beta. rewrite poisZ_rec. replace (Z.of_nat j + (v - 1))%Z with (Z.of_nat j + v - 1)%Z by lia. toR; ring. }
  pose proof (ser_scal (IZR v) _ _ (f_series v)) as C. pose proof (ser_minus _ _ _ _ B A) as D.
  apply is_series_unique in C. apply is_series_unique in D. rewrite <- C, <- D. apply Series_ext. intros j. cbv beta. rewrite plus_IZR, <- INR_IZR_INZ. toR; ring.
Qed.
Lemma S_lim : is_lim_seq (sum_window f) 1. Proof. apply C83_total_mass; assumption. Qed.
Lemma ends0 : is_lim_seq (fun N => f (Z.of_nat (S N)) + f (- Z.of_nat (S N))%Z) 0.
Proof.
  apply is_lim_seq_ext with (fun N => sum_window f (S N) - sum_window f N); [intros N; rewrite window_S; ring|].
  replace 0 with (1 - 1) by ring. apply is_lim_seq_minus'; [apply (is_lim_seq_incr_1 (sum_window f)), S_lim | apply S_lim].
Qed.
Lemma end_p : is_lim_seq (fun N => f (Z.of_nat N)) 0.
Proof. apply is_lim_seq_incr_1. apply is_lim_seq_le_le with (u := fun _ => 0) (w := fun N => f (Z.of_nat (S N)) + f (- Z.of_nat (S N))%Z); [|apply is_lim_seq_const | apply ends0]. intros N. pose proof (f_nonneg (Z.of_nat (S N))). pose proof (f_nonneg (- Z.of_nat (S N))). lra. Qed.
Lemma end_m : is_lim_seq (fun N => f (- Z.of_nat N)%Z) 0.
Proof. apply is_lim_seq_incr_1. apply is_lim_seq_le_le with (u := fun _ => 0) (w := fun N => f (Z.of_nat (S N)) + f (- Z.of_nat (S N))%Z); [|apply is_lim_seq_const | apply ends0]. intros N. pose proof (f_nonneg (Z.of_nat (S N))). pose proof (f_nonneg (- Z.of_nat (S N))). lra. Qed.
(** the same limits at any fixed offset *)
Lemma lim_off (h : Z -> R) (c : Z) : is_lim_seq (fun N => h (Z.of_nat N)) 0 -> is_lim_seq (fun N => h (Z.of_nat N + c)%Z) 0.
Proof.
  intros H. apply (is_lim_seq_incr_n _ (Z.abs_nat c)). apply is_lim_seq_ext with (fun N => h (Z.of_nat (N + Z.to_nat (Z.abs c + c)))); [intros N; f_equal; lia|].
  apply (is_lim_seq_incr_n (fun N => h (Z.of_nat N)) (Z.to_nat (Z.abs c + c))), H.
Qed.
Lemma lim_off_m (h : Z -> R) (c : Z) : is_lim_seq (fun N => h (- Z.of_nat N)%Z) 0 -> is_lim_seq (fun N => h (- Z.of_nat N + c)%Z) 0.
Proof. intros H. apply is_lim_seq_ext with (fun N => (fun z => h (- z)%Z) (Z.of_nat N + - c)%Z); [intros N; cbv beta; f_equal; lia | apply (lim_off (fun z => h (- z)%Z)), H]. Qed.
(** one step of the recurrence, for any weight w that the recurrence multiplies *)
Lemma window_rec w N : sum_window (fun v => w v * (IZR v * f v)) N =
  mu1 * (sum_window (fun v => w (v + 1)%Z * f v) N + (w (- Z.of_nat N - 1 + 1)%Z * f (- Z.of_nat N - 1)%Z - w (Z.of_nat N + 1)%Z * f (Z.of_nat N))) -
  mu2 * (sum_window (fun v => w (v - 1)%Z * f v) N + (w (Z.of_nat N + 1 - 1)%Z * f (Z.of_nat N + 1)%Z - w (- Z.of_nat N - 1)%Z * f (- Z.of_nat N)%Z)).
Proof.
  rewrite (window_ext _ (fun v => mu1 * ((fun z => w (z + 1)%Z * f z) (v - 1)%Z) + (- mu2) * ((fun z => w (z - 1)%Z * f z) (v + 1)%Z))).
  2:{ intros v. cbv beta. rewrite f_rec. replace (v - 1 + 1)%Z with v by lia. replace (v + 1 - 1)%Z with v by lia. ring. }
  rewrite (window_lin mu1 (- mu2) (fun v => (fun z => w (z + 1)%Z * f z) (v - 1)%Z) (fun v => (fun z => w (z - 1)%Z * f z) (v + 1)%Z)).
  rewrite (window_down (fun z => w (z + 1)%Z * f z)), (window_up (fun z => w (z - 1)%Z * f z)). ring.
Qed.
(** v f(v) vanishes at both ends *)
Lemma g_p : is_lim_seq (fun N => IZR (Z.of_nat N) * f (Z.of_nat N)) 0.
Proof.
  eapply is_lim_seq_ext; [intros N; symmetry; apply f_rec|]. replace (Finite 0) with (Finite (mu1 * 0 - mu2 * 0)) by (f_equal; ring).
  apply is_lim_seq_minus'; (apply is_lim_seq_mult'; [apply is_lim_seq_const|]); [apply (lim_off f (-1)), end_p | apply (lim_off f 1), end_p].
Qed.
Lemma g_m : is_lim_seq (fun N => IZR (- Z.of_nat N) * f (- Z.of_nat N)%Z) 0.
Proof.
  eapply is_lim_seq_ext; [intros N; symmetry; apply f_rec|]. replace (Finite 0) with (Finite (mu1 * 0 - mu2 * 0)) by (f_equal; ring).
  apply is_lim_seq_minus'; (apply is_lim_seq_mult'; [apply is_lim_seq_const|]); [apply (lim_off_m f (-1)), end_m | apply (lim_off_m f 1), end_m].
Qed.
Lemma M_lim : is_lim_seq (sum_window (fun v => IZR v * f v)) (mu1 - mu2).
Proof.
  apply is_lim_seq_ext with (fun N => mu1 * (sum_window f N + (f (- Z.of_nat N + -1)%Z - f (Z.of_nat N))) - mu2 * (sum_window f N + (f (Z.of_nat N + 1)%Z - f (- Z.of_nat N)%Z))).
  { intros N. rewrite (window_ext (fun v => IZR v * f v) (fun v => (fun _ => 1) v * (IZR v * f v))) by (intros v; ring). rewrite (window_rec (fun _ => 1)).
    rewrite (window_ext (fun v => 1 * f v) f) by (intros v; ring). replace (- Z.of_nat N + -1)%Z with (- Z.of_nat N - 1)%Z by lia. ring. }
  replace (Finite (mu1 - mu2)) with (Finite (mu1 * (1 + (0 - 0)) - mu2 * (1 + (0 - 0)))) by (f_equal; ring).
  apply is_lim_seq_minus'; (apply is_lim_seq_mult'; [apply is_lim_seq_const|]; apply is_lim_seq_plus'; [apply S_lim|]; apply is_lim_seq_minus').
  - apply (lim_off_m f (-1)), end_m.
  - apply end_p.
  - apply (lim_off f 1), end_p.
  - apply end_m.
Qed.
Lemma M2_lim : is_lim_seq (sum_window (fun v => IZR v * (IZR v * f v))) ((mu1 - mu2) ^ 2 + (mu1 + mu2)).
Proof.
  set (g := fun v => IZR v * f v).
  apply is_lim_seq_ext with (fun N => mu1 * ((1 * sum_window g N + 1 * sum_window f N) + ((g (- Z.of_nat N + -1)%Z + f (- Z.of_nat N + -1)%Z) - (g (Z.of_nat N) + f (Z.of_nat N)))) -
    mu2 * ((1 * sum_window g N + -1 * sum_window f N) + ((g (Z.of_nat N + 1)%Z - f (Z.of_nat N + 1)%Z) - (g (- Z.of_nat N)%Z - f (- Z.of_nat N)%Z)))).
  { intros N. rewrite (window_rec IZR). rewrite <- !window_lin. unfold g. replace (- Z.of_nat N + -1)%Z with (- Z.of_nat N - 1)%Z by lia.
    rewrite (window_ext (fun v => IZR (v + 1) * f v) (fun v => 1 * (IZR v * f v) + 1 * f v)) by (intros v; rewrite plus_IZR; ring).
    rewrite (window_ext (fun v => IZR (v - 1) * f v) (fun v => 1 * (IZR v * f v) + -1 * f v)) by (intros v; rewrite minus_IZR; ring).
    rewrite !plus_IZR, !minus_IZR, !plus_IZR, ?minus_IZR. ring. }
  replace (Finite ((mu1 - mu2) ^ 2 + (mu1 + mu2))) with (Finite (mu1 * ((1 * (mu1 - mu2) + 1 * 1) + ((0 + 0) - (0 + 0))) - mu2 * ((1 * (mu1 - mu2) + -1 * 1) + ((0 - 0) - (0 - 0))))) by (f_equal; ring).
  pose proof (lim_off_m g (-1) g_m) as L1. pose proof (lim_off g 1 g_p) as L2. pose proof (lim_off_m f (-1) end_m) as L3. pose proof (lim_off f 1 end_p) as L4.
  pose proof (g_p : is_lim_seq (fun N => g (Z.of_nat N)) 0) as L5. pose proof (g_m : is_lim_seq (fun N => g (- Z.of_nat N)%Z) 0) as L6. pose proof (M_lim : is_lim_seq (sum_window g) (mu1 - mu2)) as L7. clearbody g.
  repeat first [exact L1 | exact L2 | exact L3 | exact L4 | exact L5 | exact L6 | exact L7 | exact S_lim | exact end_p | exact end_m | apply is_lim_seq_const | apply is_lim_seq_minus' | apply is_lim_seq_plus' | apply is_lim_seq_mult'].
Qed.
Lemma Var_lim : is_lim_seq (sum_window (fun v => (IZR v - (mu1 - mu2)) ^ 2 * f v)) (mu1 + mu2).
Proof.
  set (m := mu1 - mu2). apply is_lim_seq_ext with (fun N => 1 * sum_window (fun v => IZR v * (IZR v * f v)) N + 1 * ((- 2 * m) * sum_window (fun v => IZR v * f v) N + m ^ 2 * sum_window f N)).
  { intros N. rewrite <- (window_lin (-2 * m) (m ^ 2) (fun v => IZR v * f v) f).
    rewrite <- (window_lin 1 1 (fun v => IZR v * (IZR v * f v)) (fun v => -2 * m * (IZR v * f v) + m ^ 2 * f v)). apply window_ext. intros v. ring. }
  replace (Finite (mu1 + mu2)) with (Finite (1 * ((mu1 - mu2) ^ 2 + (mu1 + mu2)) + 1 * (- 2 * m * (mu1 - mu2) + m ^ 2 * 1))) by (unfold m; f_equal; ring).
  repeat first [exact M2_lim | exact M_lim | exact S_lim | apply is_lim_seq_const | apply is_lim_seq_plus' | apply is_lim_seq_mult'].
Qed.
Lemma window_bounded h l : (forall v, 0 <= h v) -> is_lim_seq (sum_window h) (Finite l) -> forall N, sum_window h N <= l.
Proof.
  intros P H N. assert (I : forall n, sum_window h n <= sum_window h (S n)) by (intros n; rewrite window_S; pose proof (P (Z.of_nat (S n))); pose proof (P (- Z.of_nat (S n))%Z); lra).
  exact (is_lim_seq_incr_compare (sum_window h) l H I N).
Qed.
Lemma abs2 m : abs_summable (fun v => (IZR v - m) * f v).
Proof.
  exists ((mu1 - mu2) ^ 2 + (mu1 + mu2) + (1 + Rabs m)). intros N.
  pose proof (window_bounded (fun v => IZR v * (IZR v * f v)) _ ltac:(intros v; pose proof (f_nonneg v); pose proof (Rle_0_sqr (IZR v)); unfold Rsqr in *; cbv beta; rewrite <- Rmult_assoc; apply Rmult_le_pos; assumption) M2_lim N) as Q2.
  pose proof (window_bounded f _ f_nonneg S_lim N) as Q0.
  eapply Rle_trans; [apply (window_le _ (fun v => 1 * (IZR v * (IZR v * f v)) + (1 + Rabs m) * f v))|].
  - intros v. cbv beta. pose proof (f_nonneg v) as F. rewrite Rabs_mult, (Rabs_pos_eq (f v)) by exact F.
    replace (1 * (IZR v * (IZR v * f v)) + (1 + Rabs m) * f v) with ((IZR v * IZR v + (1 + Rabs m)) * f v) by ring. apply Rmult_le_compat_r; [exact F|].
    pose proof (Rabs_triang (IZR v) (- m)) as T. rewrite Rabs_Ropp in T. change (IZR v + - m) with (IZR v - m) in T.
    assert (Rabs (IZR v) <= IZR v * IZR v + 1). { apply Rabs_le. pose proof (Rle_0_sqr (IZR v - 1/2)). pose proof (Rle_0_sqr (IZR v + 1/2)). unfold Rsqr in *. lra. } lra.
  - rewrite (window_lin 1 (1 + Rabs m) (fun v => IZR v * (IZR v * f v)) f). pose proof (Rabs_pos m).
    assert ((1 + Rabs m) * sum_window f N <= (1 + Rabs m) * 1) by (apply Rmult_le_compat_l; lra). lra.
Qed.
End Moments.

(** The mean is mu1 - mu2 and the variance mu1 + mu2; the sums converge absolutely. *)
Theorem C97_mean mu1 mu2 : 0 <= mu1 -> 0 <= mu2 -> sumZ (fun v => IZR v * diff_pmf mu1 mu2 v) (mu1 - mu2) /\ abs_summable (fun v => IZR v * diff_pmf mu1 mu2 v).
Proof.
  intros H1 H2. split; [apply M_lim; assumption|]. destruct (abs2 mu1 mu2 H1 H2 0) as [M HM]. exists M. intros N. eapply Rle_trans; [|apply (HM N)]. apply window_le. intros v. right. f_equal. ring.
Qed.
Theorem C97_variance mu1 mu2 : 0 <= mu1 -> 0 <= mu2 -> sumZ (fun v => (IZR v - (mu1 - mu2)) ^ 2 * diff_pmf mu1 mu2 v) (mu1 + mu2).
Proof. intros H1 H2. apply Var_lim; assumption. Qed.
(** the same, of the log-probability the code returns *)
Definition code_prob mu1 mu2 v : R := match skellam_logp v mu1 mu2 with Ok (Fin l) => exp l | _ => 0 end.
Theorem C97_code mu1 mu2 : 0 < mu1 -> 0 < mu2 ->
  sumZ (code_prob mu1 mu2) 1 /\ sumZ (fun v => IZR v * code_prob mu1 mu2 v) (mu1 - mu2) /\ sumZ (fun v => (IZR v - (mu1 - mu2)) ^ 2 * code_prob mu1 mu2 v) (mu1 + mu2).
Proof.
  intros H1 H2. assert (E : forall v, code_prob mu1 mu2 v = diff_pmf mu1 mu2 v). { intros v. destruct (C83_logp mu1 mu2 v H1 H2) as [l [L R]]. unfold code_prob. rewrite L. exact R. }
  split; [|split]; unfold sumZ.
  - apply is_lim_seq_ext with (sum_window (diff_pmf mu1 mu2)); [intros N; apply window_ext; intros v; symmetry; apply E | apply S_lim; lra].
  - apply is_lim_seq_ext with (sum_window (fun v => IZR v * diff_pmf mu1 mu2 v)); [intros N; apply window_ext; intros v; rewrite E; reflexivity | apply C97_mean; lra].
  - apply is_lim_seq_ext with (sum_window (fun v => (IZR v - (mu1 - mu2)) ^ 2 * diff_pmf mu1 mu2 v)); [intros N; apply window_ext; intros v; rewrite E; reflexivity | apply C97_variance; lra].
Qed.
Example C97_witness : sumZ (fun v => IZR v * code_prob 3 1 v) 2 /\ sumZ (fun v => (IZR v - 2) ^ 2 * code_prob 3 1 v) 4.
Proof.
  destruct (C97_code 3 1 ltac:(lra) ltac:(lra)) as [_ [A B]]. replace (3 - 1) with 2 in * by ring. replace (3 + 1) with 4 in B by ring. split; assumption.
Qed.
