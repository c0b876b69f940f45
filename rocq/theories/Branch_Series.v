From Coq Require Import Reals Arith Lia Lra.
From Coquelicot Require Import Coquelicot.
From Verif Require Import Branch_Model Branch_Spec Branch_Proofs Skellam_Props.
Open Scope R_scope.

(** ** sums of nonnegative arrays by diagonals *)
Section Triangle.
Context (c : nat -> nat -> R) (B : nat -> R) (l : R).
Hypothesis c0 : forall j i, 0 <= c j i.
Hypothesis rows : forall j, is_series (c j) (B j).
Hypothesis cols : is_series B l.
Definition diag (k : nat) : R := sum_n (fun j => c j (k - j)) k.
Lemma B0 j : 0 <= B j.
Proof. apply Rle_trans with (sum_n (c j) 0); [rewrite sum_O; auto|]. apply sum_le_series; auto. Qed.
Lemma diag_swap n : sum_n diag n = sum_n (fun j => sum_n (c j) (n - j)) n.
Proof.
  induction n as [|n IH]; [unfold diag; rewrite !sum_O, ?Nat.sub_diag, ?sum_O; auto|].
  rewrite sum_SR, IH. unfold diag. rewrite (sum_SR (fun j => c j (S n - j)%nat)), (sum_SR (fun j => sum_n (c j) (S n - j))). rewrite Nat.sub_diag, sum_O.
  rewrite <- Rplus_assoc. f_equal.
  transitivity (sum_n (fun j => plus (sum_n (c j) (n - j)) (c j (S n - j)%nat)) n); [symmetry; exact (sum_n_plus _ _ n)|].
  apply sum_n_ext_loc. intros j Hj. replace (S n - j)%nat with (S (n - j)) by lia. rewrite sum_SR. reflexivity.
Qed.
Lemma sum_le (a b : nat -> R) n : (forall j, (j <= n)%nat -> a j <= b j) -> sum_n a n <= sum_n b n.
Proof. induction n; intros H; [rewrite !sum_O; auto|]. rewrite !sum_SR. apply Rplus_le_compat; auto. Qed.
Lemma sum_ge0 (a : nat -> R) n : (forall j, 0 <= a j) -> 0 <= sum_n a n.
Proof. intros H. induction n; [rewrite sum_O; auto|]. rewrite sum_SR. specialize (H (S n)). lra. Qed.
Lemma sum_mono (a : nat -> R) n m : (forall j, 0 <= a j) -> (n <= m)%nat -> sum_n a n <= sum_n a m.
Proof. intros H L. induction L; [lra|]. rewrite sum_SR. specialize (H (S m)). lra. Qed.
Lemma diag_upper n : sum_n diag n <= l.
Proof.
  rewrite diag_swap. apply Rle_trans with (sum_n B n); [|apply sum_le_series; auto; apply B0].
  apply sum_le. intros j _. apply sum_le_series; auto.
Qed.
Lemma diag0 k : 0 <= diag k. Proof. apply sum_ge0. auto. Qed.
Lemma incr_series (a : nat -> R) M : (forall k, 0 <= a k) -> (forall n, sum_n a n <= M) -> exists s, is_series a s /\ s <= M.
Proof.
  intros A0 U. destruct (ex_finite_lim_seq_incr (sum_n a) M) as (s&Hs); [intros n; rewrite sum_SR; specialize (A0 (S n)); lra|auto|].
  exists s. split; [exact Hs|]. pose proof (is_lim_seq_le (sum_n a) (fun _ => M) s M U Hs (is_lim_seq_const M)) as K. exact K.
Qed.
Lemma diag_series : is_series diag l.
Proof.
  destruct (incr_series diag l diag0 diag_upper) as (s&Hs&Ls). replace l with s; [exact Hs|]. apply Rle_antisym; auto.
  assert (J : forall J, sum_n B J <= s).
  { intros J. pose proof (sum_series c B J rows) as HJ.
    refine (is_lim_seq_le (sum_n (fun i => sum_n (fun j => c j i) J)) (fun _ => s) (sum_n B J) s _ HJ (is_lim_seq_const s)).
    intros I. apply Rle_trans with (sum_n diag (J + I)); [|apply sum_le_series; auto; apply diag0]. rewrite diag_swap.
    rewrite (sum_n_switch (fun i j => c j i)). apply Rle_trans with (sum_n (fun j => sum_n (c j) (J + I - j)) J).
    - apply sum_le. intros j Hj. apply sum_mono; auto. lia.
    - apply sum_mono; [|lia]. intros j. apply sum_ge0. auto. }
  pose proof (is_lim_seq_le (sum_n B) (fun _ => s) l s J cols (is_lim_seq_const s)) as K. exact K.
Qed.
End Triangle.

Lemma pois_eq r k : poisson_pmf r k = pois r k. Proof. reflexivity. Qed.
(** E z^Y for Y ~ Poisson(r) *)
Lemma pois_pgf r z : is_series (fun j => poisson_pmf r j * z ^ j) (exp (r * (z - 1))).
Proof.
  pose proof (pois_series (r * z)) as H. apply (is_series_scal (exp (r * (z - 1)))) in H.
  replace (exp (r * (z - 1))) with (scal (exp (r * (z - 1))) 1) by (unfold scal; cbn; unfold mult; cbn; ring).
  eapply is_series_ext; [|exact H]. intros n. unfold scal; cbn. unfold mult; cbn. unfold pois, poisson_pmf. rewrite Rpow_mult_distr.
  replace (exp (- r)) with (exp (r * (z - 1)) * exp (- (r * z))) by (rewrite <- exp_plus; f_equal; ring). field. apply INR_fact_neq_0.
Qed.

Section Law.
Context (lam : R).
Hypothesis lam0 : 0 <= lam.
(** extinction probability by generation n of the line of one individual *)
Fixpoint ext (n : nat) : R := match n with O => 0 | S n' => exp (lam * (ext n' - 1)) end.
(** probability that the loop ends by generation n with total k *)
Fixpoint P (n : nat) (r : R) (k : nat) : R :=
  match n with
  | O => match k with O => poisson_pmf r 0 | _ => 0 end
  | S n' => diag (fun j i => poisson_pmf r j * P n' (lam * INR j) i) k
  end.
Lemma pow_exp x j : exp x ^ j = exp (INR j * x).
Proof. induction j; [cbn; rewrite Rmult_0_l, exp_0; auto|]. rewrite S_INR. cbn [pow]. rewrite IHj, <- exp_plus. f_equal. ring. Qed.
Lemma lj j : 0 <= lam * INR j. Proof. apply Rmult_le_pos; [auto|apply pos_INR]. Qed.
Lemma P0 n : forall r k, 0 <= r -> 0 <= P n r k.
Proof.
  induction n; intros r k H; cbn [P].
  - destruct k; [apply pois_nonneg; auto|lra].
  - apply diag0. intros j i. apply Rmult_le_pos; [apply pois_nonneg; auto|apply IHn, lj].
Qed.
Lemma P_series n : forall r, 0 <= r -> is_series (P n r) (exp (r * (ext n - 1))).
Proof.
  induction n; intros r H; cbn [ext].
  - replace (exp (r * (0 - 1))) with (P 0 r 0) by (cbn; unfold poisson_pmf; cbn; replace (r * (0 - 1)) with (- r) by ring; field).
    apply series_first. intros k. reflexivity.
  - apply (is_series_ext (diag (fun j i => poisson_pmf r j * P n (lam * INR j) i))); [reflexivity|].
    apply (diag_series _ (fun j => poisson_pmf r j * exp (lam * (ext n - 1)) ^ j)).
    + intros j i. apply Rmult_le_pos; [apply pois_nonneg; auto|apply P0, lj].
    + intros j. pose proof (IHn (lam * INR j) (lj j)) as K. apply (is_series_scal (poisson_pmf r j)) in K.
      replace (poisson_pmf r j * exp (lam * (ext n - 1)) ^ j) with (scal (poisson_pmf r j) (exp (lam * INR j * (ext n - 1)))); [exact K|].
      unfold scal; cbn; unfold mult; cbn. f_equal. rewrite pow_exp. f_equal. ring.
    + apply pois_pgf.
Qed.
Lemma ended_closed n : forall r, 0 <= r -> ended_by lam n r = exp (r * (ext n - 1)).
Proof.
  induction n; intros r H; cbn [ended_by ext].
  - unfold poisson_pmf. cbn. replace (r * (0 - 1)) with (- r) by ring. field.
  - apply is_series_unique. eapply is_series_ext; [|apply pois_pgf]. intros j. cbn. f_equal. destruct j as [|j]; [reflexivity|].
    rewrite IHn by apply lj. rewrite pow_exp. f_equal. ring.
Qed.
(** ** relation to the closed form *)
Lemma gp_zero k : gp lam 0 (S k) = 0.
Proof. unfold gp. unfold Rdiv. rewrite !Rmult_0_l. reflexivity. Qed.
Lemma gp_diag r k : gp lam r k = diag (fun j i => poisson_pmf r j * gp lam (lam * INR j) i) k.
Proof.
  unfold diag. destruct k as [|q].
  - rewrite sum_O. cbn. unfold poisson_pmf. cbn. rewrite Rmult_0_r, Ropp_0, exp_0. field.
  - rewrite gp_rec. rewrite sum_n_Reals. rewrite (decomp_sum _ (S q)) by lia. cbn [pred]. rewrite Nat.sub_0_r. change (INR 0) with 0. rewrite Rmult_0_r, gp_zero, Rmult_0_r, Rplus_0_l. reflexivity.
Qed.
Lemma gp0 r k : 0 <= r -> 0 <= gp lam r k.
Proof.
  intros H. destruct k as [|q]; unfold gp; [left; apply exp_pos|]. pose proof (fact_pos (S q)). apply Rdiv_le_0_compat; auto.
  apply Rmult_le_pos; [|left; apply exp_pos]. apply Rmult_le_pos; auto. apply pow_le. pose proof (lj (S q)). lra.
Qed.
Lemma P_le n : forall r k, 0 <= r -> P n r k <= gp lam r k.
Proof.
  induction n; intros r k H; cbn [P].
  - destruct k; [|apply gp0; auto]. unfold poisson_pmf. cbn. lra.
  - rewrite gp_diag. unfold diag. apply sum_le. intros j _. apply Rmult_le_compat_l; [apply pois_nonneg; auto|apply IHn, lj].
Qed.
Lemma pois0S j : poisson_pmf 0 (S j) = 0.
Proof. unfold poisson_pmf. cbn [pow]. unfold Rdiv. rewrite !Rmult_0_l. ring. Qed.
Lemma P_zero n k : P n 0 k = gp lam 0 k.
Proof.
  revert k. induction n; intros k.
  - destruct k; [cbn; unfold poisson_pmf; cbn; field|]. rewrite gp_zero. reflexivity.
  - cbn [P]. rewrite gp_diag. unfold diag. apply sum_n_ext. intros [|j]; [change (INR 0) with 0; rewrite Rmult_0_r, IHn; auto|]. rewrite pois0S. rewrite !Rmult_0_l. reflexivity.
Qed.
Lemma P_eq n : forall r k, (k <= n)%nat -> P n r k = gp lam r k.
Proof.
  induction n; intros r k L.
  - replace k with 0%nat by lia. cbn. unfold poisson_pmf. cbn. field.
  - cbn [P]. rewrite gp_diag. unfold diag. apply sum_n_ext_loc. intros [|j] Hj; f_equal; [change (INR 0) with 0; rewrite Rmult_0_r; apply P_zero|]. apply IHn. lia.
Qed.
Hypothesis lam1 : lam <= 1.
Lemma exp_le x y : x <= y -> exp x <= exp y.
Proof. intros [H| ->]; [left; apply exp_increasing; auto|lra]. Qed.
Lemma ext_bounds n : 0 <= ext n <= 1.
Proof.
  induction n; cbn [ext]; [lra|]. split; [left; apply exp_pos|]. apply Rle_trans with (exp 0); [apply exp_le; nra|rewrite exp_0; lra].
Qed.
Lemma ext_incr n : ext n <= ext (S n).
Proof.
  induction n; [cbn; left; apply exp_pos|]. change (exp (lam * (ext n - 1)) <= exp (lam * (ext (S n) - 1))). apply exp_le. apply Rmult_le_compat_l; lra.
Qed.
Lemma ext_lim : is_lim_seq ext 1.
Proof.
  destruct (ex_finite_lim_seq_incr ext 1 ext_incr (fun n => proj2 (ext_bounds n))) as (s&Hs).
  assert (S1 : s <= 1) by (pose proof (is_lim_seq_le ext (fun _ => 1) s 1 (fun n => proj2 (ext_bounds n)) Hs (is_lim_seq_const 1)) as K; exact K).
  assert (Fix : s = exp (lam * (s - 1))).
  { pose proof (is_lim_seq_incr_1 ext s) as [K _]. specialize (K Hs).
    assert (K2 : is_lim_seq (fun n => ext (S n)) (exp (lam * (s - 1)))).
    { apply (is_lim_seq_continuous (fun z => exp (lam * (z - 1))) ext s); [|exact Hs].
      apply continuity_pt_filterlim. apply (continuous_comp (fun z => lam * (z - 1)) exp); [|apply continuous_exp].
      apply (continuous_mult (fun _ => lam) (fun z => z - 1)); [apply continuous_const|]. apply (continuous_minus (fun z => z) (fun _ => 1)); [apply continuous_id|apply continuous_const]. }
    apply is_lim_seq_unique in K. apply is_lim_seq_unique in K2. congruence. }
  destruct (Rle_lt_or_eq_dec s 1 S1) as [Lt| ->]; [exfalso|auto].
  assert (D : s - 1 <= lam * (s - 1)) by nra. apply exp_le in D. rewrite <- Fix in D. pose proof (exp_ineq1 (s - 1)). lra.
Qed.
Lemma ended_lim r : 0 <= r -> is_lim_seq (fun n => ended_by lam n r) 1.
Proof.
  intros H. apply (is_lim_seq_ext (fun n => exp (r * (ext n - 1)))); [intros; symmetry; apply ended_closed; auto|].
  assert (E1 : 1 = exp (r * (1 - 1))) by (replace (r * (1 - 1)) with 0 by ring; rewrite exp_0; auto). replace (Finite 1) with (Finite (exp (r * (1 - 1)))) by (f_equal; symmetry; exact E1).
  apply (is_lim_seq_continuous (fun z => exp (r * (z - 1))) ext 1); [|apply ext_lim].
  apply continuity_pt_filterlim. apply (continuous_comp (fun z => r * (z - 1)) exp); [|apply continuous_exp].
  apply (continuous_mult (fun _ => r) (fun z => z - 1)); [apply continuous_const|]. apply (continuous_minus (fun z => z) (fun _ => 1)); [apply continuous_id|apply continuous_const].
Qed.
Lemma gp_total r : 0 <= r -> is_series (gp lam r) 1.
Proof.
  intros H. destruct (incr_series (gp lam r) 1) as (s&Hs&Ls).
  - intros k. apply gp0; auto.
  - intros K. apply Rle_trans with (sum_n (P K r) K); [right; apply sum_n_ext_loc; intros; symmetry; apply P_eq; auto|].
    apply Rle_trans with (exp (r * (ext K - 1))); [apply sum_le_series; [intros; apply P0; auto|apply P_series; auto]|].
    apply Rle_trans with (exp 0); [apply exp_le; pose proof (ext_bounds K); nra|rewrite exp_0; lra].
  - replace 1 with s; [exact Hs|]. apply Rle_antisym; auto.
    assert (Q : forall n, ended_by lam n r <= s).
    { intros n. rewrite ended_closed by auto.
      refine (is_lim_seq_le (sum_n (P n r)) (sum_n (gp lam r)) (exp (r * (ext n - 1))) s _ (P_series n r H) Hs).
      intros i. apply sum_le. intros; apply P_le; auto. }
    pose proof (is_lim_seq_le _ (fun _ => s) 1 s Q (ended_lim r H) (is_lim_seq_const s)) as K. exact K.
Qed.
End Law.
