(** C90: draws of GeneralizedPoisson with lam >= 0 follow its logp, the sampler ends with probability one, and the documented total, mean and variance. *)
From Coq Require Import Reals List Arith Lia Lra ZArith.
From Coquelicot Require Import Coquelicot.
From Verif Require Import Common LogR Dist_Model Dist_Props Branch_Model Branch_Spec Branch_Proofs Branch_Series Branch_Moments Skellam_Props.
Import ListNotations.
Open Scope R_scope.

(** exp(logp) at the natural number k, and the sum of a series over the whole support *)
Definition mass (mu lam : R) (k : nat) : R := match gp_logp (Z.of_nat k) mu lam with Ok l => lexp l | Err _ => 0 end.

Lemma gp_is_pmf mu lam k : 0 < mu -> 0 <= lam -> gp lam mu k = gp_pmf mu lam k.
Proof.
  intros H1 H2. unfold gp_pmf. destruct k as [|q].
  - cbn [gp]. change (INR 0) with 0. change (Z.of_nat 0 - 1)%Z with (-1)%Z. change (INR (fact 0)) with 1. rewrite Rmult_0_r, Rplus_0_r, Rminus_0_r.
    change (powerRZ mu (-1)) with (/ (mu ^ 1)). rewrite pow_1. field. lra.
  - cbn [gp]. replace (Z.of_nat (S q) - 1)%Z with (Z.of_nat q) by lia. rewrite <- pow_powerRZ. reflexivity.
Qed.
Lemma mass_gp mu lam k : 0 < mu -> 0 <= lam <= 1 -> mass mu lam k = gp lam mu k.
Proof.
  intros H1 H2. pose proof (pos_INR k). destruct (C70_logp_is_pmf mu lam k) as (l&E&EL); [unfold gp_valid; lra|nra|]. unfold mass. rewrite E, EL. symmetry. apply gp_is_pmf; lra.
Qed.
(* THEOREMS *)

(** What an entry of the result is, whatever the generator returns: where lam >= 0, the total of the history drawn for that entry - the entry's own first generation at rate theta,
    then generations at lam times the size of the last one, until one is empty - although the loop runs on the whole array until every entry has ended. *)
Theorem C90_entry_is_total_of_its_history m draw theta lam fuel inv x i :
  (forall k i, draw k i 0 = 0%nat) -> rng_fn m draw theta lam fuel inv = Some x -> (i < m)%nat -> 0 <= lam i ->
  exists h, history h /\ follows (fun k r => draw k i r) (lam i) 0 (theta i) h /\ x i = list_sum h /\
    (forall h', history h' -> follows (fun k r => draw k i r) (lam i) 0 (theta i) h' -> h' = h).
Proof.
  intros Z E L P. unfold rng_fn in E. destruct (existsb _ _) eqn:A.
  2:{ exfalso. assert (existsb (fun i => negb (if Rlt_dec (lam i) 0 then true else false)) (seq 0 m) = true); [|congruence].
      apply existsb_exists. exists i. split; [apply in_seq; lia|]. destruct (Rlt_dec (lam i) 0); [lra|auto]. }
  destruct (branching_rng_fn _ _ _ _ _ _) as [b|] eqn:B; [|discriminate]. injection E as <-. unfold branching_rng_fn in B.
  assert (M : negb (if Rlt_dec (lam i) 0 then true else false) = true) by (destruct (Rlt_dec (lam i) 0); [lra|auto]). rewrite M.
  apply (loop_follows m draw lam Z) with (i := i) in B; auto. destruct B as (h&Hh&F&Eb). assert (EL : lam_abs lam i = lam i) by (apply Rabs_pos_eq; auto). rewrite EL in F.
  assert (Q : exists h0, history h0 /\ follows (fun k r => draw k i r) (lam i) 0 (theta i) h0 /\ b i = list_sum h0).
  { destruct (draw 0%nat i (theta i)) as [|q] eqn:D.
    - exists []. split; [constructor|]. split; [exact D|]. rewrite Eb. destruct h as [|a h]; auto. cbn [follows INR] in F. rewrite Rmult_0_r, Z in F. destruct F as (<-&_). inversion Hh; lia.
    - exists (S q :: h). split; [constructor; [lia|auto]|]. split; [cbn [follows]; auto|]. rewrite Eb. reflexivity. }
  destruct Q as (h0&H0&F0&E0). exists h0. repeat split; auto. intros h' H' F'. eapply follows_unique; eauto.
Qed.
Print Assumptions C90_entry_is_total_of_its_history.

(** ... and the loop ends as soon as every entry's history has. *)
Theorem C90_loop_ends m draw theta lam fuel inv :
  (forall k i, draw k i 0 = 0%nat) ->
  (forall i, (i < m)%nat -> 0 <= lam i -> exists h, history h /\ (length h <= fuel)%nat /\ follows (fun k r => draw k i r) (lam i) 0 (theta i) h) ->
  exists x, rng_fn m draw theta lam fuel inv = Some x.
Proof.
  intros Z H. unfold rng_fn. destruct (existsb _ _); eauto. unfold branching_rng_fn.
  destruct (loop_ends m draw lam Z fuel 1 (fun i => negb (if Rlt_dec (lam i) 0 then true else false)) (fun i => draw 0%nat i (theta i)) (fun i => draw 0%nat i (theta i)) (fun i => Nat.ltb 0 (draw 0%nat i (theta i)))) as (b&->); eauto.
  intros i L M. destruct (Rlt_dec (lam i) 0); [discriminate|]. destruct (H i L ltac:(lra)) as (h&Hh&Lh&F). destruct h as [|a h]; cbn [follows] in F; [auto|]. destruct F as (E&F).
  right. exists h. cbn in Lh. inversion Hh; subst. split; [auto|]. split; [lia|]. unfold lam_abs. rewrite Rabs_pos_eq by lra. auto.
Qed.
Print Assumptions C90_loop_ends.

(** The histories with total k, each once, have together exactly the probability that logp gives to k. *)
Theorem C90_law_is_logp mu lam k : 0 < mu -> 0 <= lam <= 1 ->
  exists L, NoDup L /\ (forall h, In h L <-> history h /\ list_sum h = k) /\ lsum (map (history_prob lam mu) L) = mass mu lam k.
Proof.
  intros H1 H2. exists (comps k). split; [apply comps_f_nodup|]. split; [apply comps_in|]. unfold comps. rewrite law_f by auto. symmetry. apply mass_gp; auto.
Qed.
Print Assumptions C90_law_is_logp.

(** The loop ends with probability one, over the whole documented range of lam. *)
Theorem C90_ends_almost_surely mu lam : 0 <= mu -> 0 <= lam <= 1 -> is_lim_seq (fun n => ended_by lam n mu) 1.
Proof. intros H1 H2. apply ended_lim; lra. Qed.
Print Assumptions C90_ends_almost_surely.

(** exp(logp) sums to one ... *)
Theorem C90_total mu lam : 0 < mu -> 0 <= lam <= 1 -> is_series (mass mu lam) 1.
Proof. intros H1 H2. apply (is_series_ext (gp lam mu)); [intros; symmetry; apply mass_gp; auto|]. apply gp_total; lra. Qed.
Print Assumptions C90_total.
(** ... and has the documented mean and variance *)
Theorem C90_mean mu lam : 0 < mu -> 0 <= lam < 1 -> is_series (fun k => INR k * mass mu lam k) (mu / (1 - lam)).
Proof.
  intros H1 H2. apply (is_series_ext (fun k => INR k * gp lam mu k)); [intros; rewrite mass_gp by lra; auto|]. rewrite <- (mean_gp lam) by lra. apply m1_is; lra.
Qed.
Print Assumptions C90_mean.
Theorem C90_variance mu lam : 0 < mu -> 0 <= lam < 1 -> is_series (fun k => (INR k - mu / (1 - lam)) ^ 2 * mass mu lam k) (mu / (1 - lam) ^ 3).
Proof.
  intros H1 H2. apply (is_series_ext (fun k => (INR k - mu / (1 - lam)) ^ 2 * gp lam mu k)); [intros; rewrite mass_gp by lra; auto|]. apply variance_gp; lra.
Qed.
Print Assumptions C90_variance.

(** For lam < 0 the documented pmf is not a distribution: at mu = 4, lam = -1 - inside the documented range - it sums to more than one. *)
Lemma exp_lower : 0.3676 <= exp (- 1).
Proof.
  assert (E : exp (-1) = exp (- / 1024) ^ 1024) by (rewrite pow_exp; f_equal; rewrite INR_IZR_INZ; cbn [Z.of_nat]; simpl IZR; lra).
  assert (A : 1 + - / 1024 <= exp (- / 1024)) by (pose proof (exp_ineq1_le (- / 1024)); lra).
  rewrite E. apply Rle_trans with ((1 + - / 1024) ^ 1024); [|apply pow_incr; lra].
  replace 1024%nat with (2 * (2 * (2 * (2 * (2 * (2 * (2 * (2 * (2 * 2)))))))))%nat by reflexivity. rewrite !pow_mult.
  assert (Q : forall x y : R, 0 <= x -> x <= y -> x ^ 2 <= y ^ 2) by (intros; apply pow_incr; auto).
  assert (T : forall x y z : R, 0 <= x -> x <= y -> z <= x ^ 2 -> z <= y ^ 2) by (intros x y z X Y Zz; apply Rle_trans with (x ^ 2); auto).
  apply T with 0.6063758; [lra| |lra]. apply T with 0.7787014; [lra| |lra]. apply T with 0.8824406; [lra| |lra]. apply T with 0.9393831; [lra| |lra]. apply T with 0.9692178; [lra| |lra]. apply T with 0.9844886; [lra| |lra]. apply T with 0.992214; [lra| |lra]. apply T with 0.9960994; [lra| |lra]. apply T with 0.9980478; [lra| |lra]. lra.
Qed.
Theorem C90_negative_lam_total_refuted : gp_valid 4 (-1) /\ exists s, is_series (mass 4 (-1)) s /\ 1 < s.
Proof.
  split; [unfold gp_valid; lra|].
  assert (Z4 : forall k, mass 4 (-1) (4 + k) = 0).
  { intros k. unfold mass. destruct k as [|k].
    - rewrite C70_logp_boundary; [reflexivity|unfold gp_valid; lra|lia|simpl; lra].
    - rewrite C70_logp_outside; [reflexivity|unfold gp_valid; lra|]. right. rewrite <- INR_IZR_INZ. rewrite plus_INR, (S_INR k). replace (INR 4) with 4 by (simpl; lra). pose proof (pos_INR k). lra. }
  assert (V : forall k, 0 < 4 + -1 * INR k -> mass 4 (-1) k = gp_pmf 4 (-1) k).
  { intros k Hk. destruct (C70_logp_is_pmf 4 (-1) k) as (l&E&EL); [unfold gp_valid; lra|auto|]. unfold mass. rewrite E. auto. }
  exists (sum_n (mass 4 (-1)) 3). split.
  - assert (C3 : forall n, sum_n (mass 4 (-1)) (3 + n) = sum_n (mass 4 (-1)) 3) by (induction n; [auto|rewrite Nat.add_succ_r, sum_SR, IHn; change (S (3 + n)) with (4 + n)%nat; rewrite Z4; apply Rplus_0_r]).
    change (is_lim_seq (sum_n (mass 4 (-1))) (sum_n (mass 4 (-1)) 3)). apply (is_lim_seq_incr_n (sum_n (mass 4 (-1))) 3). apply (is_lim_seq_ext (fun _ => sum_n (mass 4 (-1)) 3)); [intros n; rewrite Nat.add_comm, C3; auto|apply is_lim_seq_const].
  - rewrite !sum_SR, sum_O. rewrite !V by (simpl; lra). pose proof exp_lower as X. set (z := exp (-1)) in *.
    assert (Ez : forall n, z ^ n = exp (INR n * -1)) by (intros; unfold z; rewrite pow_exp; reflexivity).
    assert (E0 : gp_pmf 4 (-1) 0 = z ^ 4) by (rewrite pmf_0 by lra; rewrite Ez; f_equal; simpl; lra).
    assert (E1 : gp_pmf 4 (-1) 1 = 4 * z ^ 3) by (unfold gp_pmf; rewrite Ez; replace (- (4) - -1 * INR 1) with (INR 3 * -1) by (simpl; lra); replace (4 + -1 * INR 1) with 3 by (simpl; lra); replace (INR (fact 1)) with 1 by (simpl; lra); change (Z.of_nat 1 - 1)%Z with (Z.of_nat 0); rewrite <- pow_powerRZ; field).
    assert (E2 : gp_pmf 4 (-1) 2 = 4 * z ^ 2) by (unfold gp_pmf; rewrite Ez; replace (- (4) - -1 * INR 2) with (INR 2 * -1) by (simpl; lra); replace (4 + -1 * INR 2) with 2 by (simpl; lra); replace (INR (fact 2)) with 2 by (simpl; lra); change (Z.of_nat 2 - 1)%Z with (Z.of_nat 1); rewrite <- pow_powerRZ; field).
    assert (E3 : gp_pmf 4 (-1) 3 = 2 / 3 * z ^ 1) by (unfold gp_pmf; rewrite Ez; replace (- (4) - -1 * INR 3) with (INR 1 * -1) by (simpl; lra); replace (4 + -1 * INR 3) with 1 by (simpl; lra); replace (INR (fact 3)) with 6 by (simpl; lra); change (Z.of_nat 3 - 1)%Z with (Z.of_nat 2); rewrite <- pow_powerRZ; field).
    rewrite E0, E1, E2, E3.
    rewrite pow_1. assert (P : forall n, 0.3676 ^ n <= z ^ n) by (intros; apply pow_incr; lra). pose proof (P 2%nat). pose proof (P 3%nat). pose proof (P 4%nat). lra.
Qed.
Print Assumptions C90_negative_lam_total_refuted.

(** The hypotheses can be met: two entries, rates 3 and 1, lam 1/2 and 0; entry 0 draws 2, then 1, then nothing, entry 1 draws 4 - a total of 3 and 4. *)
Definition ex_draw (k i : nat) (r : R) : nat :=
  if Rle_dec r 0 then 0%nat else match i, k with 0, 0 => 2 | 0, 1 => 1 | 1, 0 => 4 | _, _ => 0 end%nat.
Example C90_example : exists x, rng_fn 2 ex_draw (fun i => match i with 0%nat => 3 | _ => 1 end) (fun i => match i with 0%nat => 1/2 | _ => 0 end) 2 (fun _ => 0%nat) = Some x /\ x 0%nat = 3%nat /\ x 1%nat = 4%nat.
Proof.
  assert (Z : forall k i, ex_draw k i 0 = 0%nat) by (intros; unfold ex_draw; destruct (Rle_dec 0 0); [auto|lra]).
  assert (F0 : follows (fun k r => ex_draw k 0 r) (1/2) 0 3 [2; 1]%nat).
  { cbn [follows]. unfold ex_draw. destruct (Rle_dec 3 0); [lra|]. split; auto. simpl INR. destruct (Rle_dec (1/2 * (1+1)) 0); [lra|]. split; auto. destruct (Rle_dec (1/2 * 1) 0); auto. }
  assert (F1 : follows (fun k r => ex_draw k 1 r) 0 0 1 [4]%nat).
  { cbn [follows]. unfold ex_draw. destruct (Rle_dec 1 0); [lra|]. split; auto. destruct (Rle_dec (0 * INR 4) 0); auto. }
  assert (H0 : history [2; 1]%nat) by (repeat constructor). assert (H1 : history [4]%nat) by (repeat constructor).
  destruct (C90_loop_ends 2 ex_draw (fun i => match i with 0%nat => 3 | _ => 1 end) (fun i => match i with 0%nat => 1/2 | _ => 0 end) 2 (fun _ => 0%nat) Z) as (x&E).
  - intros [|[|i]] L _; [exists [2;1]%nat; split; [exact H0|split; [cbn; lia|exact F0]]|exists [4]%nat; split; [exact H1|split; [cbn; lia|exact F1]]|lia].
  - exists x. split; [exact E|]. split.
    + destruct (C90_entry_is_total_of_its_history _ _ _ _ _ _ _ 0%nat Z E) as (h&_&_&->&U); [lia|lra|]. rewrite <- (U [2;1]%nat H0 F0). reflexivity.
    + destruct (C90_entry_is_total_of_its_history _ _ _ _ _ _ _ 1%nat Z E) as (h&_&_&->&U); [lia|lra|]. rewrite <- (U [4]%nat H1 F1). reflexivity.
Qed.
