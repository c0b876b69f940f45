(** The moments of the beta negative binomial distribution. *)
From Coq Require Import Reals Lra Lia Psatz.
From Coquelicot Require Import Coquelicot.
From Verif Require Import Common Chi_Spec Chi_Props Gam_Analysis Bnb_Spec Bnb_Analysis.
Local Open Scope R_scope.

Section Moments.
Context (Gm : R -> R) (HG : gamma_function Gm).
Lemma shift a b r x : 1 < a -> 0 < b -> 0 < r -> INR (S x) * P Gm a b r (S x) = r * b / (a - 1) * P Gm (a - 1) (b + 1) (r + 1) x.
Proof.
  intros Ha Hb Hr. pose proof (pos_INR x). unfold P. rewrite S_INR, fact_simpl, mult_INR, S_INR.
  replace (r + (INR x + 1)) with (r + INR x + 1) by ring. replace (r + 1 + INR x) with (r + INR x + 1) by ring.
  replace (a - 1 + (b + 1)) with (a + b) by ring. replace (r + 1 + (a - 1)) with (r + a) by ring. replace (INR x + (b + 1)) with (INR x + 1 + b) by ring.
  rewrite (Grec Gm HG b), (Grec Gm HG r) by assumption.
  replace (Gm a) with ((a - 1) * Gm (a - 1)) by (rewrite <- (Grec Gm HG) by lra; f_equal; ring).
  pose proof (Gpos Gm HG (r + INR x + 1 + (a + b)) ltac:(lra)). pose proof (Gpos Gm HG r Hr). pose proof (Gpos Gm HG (a - 1) ltac:(lra)). pose proof (Gpos Gm HG b Hb). pose proof (INR_fact_lt_0 x).
  field. repeat split; lra.
Qed.
Lemma series_shift0 (f : nat -> R) (l : R) : f 0%nat = 0 -> is_series (fun n => f (S n)) l -> is_series f l.
Proof. intros H0 H. apply is_series_decr_1. rewrite H0. match goal with |- is_series _ ?z => replace z with l end; [exact H|]. unfold plus, opp. simpl. ring. Qed.
Lemma series_scale (c : R) (f : nat -> R) (l : R) : is_series f l -> is_series (fun n => c * f n) (c * l).
Proof. intros H. exact (is_series_scal c f l H). Qed.
Lemma mean_series a b r : 1 < a -> 0 < b -> 0 < r -> is_series (fun x => INR x * P Gm a b r x) (r * b / (a - 1)).
Proof.
  intros Ha Hb Hr. apply series_shift0; [cbn [INR]; ring|]. apply is_series_ext with (fun x => r * b / (a - 1) * P Gm (a - 1) (b + 1) (r + 1) x); [intros x; symmetry; apply shift; assumption|].
  pose proof (series_scale (r * b / (a - 1)) _ _ (P_total Gm HG (b + 1) (r + 1) ltac:(lra) ltac:(lra) (a - 1) ltac:(lra))) as Q. rewrite Rmult_1_r in Q. exact Q.
Qed.
Lemma fact2_series a b r : 2 < a -> 0 < b -> 0 < r ->
  is_series (fun x => INR x * (INR x - 1) * P Gm a b r x) (r * (r + 1) * (b * (b + 1)) / ((a - 1) * (a - 2))).
Proof.
  intros Ha Hb Hr. apply series_shift0; [cbn [INR]; ring|].
  apply is_series_ext with (fun x => r * b / (a - 1) * (INR x * P Gm (a - 1) (b + 1) (r + 1) x)).
  - intros x. replace (INR (S x) * (INR (S x) - 1) * P Gm a b r (S x)) with ((INR (S x) - 1) * (INR (S x) * P Gm a b r (S x))) by ring. rewrite shift by lra. rewrite S_INR. match goal with |- @eq _ ?a ?b => change (@eq R a b) end. ring.
  - replace (r * (r + 1) * (b * (b + 1)) / ((a - 1) * (a - 2))) with (r * b / (a - 1) * ((r + 1) * (b + 1) / (a - 1 - 1))) by (field; lra).
    apply series_scale. apply mean_series; lra.
Qed.
Lemma variance_series a b r : 2 < a -> 0 < b -> 0 < r -> is_series (fun x => (INR x - bnb_mean a b r) ^ 2 * P Gm a b r x) (bnb_variance a b r).
Proof.
  intros Ha Hb Hr. set (m := bnb_mean a b r).
  pose proof (fact2_series a b r Ha Hb Hr) as S2. pose proof (mean_series a b r ltac:(lra) Hb Hr) as S1. pose proof (P_total Gm HG b r Hb Hr a ltac:(lra)) as S0.
  apply (series_scale (1 - 2 * m)) in S1. apply (series_scale (m ^ 2)) in S0. pose proof (is_series_plus _ _ _ _ S2 (is_series_plus _ _ _ _ S1 S0)) as Q.
  replace (bnb_variance a b r) with (plus (r * (r + 1) * (b * (b + 1)) / ((a - 1) * (a - 2))) (plus ((1 - 2 * m) * (r * b / (a - 1))) (m ^ 2 * 1))).
  - apply is_series_ext with (2 := Q). intros x. unfold plus. simpl. match goal with |- @eq _ ?a ?b => change (@eq R a b) end. ring.
  - unfold plus, m, bnb_mean, bnb_variance. simpl. field. lra.
Qed.
(** where the moments are infinite *)
Lemma grow a b r k (x0 : nat) : 0 < a <= INR k -> 0 < b -> 0 < r -> (k = 1 \/ k = 2)%nat ->
  forall x, (1 <= x)%nat -> P Gm a b r 1 <= INR x ^ (k + 1) * P Gm a b r x.
Proof.
  intros [Ha Hk] Hb Hr K. induction x as [|x IH]; [lia|]. intros _. destruct (Nat.eq_dec x 0) as [->|N].
  - cbn [INR]. rewrite pow1. lra.
  - specialize (IH ltac:(lia)). assert (X : 1 <= INR x) by (replace 1 with (INR 1) by reflexivity; apply le_INR; lia). pose proof (Ppos Gm HG b r Hb Hr a x Ha) as PP. eapply Rle_trans; [exact IH|].
    rewrite (Pstep Gm HG b r Hb Hr a x Ha), S_INR. set (p := P Gm a b r x) in *. set (t := INR x) in *.
    replace ((t + 1) ^ (k + 1) * (p * ((r + t) * (t + b) / ((r + t + a + b) * (t + 1))))) with (p * ((t + 1) ^ k * ((r + t) * (t + b)) / (r + t + a + b))).
    2:{ rewrite pow_add. field. split; lra. }
    rewrite Rmult_comm. apply Rmult_le_compat_l; [lra|]. apply Rmult_le_reg_r with (r + t + a + b); [lra|]. unfold Rdiv. rewrite Rmult_assoc, Rinv_l, Rmult_1_r by lra.
    destruct K as [-> | ->]; cbn [Nat.add INR] in *.
    + assert (0 <= (1 - a) * t ^ 2) by (apply Rmult_le_pos; [lra | apply pow2_ge_0]). assert (0 < r * b) by (apply Rmult_lt_0_compat; assumption). assert (0 < r * t) by (apply Rmult_lt_0_compat; lra). assert (0 < b * t) by (apply Rmult_lt_0_compat; lra).
      assert (0 < r * b * t) by (apply Rmult_lt_0_compat; lra). nra.
    + assert (0 <= (2 - a) * t ^ 3) by (apply Rmult_le_pos; [lra | apply pow_le; lra]).
      assert (E : (t + 1) ^ 2 * ((r + t) * (t + b)) - t ^ (2 + 1) * (r + t + a + b) = (2 - a) * t ^ 3 + (r * b * t ^ 2 + 2 * (r + b) * t ^ 2 + t ^ 2 + 2 * (r * b) * t + (r + b) * t + r * b)) by (cbn [Nat.add]; ring).
      assert (0 < r * b) by (apply Rmult_lt_0_compat; assumption). assert (0 < t ^ 2) by (apply pow_lt; lra). assert (0 < r * b * t ^ 2) by (apply Rmult_lt_0_compat; assumption). assert (0 < 2 * (r + b) * t ^ 2) by (apply Rmult_lt_0_compat; lra).
      assert (0 < 2 * (r * b) * t) by (apply Rmult_lt_0_compat; lra). assert (0 < (r + b) * t) by (apply Rmult_lt_0_compat; lra). cbn [Nat.add] in *. lra.
Qed.
Lemma mean_oo a b r : 0 < a <= 1 -> 0 < b -> 0 < r -> diverges (fun x => INR x * P Gm a b r x).
Proof.
  intros Ha Hb Hr. assert (NN : forall n, 0 <= INR n * P Gm a b r n) by (intros n; apply Rmult_le_pos; [apply pos_INR | apply Rlt_le, Ppos; try lra; exact HG]).
  destruct (series_or_oo _ NN) as [E|D]; [exfalso | exact D]. revert E. apply (harmonic _ (P Gm a b r 1) 1); [apply Ppos; try lra; exact HG | exact NN|].
  intros n Hn. pose proof (grow a b r 1 0 ltac:(cbn; lra) Hb Hr ltac:(lia) n Hn) as Q. cbn [Nat.add] in Q. lra.
Qed.
Lemma variance_oo a b r m : 0 < a <= 2 -> 0 < b -> 0 < r -> diverges (fun x => (INR x - m) ^ 2 * P Gm a b r x).
Proof.
  intros Ha Hb Hr. assert (PP : forall n, 0 < P Gm a b r n) by (intros n; apply Ppos; try lra; exact HG).
  assert (NN : forall n, 0 <= (INR n - m) ^ 2 * P Gm a b r n) by (intros n; apply Rmult_le_pos; [apply pow2_ge_0 | apply Rlt_le, PP]).
  destruct (series_or_oo _ NN) as [E|D]; [exfalso | exact D]. revert E.
  assert (Em : exists M, 2 * Rabs m <= INR M). { destruct (nfloor_ex (2 * Rabs m)) as [M HM]; [pose proof (Rabs_pos m); lra|]. exists (S M). rewrite S_INR. lra. } destruct Em as [M HM].
  apply (harmonic _ (P Gm a b r 1 / 4) (S M)); [specialize (PP 1%nat); lra | exact NN|].
  intros n Hn. pose proof (grow a b r 2 0 ltac:(cbn; lra) Hb Hr ltac:(lia) n ltac:(lia)) as Q. cbn [Nat.add] in Q. assert (Hn' : 2 * Rabs m <= INR n) by (eapply Rle_trans; [exact HM | apply le_INR; lia]).
  pose proof (PP n) as Pn. set (t := INR n) in *. set (p := P Gm a b r n) in *. assert (T : 0 <= t) by apply pos_INR.
  assert (D : t ^ 2 / 4 <= (t - m) ^ 2). { assert (t / 2 <= t - m) by (pose proof (Rle_abs m); lra). nra. }
  assert (W : t * p * (t ^ 2 / 4) <= t * p * (t - m) ^ 2) by (apply Rmult_le_compat_l; [apply Rmult_le_pos; lra | exact D]). lra.
Qed.
End Moments.
