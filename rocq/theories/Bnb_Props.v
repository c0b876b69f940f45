(** * C96: BetaNegativeBinomial has the documented pmf, mean and variance. *)
From Coq Require Import Reals ZArith Lra Lia.
From Coquelicot Require Import Coquelicot.
From Verif Require Import Common LogR Dist_Model Chi_Spec Chi_Analysis Chi_Props Gam_Analysis Bnb_Spec Bnb_Analysis Bnb_Moments.
Local Open Scope R_scope.

(** there is a Gamma function *)
Definition Gam (s : R) : R := RInt_gen (fun t => Rpower t (s - 1) * exp (- t)) (at_right 0) (Rbar_locally p_infty).
Lemma Gam_gamma : gamma_function Gam.
Proof. intros s Hs. destruct (gamma_exists s Hs) as [G HGs]. unfold is_Gamma, integral_0_oo, Gam. refine (@RInt_gen_correct R_CompleteNormedModule _ _ _ _ _ _). exists G. exact HGs. Qed.
(** the probability the code's log-density stands for *)
Definition prob_of (l : res lr) : R := match l with Ok (Fin v) => exp v | _ => 0 end.

Section Claim.
Context (Gm lgam : R -> R) (HG : gamma_function Gm).
(** gammaln *)
Context (HL : forall s, 0 < s -> lgam s = ln (Gm s)).
Context (alpha beta r : R).

Lemma pmf_P x : 0 < alpha -> 0 < beta -> 0 < r -> bnb_pmf Gm alpha beta r x = P Gm alpha beta r x.
Proof.
  intros Ha Hb Hr. pose proof (pos_INR x). unfold bnb_pmf, Beta, P.
  pose proof (Gpos Gm HG (r + INR x + (alpha + beta)) ltac:(lra)). pose proof (Gpos Gm HG r Hr). pose proof (Gpos Gm HG alpha Ha). pose proof (Gpos Gm HG beta Hb).
  pose proof (Gpos Gm HG (r + alpha) ltac:(lra)). pose proof (Gpos Gm HG (r + INR x) ltac:(lra)). pose proof (INR_fact_lt_0 x). field. repeat split; lra.
Qed.

(** the log-probability the code returns for x = 0, 1, 2, ... is the logarithm of the documented pmf, which is positive *)
Theorem C96_pmf (x : nat) : 0 < alpha -> 0 < beta -> 0 < r ->
  0 < bnb_pmf Gm alpha beta r x /\ bnb_logp lgam (Z.of_nat x) alpha beta r = Ok (Fin (ln (bnb_pmf Gm alpha beta r x))).
Proof.
  intros Ha Hb Hr. split; [rewrite pmf_P by assumption; apply Ppos; assumption|].
  unfold bnb_logp, ltb. destruct (Rlt_dec 0 alpha); [|contradiction]. destruct (Rlt_dec 0 beta); [|contradiction]. destruct (Rlt_dec 0 r); [|contradiction]. cbn [andb].
  replace (Z.of_nat x <? 0)%Z with false by (symmetry; apply Z.ltb_ge; lia). f_equal. f_equal. unfold bnb_pmf, Beta, betaln, factln. rewrite Nat2Z.id, <- INR_IZR_INZ. pose proof (pos_INR x).
  pose proof (Gpos Gm HG (r + INR x + (alpha + beta)) ltac:(lra)). pose proof (Gpos Gm HG r Hr). pose proof (Gpos Gm HG alpha Ha). pose proof (Gpos Gm HG beta Hb). pose proof (Gpos Gm HG (alpha + beta) ltac:(lra)). pose proof (Gpos Gm HG (INR x + beta) ltac:(lra)).
  pose proof (Gpos Gm HG (r + alpha) ltac:(lra)). pose proof (Gpos Gm HG (r + INR x) ltac:(lra)). pose proof (INR_fact_lt_0 x).
  rewrite !HL by lra. rewrite ln_mult, !ln_div, !ln_mult by (repeat first [apply Rdiv_lt_0_compat | apply Rmult_lt_0_compat]; assumption).
  rewrite ?ln_div, ?ln_mult by (repeat first [apply Rdiv_lt_0_compat | apply Rmult_lt_0_compat]; assumption). ring.
Qed.
(** a negative value has probability zero *)
Theorem C96_support (z : Z) : 0 < alpha -> 0 < beta -> 0 < r -> (z < 0)%Z -> bnb_logp lgam z alpha beta r = Ok NInf.
Proof.
  intros Ha Hb Hr Hz. unfold bnb_logp, ltb. destruct (Rlt_dec 0 alpha); [|contradiction]. destruct (Rlt_dec 0 beta); [|contradiction]. destruct (Rlt_dec 0 r); [|contradiction]. cbn [andb].
  replace (z <? 0)%Z with true by (symmetry; apply Z.ltb_lt; exact Hz). reflexivity.
Qed.
(** a parameter that is not positive is an error, whatever the value *)
Theorem C96_bad_parameters (z : Z) : alpha <= 0 \/ beta <= 0 \/ r <= 0 <-> bnb_logp lgam z alpha beta r = Err ValueError.
Proof.
  unfold bnb_logp, ltb. destruct (Rlt_dec 0 alpha), (Rlt_dec 0 beta), (Rlt_dec 0 r); cbn [andb]; split; intros H; try reflexivity; try discriminate; try lra.
Qed.

Let prob (x : nat) : R := prob_of (bnb_logp lgam (Z.of_nat x) alpha beta r).
Lemma prob_P x : 0 < alpha -> 0 < beta -> 0 < r -> prob x = P Gm alpha beta r x.
Proof. intros Ha Hb Hr. unfold prob. destruct (C96_pmf x Ha Hb Hr) as [Hp ->]. cbn [prob_of]. rewrite exp_ln by exact Hp. apply pmf_P; assumption. Qed.

(** the probabilities add up to one *)
Theorem C96_total_mass : 0 < alpha -> 0 < beta -> 0 < r -> sums_to prob 1.
Proof. intros Ha Hb Hr. apply is_series_ext with (P Gm alpha beta r); [intros x; symmetry; apply prob_P; assumption | apply P_total; assumption]. Qed.
(** the mean is r beta / (alpha - 1) when alpha > 1 and infinite otherwise *)
Theorem C96_mean : 0 < alpha -> 0 < beta -> 0 < r ->
  (1 < alpha -> sums_to (fun x => INR x * prob x) (bnb_mean alpha beta r)) /\ (alpha <= 1 -> diverges (fun x => INR x * prob x)).
Proof.
  intros Ha Hb Hr. split; intros H.
  - apply is_series_ext with (fun x => INR x * P Gm alpha beta r x); [intros x; rewrite prob_P by assumption; reflexivity | apply mean_series; assumption].
  - unfold diverges. apply is_lim_seq_ext with (sum_n (fun x => INR x * P Gm alpha beta r x)); [intros n; apply sum_n_ext; intros x; rewrite prob_P by assumption; reflexivity | apply mean_oo; lra || assumption].
Qed.
(** the variance is the documented one when alpha > 2; otherwise the spread around any point is infinite *)
Theorem C96_variance : 0 < alpha -> 0 < beta -> 0 < r ->
  (2 < alpha -> sums_to (fun x => (INR x - bnb_mean alpha beta r) ^ 2 * prob x) (bnb_variance alpha beta r)) /\
  (alpha <= 2 -> forall m, diverges (fun x => (INR x - m) ^ 2 * prob x)).
Proof.
  intros Ha Hb Hr. split; [intros H | intros H m].
  - apply is_series_ext with (fun x => (INR x - bnb_mean alpha beta r) ^ 2 * P Gm alpha beta r x); [intros x; rewrite prob_P by assumption; reflexivity | apply variance_series; assumption].
  - unfold diverges. apply is_lim_seq_ext with (sum_n (fun x => (INR x - m) ^ 2 * P Gm alpha beta r x)); [intros n; apply sum_n_ext; intros x; rewrite prob_P by assumption; reflexivity | apply variance_oo; lra || assumption].
Qed.
End Claim.

(** the hypotheses hold of the Gamma function; with alpha = 3, beta = 2, r = 1 the mean is 1 and the variance 6 *)
Example C96_witness :
  gamma_function Gam /\ (forall s, 0 < s -> ln (Gam s) = ln (Gam s)) /\ bnb_mean 3 2 1 = 1 /\ bnb_variance 3 2 1 = 6.
Proof. split; [exact Gam_gamma|]. split; [reflexivity|]. split; unfold bnb_mean, bnb_variance; field. Qed.
