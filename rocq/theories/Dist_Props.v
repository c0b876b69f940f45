(** C55 (R2D2M2CP), C70 (GeneralizedPoisson logp), C71 (its inverse sampler), C72 (BetaNegativeBinomial draws). *)
From Coq Require Import Reals Lra Lia.
From Coquelicot Require Import Coquelicot.
From Verif Require Import Common LogR Dist_Model.
Open Scope R_scope.

(** ** C55 *)

(** A coefficient with sign probability psi and explained variance ev: the prior mean and standard deviation satisfy
    mean^2 + sd^2 = ev.  Outside the mask psi is 0 or 1. *)
Theorem C55_second_moment erfinv psi ev m : 0 <= ev -> (m = Some false -> psi = 0 \/ psi = 1) ->
  let '(mu, sigma) := psivar2musigma erfinv psi ev m in mu ^ 2 + sigma ^ 2 = ev.
Proof.
  intros Hev Hm. unfold psivar2musigma.
  assert (S : sqrt ev ^ 2 = ev) by (apply pow2_sqrt; auto).
  assert (G : forall pi, (sqrt ev * sqrt (1 / (2 * pi ^ 2 + 1)) * pi * sqrt 2) ^ 2
                         + (sqrt ev * sqrt (1 / (2 * pi ^ 2 + 1))) ^ 2 = ev).
  { intros pi. assert (0 <= pi ^ 2) by (apply pow2_ge_0). 
    assert (E1 : sqrt (1 / (2 * pi ^ 2 + 1)) ^ 2 = 1 / (2 * pi ^ 2 + 1)).
    { apply pow2_sqrt. apply Rlt_le, Rdiv_lt_0_compat; lra. }
    assert (E2 : sqrt 2 ^ 2 = 2) by (apply pow2_sqrt; lra).
    rewrite !Rpow_mult_distr, S, E1, E2. field. lra. }
  destruct m as [[|]|].
  - apply G.
  - destruct (Hm eq_refl) as [->| ->]; unfold sign.
    + destruct (Rlt_dec (0 - / 2) 0); [|lra].
      replace ((-1 * sqrt ev) ^ 2) with (sqrt ev ^ 2) by ring. rewrite S. ring.
    + destruct (Rlt_dec (1 - / 2) 0); [lra|]. destruct (Rlt_dec 0 (1 - / 2)); [|lra].
      rewrite Rmult_1_l, S. ring.
  - apply G.
Qed.

(** P(coefficient > 0) = psi: with the normal cdf Phi(x) = (1 + erf(x / sqrt 2)) / 2, the probability that a
    Normal(mu, sigma) variable is positive is Phi(mu / sigma). *)
Theorem C55_sign_probability erf erfinv psi ev m :
  (forall x, -1 < x < 1 -> erf (erfinv x) = x) ->
  0 < ev -> 0 < psi < 1 -> m <> Some false ->
  let '(mu, sigma) := psivar2musigma erfinv psi ev m in
  0 < sigma /\ (1 + erf (mu / sigma / sqrt 2)) / 2 = psi.
Proof.
  intros He Hev Hpsi Hm. unfold psivar2musigma.
  assert (G : forall pi, 0 < sqrt ev * sqrt (1 / (2 * pi ^ 2 + 1))).
  { intros pi. assert (0 <= pi ^ 2) by (apply pow2_ge_0).
    apply Rmult_lt_0_compat; apply sqrt_lt_R0; auto. apply Rdiv_lt_0_compat; lra. }
  assert (H2 : 0 < sqrt 2) by (apply sqrt_lt_R0; lra).
  assert (E : forall s, 0 < s -> s * erfinv (2 * psi - 1) * sqrt 2 / s / sqrt 2 = erfinv (2 * psi - 1)).
  { intros s Hs. field. split; lra. }
  destruct m as [[|]|]; [| congruence |]; (split; [apply G|]; rewrite E by apply G; rewrite He by lra; field).
Qed.
(** For a certain sign the coefficient is +-sqrt(ev), with no spread. *)
Theorem C55_certain_sign erfinv ev :
  psivar2musigma erfinv 1 ev (Some false) = (sqrt ev, 0) /\ psivar2musigma erfinv 0 ev (Some false) = (- sqrt ev, 0).
Proof.
  unfold psivar2musigma, sign. split.
  - destruct (Rlt_dec (1 - / 2) 0); [lra|]. destruct (Rlt_dec 0 (1 - / 2)); [|lra]. f_equal. ring.
  - destruct (Rlt_dec (0 - / 2) 0); [|lra]. f_equal. ring.
Qed.

(** The mask is absent exactly when no probability is 0 or 1, and otherwise marks the other ones. *)
Theorem C55_mask psi :
  match psi_mask psi with
  | None => forall p, In p psi -> p <> 0 /\ p <> 1
  | Some m => length m = length psi /\ (exists p, In p psi /\ (p = 0 \/ p = 1)) /\
              forall i d b, (i < length psi)%nat -> (nth i m b = true <-> nth i psi d <> 0 /\ nth i psi d <> 1)
  end.
Proof.
  unfold psi_mask.
  set (f := fun p => negb ((if Req_EM_T p 1 then true else false) || (if Req_EM_T p 0 then true else false))).
  assert (F : forall p, f p = true <-> p <> 0 /\ p <> 1).
  { intros p. unfold f. destruct (Req_EM_T p 1), (Req_EM_T p 0); simpl; split; intros; try tauto; try discriminate. }
  destruct (forallb (fun b => b) (map f psi)) eqn:E.
  - intros p Hp. rewrite forallb_forall in E. apply F. apply E. apply in_map. auto.
  - split; [apply map_length|]. split.
    + assert (X : exists p, In p psi /\ f p = false).
      { clear -E. induction psi; simpl in E; [discriminate|]. destruct (f a) eqn:Ea.
        - destruct (IHpsi E) as (p&H1&H2). exists p. split; auto. right; auto.
        - exists a. split; auto. left; auto. }
      destruct X as (p&H1&H2). exists p. split; auto.
      destruct (Req_EM_T p 1); auto. destruct (Req_EM_T p 0); auto.
      assert (f p = true) by (apply F; auto). congruence.
    + intros i d b Hi. rewrite <- F. rewrite (nth_indep _ b (f d)) by (rewrite map_length; auto).
      rewrite map_nth. tauto.
Qed.

(** Residual variance + r2 * output variance = output variance. *)
Theorem C55_variance_split output_sigma r2 : r2 <= 1 ->
  resid_sigma output_sigma r2 ^ 2 + r2 * output_sigma ^ 2 = output_sigma ^ 2.
Proof.
  intros H. unfold resid_sigma. rewrite Rpow_mult_distr.
  replace (sqrt (1 - r2) ^ 2) with (1 - r2); [ring|]. rewrite pow2_sqrt; lra.
Qed.
(** The variances explained by the coefficients add up to r2 * output variance whenever phi sums to one... *)
Theorem C55_explained_total output_sigma r2 phi : Rsum phi = 1 ->
  Rsum (map (explained output_sigma r2) phi) = r2 * output_sigma ^ 2.
Proof.
  intros H. unfold explained.
  rewrite (Rsum_map_mult_r (r2 * output_sigma ^ 2) (fun p => p)), map_id, H. ring.
Qed.
(** ... which it does for a Dirichlet draw, ... *)
Theorem C55_phi_with_importance n imp conc draw phi :
  (forall a, Rsum (draw a) = 1) -> r2_phi n (Some imp) None conc draw = Ok phi -> Rsum phi = 1.
Proof.
  intros H. unfold r2_phi. destruct (n <=? 1)%nat; [discriminate|]. intros E. inversion E. apply H.
Qed.
Theorem C55_phi_with_concentration n ve c draw phi :
  (forall a, Rsum (draw a) = 1) -> r2_phi n None ve (Some c) draw = Ok phi -> Rsum phi = 1.
Proof.
  intros H. unfold r2_phi. destruct ve as [ve|]; simpl.
  - destruct (n <=? 1)%nat; [discriminate|]. simpl. intros E. inversion E. apply H.
  - intros E. inversion E. apply H.
Qed.
(** The Dirichlet distribution has the parameters asked for: the importances (or explained variances, or ones) times the
    concentration. *)
Theorem C55_phi_dirichlet_parameters n a c draw : (1 < n)%nat ->
  r2_phi n (Some a) None (Some c) draw = Ok (draw (map (fun x => c * x) a)) /\
  r2_phi n (Some a) None None draw = Ok (draw a) /\
  r2_phi n None (Some a) (Some c) draw = Ok (draw (map (fun x => c * x) a)) /\
  r2_phi n None None (Some c) draw = Ok (draw (repeat c n)).
Proof.
  intros H. unfold r2_phi. destruct (Nat.leb_spec n 1); [lia|]. repeat split.
  - do 2 f_equal. apply map_ext. intros; ring.
  - simpl. do 2 f_equal. clear H H0. induction n; simpl; [auto|]. rewrite IHn. f_equal. ring.
Qed.
(** ... but not by default: every variable then explains the whole of r2 * output variance. *)
Lemma Rsum_repeat x n : Rsum (repeat x n) = INR n * x.
Proof. induction n; [simpl; ring|]. cbn [repeat Rsum fold_right]. fold (Rsum (repeat x n)). rewrite IHn, S_INR. ring. Qed.
Theorem C55_default_total_refuted n output_sigma r2 draw : (1 < n)%nat -> 0 < r2 -> 0 < output_sigma ->
  exists phi, r2_phi n None None None draw = Ok phi /\
    Rsum (map (explained output_sigma r2) phi) = INR n * (r2 * output_sigma ^ 2) /\
    Rsum (map (explained output_sigma r2) phi) <> r2 * output_sigma ^ 2.
Proof.
  intros Hn Hr Ho. exists (repeat 1 n). split; [reflexivity|].
  assert (E : Rsum (map (explained output_sigma r2) (repeat 1 n)) = INR n * (r2 * output_sigma ^ 2)).
  { assert (M : map (explained output_sigma r2) (repeat 1 n) = repeat (explained output_sigma r2 1) n)
      by (clear; induction n; simpl; congruence).
    rewrite M, Rsum_repeat. unfold explained. ring. }
  split; auto. rewrite E. assert (0 < r2 * output_sigma ^ 2) by (apply Rmult_lt_0_compat; auto; apply pow_lt; auto).
  assert (1 < INR n) by (apply (lt_INR 1); auto). nra.
Qed.
(** Wrong argument combinations are rejected. *)
Theorem C55_phi_errors n imp ve conc draw :
  r2_phi n (Some imp) (Some ve) conc draw = Err TypeError /\
  ((n <= 1)%nat -> r2_phi n (Some imp) None conc draw = Err TypeError /\ r2_phi n None (Some ve) conc draw = Err TypeError).
Proof.
  split; [reflexivity|]. intros H. unfold r2_phi. destruct (Nat.leb_spec n 1); [auto|lia].
Qed.
(** The centered and the non-centered form give the same coefficient for the same standard normal draw. *)
Theorem C55_centered_agrees erfinv psi ev m s z : s <> 0 ->
  let '(mu, sigma) := psivar2musigma erfinv psi ev m in r2_beta true mu sigma s z m = r2_beta false mu sigma s z m.
Proof.
  intros Hs. destruct (psivar2musigma erfinv psi ev m) as [mu sigma] eqn:E. unfold r2_beta.
  destruct m as [[|]|]; field; auto.
Qed.
Example C55_example : r2_phi 3 None (Some [1/2; 1/4; 1/4]) None (fun a => a) = Ok [1/2; 1/4; 1/4] /\ Rsum [1/2; 1/4; 1/4] = 1.
Proof. split; [reflexivity|simpl; lra]. Qed.

(** ** C70 *)

(** The documented probability mass function (discrete.py:111-113). *)
Definition gp_pmf (mu lam : R) (x : nat) : R :=
  mu * powerRZ (mu + lam * INR x) (Z.of_nat x - 1) * exp (- mu - lam * INR x) / INR (fact x).
Definition gp_valid (mu lam : R) : Prop := 0 < mu /\ -1 <= lam <= 1 /\ - mu / 4 <= lam.

Lemma gp_check mu lam : gp_valid mu lam -> ltb 0 mu && (leb (Rabs lam) 1 && leb (- mu / 4) lam) = true.
Proof.
  intros (H1&H2&H3). unfold ltb, leb. destruct (Rlt_dec 0 mu); [|lra].
  destruct (Rle_dec (Rabs lam) 1) as [|N]; [|exfalso; apply N; apply Rabs_le; lra].
  destruct (Rle_dec (- mu / 4) lam); [auto|lra].
Qed.
Theorem C70_parameters_checked value mu lam : ~ gp_valid mu lam -> gp_logp value mu lam = Err ValueError.
Proof.
  intros H. unfold gp_logp, ltb, leb. destruct (Rlt_dec 0 mu); [|auto].
  destruct (Rle_dec (Rabs lam) 1) as [A|]; [|auto]. destruct (Rle_dec (- mu / 4) lam); [|auto].
  exfalso. apply H. unfold gp_valid. assert (-1 <= lam <= 1) by (apply Rabs_le_between; auto). auto.
Qed.

Lemma INR_fact_pos n : 0 < INR (fact n).
Proof. apply lt_0_INR. apply lt_O_fact. Qed.
Lemma exp_IZR_ln x m : 0 < x -> exp (IZR m * ln x) = powerRZ x m.
Proof. intros H. rewrite powerRZ_Rpower by auto. reflexivity. Qed.

(** On the natural numbers with mu + lam x > 0, exp(logp) is the documented pmf. *)
Theorem C70_logp_is_pmf mu lam x : gp_valid mu lam -> 0 < mu + lam * INR x ->
  exists l, gp_logp (Z.of_nat x) mu lam = Ok l /\ lexp l = gp_pmf mu lam x.
Proof.
  intros V Hx. unfold gp_logp. rewrite gp_check by auto. eexists. split; [reflexivity|].
  rewrite <- INR_IZR_INZ. unfold ltb. destruct (Rlt_dec (mu + lam * INR x) 0); [lra|].
  destruct (Z.ltb_spec (Z.of_nat x) 0); [lia|]. cbn [orb].
  rewrite !lexp_ladd. destruct V as (Hmu&_). rewrite lexp_lln by lra. unfold logpow.
  destruct (Req_EM_T (mu + lam * INR x) 0); [lra|]. cbn [lexp]. rewrite exp_IZR_ln by auto.
  unfold gp_pmf, factln. rewrite Nat2Z.id. rewrite (exp_Ropp (ln _)), exp_ln by apply INR_fact_pos.
  replace (- (mu + lam * INR x)) with (- mu - lam * INR x) by ring. unfold Rdiv. ring.
Qed.
(** Elsewhere the probability is zero. *)
Theorem C70_logp_outside mu lam v : gp_valid mu lam -> (v < 0)%Z \/ mu + lam * IZR v < 0 -> gp_logp v mu lam = Ok NInf.
Proof.
  intros V H. unfold gp_logp. rewrite gp_check by auto. f_equal. unfold ltb.
  destruct (Rlt_dec (mu + lam * IZR v) 0); [reflexivity|]. destruct (Z.ltb_spec v 0); [reflexivity|]. destruct H; [lia|lra].
Qed.
Theorem C70_logp_boundary mu lam v : gp_valid mu lam -> (1 < v)%Z -> mu + lam * IZR v = 0 -> gp_logp v mu lam = Ok NInf.
Proof.
  intros V Hv H. unfold gp_logp. rewrite gp_check by auto. f_equal. rewrite H. unfold ltb.
  destruct (Rlt_dec 0 0); [lra|]. destruct (Z.ltb_spec v 0); [lia|]. cbn [orb].
  unfold logpow. destruct (Req_EM_T 0 0); [|lra]. destruct (Z.eqb_spec (v - 1) 0); [lia|].
  destruct (lln mu); reflexivity.
Qed.
(** With lam = 0 it is the Poisson distribution with mean mu, and its probabilities sum to one. *)
Theorem C70_poisson mu x : 0 < mu ->
  exists l, gp_logp (Z.of_nat x) mu 0 = Ok l /\ lexp l = exp (- mu) * mu ^ x / INR (fact x).
Proof.
  intros Hmu. destruct (C70_logp_is_pmf mu 0 x) as (l&E&EL).
  - unfold gp_valid. lra.
  - lra.
  - exists l. split; auto. rewrite EL. unfold gp_pmf. rewrite Rmult_0_l, Rplus_0_r, Rminus_0_r.
    assert (P : mu * powerRZ mu (Z.of_nat x - 1) = mu ^ x).
    { rewrite <- (powerRZ_1 mu) at 1. rewrite <- powerRZ_add by lra. rewrite pow_powerRZ. f_equal. lia. }
    rewrite P. unfold Rdiv. ring.
Qed.
Theorem C70_poisson_total mu : 0 < mu ->
  is_series (fun x => match gp_logp (Z.of_nat x) mu 0 with Ok l => lexp l | Err _ => 0 end) 1.
Proof.
  intros Hmu. replace 1 with (exp (- mu) * exp mu) by (rewrite <- exp_plus, Rplus_opp_l; apply exp_0).
  apply is_series_ext with (fun x => scal (exp (- mu)) (/ INR (fact x) * mu ^ x)).
  - intros n. destruct (C70_poisson mu n Hmu) as (l&E&EL). rewrite E, EL.
    unfold scal; simpl; unfold mult; simpl. unfold Rdiv. ring.
  - apply (is_series_scal (exp (- mu)) (fun x => / INR (fact x) * mu ^ x) (exp mu)).
    pose proof (is_exp_Reals mu) as H. unfold is_pseries in H. 
    eapply is_series_ext; [|exact H]. intros n. simpl. unfold scal; simpl; unfold mult; simpl.
    rewrite pow_n_pow. ring.
Qed.
Example C70_example : gp_valid 4 (-1) /\ 0 < 4 + -1 * INR 3 /\ gp_logp 5 4 (-1) = Ok NInf.
Proof.
  split; [unfold gp_valid; lra|]. split; [simpl; lra|]. apply C70_logp_outside; [unfold gp_valid; lra|right; lra].
Qed.

(** ** C71 *)

(** The recursion used by the inverse sampler. *)
Lemma pmf_pos theta lam x : 0 < theta -> 0 < theta + lam * INR x -> 0 < gp_pmf theta lam x.
Proof.
  intros H1 H2. unfold gp_pmf. unfold Rdiv. repeat apply Rmult_lt_0_compat; auto.
  - apply powerRZ_lt. auto.
  - apply exp_pos.
  - apply Rinv_0_lt_compat, INR_fact_pos.
Qed.
Lemma ln_pmf theta lam x : 0 < theta -> 0 < theta + lam * INR x ->
  ln (gp_pmf theta lam x) = ln theta + (INR x - 1) * ln (theta + lam * INR x) - theta - lam * INR x - ln (INR (fact x)).
Proof.
  intros H1 H2. unfold gp_pmf.
  rewrite ln_div; [|repeat apply Rmult_lt_0_compat; auto; [apply powerRZ_lt; auto|apply exp_pos]|apply INR_fact_pos].
  rewrite ln_mult, ln_mult, ln_exp; auto; try apply exp_pos; try (apply powerRZ_lt; auto);
    [|apply Rmult_lt_0_compat; auto; apply powerRZ_lt; auto].
  rewrite <- exp_IZR_ln, ln_exp by auto. rewrite minus_IZR, <- INR_IZR_INZ. ring.
Qed.
Lemma pmf_step theta lam x : 0 < theta -> lam < 0 ->
  let c := theta - lam + lam * INR (S x) in 0 < c + lam ->
  ln c + log1mexp (ln (Rabs lam) - ln c) * (INR (S x) - 1) + ln (gp_pmf theta lam x) - ln (INR (S x)) - lam
  = ln (gp_pmf theta lam (S x)).
Proof.
  intros Ht Hl c Hc. assert (Ec : c = theta + lam * INR x) by (unfold c; rewrite S_INR; ring).
  assert (E2 : c + lam = theta + lam * INR (S x)) by (unfold c; ring).
  assert (0 < c) by lra.
  rewrite (ln_pmf _ _ x) by (auto; rewrite <- Ec; auto). rewrite (ln_pmf _ _ (S x)) by (auto; rewrite <- E2; auto).
  rewrite <- E2, <- Ec. unfold log1mexp.
  rewrite <- ln_div by (auto; rewrite Rabs_left by auto; lra). rewrite exp_ln.
  2:{ apply Rdiv_lt_0_compat; auto. rewrite Rabs_left by auto. lra. }
  rewrite Rabs_left by auto. replace (1 - - lam / c) with ((c + lam) / c) by (field; lra).
  rewrite (ln_div (c + lam) c) by auto. rewrite fact_simpl, mult_INR, ln_mult; [|apply lt_0_INR; lia|apply INR_fact_pos].
  rewrite !S_INR. ring.
Qed.

Fixpoint psum (f : nat -> R) (n : nat) : R := match n with O => 0 | S m => psum f m + f m end.
Lemma psum_nonneg f n : (forall j, (j < n)%nat -> 0 < f j) -> 0 <= psum f n.
Proof. induction n; intros H; simpl; [lra|]. pose proof (H n ltac:(lia)). specialize (IHn ltac:(auto)). lra. Qed.

Lemma inverse_loop_spec theta lam u : 0 < theta -> lam < 0 -> 0 < u < 1 ->
  forall fuel x r, (forall j, (j <= x)%nat -> 0 < theta + lam * INR j) ->
  psum (gp_pmf theta lam) x < u ->
  gp_inverse_loop fuel theta lam (ln u) x (ln (psum (gp_pmf theta lam) (S x))) (ln (gp_pmf theta lam x)) = Some r ->
  (0 < theta + lam * INR r -> psum (gp_pmf theta lam) r < u <= psum (gp_pmf theta lam) (S r)) /\
  (theta + lam * INR r <= 0 -> psum (gp_pmf theta lam) r < u /\ (forall j, (j < r)%nat -> 0 < theta + lam * INR j)).
Proof.
  intros Ht Hl Hu. induction fuel; intros x r Hx Hs.
  - cbn [gp_inverse_loop]. unfold ltb. destruct (Rlt_dec _ (ln u)) as [|n]; [discriminate|]. intros E; inversion E; subst r.
    split; [|intros; specialize (Hx x ltac:(lia)); lra]. intros _. split; auto. apply Rnot_lt_le in n.
    destruct (Rle_or_lt u (psum (gp_pmf theta lam) (S x))) as [|G]; auto. exfalso.
    assert (0 < psum (gp_pmf theta lam) (S x)).
    { cbn [psum]. pose proof (psum_nonneg (gp_pmf theta lam) x ltac:(intros; apply pmf_pos; auto; apply Hx; lia)).
      pose proof (pmf_pos theta lam x Ht (Hx x ltac:(lia))). lra. }
    pose proof (ln_increasing _ _ H G). lra.
  - cbn [gp_inverse_loop].
    assert (PS : 0 < psum (gp_pmf theta lam) (S x)).
    { cbn [psum]. pose proof (psum_nonneg (gp_pmf theta lam) x ltac:(intros; apply pmf_pos; auto; apply Hx; lia)).
      pose proof (pmf_pos theta lam x Ht (Hx x ltac:(lia))). lra. }
    unfold ltb at 1. destruct (Rlt_dec _ (ln u)) as [Hlt|n].
    + assert (HS : psum (gp_pmf theta lam) (S x) < u) by (apply ln_lt_inv; auto; lra).
      unfold leb. destruct (Rle_dec (theta - lam + lam * INR (S x) + lam) 0) as [Hle|Hgt].
      * intros E; inversion E; subst r. assert (theta + lam * INR (S x) <= 0) by lra.
        split; [intros; lra|]. intros _. split; auto. intros j Hj. apply Hx. lia.
      * apply Rnot_le_lt in Hgt. rewrite pmf_step by auto.
        rewrite !exp_ln; auto; [|apply pmf_pos; auto; lra].
        change (psum (gp_pmf theta lam) (S x) + gp_pmf theta lam (S x)) with (psum (gp_pmf theta lam) (S (S x))).
        apply IHfuel; auto. intros j Hj. destruct (Nat.eq_dec j (S x)) as [->|]; [lra|]. apply Hx. lia.
    + intros E; inversion E; subst r. split; [|intros; specialize (Hx x ltac:(lia)); lra]. intros _. split; auto.
      apply Rnot_lt_le in n. destruct (Rle_or_lt u (psum (gp_pmf theta lam) (S x))) as [|G]; auto. exfalso.
      pose proof (ln_increasing _ _ PS G). lra.
Qed.

Lemma pmf_0 theta lam : 0 < theta -> gp_pmf theta lam 0 = exp (- theta).
Proof.
  intros H. unfold gp_pmf. cbn [INR fact Z.of_nat]. rewrite Rmult_0_r, Rplus_0_r. simpl. field_simplify; try lra.
  f_equal. ring.
Qed.

(** For lam < 0 the sampler inverts the cumulative distribution: the value returned for the uniform number u is the
    smallest x with F(x) >= u, where F sums the documented pmf; if the support (theta + lam x > 0) ends before F
    reaches u, it is the first number outside. *)
Theorem C71_inverse_sampler theta lam u fuel x : 0 < theta -> lam < 0 -> 0 < u < 1 ->
  gp_inverse fuel theta lam u = Some x ->
  psum (gp_pmf theta lam) x < u /\
  (0 < theta + lam * INR x -> u <= psum (gp_pmf theta lam) (S x)) /\
  (forall j, (j < x)%nat -> 0 < theta + lam * INR j).
Proof.
  intros Ht Hl Hu H. unfold gp_inverse in H.
  assert (E0 : - theta = ln (gp_pmf theta lam 0)) by (rewrite pmf_0 by auto; rewrite ln_exp; auto).
  assert (E1 : psum (gp_pmf theta lam) 1 = gp_pmf theta lam 0) by (simpl; ring).
  rewrite E0 in H. rewrite <- E1 in H at 1.
  apply inverse_loop_spec in H; auto; try (simpl; lra).
  2:{ intros j Hj. replace j with 0%nat by lia. simpl. lra. }
  destruct H as [H1 H2]. destruct (Rlt_or_le 0 (theta + lam * INR x)) as [P|N].
  - specialize (H1 P). split; [lra|]. split; [lra|]. intros j Hj.
    assert (INR j < INR x) by (apply lt_INR; auto). nra.
  - specialize (H2 N). split; [lra|]. split; [intros; lra|]. apply H2.
Qed.
(** It always stops. *)
Lemma inverse_loop_terminates theta lam log_u : 0 < theta -> lam < 0 ->
  forall fuel x a b, theta + lam * INR (x + fuel) <= 0 -> (0 < fuel)%nat ->
  exists r, gp_inverse_loop fuel theta lam log_u x a b = Some r.
Proof.
  intros Ht Hl. induction fuel; intros x a b H Hf; [lia|]. cbn [gp_inverse_loop].
  destruct (ltb a log_u); [|eauto]. unfold leb.
  destruct (Rle_dec (theta - lam + lam * INR (S x) + lam) 0); [eauto|].
  apply IHfuel.
  - replace (S x + fuel)%nat with (x + S fuel)%nat by lia. auto.
  - destruct fuel; [|lia]. exfalso. apply n. rewrite Nat.add_1_r in H. lra.
Qed.
Theorem C71_inverse_terminates theta lam u : 0 < theta -> lam < 0 ->
  exists fuel x, gp_inverse fuel theta lam u = Some x.
Proof.
  intros Ht Hl. set (n := S (Z.to_nat (up (theta / - lam)))). exists n.
  apply inverse_loop_terminates; auto; [|unfold n; lia].
  assert (B : theta / - lam <= INR (0 + n)).
  { destruct (archimed (theta / - lam)) as [A _]. 
    assert (0 <= theta / - lam) by (apply Rlt_le, Rdiv_lt_0_compat; lra).
    assert (0 <= up (theta / - lam))%Z by (apply le_IZR; lra).
    rewrite INR_IZR_INZ. apply Rle_trans with (IZR (up (theta / - lam))); [lra|]. apply IZR_le. unfold n. lia. }
  apply Rmult_le_compat_r with (r := - lam) in B; [|lra].
  unfold Rdiv in B. rewrite Rmult_assoc, Rinv_l in B by lra. lra.
Qed.

(** ** C72 *)

(** The mixture the class documents: p ~ Beta(alpha, beta), then a negative binomial with success probability p and
    n = r.  For alpha = beta = r = 1 (p uniform) it takes the value 0 with probability 1/2, which is also what logp says;
    the draws take the value 0 with probability ln 2. *)
Lemma pow_one x : 0 < x -> pow x 1 = x.
Proof. intros H. unfold pow. rewrite Rmult_1_l. apply exp_ln. auto. Qed.

Theorem C72_logp_at_zero lgam : lgam 1 = 0 -> lgam 2 = 0 -> lgam 3 = ln 2 ->
  exists l, bnb_logp lgam 0 1 1 1 = Ok l /\ lexp l = / 2.
Proof.
  intros H1 H2 H3. unfold bnb_logp, ltb. destruct (Rlt_dec 0 1); [|lra]. cbn [andb].
  eexists. split; [reflexivity|]. cbn [Z.ltb Z.compare lexp]. unfold betaln, factln. simpl fact. cbn [INR].
  replace (1 + 0) with 1 by ring. replace (0 + 1) with 1 by ring. replace (1 + (1 + 1)) with 3 by ring.
  replace (1 + 1) with 2 by ring. rewrite H1, H2, H3, ln_1.
  replace (0 + 0 - ln 2 - (0 + 0 - 0) + 0 - 0 - 0) with (- ln 2) by ring.
  rewrite exp_Ropp, exp_ln; lra.
Qed.
Theorem C72_documented_at_zero : is_RInt (fun p => nb_zero_p_n p 1) 0 1 (/ 2).
Proof.
  apply (is_RInt_ext (fun p => p)).
  - intros x. rewrite Rmin_left, Rmax_right by lra. intros [H _]. unfold nb_zero_p_n. rewrite pow_one; auto.
  - replace (/ 2) with (minus (1 ^ 2 / 2) (0 ^ 2 / 2)) by (unfold minus, plus, opp; simpl; field).
    apply (is_RInt_derive (fun p => p ^ 2 / 2)).
    + intros x _. auto_derive; auto. field.
    + intros x _. apply continuous_id.
Qed.
Theorem C72_draws_refuted : is_RInt (fun p => bnb_draw_zero_given p 1) 0 1 (ln 2) /\ ln 2 <> / 2.
Proof.
  split.
  - apply (is_RInt_ext (fun p => / (p + 1))).
    + intros x. rewrite Rmin_left, Rmax_right by lra. intros [H _]. unfold bnb_draw_zero_given, nb_zero_mu_alpha.
      rewrite pow_one by (apply Rdiv_lt_0_compat; lra). unfold Rdiv. symmetry. apply Rmult_1_l.
    + replace (ln 2) with (minus (ln (1 + 1)) (ln (0 + 1))).
      2:{ unfold minus, plus, opp; simpl. rewrite Rplus_0_l, ln_1. replace (1 + 1) with 2 by ring. ring. }
      apply (is_RInt_derive (fun p => ln (p + 1))).
      * intros x. rewrite Rmin_left, Rmax_right by lra. intros [H _]. auto_derive; [lra|]. field. lra.
      * intros x. rewrite Rmin_left, Rmax_right by lra. intros [H _].
        apply (continuous_comp (fun p => p + 1) (fun y => / y)).
        -- apply (continuous_plus (fun p => p) (fun _ => 1)); [apply continuous_id|apply continuous_const].
        -- apply (ex_derive_continuous (fun y => / y)). auto_derive. lra.
  - intros E. assert (H : / 2 < ln 2); [|lra].
    apply exp_lt_inv. rewrite exp_ln by lra.
    assert (exp (/ 2) * exp (/ 2) <= 3).
    { rewrite <- exp_plus. replace (/ 2 + / 2) with 1 by field. apply exp_le_3. }
    pose proof (exp_pos (/ 2)). nra.
Qed.
