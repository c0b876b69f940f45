(** Property theorems C14 and C15. *)
From Coq Require Import Ring Field.
From mathcomp Require Import all_ssreflect all_algebra.
From Verif Require Common KalmanScan_Model.
From Verif Require Import McTac Kalman_Model Kalman_Spec Kalman_Proofs Kalman_Seq Kalman_Missing Kalman_Sqrt Kalman_Run M22.
Set Implicit Arguments.
Unset Strict Implicit.
Unset Printing Implicit Defensive.
Import Order.Theory GRing.Theory Num.Theory.
Local Open Scope ring_scope.

(** ** C14.  Every run of the standard filter, any linear solver (any gain), any missing pattern, as long as the
    measurement noise of observed and missing series is uncorrelated at each step (always true for diagonal H, or
    when a row is fully observed or fully missing).  The full property (correlated H) is refuted below. *)
Theorem C14_covariances_psd_partial :
  forall (R : realFieldType) (log : R -> R) (cst : R) (solve : forall m n, 'M[R]_m -> 'M[R]_(m, n) -> 'M[R]_(m, n))
    (j fill : R) (n p r : nat) (us : seq (inputs R n p r)) a0 P0 f,
  0 <= j -> psd P0 ->
  List.Forall (fun u => psd (in_H u) /\ psd (in_Q u) /\ decoupled (nan_mask fill (in_y u)) (in_H u)) us ->
  std_filter log cst solve j fill us a0 P0 = Common.Ok f ->
  List.Forall (@psd R n) (KalmanScan_Model.filtered_covs f) /\
  List.Forall (@psd R n) (KalmanScan_Model.predicted_covs f).
Proof. by move=> R log cst solve j fill n p r us a0 P0 f j0 pP0 hus; apply: std_filter_psd. Qed.
Print Assumptions C14_covariances_psd_partial.

(** diagonal measurement noise is always fine *)
Theorem C14_diagonal_noise_decoupled : forall (R : realFieldType) (fill : R) p (y : obs R p) (h : 'rV[R]_p),
  decoupled (nan_mask fill y) (diag_mx h).
Proof. by move=> R fill p y h; exact: decoupled_diag. Qed.

(** as is a row without missing values *)
Theorem C14_full_rows_decoupled : forall (R : realFieldType) (fill : R) p (y : obs R p) (H : 'M[R]_p),
  (forall i k, nan_mask fill y i = nan_mask fill y k) -> decoupled (nan_mask fill y) H.
Proof. by move=> R fill p y H h i k; rewrite (h i k) eqxx. Qed.

Section C14refuted.
Context (R : realFieldType).
Add Field ffp : (@f_field R).
Context (log : R -> R) (cst fill : R).
Notation one := (1 : R).
(** one state with variance 4, two series both observing it, noise covariance [[4,2],[2,1]], jitter 1, first series
    missing *)
Definition bad_y : obs R 2 := fun i => if i == 0 then None else Some (fill + 1).
Definition bad_H : 'M[R]_2 := m22 4%:R 2%:R 2%:R 1.
Definition bad_in : inputs R 1 2 1 := Inputs bad_y 0 0 1%:M (const_mx 1) 1%:M bad_H 0.

Lemma bad_mask0 : nan_mask fill bad_y 0 = true. Proof. by []. Qed.
Lemma bad_mask1 : nan_mask fill bad_y 1 = false.
Proof. by rewrite /nan_mask /bad_y /=; apply/negbTE; rewrite -subr_eq0 addrC addKr oner_eq0. Qed.

Lemma bad_H_psd : psd bad_H.
Proof.
split.
- by apply/matrixP; apply: I2; apply: I2; rewrite !mxE.
- move=> x. have -> : (x^T *m bad_H *m x) 0 0 = (2%:R * x 0 0 + x 1 0) ^+ 2.
    rewrite !mxE sum2 !mxE !sum2 !mxE /=. fchange. ring.
  exact: sqr_ge0.
Qed.

Theorem C14_correlated_noise_refuted :
  psd (in_H bad_in) /\ psd (in_Q bad_in) /\ psd (4%:R%:M : 'M[R]_1) /\
  KalmanScan_Model.o_Pf (std_step log cst (@posv R) 1 fill bad_in 0 4%:R%:M) = (- 7%:R)%:M /\
  ~ psd ((- 7%:R)%:M : 'M[R]_1).
Proof.
split; first exact: bad_H_psd. split; first exact: psd0.
split.
  by rewrite -scalemx1; apply: psd_scal1; rewrite ler0n.
split; last first.
  move=> [_ /(_ 1%:M)]; rewrite trmx1 mul1mx mulmx1 mxE eqxx mulr1n oppr_ge0.
  by rewrite lern0.
rewrite /std_step /std_update.
set Zm := Z_masked _ _ _. set Hm := H_masked _ _ _.
have EZ : Zm = c2 0 1.
  apply/matrixP; apply: I2 => k; rewrite /Zm /Z_masked W_mul_l /= ?bad_mask0 ?bad_mask1 ?mxE /= //; try by case: ifP.
have EH : Hm = m22 0 0 2%:R 1.
  apply/matrixP; apply: I2 => k; rewrite /Hm /H_masked W_mul_l /= ?bad_mask0 ?bad_mask1 ?mxE /= //; try by case: ifP.
set F : 'M[R]_2 := Zm *m (4%:R%:M *m Zm^T) + stabilize Hm 1.
have EF : F = m22 1 0 2%:R 6%:R.
  rewrite /F EZ EH /stabilize; apply/matrixP; apply: I2; apply: I2; rewrite !mxE ?sum2 ?big_ord1 !mxE ?big_ord1 !mxE /=;
  fchange; ring.
have EU : upper_sym F^T = m22 1 2%:R 2%:R 6%:R.
  by rewrite EF; apply/matrixP; apply: I2; apply: I2; rewrite !mxE.
have uU : upper_sym F^T \in unitmx.
  have h : (m22 3%:R (- 1) (- 1) (2%:R^-1)) *m upper_sym F^T = 1%:M.
    rewrite EU; apply/matrixP; apply: I2; apply: I2; rewrite !mxE sum2 !mxE /=; fchange; field;
    by apply/eqP; rewrite ?(pnatr_eq0 R 2).
  by have [] := mulmx1_unit h.
have EB : (4%:R%:M *m Zm^T : 'rV[R]_2)^T = c2 0 4%:R.
  rewrite EZ; apply/matrixP; apply: I2 => k; rewrite !mxE big_ord1 !mxE /= ord1 /=; fchange; ring.
have EK : posv F^T (4%:R%:M *m Zm^T)^T = c2 (- 4%:R) 2%:R.
  rewrite EB /posv -[RHS](mulKmx uU); congr (_ *m _).
  rewrite EU; apply/matrixP; apply: I2 => k; rewrite !mxE sum2 !mxE /=; fchange; ring.
rewrite /= EK EZ EH /quad_form_sym /stabilize [LHS]mx11_scalar; congr (_%:M).
rewrite !(mxE, sum2, big_ord1) /=.
fchange. field. by apply/eqP; rewrite ?(pnatr_eq0 R 2).
Qed.
End C14refuted.
Print Assumptions C14_correlated_noise_refuted.

(** hypotheses met: a two-series step with correlated noise and full data *)
Example C14_case (R : realFieldType) (fill : R) :
  let u := Inputs (fun _ : 'I_2 => Some (fill + 1)) 0 0 1%:M (const_mx 1) 1%:M (bad_H R) (1%:M : 'M[R]_1) : inputs R 1 2 1 in
  psd (in_H u) /\ psd (in_Q u) /\ decoupled (nan_mask fill (in_y u)) (in_H u).
Proof.
split; first exact: bad_H_psd. split; first by rewrite /= -[1%:M]scale1r; apply: psd_scal1; exact: ler01.
by move=> i k /=; rewrite /nan_mask /= eqxx.
Qed.

(** ** C15.  With zero jitter, [solve_ok] (the solver solves symmetric PSD invertible systems). *)
Theorem C15_update_is_the_conditional :
  forall (R : realFieldType) (log : R -> R) (cst : R) (solve : forall m n, 'M[R]_m -> 'M[R]_(m, n) -> 'M[R]_(m, n))
    (n p : nat) (a : 'cV[R]_n) (P : 'M[R]_n) (y d : 'cV[R]_p) (Z : 'M[R]_(p, n)) (H : 'M[R]_p) (flag : bool),
  solve_ok solve -> psd P -> psd H -> innov_cov P Z H \in unitmx ->
  let '(a_f, P_f, y_hat, F, _) := std_update log cst solve 0 a P y d Z H flag in
  a_f = cond_mean a P Z H y d /\
  P_f = P - gain P Z H *m F *m (gain P Z H)^T /\
  P_f = cond_cov P Z H /\
  y_hat = d + Z *m a /\ F = innov_cov P Z H.
Proof.
move=> R log cst solve n p a P y d Z H flag sok pP pH uF.
have e : stabilize H 0 = H by rewrite /stabilize scale0r addr0.
have uF' : innov_cov P Z (stabilize H 0) \in unitmx by rewrite e.
rewrite (std_updateE log cst sok a y d flag pP pH (lexx 0) uF') !e !scale0r !subr0.
by rewrite (cond_cov_KFK (psd_sym pP) (psd_sym pH) uF).
Qed.
Print Assumptions C15_update_is_the_conditional.

(** [cond_mean], [cond_cov] are the moments of the conditional density, whenever P and H are invertible: in terms of
    precisions, and because the exponent and the normalising constants of the joint density of (x, y) factor into
    those of N(cond_mean, cond_cov) for x and N(d + Z a, F) for y. *)
Theorem C15_information_form :
  forall (R : realFieldType) (n p : nat) (a : 'cV[R]_n) (P : 'M[R]_n) (y d : 'cV[R]_p) (Z : 'M[R]_(p, n)) (H : 'M[R]_p),
  psd P -> psd H -> P \in unitmx -> H \in unitmx ->
  invmx (cond_cov P Z H) = invmx P + Z^T *m invmx H *m Z /\
  invmx (cond_cov P Z H) *m cond_mean a P Z H y d = invmx P *m a + Z^T *m invmx H *m (y - d).
Proof.
move=> R n p a P y d Z H pP pH uP uH.
have uF := innov_pd Z pP pH uH.
rewrite info_inv //. split=> //.
rewrite /cond_mean mulmxDr mulmxA info_LK // mulmxDl mulmxBr !mulmxA. zmod.
Qed.
Print Assumptions C15_information_form.

Theorem C15_joint_density_factorises :
  forall (R : realFieldType) (n p : nat) (a x : 'cV[R]_n) (P : 'M[R]_n) (y d : 'cV[R]_p) (Z : 'M[R]_(p, n)) (H : 'M[R]_p),
  psd P -> psd H -> P \in unitmx -> H \in unitmx ->
  let m := cond_mean a P Z H y d in let C := cond_cov P Z H in let F := innov_cov P Z H in
  (x - a)^T *m invmx P *m (x - a) + (y - d - Z *m x)^T *m invmx H *m (y - d - Z *m x) =
    (x - m)^T *m invmx C *m (x - m) + (y - d - Z *m a)^T *m invmx F *m (y - d - Z *m a) /\
  \det P * \det H = \det C * \det F.
Proof.
move=> R n p a x P y d Z H pP pH uP uH m C F.
have uF := innov_pd Z pP pH uH.
have [sP sH] := (psd_sym pP, psd_sym pH).
by split; [apply: complete_square | rewrite /C /F det_factor].
Qed.
Print Assumptions C15_joint_density_factorises.

(** also for singular P and H: no linear estimator a + G (y - d - Z a) has a smaller error covariance *)
Theorem C15_minimum_variance :
  forall (R : realFieldType) (n p : nat) (P : 'M[R]_n) (Z : 'M[R]_(p, n)) (H : 'M[R]_p) (G : 'M[R]_(n, p)),
  psd P -> psd H -> innov_cov P Z H \in unitmx ->
  psd ((1%:M - G *m Z) *m P *m (1%:M - G *m Z)^T + G *m H *m G^T - cond_cov P Z H).
Proof.
move=> R n p P Z H G pP pH uF.
rewrite (joseph_expand G (psd_sym pP) (psd_sym pH) uF) addrAC subrr add0r.
by apply: psd_congr; apply: innov_psd.
Qed.
Print Assumptions C15_minimum_variance.

(** a whole run without missing values: filtered[t] is the conditional given predicted[t] and row t, predicted[t+1] is
    its propagation *)
Theorem C15_every_step_of_a_run :
  forall (R : realFieldType) (log : R -> R) (cst : R) (solve : forall m n, 'M[R]_m -> 'M[R]_(m, n) -> 'M[R]_(m, n))
    (fill : R) (n p r : nat) (us : seq (inputs R n p r)) (a0 : 'cV[R]_n) (P0 : 'M[R]_n) f,
  solve_ok solve -> (0 < p)%N -> psd P0 -> List.Forall (@full_data R fill n p r) us ->
  std_filter log cst solve 0 fill us a0 P0 = Common.Ok f ->
  forall t u, List.nth_error us t = Some u -> exists (y : 'cV[R]_p) a P,
    (forall i, in_y u i = Some (y i 0)) /\
    List.nth_error (KalmanScan_Model.predicted_states f) t = Some a /\
    List.nth_error (KalmanScan_Model.predicted_covs f) t = Some P /\
    let a_f := cond_mean a P (in_Z u) (in_H u) y (in_d u) in let P_f := cond_cov P (in_Z u) (in_H u) in
    List.nth_error (KalmanScan_Model.filtered_states f) t = Some a_f /\
    List.nth_error (KalmanScan_Model.filtered_covs f) t = Some P_f /\
    ((t.+1 < size us)%N ->
     List.nth_error (KalmanScan_Model.predicted_states f) t.+1 = Some (in_T u *m a_f + in_c u) /\
     List.nth_error (KalmanScan_Model.predicted_covs f) t.+1 =
       Some (in_T u *m P_f *m (in_T u)^T + in_R u *m in_Q u *m (in_R u)^T)).
Proof. exact: std_run_exact. Qed.
Print Assumptions C15_every_step_of_a_run.
