(** Property theorems C18 (log-likelihood), C19 (missing data), C20 (univariate = joint). *)
From Coq Require Import Ring Field.
From mathcomp Require Import all_ssreflect all_algebra.
From Verif Require Common KalmanScan_Model.
From Verif Require Import McTac Kalman_Model Kalman_Spec Kalman_Proofs Kalman_Seq Kalman_Missing Kalman_Sqrt Kalman_Run M22 Kalman_LL.
Set Implicit Arguments.
Unset Strict Implicit.
Unset Printing Implicit Defensive.
Import Order.Theory GRing.Theory Num.Theory.
Local Open Scope ring_scope.

(** ** C18, standard filter.  Full property: the value is [gauss_ll].  It is [gauss_ll] plus (p-1)/2 log(2 pi), for
    every innovation: right exactly when p = 1 (or for a model constant of 0). *)
Theorem C18_standard_loglike_partial :
  forall (R : realFieldType) (log : R -> R) (cst : R) (solve : forall m n, 'M[R]_m -> 'M[R]_(m, n) -> 'M[R]_(m, n))
    (j : R) (n p : nat) (a : 'cV[R]_n) (P : 'M[R]_n) (y d : 'cV[R]_p) (Z : 'M[R]_(p, n)) (H : 'M[R]_p),
  solve_ok solve -> psd P -> psd H -> 0 <= j -> innov_cov P Z (stabilize H j) \in unitmx ->
  let '(_, _, y_hat, F, ll) := std_update log cst solve j a P y d Z H false in
  ll = gauss_ll log cst F (y - y_hat) + 2%:R^-1 * (p%:R - 1) * cst.
Proof. exact: std_ll. Qed.
Print Assumptions C18_standard_loglike_partial.

Theorem C18_standard_one_series :
  forall (R : realFieldType) (log : R -> R) (cst : R) (solve : forall m n, 'M[R]_m -> 'M[R]_(m, n) -> 'M[R]_(m, n))
    (j : R) (n : nat) (a : 'cV[R]_n) (P : 'M[R]_n) (y d : 'cV[R]_1) (Z : 'M[R]_(1, n)) (H : 'M[R]_1),
  solve_ok solve -> psd P -> psd H -> 0 <= j -> innov_cov P Z (stabilize H j) \in unitmx ->
  let '(_, _, y_hat, F, ll) := std_update log cst solve j a P y d Z H false in
  ll = gauss_ll log cst F (y - y_hat).
Proof.
move=> R log cst solve j n a P y d Z H sok pP pH j0 uF.
move: (std_ll log cst a y d sok pP pH j0 uF).
case: (std_update _ _ _ _ _ _ _ _ _ _ _) => [[[[? ?] yh] F] ll] ->.
by rewrite subrr mulr0 mul0r addr0.
Qed.
Print Assumptions C18_standard_one_series.

(** two or more series: wrong for every input *)
Theorem C18_standard_refuted :
  forall (R : realFieldType) (log : R -> R) (cst : R) (solve : forall m n, 'M[R]_m -> 'M[R]_(m, n) -> 'M[R]_(m, n))
    (j : R) (n p : nat) (a : 'cV[R]_n) (P : 'M[R]_n) (y d : 'cV[R]_p) (Z : 'M[R]_(p, n)) (H : 'M[R]_p),
  (1 < p)%N -> cst != 0 ->
  solve_ok solve -> psd P -> psd H -> 0 <= j -> innov_cov P Z (stabilize H j) \in unitmx ->
  let '(_, _, y_hat, F, ll) := std_update log cst solve j a P y d Z H false in
  ll != gauss_ll log cst F (y - y_hat).
Proof.
move=> R log cst solve j n p a P y d Z H p1 nc sok pP pH j0 uF.
move: (std_ll log cst a y d sok pP pH j0 uF).
case: (std_update _ _ _ _ _ _ _ _ _ _ _) => [[[[? ?] yh] F] ll] ->.
rewrite -subr_eq0 addrC addKr !mulf_neq0 ?invr_eq0 ?two_neq0 //.
by rewrite subr_eq0 (eqr_nat R p 1) gtn_eqF.
Qed.
Print Assumptions C18_standard_refuted.

(** square-root filter: right for one series *)
Theorem C18_sqrt_one_series :
  forall (R : realFieldType) (log : R -> R) (cst : R) (cholesky : forall m, 'M[R]_m -> 'M[R]_m)
    (qr_r : forall m n, 'M[R]_(m, n) -> 'M[R]_n) (solve_tri : forall m n, 'M[R]_m -> 'M[R]_(m, n) -> 'M[R]_(m, n))
    (n : nat) (a : 'cV[R]_n) (Pc : 'M[R]_n) (y d : 'cV[R]_1) (Z : 'M[R]_(1, n)) (H : 'M[R]_1),
  (forall x y, 0 < x -> 0 < y -> log (x * y) = log x + log y) ->
  (forall m (A : 'M[R]_m), psd A -> chol_spec A (cholesky m A)) ->
  (forall m k (M : 'M[R]_(m, k)), (k <= m)%N -> qr_spec M (qr_r m k M)) -> tri_ok solve_tri ->
  psd H -> innov_cov (Pc *m Pc^T) Z H \in unitmx ->
  let '(_, _, y_hat, F_chol, ll) := sqrt_update log cst cholesky qr_r solve_tri a Pc y d Z H false in
  ll = gauss_ll log cst (F_chol *m F_chol^T) (y - y_hat).
Proof. exact: sqrt_ll1. Qed.
Print Assumptions C18_sqrt_one_series.

(** more than one series: the log determinant is counted p times; already wrong when the innovation is zero *)
Theorem C18_sqrt_refuted :
  forall (R : realFieldType) (log : R -> R) (cst : R) (cholesky : forall m, 'M[R]_m -> 'M[R]_m)
    (qr_r : forall m n, 'M[R]_(m, n) -> 'M[R]_n) (solve_tri : forall m n, 'M[R]_m -> 'M[R]_(m, n) -> 'M[R]_(m, n))
    (n p : nat) (a : 'cV[R]_n) (Pc : 'M[R]_n) (d : 'cV[R]_p) (Z : 'M[R]_(p, n)) (H : 'M[R]_p),
  (forall x y, 0 < x -> 0 < y -> log (x * y) = log x + log y) ->
  (forall m (A : 'M[R]_m), psd A -> chol_spec A (cholesky m A)) ->
  (forall m k (M : 'M[R]_(m, k)), (k <= m)%N -> qr_spec M (qr_r m k M)) -> tri_ok solve_tri ->
  psd H -> innov_cov (Pc *m Pc^T) Z H \in unitmx ->
  (1 < p)%N -> log (\det (innov_cov (Pc *m Pc^T) Z H)) != 0 ->
  let '(_, _, y_hat, F_chol, ll) := sqrt_update log cst cholesky qr_r solve_tri a Pc (d + Z *m a) d Z H false in
  ll != gauss_ll log cst (F_chol *m F_chol^T) (d + Z *m a - y_hat).
Proof. exact: sqrt_ll_wrong. Qed.
Print Assumptions C18_sqrt_refuted.

(** and the quadratic term uses L^-1 L^-1 instead of L^-T L^-1 (second [solve_triangular] without transposition):
    1 instead of 2 for F = [[1,1],[1,2]] and innovation (1, 0), whatever the signs in the factor *)
Theorem C18_sqrt_quadratic_term_refuted :
  forall (R : realFieldType) (L : 'M[R]_2), is_trig_mx L -> L *m L^T = m22 1 1 1 2%:R ->
  let v := c2 1 0 in
  (v^T *m (invmx L *m (invmx L *m v))) 0 0 = 1 /\ (v^T *m invmx (L *m L^T) *m v) 0 0 = 2%:R.
Proof. exact: sqrt_quad_wrong. Qed.
Print Assumptions C18_sqrt_quadratic_term_refuted.

(** univariate filter: the Gaussian log-density of the observed series provided no series contributes exactly 0 *)
Theorem C18_univariate_loglike_partial :
  forall (R : realFieldType) (log : R -> R) (cst j : R) (n p : nat) (y : 'cV[R]_p) (d : 'cV[R]_p) (Z : 'M[R]_(p, n))
    (h : 'rV[R]_p) (a : 'cV[R]_n) (P : 'M[R]_n),
  (forall x y, 0 < x -> 0 < y -> log (x * y) = log x + log y) -> 0 <= j ->
  psd P -> (forall k, 0 <= h 0 k) -> (forall k, 0 < h 0 k \/ j = 0) ->
  let H := diag_mx h in let F := innov_cov P Z (stabilize H j) in F \in unitmx ->
  all (fun l => l != 0) (uni_scan log j (uni_rows (fun i => Some (y i 0)) d Z H) a P).2 ->
  (uni_update log cst j (fun i => Some (y i 0)) d Z H a P).2 = gauss_ll log cst F (y - d - Z *m a).
Proof. by intros; apply: uni_ll_exact. Qed.
Print Assumptions C18_univariate_loglike_partial.

(** a series with F = 1 and a zero innovation contributes exactly 0 and its log(2 pi) is dropped *)
Theorem C18_univariate_refuted :
  forall (R : realFieldType) (log : R -> R) (cst : R), log 1 = 0 -> cst != 0 ->
  let y : obs R 1 := fun _ => Some 0 in
  (uni_update log cst 0 y 0 (0 : 'rV[R]_1) (1%:M : 'M[R]_1) 0 1%:M).2 = 0 /\
  gauss_ll log cst (innov_cov (1%:M : 'M[R]_1) (0 : 'rV[R]_1) 1%:M) 0 = - 2%:R^-1 * cst /\
  - 2%:R^-1 * cst != 0.
Proof. exact: uni_ll_wrong. Qed.
Print Assumptions C18_univariate_refuted.

(** ** C19.  Everything missing: the update returns its input and contributes 0 (the step then adds the jitter). *)
Theorem C19_all_missing_standard :
  forall (R : realFieldType) (log : R -> R) (cst : R) (solve : forall m n, 'M[R]_m -> 'M[R]_(m, n) -> 'M[R]_(m, n))
    (j fill : R) (n p r : nat) (u : inputs R n p r) (a : 'cV[R]_n) (P : 'M[R]_n),
  solve_ok solve -> 0 < j -> psd P -> (forall i, in_y u i = None \/ in_y u i = Some fill) ->
  let o := std_step log cst solve j fill u a P in
  KalmanScan_Model.o_af o = a /\ KalmanScan_Model.o_Pf o = P + j *: 1%:M /\ KalmanScan_Model.o_ll o = 0 /\
  KalmanScan_Model.o_mu o = in_d u.
Proof.
move=> R log cst solve j fill n p r u a P sok jp pP am.
have am' : forall i, nan_mask fill (in_y u) i.
  by move=> i; rewrite /nan_mask; case: (am i) => ->.
by rewrite /std_step (all_missing_update log cst a (in_d u) (in_Z u) (in_H u) am' pP jp sok).
Qed.
Print Assumptions C19_all_missing_standard.

Theorem C19_all_missing_sqrt :
  forall (R : realFieldType) (log : R -> R) (cst : R) (cholesky : forall m, 'M[R]_m -> 'M[R]_m)
    (qr_r : forall m n, 'M[R]_(m, n) -> 'M[R]_n) (solve_tri : forall m n, 'M[R]_m -> 'M[R]_(m, n) -> 'M[R]_(m, n))
    (j fill : R) (n p r : nat) (u : inputs R n p r) (a : 'cV[R]_n) (Pc : 'M[R]_n),
  (forall i, in_y u i = None \/ in_y u i = Some fill) ->
  let o := sqrt_step log cst j fill cholesky qr_r solve_tri u a Pc in
  KalmanScan_Model.o_af o = a /\ KalmanScan_Model.o_Pf o = Pc + j *: 1%:M /\ KalmanScan_Model.o_ll o = 0.
Proof.
move=> R log cst chol qr tri j fill n p r u a Pc am.
have am' : all_nan fill (in_y u).
  by apply/forallP => i; rewrite /nan_mask; case: (am i) => ->.
by rewrite /sqrt_step /sqrt_update am'.
Qed.

(** some missing: state estimates are those of the observed rows alone, if the noise of observed and missing series is
    uncorrelated.  Missing from the full property: correlated noise (C14_correlated_noise_refuted) and the
    log-likelihood (refuted below). *)
Theorem C19_observed_rows_only_partial :
  forall (R : realFieldType) (log : R -> R) (cst : R) (solve : forall m n, 'M[R]_m -> 'M[R]_(m, n) -> 'M[R]_(m, n))
    (j fill : R) (n p q : nat) (y : obs R p) (f : 'I_q -> 'I_p) (P : 'M[R]_n) (Z : 'M[R]_(p, n)) (H : 'M[R]_p)
    (a : 'cV[R]_n) (d : 'cV[R]_p),
  solve_ok solve -> 0 < j -> psd P -> psd H -> decoupled (nan_mask fill y) H -> lists_observed (nan_mask fill y) f ->
  let full := std_update log cst solve j a P (y_masked fill y) d (Z_masked fill y Z) (H_masked fill y H) (all_nan fill y) in
  let obs := std_update log cst solve j a P (\col_k odflt 0 (y (f k))) (rowsub f d) (rowsub f Z) (mxsub f f H) false in
  full.1.1.1.1 = obs.1.1.1.1 /\ full.1.1.1.2 = obs.1.1.1.2.
Proof.
move=> R log cst solve j fill n p q y f P Z H a d sok jp pP pH dH lf.
apply: masked_update => //.
have := innov_pd (rowsub f Z) pP (psd_stabilize (ltW jp) (obs_psd f pH)).
apply. rewrite (mxsub_S f H). exact: pd_stab.
Qed.
Print Assumptions C19_observed_rows_only_partial.

(** the first m1 series observed, the last m2 missing: the log-likelihood also contains, for every missing series, its
    log(jitter) and the square of its intercept over the jitter *)
Theorem C19_partial_missing_loglike_refuted :
  forall (R : realFieldType) (log : R -> R) (cst : R) (solve : forall m n, 'M[R]_m -> 'M[R]_(m, n) -> 'M[R]_(m, n))
    (j fill : R) (n m1 m2 : nat) (y1 d1 : 'cV[R]_m1) (d2 : 'cV[R]_m2) (P : 'M[R]_n) (Z : 'M[R]_(m1 + m2, n))
    (H1 : 'M[R]_m1) (H2 : 'M[R]_m2) (a : 'cV[R]_n),
  (forall x y, 0 < x -> 0 < y -> log (x * y) = log x + log y) ->
  solve_ok solve -> 0 < j -> psd P -> psd H1 -> psd H2 -> (0 < m1)%N -> (forall i, y1 i 0 != fill) ->
  let y : obs R (m1 + m2) := fun i => if split i is inl k then Some (y1 k 0) else None in
  let H := block_mx H1 0 0 H2 in
  let full := std_update log cst solve j a P (y_masked fill y) (col_mx d1 d2) (Z_masked fill y Z) (H_masked fill y H) (all_nan fill y) in
  let obs := std_update log cst solve j a P y1 d1 (usubmx Z) H1 false in
  full.2 = obs.2 - 2%:R^-1 * (m2%:R * log j + (d2^T *m d2) 0 0 / j).
Proof. by intros; apply: partial_missing_ll. Qed.
Print Assumptions C19_partial_missing_loglike_refuted.

(** univariate filter: NaN entries are ignored entirely (moments: exact conditional on the rest) *)
Theorem C19_univariate_ignores_nan :
  forall (R : realFieldType) (log : R -> R) (cst j : R) (n p : nat) (y : obs R p) (d : 'cV[R]_p) (Z : 'M[R]_(p, n))
    (H : 'M[R]_p) (a : 'cV[R]_n) (P : 'M[R]_n),
  uni_update log cst j y d Z H a P =
  let f := @obs_index R p y in
  uni_update log cst j (fun k => y (f k)) (rowsub f d) (rowsub f Z) (mxsub f f H) a P.
Proof. exact: uni_obs_only. Qed.
Theorem C19_obs_index_lists_the_observed_series :
  forall (R : realFieldType) (p : nat) (y : obs R p),
  injective (@obs_index R p y) /\ forall i, y i <> None <-> exists k, @obs_index R p y k = i.
Proof.
move=> R p y; have [i1 i2] := obs_index_lists y; split=> // i; rewrite -i2 /isnan_mask.
by case: (y i) => [x|]; split.
Qed.
Print Assumptions C19_univariate_ignores_nan.

(** but the fill value, which is what the data pipeline hands to the filter for missing entries, is treated as an
    observation *)
Theorem C19_univariate_fill_value_refuted :
  forall (R : realFieldType) (log : R -> R) (cst fill : R), fill != 0 ->
  let y : obs R 1 := fun _ => Some fill in
  (uni_update log cst 0 y 0 1%:M (1%:M : 'M[R]_1) (0 : 'cV[R]_1) 1%:M).1.1 = (2%:R^-1 * fill)%:M /\
  ((2%:R^-1 * fill)%:M : 'cV[R]_1) != 0.
Proof. exact: uni_fill_wrong. Qed.
Print Assumptions C19_univariate_fill_value_refuted.

(** ** C20.  Diagonal noise, zero jitter: the univariate filter's moments are the standard filter's; its
    log-likelihood is the joint Gaussian log-density (C18_univariate_loglike_partial). *)
Theorem C20_univariate_equals_joint :
  forall (R : realFieldType) (log : R -> R) (cst : R) (solve : forall m n, 'M[R]_m -> 'M[R]_(m, n) -> 'M[R]_(m, n))
    (n p : nat) (y d : 'cV[R]_p) (Z : 'M[R]_(p, n)) (h : 'rV[R]_p) (a : 'cV[R]_n) (P : 'M[R]_n) flag,
  (forall x y, 0 < x -> 0 < y -> log (x * y) = log x + log y) ->
  solve_ok solve -> psd P -> (forall k, 0 <= h 0 k) -> innov_cov P Z (diag_mx h) \in unitmx ->
  let u := uni_update log cst 0 (fun i => Some (y i 0)) d Z (diag_mx h) a P in
  let s := std_update log cst solve 0 a P y d Z (diag_mx h) flag in
  u.1.1 = s.1.1.1.1 /\ u.1.2 = s.1.1.1.2.
Proof. by intros; apply: uni_eq_std. Qed.
Print Assumptions C20_univariate_equals_joint.

(** with jitter j the covariances differ by j K K' (Joseph form with H, not H + jI), after both add j I *)
Theorem C20_jitter_difference :
  forall (R : realFieldType) (log : R -> R) (cst j : R) (solve : forall m n, 'M[R]_m -> 'M[R]_(m, n) -> 'M[R]_(m, n))
    (n p : nat) (y d : 'cV[R]_p) (Z : 'M[R]_(p, n)) (h : 'rV[R]_p) (a : 'cV[R]_n) (P : 'M[R]_n) flag,
  (forall x y, 0 < x -> 0 < y -> log (x * y) = log x + log y) ->
  solve_ok solve -> 0 <= j -> psd P -> (forall k, 0 < h 0 k) ->
  let K := gain P Z (stabilize (diag_mx h) j) in
  let u := uni_update log cst j (fun i => Some (y i 0)) d Z (diag_mx h) a P in
  let s := std_update log cst solve j a P y d Z (diag_mx h) flag in
  u.1.1 = s.1.1.1.1 /\ u.1.2 = stabilize s.1.1.1.2 j + j *: (K *m K^T).
Proof. by intros; apply: uni_std_jitter. Qed.
Print Assumptions C20_jitter_difference.

(** the two filters' log-likelihoods differ for two or more series *)
Theorem C20_loglike_refuted :
  forall (R : realFieldType) (log : R -> R) (cst : R) (solve : forall m n, 'M[R]_m -> 'M[R]_(m, n) -> 'M[R]_(m, n))
    (n p : nat) (y d : 'cV[R]_p) (Z : 'M[R]_(p, n)) (h : 'rV[R]_p) (a : 'cV[R]_n) (P : 'M[R]_n),
  (forall x y, 0 < x -> 0 < y -> log (x * y) = log x + log y) ->
  solve_ok solve -> psd P -> (forall k, 0 <= h 0 k) -> innov_cov P Z (diag_mx h) \in unitmx ->
  (1 < p)%N -> cst != 0 ->
  all (fun l => l != 0) (uni_scan log 0 (uni_rows (fun i => Some (y i 0)) d Z (diag_mx h)) a P).2 ->
  (uni_update log cst 0 (fun i => Some (y i 0)) d Z (diag_mx h) a P).2 !=
  (std_update log cst solve 0 a P y d Z (diag_mx h) false).2.
Proof. by intros; apply: uni_std_ll. Qed.
Print Assumptions C20_loglike_refuted.
