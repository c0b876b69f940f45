(** Model of one step of the Kalman filters and of the smoother, in exact arithmetic over an ordered field.
    Sources: /repo/pymc_extras/statespace/filters/kalman_filter.py, kalman_smoother.py, utilities.py.
    Simplifications: exact arithmetic instead of floats; [log], MVN_CONST, and the linear-algebra routines
    (solve, cholesky, qr, pinv) are parameters, constrained only where a theorem needs it. Static shapes are
    dependent types. Vectors are columns. *)
From mathcomp Require Import all_ssreflect all_algebra.
From Verif Require Common KalmanScan_Model.
Set Implicit Arguments.
Unset Strict Implicit.
Unset Printing Implicit Defensive.
Import Order.Theory GRing.Theory Num.Theory.
Local Open Scope ring_scope.

Section Filter.
Context (R : realFieldType).
Context (log : R -> R) (MVN_CONST : R).
(** [pt.linalg.solve(A, B, assume_a="pos")] *)
Context (solve : forall m n, 'M[R]_m -> 'M[R]_(m, n) -> 'M[R]_(m, n)).
Arguments solve {m n}.
Context (jitter : R) (fill : R).

(** utilities.py:50-54 *)
Definition stabilize n (cov : 'M[R]_n) (j : R) : 'M[R]_n := cov + j *: 1%:M.

(** utilities.py:57-59 *)
Definition quad_form_sym m n (A : 'M[R]_(m, n)) (B : 'M[R]_n) : 'M[R]_m :=
  let out := A *m B *m A^T in 2%:R^-1 *: (out + out^T).

(** an observation row: [None] is NaN *)
Definition obs p := 'I_p -> option R.

(** kalman_filter.py:352 [nan_mask = isnan(y) | (y == fill)] *)
Definition nan_mask p (y : obs p) (i : 'I_p) : bool :=
  match y i with None => true | Some v => v == fill end.
(** line 353 *)
Definition all_nan p (y : obs p) : bool := [forall i, nan_mask y i].
(** line 354 *)
Definition maskW p (y : obs p) : 'M[R]_p := diag_mx (\row_i (if nan_mask y i then 0 else 1)).
(** lines 356-358; the value under a NaN never matters because it is overwritten *)
Definition y_masked p (y : obs p) : 'cV[R]_p := \col_i (if nan_mask y i then 0 else odflt 0 (y i)).
Definition Z_masked p n (y : obs p) (Z : 'M[R]_(p, n)) := maskW y *m Z.
Definition H_masked p (y : obs p) (H : 'M[R]_p) := maskW y *m H.

(** kalman_filter.py:405-409 *)
Definition predict n r (a : 'cV[R]_n) (P : 'M[R]_n) (c : 'cV[R]_n) (T : 'M[R]_n) (Rm : 'M[R]_(n, r)) (Q : 'M[R]_r)
  : 'cV[R]_n * 'M[R]_n :=
  (T *m a + c, quad_form_sym T P + quad_form_sym Rm Q).

(** kalman_filter.py:593-617, StandardFilter.update: a_filtered, P_filtered, y_hat, F, ll *)
Definition std_update n p (a : 'cV[R]_n) (P : 'M[R]_n) (y : 'cV[R]_p) (d : 'cV[R]_p)
    (Z : 'M[R]_(p, n)) (H : 'M[R]_p) (all_nan_flag : bool)
  : 'cV[R]_n * 'M[R]_n * 'cV[R]_p * 'M[R]_p * R :=
  let y_hat := d + Z *m a in
  let v := y - y_hat in
  let PZT := P *m Z^T in
  let F := Z *m PZT + stabilize H jitter in
  let K := (solve F^T PZT^T)^T in
  let I_KZ := 1%:M - K *m Z in
  let a_filtered := a + K *m v in
  let P_filtered := quad_form_sym I_KZ P + quad_form_sym K H in
  let F_inv_v := solve F v in
  let inner_term := (v^T *m F_inv_v) 0 0 in
  let F_logdet := log (\det F) in
  let ll := if all_nan_flag then 0 else - 2%:R^-1 * (MVN_CONST + F_logdet + inner_term) in
  (a_filtered, P_filtered, y_hat, F, ll).

(** everything the step at one time receives besides the recurrent values *)
Record inputs n p r := Inputs {
  in_y : obs p; in_c : 'cV[R]_n; in_d : 'cV[R]_p; in_T : 'M[R]_n; in_Z : 'M[R]_(p, n);
  in_R : 'M[R]_(n, r); in_H : 'M[R]_p; in_Q : 'M[R]_r }.

(** kalman_filter.py:528-541, kalman_step of the standard filter *)
Definition std_step n p r (u : inputs n p r) (a : 'cV[R]_n) (P : 'M[R]_n)
  : @KalmanScan_Model.step_out 'cV[R]_n 'M[R]_n 'cV[R]_p 'M[R]_p R :=
  let y := in_y u in
  let '(a_f, P_f0, mu, F, ll) :=
    std_update a P (y_masked y) (in_d u) (Z_masked y (in_Z u)) (H_masked y (in_H u)) (all_nan y) in
  let P_f := stabilize P_f0 jitter in
  let '(a_hat, P_hat) := predict a_f P_f (in_c u) (in_T u) (in_R u) (in_Q u) in
  {| KalmanScan_Model.o_af := a_f; KalmanScan_Model.o_ahat := a_hat; KalmanScan_Model.o_mu := mu;
     KalmanScan_Model.o_Pf := P_f; KalmanScan_Model.o_Phat := P_hat; KalmanScan_Model.o_cov := F;
     KalmanScan_Model.o_ll := ll |}.

(** kalman_filter.py:144-238 for the standard filter *)
Definition std_filter n p r (us : seq (inputs n p r)) (a0 : 'cV[R]_n) (P0 : 'M[R]_n) :=
  KalmanScan_Model.build_graph (@std_step n p r) us a0 P0.

(** ** Univariate filter *)
(** kalman_filter.py:769-789; one series: y (already zeroed when NaN), Z row, d, H diagonal entry, NaN flag *)
Record uni_row n := Row { r_y : R; r_Z : 'rV[R]_n; r_d : R; r_h : R; r_nan : bool }.
Definition uni_inner n (u : uni_row n) (a : 'cV[R]_n) (P : 'M[R]_n) : 'cV[R]_n * 'M[R]_n * R * R * R :=
  let y_hat := (r_Z u *m a) 0 0 + r_d u in
  let v := r_y u - y_hat in
  let PZT := P *m (r_Z u)^T in
  let F0 := (r_Z u *m PZT) 0 0 + r_h u in
  let zero := (F0 == 0) || r_nan u in
  let F := F0 + jitter in
  let K := (if zero then 0 else 1) *: (F^-1 *: PZT) in
  let a_f := a + v *: K in
  let P_f := P - F *: (K *m K^T) in
  let ll := if zero then 0 else log F + v ^+ 2 / F in
  (a_f, P_f, y_hat, F, ll).

(** the inner scan, line 799-805 *)
Fixpoint uni_scan n (us : seq (uni_row n)) (a : 'cV[R]_n) (P : 'M[R]_n) : 'cV[R]_n * 'M[R]_n * seq R :=
  match us with
  | [::] => (a, P, [::])
  | u :: us' =>
      let '(a1, P1, _, _, l) := uni_inner u a P in
      let '(a2, P2, ls) := uni_scan us' a1 P1 in
      (a2, P2, l :: ls)
  end.

(** line 792 [nan_mask = isnan(y)] only; 794-797 *)
Definition isnan_mask p (y : obs p) (i : 'I_p) : bool := if y i is None then true else false.
Definition uni_rows n p (y : obs p) (d : 'cV[R]_p) (Z : 'M[R]_(p, n)) (H : 'M[R]_p) : seq (uni_row n) :=
  [seq (let m := isnan_mask y i in
        Row (if m then 0 else odflt 0 (y i)) (if m then 0 else row i Z) (d i 0)
            (if m then 0 else H i i) m) | i <- enum 'I_p].

(** lines 817 : the log-likelihood *)
Definition uni_ll (ls : seq R) : R :=
  - 2%:R^-1 * ((count (fun l => l != 0) ls)%:R * MVN_CONST + \sum_(l <- ls) l).

(** lines 807-817: a_filtered, P_filtered (symmetrised, jittered), ll *)
Definition uni_update n p (y : obs p) (d : 'cV[R]_p) (Z : 'M[R]_(p, n)) (H : 'M[R]_p) (a : 'cV[R]_n) (P : 'M[R]_n)
  : 'cV[R]_n * 'M[R]_n * R :=
  let '(a_f, P_f, ls) := uni_scan (uni_rows y d Z H) a P in
  (a_f, stabilize (2%:R^-1 *: (P_f + P_f^T)) jitter, uni_ll ls).

(** ** Square-root filter *)
(** [pt.linalg.cholesky(., lower=True)] *)
Context (cholesky : forall m, 'M[R]_m -> 'M[R]_m).
(** [pt.linalg.qr(M, mode="r")] for a matrix with at least as many rows as columns *)
Context (qr_r : forall m n, 'M[R]_(m, n) -> 'M[R]_n).
(** [solve_triangular(L, B, lower=True)] *)
Context (solve_tri : forall m n, 'M[R]_m -> 'M[R]_(m, n) -> 'M[R]_(m, n)).

(** kalman_filter.py:629-650; [Pc] is the factor of the covariance *)
Definition sqrt_predict n r (a : 'cV[R]_n) (Pc : 'M[R]_n) (c : 'cV[R]_n) (T : 'M[R]_n) (Rm : 'M[R]_(n, r)) (Q : 'M[R]_r)
  : 'cV[R]_n * 'M[R]_n :=
  (T *m a + c, (qr_r (row_mx (T *m Pc) (Rm *m cholesky Q))^T)^T).

(** kalman_filter.py:652-716: a_filtered, factor of P_filtered, y_hat, factor of F, ll *)
Definition sqrt_update n p (a : 'cV[R]_n) (Pc : 'M[R]_n) (y : 'cV[R]_p) (d : 'cV[R]_p)
    (Z : 'M[R]_(p, n)) (H : 'M[R]_p) (all_nan_flag : bool)
  : 'cV[R]_n * 'M[R]_n * 'cV[R]_p * 'M[R]_p * R :=
  let y_hat := Z *m a + d in
  let v := y - y_hat in
  let H_chol := if H == 0 then H else cholesky H in
  let A_T := block_mx H_chol (Z *m Pc) (0 : 'M[R]_(n, p)) Pc in
  let B := (qr_r A_T^T)^T in
  let F_chol := ulsubmx B in
  let K_F_chol := dlsubmx B in
  let P_chol_filtered := drsubmx B in
  if all_nan_flag then (a, Pc, y_hat, F_chol, 0)
  else
    let inner := solve_tri F_chol (solve_tri F_chol v) in
    let loss := (v^T *m inner) 0 0 in
    let logdet := 2%:R * \sum_i log `|F_chol i i| in
    (a + K_F_chol *m solve_tri F_chol v, P_chol_filtered, y_hat, F_chol,
     - 2%:R^-1 * (p%:R * (MVN_CONST + logdet) + loss)).

(** kalman_step (lines 528-541, inherited): the jitter is added to the factor *)
Definition sqrt_step n p r (u : inputs n p r) (a : 'cV[R]_n) (Pc : 'M[R]_n)
  : @KalmanScan_Model.step_out 'cV[R]_n 'M[R]_n 'cV[R]_p 'M[R]_p R :=
  let y := in_y u in
  let '(a_f, P_f0, mu, F, ll) :=
    sqrt_update a Pc (y_masked y) (in_d u) (Z_masked y (in_Z u)) (H_masked y (in_H u)) (all_nan y) in
  let P_f := stabilize P_f0 jitter in
  let '(a_hat, P_hat) := sqrt_predict a_f P_f (in_c u) (in_T u) (in_R u) (in_Q u) in
  {| KalmanScan_Model.o_af := a_f; KalmanScan_Model.o_ahat := a_hat; KalmanScan_Model.o_mu := mu;
     KalmanScan_Model.o_Pf := P_f; KalmanScan_Model.o_Phat := P_hat; KalmanScan_Model.o_cov := F;
     KalmanScan_Model.o_ll := ll |}.

(** lines 718-750: build_graph (P0 is handed to the scan as is) and squaring of every covariance *)
Definition square_seq n (l : seq 'M[R]_n) := [seq L *m L^T | L <- l].
Definition sqrt_filter n p r (us : seq (inputs n p r)) (a0 : 'cV[R]_n) (P0 : 'M[R]_n) :=
  match KalmanScan_Model.build_graph (@sqrt_step n p r) us a0 P0 with
  | Common.Err e => Common.Err e
  | Common.Ok f => Common.Ok
      {| KalmanScan_Model.filtered_states := KalmanScan_Model.filtered_states f;
         KalmanScan_Model.predicted_states := KalmanScan_Model.predicted_states f;
         KalmanScan_Model.observed_states := KalmanScan_Model.observed_states f;
         KalmanScan_Model.filtered_covs := square_seq (KalmanScan_Model.filtered_covs f);
         KalmanScan_Model.predicted_covs := square_seq (KalmanScan_Model.predicted_covs f);
         KalmanScan_Model.observed_covs := square_seq (KalmanScan_Model.observed_covs f);
         KalmanScan_Model.loglike_obs := KalmanScan_Model.loglike_obs f |}
  end.

(** ** Smoother *)
(** [pt.linalg.pinv] *)
Context (pinv : forall m, 'M[R]_m -> 'M[R]_m).
(** kalman_smoother.py:121-126 *)
Definition smoother_predict n r (a : 'cV[R]_n) (P : 'M[R]_n) (T : 'M[R]_n) (Rm : 'M[R]_(n, r)) (Q : 'M[R]_r) :=
  (T *m a, stabilize (quad_form_sym T P + quad_form_sym Rm Q) jitter).
(** kalman_smoother.py:107-119; the second [stabilize] uses the default jitter *)
Definition smoother_step (jitter_default : R) n r (a : 'cV[R]_n) (P : 'M[R]_n) (a_s : 'cV[R]_n) (P_s : 'M[R]_n)
    (T : 'M[R]_n) (Rm : 'M[R]_(n, r)) (Q : 'M[R]_r) : 'cV[R]_n * 'M[R]_n :=
  let '(a_hat, P_hat) := smoother_predict a P T Rm Q in
  let G := (pinv P_hat *m T *m P)^T in
  (a + G *m (a_s - a_hat),
   stabilize (stabilize (P + quad_form_sym G (P_s - P_hat)) jitter) jitter_default).
End Filter.

(** [scipy.linalg.solve(A, B, assume_a="pos", lower=False)]: LAPACK ?posv reads the upper triangle only (and fails
    when that symmetric matrix is not positive definite, in which case this value is not used in any theorem). *)
Definition upper_sym (R : realFieldType) m (A : 'M[R]_m) : 'M[R]_m :=
  \matrix_(i, k) (if (i <= k)%N then A i k else A k i).
Definition posv (R : realFieldType) m n (A : 'M[R]_m) (B : 'M[R]_(m, n)) : 'M[R]_(m, n) :=
  invmx (upper_sym A) *m B.
