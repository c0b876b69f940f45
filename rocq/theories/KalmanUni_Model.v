(** Whole runs of the univariate filter.
    Source: /repo/pymc_extras/statespace/filters/kalman_filter.py:769-829 (UnivariateFilter), 240-308 (post-processing).
    Simplifications: those of Kalman_Model.v.  The matrices are static: with a time-varying matrix the arguments are misplaced (C17_univariate_filter_refuted). *)
From mathcomp Require Import all_ssreflect all_algebra.
From Verif Require Common KalmanScan_Model.
From Verif Require Import Kalman_Model.
Set Implicit Arguments.
Unset Strict Implicit.
Unset Printing Implicit Defensive.
Import Order.Theory GRing.Theory Num.Theory.
Local Open Scope ring_scope.

Section Uni.
Context (R : realFieldType) (log : R -> R) (MVN_CONST : R) (jitter : R).
(** lines 799-812: the second and third outputs of the inner scan, [obs_mu[-1]] and [obs_cov[-1]], are those of the last series *)
Fixpoint uni_obs n (us : seq (uni_row R n)) (a : 'cV[R]_n) (P : 'M[R]_n) (last : R * R) : R * R :=
  match us with
  | [::] => last
  | u :: us' => let '(a1, P1, y_hat, F, _) := uni_inner log jitter u a P in uni_obs us' a1 P1 (y_hat, F)
  end.
(** lines 791-819 kalman_step *)
Definition uni_step n p r (u : inputs R n p r) (a : 'cV[R]_n) (P : 'M[R]_n) : @KalmanScan_Model.step_out 'cV[R]_n 'M[R]_n 'cV[R]_1 'M[R]_1 R :=
  let rows := uni_rows (in_y u) (in_d u) (in_Z u) (in_H u) in
  let '(a_f, P_f, ll) := uni_update log MVN_CONST jitter (in_y u) (in_d u) (in_Z u) (in_H u) a P in
  let '(mu, F) := uni_obs rows a P (0, 0) in
  let '(a_hat, P_hat) := predict a_f P_f (in_c u) (in_T u) (in_R u) (in_Q u) in
  {| KalmanScan_Model.o_af := a_f; KalmanScan_Model.o_ahat := a_hat; KalmanScan_Model.o_mu := mu%:M;
     KalmanScan_Model.o_Pf := P_f; KalmanScan_Model.o_Phat := P_hat; KalmanScan_Model.o_cov := F%:M; KalmanScan_Model.o_ll := ll |}.
(** the static matrices c, d, T, Z, R, H, Q *)
Record mats n p r := Mats { m_c : 'cV[R]_n; m_d : 'cV[R]_p; m_T : 'M[R]_n; m_Z : 'M[R]_(p, n); m_R : 'M[R]_(n, r); m_H : 'M[R]_p; m_Q : 'M[R]_r }.
Definition with_mats n p r (m : mats n p r) (ys : seq (obs R p)) : seq (inputs R n p r) :=
  [seq Inputs y (m_c m) (m_d m) (m_T m) (m_Z m) (m_R m) (m_H m) (m_Q m) | y <- ys].
(** lines 144-238 *)
Definition uni_filter n p r (m : mats n p r) (ys : seq (obs R p)) (a0 : 'cV[R]_n) (P0 : 'M[R]_n) :=
  KalmanScan_Model.build_graph (@uni_step n p r) (with_mats m ys) a0 P0.
(** lines 277 and 290: the observed moments are asserted to have as many columns as there are series, when they are evaluated; they have one *)
Definition evaluate_observed (p : nat) (X : Type) (l : seq X) : Common.res (seq X) := if p == 1%N then Common.Ok l else Common.Err Common.AssertionError.
End Uni.
