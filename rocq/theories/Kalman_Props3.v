(** Property theorems C21 (dynamics used by the smoother), C62 (square-root filter), C63 (smoothed covariances). *)
From Coq Require Import Ring Field.
From mathcomp Require Import all_ssreflect all_algebra.
From Verif Require Common KalmanScan_Model.
From Verif Require Import McTac Kalman_Model Kalman_Spec Kalman_Proofs Kalman_Seq Kalman_Missing Kalman_Sqrt Kalman_Run Kalman_LL M22.
Set Implicit Arguments.
Unset Strict Implicit.
Unset Printing Implicit Defensive.
Import Order.Theory GRing.Theory Num.Theory.
Local Open Scope ring_scope.

(** ** C21, one backward step.  x[t] given x[t+1] is a Gaussian conditional: observation x[t+1] = T x[t] + R eta.
    With no intercept and zero jitter the step returns its mean at the smoothed x[t+1], and its covariance plus the
    propagated smoothed covariance (law of total variance): the Rauch-Tung-Striebel step.
    Missing from the full property: the state intercept and time-varying matrices (both refuted). *)
Theorem C21_rts_step_partial :
  forall (R : realFieldType) (pinv : forall m, 'M[R]_m -> 'M[R]_m) (n r : nat) (a a_s : 'cV[R]_n) (P P_s T : 'M[R]_n)
    (Rm : 'M[R]_(n, r)) (Q : 'M[R]_r),
  pinv_ok pinv -> psd P -> psd P_s -> psd Q ->
  let W := Rm *m Q *m Rm^T in innov_cov P T W \in unitmx ->
  smoother_step 0 pinv 0 a P a_s P_s T Rm Q =
  (cond_mean a P T W a_s 0, cond_cov P T W + gain P T W *m P_s *m (gain P T W)^T).
Proof.
move=> R pinv n r a a_s P P_s T Rm Q pok pP pPs pQ W uF.
have uF' : innov_cov P T (stabilize (Rm *m Q *m Rm^T) 0) \in unitmx by rewrite stab00.
by rewrite (smoother_stepE pok _ _ _ pP pPs pQ (lexx 0) uF') !stab00.
Qed.
Print Assumptions C21_rts_step_partial.

(** general jitter (both the one given and the default one added at the end) *)
Theorem C21_rts_step_jitter :
  forall (R : realFieldType) (pinv : forall m, 'M[R]_m -> 'M[R]_m) (j j' : R) (n r : nat) (a a_s : 'cV[R]_n) (P P_s T : 'M[R]_n)
    (Rm : 'M[R]_(n, r)) (Q : 'M[R]_r),
  pinv_ok pinv -> psd P -> psd P_s -> psd Q -> 0 < j ->
  let W := Rm *m Q *m Rm^T + j *: 1%:M in
  smoother_step j pinv j' a P a_s P_s T Rm Q =
  (cond_mean a P T W a_s 0, cond_cov P T W + gain P T W *m P_s *m (gain P T W)^T + j *: 1%:M + j' *: 1%:M).
Proof.
move=> R pinv j j' n r a a_s P P_s T Rm Q pok pP pPs pQ jp W.
have pW : psd W by apply: psd_add; [apply: psd_congr | apply: psd_scal1; apply: ltW].
have uF := innov_pd T pP pW (pd_stab Rm jp pQ).
by rewrite (smoother_stepE pok _ _ _ pP pPs pQ (ltW jp) uF).
Qed.
Print Assumptions C21_rts_step_jitter.

(** with a state intercept c: when the smoothed x[t+1] is exactly the prediction T a + c, it carries no news about x[t]
    and the smoothed mean must be a; the code returns a + G c *)
Theorem C21_intercept_ignored :
  forall (R : realFieldType) (pinv : forall m, 'M[R]_m -> 'M[R]_m) (j j' : R) (n r : nat) (a c : 'cV[R]_n) (P P_s T : 'M[R]_n)
    (Rm : 'M[R]_(n, r)) (Q : 'M[R]_r),
  pinv_ok pinv -> psd P -> psd P_s -> psd Q -> 0 < j ->
  let W := Rm *m Q *m Rm^T + j *: 1%:M in
  cond_mean a P T W (T *m a + c) c = a /\
  (smoother_step j pinv j' a P (predict a P c T Rm Q).1 P_s T Rm Q).1 = a + gain P T W *m c.
Proof.
move=> R pinv j j' n r a c P P_s T Rm Q pok pP pPs pQ jp W.
rewrite (C21_rts_step_jitter _ _ _ _ _ pok pP pPs pQ jp) /predict /= /cond_mean.
split.
- have -> : T *m a + c - c - T *m a = 0 by zmod.
  by rewrite mulmx0 addr0.
- by congr (_ + _ *m _); zmod.
Qed.
Print Assumptions C21_intercept_ignored.

(** a scalar local level model with drift: T = P = Q = R = 1, jitter 1, c = 3: smoothed mean 1 instead of 0 *)
Theorem C21_intercept_refuted :
  forall (R : realFieldType) (pinv : forall m, 'M[R]_m -> 'M[R]_m), pinv_ok pinv ->
  (smoother_step 1 pinv 0 0 1%:M (predict 0 1%:M 3%:R%:M 1%:M 1%:M (1%:M : 'M[R]_1)).1 0 1%:M 1%:M (1%:M : 'M[R]_1)).1
  = (1%:M : 'cV[R]_1).
Proof.
move=> R pinv pok.
have p1 : psd (1%:M : 'M[R]_1) by rewrite -[1%:M]scale1r; apply: psd_scal1; exact: ler01.
have [_ ->] := C21_intercept_ignored (j := 1) 0 0 3%:R%:M 1%:M 1%:M pok p1 (psd0 R 1) p1 ltr01.
rewrite add0r /gain /innov_cov !mul1mx !trmx1 ?mulmx1 ?mul1mx scale1r.
have E : (1%:M + (1%:M + 1%:M) : 'M[R]_1) = 3%:R%:M by rewrite -!raddfD.
by rewrite E mulVmx // unitmxE det_scalar1 unitfE pnatr_eq0.
Qed.
Print Assumptions C21_intercept_refuted.

(** ** C63.  Smoothed covariances are symmetric PSD for every run: filtered covariances PSD (C14), positive jitter,
    time-varying or static matrices, any length. *)
Theorem C63_smoothed_covariances_psd :
  forall (R : realFieldType) (pinv : forall m, 'M[R]_m -> 'M[R]_m) (j j' : R) (n r : nat)
    (filtered : seq ('cV[R]_n * 'M[R]_n)) (ms : seq ('M[R]_n * 'M[R]_(n, r) * 'M[R]_r)) out,
  pinv_ok pinv -> 0 < j -> 0 <= j' ->
  List.Forall (fun x => psd x.2) filtered -> List.Forall (fun m => psd m.2) ms ->
  KalmanScan_Model.smooth
    (fun f s m => smoother_step j pinv j' f.1 f.2 s.1 s.2 m.1.1 m.1.2 m.2) filtered ms = Common.Ok out ->
  List.Forall (fun x => psd x.2) out.
Proof. by intros; eapply smooth_psd; eauto. Qed.
Print Assumptions C63_smoothed_covariances_psd.

(** the whole pipeline: covariances produced by the standard filter, then smoothed with the same jitter *)
Theorem C63_filter_then_smooth :
  forall (R : realFieldType) (log : R -> R) (cst : R) (solve : forall m n, 'M[R]_m -> 'M[R]_(m, n) -> 'M[R]_(m, n))
    (pinv : forall m, 'M[R]_m -> 'M[R]_m) (j j' fill : R) (n p r : nat) (us : seq (inputs R n p r)) a0 P0 f out,
  pinv_ok pinv -> 0 < j -> 0 <= j' -> psd P0 ->
  List.Forall (fun u => psd (in_H u) /\ psd (in_Q u) /\ decoupled (nan_mask fill (in_y u)) (in_H u)) us ->
  std_filter log cst solve j fill us a0 P0 = Common.Ok f ->
  KalmanScan_Model.smooth
    (fun f s m => smoother_step j pinv j' f.1 f.2 s.1 s.2 m.1.1 m.1.2 m.2)
    (List.combine (KalmanScan_Model.filtered_states f) (KalmanScan_Model.filtered_covs f))
    (List.map (fun u => (in_T u, in_R u, in_Q u)) us) = Common.Ok out ->
  List.Forall (fun x => psd x.2) out.
Proof.
move=> R log cst solve pinv j j' fill n p r us a0 P0 f out pok jp j'0 pP0 hu E.
have [pf _] := std_filter_psd (ltW jp) hu pP0 E.
apply: C63_smoothed_covariances_psd => //.
- apply/List.Forall_forall => -[a P] h.
  have hP := @List.in_combine_r _ _ _ _ a P h.
  exact: (proj1 (List.Forall_forall _ _) pf P hP).
- apply/List.Forall_forall => m h.
  have [u [<- iu]] := proj1 (List.in_map_iff _ _ _) h.
  by have [_ [pQ _]] := proj1 (List.Forall_forall _ _) hu u iu.
Qed.
Print Assumptions C63_filter_then_smooth.

(** ** C62.  Full data, zero jitter: the square-root filter returns the moments the standard filter returns when the
    latter is started at P0 P0'.  Full property: started at P0 (refuted below). *)
Theorem C62_sqrt_filter_moments_partial :
  forall (R : realFieldType) (log : R -> R) (cst : R) (cholesky : forall m, 'M[R]_m -> 'M[R]_m)
    (qr_r : forall m n, 'M[R]_(m, n) -> 'M[R]_n) (solve_tri solve : forall m n, 'M[R]_m -> 'M[R]_(m, n) -> 'M[R]_(m, n))
    (fill : R) (n p r : nat) (us : seq (inputs R n p r)) a0 (P0 : 'M[R]_n) f g,
  solve_ok solve -> (forall m (A : 'M[R]_m), psd A -> chol_spec A (cholesky m A)) ->
  (forall m k (M : 'M[R]_(m, k)), (k <= m)%N -> qr_spec M (qr_r m k M)) -> tri_ok solve_tri -> (0 < p)%N ->
  List.Forall (@full_data R fill n p r) us ->
  sqrt_filter log cst 0 fill cholesky qr_r solve_tri us a0 P0 = Common.Ok f ->
  std_filter log cst solve 0 fill us a0 (P0 *m P0^T) = Common.Ok g ->
  KalmanScan_Model.filtered_states f = KalmanScan_Model.filtered_states g /\
  KalmanScan_Model.predicted_states f = KalmanScan_Model.predicted_states g /\
  KalmanScan_Model.observed_states f = KalmanScan_Model.observed_states g /\
  KalmanScan_Model.filtered_covs f = KalmanScan_Model.filtered_covs g /\
  KalmanScan_Model.predicted_covs f = KalmanScan_Model.predicted_covs g /\
  KalmanScan_Model.observed_covs f = KalmanScan_Model.observed_covs g.
Proof.
move=> R log cst chol qr tri solve fill n p r us a0 P0 f g sok cok qok tok p0 fd Ef Eg.
exact: (sqrt_run sok cok qok tok p0 fd Ef Eg).
Qed.
Print Assumptions C62_sqrt_filter_moments_partial.

(** the first predicted covariance is P0 P0' instead of P0, in every run, whatever the numerical routines do *)
Theorem C62_initial_covariance_squared_refuted :
  forall (R : realFieldType) (log : R -> R) (cst : R) (cholesky : forall m, 'M[R]_m -> 'M[R]_m)
    (qr_r : forall m n, 'M[R]_(m, n) -> 'M[R]_n) (solve_tri solve : forall m n, 'M[R]_m -> 'M[R]_(m, n) -> 'M[R]_(m, n))
    (j fill : R) (n p r : nat) (u : inputs R n p r) us a0 (P0 : 'M[R]_n), exists f g,
  sqrt_filter log cst j fill cholesky qr_r solve_tri (u :: us) a0 P0 = Common.Ok f /\
  std_filter log cst solve j fill (u :: us) a0 P0 = Common.Ok g /\
  List.nth_error (KalmanScan_Model.predicted_covs f) 0 = Some (P0 *m P0^T) /\
  List.nth_error (KalmanScan_Model.predicted_covs g) 0 = Some P0.
Proof.
move=> R log cst chol qr tri solve j fill n p r u us a0 P0.
have ne : u :: us <> [::] by [].
have [f [Ef [_ [_ [_ [_ [_ [_ [_ Hf]]]]]]]]] :=
  KalmanScan_Proofs.build_ok (sqrt_step log cst j fill chol qr tri (n := n) (p := p) (r := r)) (u :: us) a0 P0 ne.
have [g [Eg [_ [_ [_ [_ [_ [_ [_ Hg]]]]]]]]] :=
  KalmanScan_Proofs.build_ok (std_step log cst solve j fill (n := n) (p := p) (r := r)) (u :: us) a0 P0 ne.
have [_ [hf _]] := Hf 0%N u erefl. have [_ [hg _]] := Hg 0%N u erefl.
rewrite /sqrt_filter Ef /std_filter Eg. do 2 eexists. split; first by []. split; first by [].
rewrite /= /square_seq; split=> //. by move: hf; case: (KalmanScan_Model.predicted_covs f) => [|c l] //= [->].
Qed.
Print Assumptions C62_initial_covariance_squared_refuted.

(** jitter is added to the factor: a fully missing step turns P = L L' into (L + jI)(L + jI)' instead of P + jI *)
Theorem C62_jitter_on_factor_refuted :
  forall (R : realFieldType) (log : R -> R) (cst : R) (cholesky : forall m, 'M[R]_m -> 'M[R]_m)
    (qr_r : forall m n, 'M[R]_(m, n) -> 'M[R]_n) (solve_tri : forall m n, 'M[R]_m -> 'M[R]_(m, n) -> 'M[R]_(m, n))
    (j fill : R) (n p r : nat) (u : inputs R n p r) a (L : 'M[R]_n),
  (forall i, in_y u i = None \/ in_y u i = Some fill) ->
  let Lf := KalmanScan_Model.o_Pf (sqrt_step log cst j fill cholesky qr_r solve_tri u a L) in
  Lf *m Lf^T = L *m L^T + j *: (L + L^T) + (j ^+ 2) *: 1%:M.
Proof.
move=> R log cst chol qr tri j fill n p r u a L am Lf.
have am' : all_nan fill (in_y u).
  by apply/forallP => i; rewrite /nan_mask; case: (am i) => ->.
have -> : Lf = L + j *: 1%:M by rewrite /Lf /sqrt_step /sqrt_update am'.
rewrite [(_ + _)^T]linearD /= linearZ /= trmx1 mulmxDl !mulmxDr -!scalemxAl -!scalemxAr !mulmx1 mul1mx scalerA -expr2 scalerDr.
by rewrite !addrA.
Qed.
Print Assumptions C62_jitter_on_factor_refuted.
