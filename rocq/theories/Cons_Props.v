(** C91: the covariances the filters report never understate the mean square error of the states they report, whatever the jitter.

    The model of the filters is Kalman_Model.v and KalmanUni_Model.v; random vectors and the state space model are in Joint_Spec.v, estimates and their errors in Cons_Spec.v. *)
From mathcomp Require Import all_ssreflect all_algebra.
From Verif Require Common KalmanScan_Model.
From Verif Require Import Kalman_Model Kalman_Spec Kalman_Proofs KalmanUni_Model Joint_Spec Joint_Props Cons_Spec Cons_Proofs Cons_Std Cons_Uni.
Set Implicit Arguments.
Unset Strict Implicit.
Unset Printing Implicit Defensive.
Import Order.Theory GRing.Theory Num.Theory.
Local Open Scope ring_scope.

(** Standard filter, any jitter j >= 0, complete data, ANY result of the linear solver (also an inaccurate one): at every time the predicted state, the forecast of the observation and the filtered
    state are unbiased linear estimates from the data so far, with coefficients and reported covariance that do not depend on the numbers, and the reported covariance minus the mean square error
    is positive semidefinite. *)
Theorem C91_standard_filter_complete_data :
  forall (R : realFieldType) (N n p r : nat) (log : R -> R) (cst : R) (solve : forall m n, 'M[R]_m -> 'M[R]_(m, n) -> 'M[R]_(m, n)) (j fill : R)
    (us : seq (inputs R n p r)) a0 P0 (x : nat -> rv R N n) (y : nat -> rv R N p),
  model us a0 P0 x y -> 0 <= j -> (forall t u i, List.nth_error us t = Some u -> in_y u i <> None) ->
  forall t, (t < size us)%N ->
  [/\ exists b B P, covers us y t (x t) b B P /\
        forall v f, avoids fill us v -> std_filter log cst solve j fill (with_values us v) a0 P0 = Common.Ok f ->
        List.nth_error (KalmanScan_Model.predicted_states f) t = Some (on_values b t B v) /\ List.nth_error (KalmanScan_Model.predicted_covs f) t = Some P,
      exists b B F, covers us y t (y t) b B F /\
        forall v f, avoids fill us v -> std_filter log cst solve j fill (with_values us v) a0 P0 = Common.Ok f ->
        List.nth_error (KalmanScan_Model.observed_states f) t = Some (on_values b t B v) /\ List.nth_error (KalmanScan_Model.observed_covs f) t = Some F &
      exists b B P, covers us y t.+1 (x t) b B P /\
        forall v f, avoids fill us v -> std_filter log cst solve j fill (with_values us v) a0 P0 = Common.Ok f ->
        List.nth_error (KalmanScan_Model.filtered_states f) t = Some (on_values b t.+1 B v) /\ List.nth_error (KalmanScan_Model.filtered_covs f) t = Some P].
Proof.
  move=> R N n p r log cst solve j fill us a0 P0 x y M j0 full t lt.
  have KW : forall t u P, List.nth_error us t = Some u -> psd P -> Kof solve j u P *m W0 u = Kof solve j u P by move=> s u P Eu _; apply: KW_full => i; exact: (full s u i Eu).
  have [A B] := std_cov_run log cst fill j0 M KW lt. have [u Eu] := Joint_Run.nth_lt lt. split=> //. apply: (std_cov_obs log cst fill j0 M KW Eu) => i. exact: (full t u i Eu).
Qed.
Print Assumptions C91_standard_filter_complete_data.

(** Standard filter with missing entries: the jitter must be positive, the solver correct, and the noise of the missing entries uncorrelated with that of the observed ones. *)
Theorem C91_standard_filter_missing_data :
  forall (R : realFieldType) (N n p r : nat) (log : R -> R) (cst : R) (solve : forall m n, 'M[R]_m -> 'M[R]_(m, n) -> 'M[R]_(m, n)) (j fill : R)
    (us : seq (inputs R n p r)) a0 P0 (x : nat -> rv R N n) (y : nat -> rv R N p),
  model us a0 P0 x y -> 0 < j -> solve_ok solve ->
  (forall t u, List.nth_error us t = Some u -> decoupled (fun i => ~~ isSome (in_y u i)) (in_H u)) ->
  forall t, (t < size us)%N ->
  (exists b B P, covers us y t (x t) b B P /\
     forall v f, avoids fill us v -> std_filter log cst solve j fill (with_values us v) a0 P0 = Common.Ok f ->
     List.nth_error (KalmanScan_Model.predicted_states f) t = Some (on_values b t B v) /\ List.nth_error (KalmanScan_Model.predicted_covs f) t = Some P) /\
  (exists b B P, covers us y t.+1 (x t) b B P /\
     forall v f, avoids fill us v -> std_filter log cst solve j fill (with_values us v) a0 P0 = Common.Ok f ->
     List.nth_error (KalmanScan_Model.filtered_states f) t = Some (on_values b t.+1 B v) /\ List.nth_error (KalmanScan_Model.filtered_covs f) t = Some P).
Proof.
  move=> R N n p r log cst solve j fill us a0 P0 x y M jp sok dH t lt. have j0 := ltW jp.
  have KW : forall t u P, List.nth_error us t = Some u -> psd P -> Kof solve j u P *m W0 u = Kof solve j u P.
  { move=> s u P Eu pP. have [eps [eta [_ Hu _ _ _]]] := M. have [_ _ [_ EH] _] := Hu _ _ Eu. apply: KW_miss => //; first by rewrite -EH; exact: Joint_Run.cov_psd.
    move=> i k ne. apply: (dH s u Eu). move: ne. rewrite /miss. by case: (in_y u i); case: (in_y u k). }
  exact: (std_cov_run log cst fill j0 M KW lt).
Qed.
Print Assumptions C91_standard_filter_missing_data.

(** Univariate filter, any jitter j >= 0, any pattern of missing entries, static matrices and diagonal measurement noise (what the filter is for). *)
Theorem C91_univariate_filter :
  forall (R : realFieldType) (N n p r : nat) (log : R -> R) (cst : R) (j : R) (m : KalmanUni_Model.mats R n p r) (ys : seq (obs R p)) a0 P0
    (x : nat -> rv R N n) (y : nat -> rv R N p), let us := with_mats m ys in
  model us a0 P0 x y -> 0 <= j -> (forall i k, i != k -> m_H m i k = 0) ->
  forall t, (t < size ys)%N ->
  (exists b B P, covers us y t (x t) b B P /\
     forall v f, uni_filter log cst j m (with_numbers ys v) a0 P0 = Common.Ok f ->
     List.nth_error (KalmanScan_Model.predicted_states f) t = Some (on_values b t B v) /\ List.nth_error (KalmanScan_Model.predicted_covs f) t = Some P) /\
  (exists b B P, covers us y t.+1 (x t) b B P /\
     forall v f, uni_filter log cst j m (with_numbers ys v) a0 P0 = Common.Ok f ->
     List.nth_error (KalmanScan_Model.filtered_states f) t = Some (on_values b t.+1 B v) /\ List.nth_error (KalmanScan_Model.filtered_covs f) t = Some P).
Proof.
  move=> R N n p r log cst j m ys a0 P0 x y us M j0 Hd t lt. have lt' : (t < size us)%N by rewrite size_map. exact: (uni_cov_run log cst j0 Hd M lt').
Qed.
Print Assumptions C91_univariate_filter.

(** What [covers] says for one linear combination of the states: the reported variance is at least the expected squared error. *)
Theorem C91_covers_in_every_direction :
  forall (R : realFieldType) (N n p r k : nat) (us : seq (inputs R n p r)) (y : nat -> rv R N p) m (X : rv R N k) b B P (w : 'cV[R]_k),
  covers us y m X b B P -> (w^T *m mse_of X (estimator b m B y) *m w) 0 0 <= (w^T *m P *m w) 0 0.
Proof.
  move=> R N n p r k us y m X b B P w [_ _ [_ H]]. have := H w. rewrite mulmxBr mulmxBl. set a := _ *m w. set c := _ *m w. by rewrite mxE [(- c) 0 0]mxE subr_ge0.
Qed.
Print Assumptions C91_covers_in_every_direction.

(** The hypotheses can be met: a local level model over the rationals whose second observation is missing. *)
Section Example.
Let QR : realFieldType := [realFieldType of rat].
Let row (o : option QR) : inputs QR 1 1 1 := Inputs (fun _ => o) 0 0 1%:M 1%:M 1%:M 1%:M 1%:M.
Let us (v : QR) := [:: row (Some v); row None].
Example C91_local_level : forall v : QR,
  model (us v) 0 1%:M ex_x ex_y /\ (forall t u, List.nth_error (us v) t = Some u -> decoupled (fun i => ~~ isSome (in_y u i)) (in_H u)).
Proof.
  move=> v. split.
  - have [M _ _] := @C89_local_level v v (v + 1) ltac:(by rewrite -subr_eq0 opprD addrA subrr sub0r oppr_eq0 oner_eq0) ltac:(by rewrite -subr_eq0 opprD addrA subrr sub0r oppr_eq0 oner_eq0).
    have [eps [eta [H0 Hu Hx He Hs]]] := M. exists eps, eta. split=> //. case=> [|[|[|t]]] u; rewrite /= => E; [case: E => <- | case: E => <- | by [] | by []]; [exact: (Hu 0%N _ erefl) | exact: (Hu 1%N _ erefl)].
  - move=> t u _ i k. by rewrite !ord1 eqxx.
Qed.
End Example.
