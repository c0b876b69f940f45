(** C107: the smoothed states do not depend on the order of the observed series. *)
From mathcomp Require Import all_ssreflect all_algebra fingroup perm.
From Verif Require Common KalmanScan_Model.
From Verif Require Import McTac Kalman_Model Kalman_Spec Kalman_Proofs Kalman_Seq KalmanUni_Model Equiv_Props Equiv_Uni Equiv_UniLL.
Set Implicit Arguments.
Unset Strict Implicit.
Unset Printing Implicit Defensive.
Import Order.Theory GRing.Theory Num.Theory.
Import KalmanScan_Model.
Local Open Scope ring_scope.

Section Smooth.
Context (R : realFieldType) (log : R -> R) (MVN_CONST jitter fill : R) (pinv : forall m, 'M[R]_m -> 'M[R]_m) (j' : R).
(** The smoother run on what a filter returned, with the matrices T, R, Q of each time (as PyMCStateSpace does after filtering). *)
Definition smoothed n p r (f : @filter_out 'cV[R]_n 'M[R]_n 'cV[R]_p 'M[R]_p R) (ms : seq ('M[R]_n * 'M[R]_(n, r) * 'M[R]_r)) :=
  smooth (fun f s m => smoother_step jitter pinv j' f.1 f.2 s.1 s.2 m.1.1 m.1.2 m.2) (List.combine (filtered_states f) (filtered_covs f)) ms.
Theorem C107_series_order_smoother n p r (s : 'S_p) (us : seq (inputs R n p r)) a0 P0 : P0^T = P0 ->
  List.Forall (fun u => diagonal (in_H u) \/ complete fill (in_y u) /\ (in_H u)^T = in_H u) us ->
  match std_filter log MVN_CONST (@posv R) jitter fill us a0 P0,
        std_filter log MVN_CONST (@posv R) jitter fill (List.map (reorder_series s) us) a0 P0 with
  | Common.Ok f, Common.Ok g =>
      smoothed g (List.map (fun u => (in_T u, in_R u, in_Q u)) (List.map (reorder_series s) us)) = smoothed f (List.map (fun u => (in_T u, in_R u, in_Q u)) us)
  | Common.Err e, Common.Err e' => e = e'
  | _, _ => False
  end.
Proof.
  move=> sP HH. have := C107_series_order log MVN_CONST jitter s a0 sP HH.
  case: (std_filter _ _ _ _ _ us _ _) => [f|e]; case: (std_filter _ _ _ _ _ _ _ _) => [g|e'] // [_ [E1 [_ [E2 _]]]].
  rewrite /smoothed E1 E2. congr smooth. rewrite List.map_map. exact: List.map_ext.
Qed.
Theorem C107_series_order_univariate_smoother n p r (s : 'S_p) (m : mats R n p r) (ys : seq (obs R p)) a0 P0 :
  0 <= jitter -> (forall x y, 0 < x -> 0 < y -> log (x * y) = log x + log y) -> psd P0 -> psd (m_Q m) -> good_noise jitter (m_H m) ->
  match uni_filter log MVN_CONST jitter m ys a0 P0,
        uni_filter log MVN_CONST jitter (reorder_mats s m) (List.map (fun y i => y (s i)) ys) a0 P0 with
  | Common.Ok f, Common.Ok g =>
      forall ms : seq ('M[R]_n * 'M[R]_(n, r) * 'M[R]_r),
      smooth (fun f s m => smoother_step jitter pinv j' f.1 f.2 s.1 s.2 m.1.1 m.1.2 m.2) (List.combine (filtered_states g) (filtered_covs g)) ms =
      smooth (fun f s m => smoother_step jitter pinv j' f.1 f.2 s.1 s.2 m.1.1 m.1.2 m.2) (List.combine (filtered_states f) (filtered_covs f)) ms
  | Common.Err e, Common.Err e' => e = e'
  | _, _ => False
  end.
Proof.
  move=> j0 Hlog pP pQ gH. have := C107_series_order_univariate MVN_CONST j0 Hlog s ys a0 pP pQ gH. rewrite -/(reorder_mats s m).
  case: (uni_filter _ _ _ m _ _ _) => [f|e]; case: (uni_filter _ _ _ _ _ _ _) => [g|e'] // [E1 [_ [E2 _]]] ms.
  by rewrite E1 E2.
Qed.
End Smooth.
Local Notation QF := [realFieldType of rat].
(** Hypotheses met: one step with two series, correlated noise, complete data. *)
Example C107_smoother_case (fill : QF) :
  let u := Inputs (fun _ : 'I_2 => Some (fill + 1)) 0 0 1%:M (const_mx 1) 1%:M (const_mx 1) (1%:M : 'M[QF]_1) : inputs QF 1 2 1 in
  List.Forall (fun u => diagonal (in_H u) \/ complete fill (in_y u) /\ (in_H u)^T = in_H u) [:: u] /\ (1%:M : 'M[QF]_1)^T = 1%:M.
Proof.
  move=> u. split; last exact: trmx1. constructor; last by constructor. right. split.
  - move=> i. rewrite /u /nan_mask /=. apply/negbTE. by rewrite -subr_eq0 addrAC subrr add0r oner_eq0.
  - by rewrite /u /= trmx_const.
Qed.
