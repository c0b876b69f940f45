(** C89: run on any series, the standard filter and the smoother return exact Gaussian conditionals given all the data, and the log-likelihood is that of the whole series. *)
From Coq Require Import Ring Field.
From mathcomp Require Import all_ssreflect all_algebra.
From Verif Require Common KalmanScan_Model KalmanScan_Spec KalmanScan_Proofs.
From Verif Require Import McTac Kalman_Model Kalman_Spec Kalman_Proofs Kalman_Seq Kalman_LL Kalman_Run Joint_Spec Joint_Proofs Joint_Stack Joint_Run Joint_Std Joint_Smooth KalmanUni_Model Joint_Uni Joint_Nonsing.
Set Implicit Arguments.
Unset Strict Implicit.
Unset Printing Implicit Defensive.
Import Order.Theory GRing.Theory Num.Theory.
Local Open Scope ring_scope.

(** nothing is missing (nor equal to the fill value that marks missing data) *)
Definition complete (R : realFieldType) (fill : R) n p r (us : seq (inputs R n p r)) : Prop :=
  forall t u i, List.nth_error us t = Some u -> exists w, in_y u i = Some w /\ w != fill.

Section S.
Context (R : realFieldType) (N n p r : nat) (log : R -> R) (cst : R)
  (solve : forall m n, 'M[R]_m -> 'M[R]_(m, n) -> 'M[R]_(m, n)) (fill : R).
Add Field ff_jp : (@f_field R).
Context (us : seq (inputs R n p r)) (a0 : 'cV[R]_n) (P0 : 'M[R]_n) (x : nat -> rv R N n) (y : nat -> rv R N p) (f : @KalmanScan_Model.filter_out 'cV[R]_n 'M[R]_n 'cV[R]_p 'M[R]_p R).
Local Notation st := (@std_step R log cst solve 0 fill n p r).
Hypothesis sok : solve_ok solve.
Hypothesis p0 : (0 < p)%N.
Hypothesis M : model us a0 P0 x y.
Hypothesis full : complete fill us.
Hypothesis U : nonsingular (data us y (size us)).
Hypothesis E : std_filter log cst solve 0 fill us a0 P0 = Common.Ok f.
Lemma full' t u : List.nth_error us t = Some u -> exists v, full_row fill u v.
Proof. move=> Eu. exists (\col_i odflt 0 (in_y u i)) => i. rewrite mxE. by have [w [-> Hw]] := full i Eu. Qed.
Lemma ns t : (t <= size us)%N -> nonsingular (data us y t).
Proof. move=> lt. have := @nonsing_all _ _ _ _ _ us y t (size us - t). rewrite subnKC // => H. exact: H. Qed.
Lemma std_all t u : List.nth_error us t = Some u -> exists a P, let o := st u a P in
  [/\ List.nth_error (KalmanScan_Model.predicted_states f) t = Some a /\ List.nth_error (KalmanScan_Model.predicted_covs f) t = Some P,
      List.nth_error (KalmanScan_Model.filtered_states f) t = Some (KalmanScan_Model.o_af o) /\ List.nth_error (KalmanScan_Model.filtered_covs f) t = Some (KalmanScan_Model.o_Pf o),
      List.nth_error (KalmanScan_Model.observed_states f) t = Some (KalmanScan_Model.o_mu o) /\ List.nth_error (KalmanScan_Model.observed_covs f) t = Some (KalmanScan_Model.o_cov o),
      List.nth_error (KalmanScan_Model.loglike_obs f) t = Some (KalmanScan_Model.o_ll o) & condL (x t) (data us y t) a P].
Proof.
  move=> Et. have ne : us <> nil by move=> e; move: Et; rewrite e; case: (t).
  have [g [Eg [_ [_ [_ [_ [_ [_ [_ H]]]]]]]]] := KalmanScan_Proofs.build_ok st us a0 P0 ne.
  move: Eg; rewrite -/(std_filter log cst solve 0 fill us a0 P0) E => -[eg]; subst g.
  have [Ha [HP [Haf [HPf [Hmu [Hc Hll]]]]]] := H t u Et. exists (KalmanScan_Spec.before st us a0 P0 t).1, (KalmanScan_Spec.before st us a0 P0 t).2. split=> //.
  have lt := ltnW (lt_nth Et). exact: (std_bef log cst sok p0 M full' lt (ns lt)).
Qed.
Lemma sizes : us <> nil -> [/\ size (KalmanScan_Model.filtered_states f) = size us, size (KalmanScan_Model.filtered_covs f) = size us & size (KalmanScan_Model.loglike_obs f) = size us].
Proof.
  move=> ne. have [g [Eg [L1 [_ [_ [L4 [_ [_ [L7 _]]]]]]]]] := KalmanScan_Proofs.build_ok st us a0 P0 ne.
  move: Eg; rewrite -/(std_filter log cst solve 0 fill us a0 P0) E => -[eg]; subst g. by [].
Qed.
Lemma filter_given t u : List.nth_error us t = Some u ->
  [/\ List.nth_error (KalmanScan_Model.predicted_states f) t = Some (given_mean (x t) (data us y t)) /\ List.nth_error (KalmanScan_Model.predicted_covs f) t = Some (given_cov (x t) (data us y t)),
      List.nth_error (KalmanScan_Model.filtered_states f) t = Some (given_mean (x t) (data us y t.+1)) /\ List.nth_error (KalmanScan_Model.filtered_covs f) t = Some (given_cov (x t) (data us y t.+1)) &
      List.nth_error (KalmanScan_Model.observed_states f) t = Some (given_mean (y t) (data us y t)) /\ List.nth_error (KalmanScan_Model.observed_covs f) t = Some (given_cov (y t) (data us y t))].
Proof.
  move=> Eu. have [a [P [[-> ->] [-> ->] [-> ->] _ C]]] := std_all Eu. have [v fr] := full' Eu. have lt := lt_nth Eu.
  have [C1 C2 _ _ _] := std_one log cst sok p0 M Eu fr C (ns lt).
  have [-> ->] := condL_given (ns (ltnW lt)) C1. have [-> ->] := condL_given (ns lt) C2. by have [-> ->] := condL_given (ns (ltnW lt)) C.
Qed.
Lemma filtered_cond t g : List.nth_error (List.combine (KalmanScan_Model.filtered_states f) (KalmanScan_Model.filtered_covs f)) t = Some g -> condL (x t) (data us y t.+1) g.1 g.2.
Proof.
  move=> Eg. case ne: us => [|u0 us']. { by move: E Eg; rewrite ne. } rewrite -ne. have nn : us <> nil by rewrite ne.
  have [s1 s2 _] := sizes nn. have lt : (t < size us)%N.
  { have nn' : List.nth_error (List.combine (KalmanScan_Model.filtered_states f) (KalmanScan_Model.filtered_covs f)) t <> None by rewrite Eg.
    move/List.nth_error_Some: nn'. rewrite List.combine_length. move: s1 s2 => /= s1 s2. rewrite -/(size (KalmanScan_Model.filtered_states f)) in s1 *.
    move/ssrnat.ltP. rewrite (_ : length (KalmanScan_Model.filtered_states f) = size us) // (_ : length (KalmanScan_Model.filtered_covs f) = size us) // PeanoNat.Nat.min_id. by []. }
  have [u Eu] := nth_lt lt. have [a [P [_ [F1 F2] _ _ C]]] := std_all Eu. have [v fr] := full' Eu. have [_ C2 _ _ _] := std_one log cst sok p0 M Eu fr C (ns lt).
  have K : forall (A B : Type) (l1 : list A) (l2 : list B) k a1 b1, List.nth_error l1 k = Some a1 -> List.nth_error l2 k = Some b1 -> List.nth_error (List.combine l1 l2) k = Some (a1, b1).
  { move=> A B. elim=> [|? ? IH] [|? ?] [|k] ? ? //=; by [move=> [->] [->] | exact: IH]. }
  by have := K _ _ _ _ _ _ _ F1 F2; rewrite Eg => -[->].
Qed.
Hypothesis logM : forall a b, 0 < a -> 0 < b -> log (a * b) = log a + log b.
Lemma log_1 : log 1 = 0. Proof. have := logM (@ltr01 R) (@ltr01 R). rewrite mulr1 => /eqP. rewrite -subr_eq0 opprD addrA subrr add0r oppr_eq0 => /eqP. by []. Qed.
Lemma size_data t : (t <= size us)%N -> size (data us y t) = (t * p)%N.
Proof.
  elim: t => [|t IH] lt //. have [u Eu] := nth_lt lt. rewrite (data_S y Eu) size_cat IH ?(ltnW lt) // mulSn addnC. congr (_ + _)%N.
  have [v fr] := full' Eu. have Ev : forall i, in_y u i = Some (v i 0) by move=> i; have [] := fr i. by have [e _] := dat_full (y t) Ev.
Qed.
Lemma nth_list (l : seq R) t w : List.nth_error l t = Some w -> nth 0 l t = w.
Proof. elim: l t => [|a l IH] [|t] //=; by [case | exact: IH]. Qed.
Lemma det_pos t : (t <= size us)%N -> 0 < \det (cov (stack (data us y t)) (stack (data us y t))).
Proof. move=> lt. apply: pd_det_pos; [exact: cov_psd | exact: ns]. Qed.
Lemma ll_prefix t : (t <= size us)%N -> \sum_(i < t) nth 0 (KalmanScan_Model.loglike_obs f) i = joint_ll log cst (data us y t) + 2%:R^-1 * (t%:R * (p%:R - 1) * cst).
Proof.
  elim: t => [|t IH] lt.
  { rewrite big_ord0 /joint_ll /gauss_ll /data /= det_mx00 log_1. have -> : forall A : 'M[R]_0, forall v : 'cV[R]_0, (v^T *m A *m v) 0 0 = 0 by move=> A v; rewrite mxE big_ord0. by rewrite !mul0r !add0r !mulr0 addr0. }
  rewrite big_ord_recr /= IH ?(ltnW lt) //. have [u Eu] := nth_lt lt. have [a [P [_ _ _ L C]]] := std_all Eu. have [v fr] := full' Eu.
  have [_ _ _ Ed El] := std_one log cst sok p0 M Eu fr C (ns lt). rewrite (nth_list L) El {El L}. have z0 : (size (data us y t))%:R = (t * p)%:R :> R by rewrite size_data // ltnW. have z1 : (size (data us y t.+1))%:R = (t.+1 * p)%:R :> R by rewrite size_data. rewrite /joint_ll /gauss_ll z0 z1.
  have d1 := det_pos lt. rewrite Ed. have d0 := det_pos (ltnW lt). have dF : 0 < \det (innov_cov P (in_Z u) (in_H u)) by move: d1; rewrite Ed pmulr_rgt0.
  rewrite logM // mulSn natrD !natrM. move: (log _) (log _) (fun_of_matrix _ _ _) (fun_of_matrix _ _ _) => l1 l2 q1 q2. rewrite -(addn1 t) natrD.
  move: (t%:R) (p%:R) (2%:R^-1) => tt pp h. clear. fchange. ring.
Qed.
Lemma ll_total : us <> nil -> \sum_(l <- KalmanScan_Model.loglike_obs f) l = joint_ll log cst (data us y (size us)) + 2%:R^-1 * ((size us)%:R * (p%:R - 1) * cst).
Proof. move=> ne. rewrite -(ll_prefix (leqnn _)). have [_ _ s3] := sizes ne. by rewrite (big_nth 0) big_mkord s3. Qed.
End S.
(* THEOREMS *)
Local Open Scope list_scope.
Lemma given_condL (R : realFieldType) N k (X : rv R N k) (l : seq (datum R N)) : nonsingular l -> condL X l (given_mean X l) (given_cov X l).
Proof.
  move=> U. pose A := cov X (stack l) *m invmx (gram (load (stack l))).
  have C : condL X l (mean X + A *m (values l - mean (stack l))) (gram (load X - A *m load (stack l))).
  { exists A. split=> //. by rewrite mulmxBl /A -mulmxA -mulmxA -/(gram (load (stack l))) mulVmx // mulmx1 subrr. }
  by have [<- <-] := condL_given U C.
Qed.

(** The standard filter without jitter, on a complete series of any length generated by any time-varying linear Gaussian model: the predicted, observed and filtered moments at t
    are the moments of the state (of the observation) given everything observed before t (before t, up to t). *)
Theorem C89_filter_outputs_are_conditionals_partial :
  forall (R : realFieldType) (N n p r : nat) (log : R -> R) (cst : R) (solve : forall m n, 'M[R]_m -> 'M[R]_(m, n) -> 'M[R]_(m, n)) (fill : R)
    (us : seq (inputs R n p r)) a0 P0 (x : nat -> rv R N n) (y : nat -> rv R N p) f,
  solve_ok solve -> (0 < p)%N -> model us a0 P0 x y -> complete fill us -> nonsingular (data us y (size us)) ->
  std_filter log cst solve 0 fill us a0 P0 = Common.Ok f ->
  forall t, (t < size us)%N ->
  [/\ List.nth_error (KalmanScan_Model.predicted_states f) t = Some (given_mean (x t) (data us y t)) /\
      List.nth_error (KalmanScan_Model.predicted_covs f) t = Some (given_cov (x t) (data us y t)),
      List.nth_error (KalmanScan_Model.observed_states f) t = Some (given_mean (y t) (data us y t)) /\
      List.nth_error (KalmanScan_Model.observed_covs f) t = Some (given_cov (y t) (data us y t)) &
      List.nth_error (KalmanScan_Model.filtered_states f) t = Some (given_mean (x t) (data us y t.+1)) /\
      List.nth_error (KalmanScan_Model.filtered_covs f) t = Some (given_cov (x t) (data us y t.+1))].
Proof.
  move=> R N n p r log cst solve fill us a0 P0 x y f sok p0 M full U E t lt. have [u Eu] := nth_lt lt.
  by have [A B C] := filter_given sok p0 M full U E Eu.
Qed.
Print Assumptions C89_filter_outputs_are_conditionals_partial.

(** ... and the contributions add up to the log-density of the whole series, up to the constant (p - 1) log (2 pi) / 2 per time point (see C18). *)
Theorem C89_loglike_is_the_joint_density_partial :
  forall (R : realFieldType) (N n p r : nat) (log : R -> R) (l2pi : R) (solve : forall m n, 'M[R]_m -> 'M[R]_(m, n) -> 'M[R]_(m, n)) (fill : R)
    (us : seq (inputs R n p r)) a0 P0 (x : nat -> rv R N n) (y : nat -> rv R N p) f,
  solve_ok solve -> (0 < p)%N -> model us a0 P0 x y -> complete fill us -> nonsingular (data us y (size us)) ->
  (forall a b, 0 < a -> 0 < b -> log (a * b) = log a + log b) -> us <> [::] ->
  std_filter log l2pi solve 0 fill us a0 P0 = Common.Ok f ->
  \sum_(l <- KalmanScan_Model.loglike_obs f) l = joint_ll log l2pi (data us y (size us)) + 2%:R^-1 * ((size us)%:R * (p%:R - 1) * l2pi).
Proof. move=> R N n p r log l2pi solve fill us a0 P0 x y f sok p0 M full U logM ne E. exact: (ll_total sok p0 M full U E logM ne). Qed.
Print Assumptions C89_loglike_is_the_joint_density_partial.

(** one series: exactly the joint log-density *)
Theorem C89_loglike_one_series :
  forall (R : realFieldType) (N n r : nat) (log : R -> R) (l2pi : R) (solve : forall m n, 'M[R]_m -> 'M[R]_(m, n) -> 'M[R]_(m, n)) (fill : R)
    (us : seq (inputs R n 1 r)) a0 P0 (x : nat -> rv R N n) (y : nat -> rv R N 1) f,
  solve_ok solve -> model us a0 P0 x y -> complete fill us -> nonsingular (data us y (size us)) ->
  (forall a b, 0 < a -> 0 < b -> log (a * b) = log a + log b) -> us <> [::] ->
  std_filter log l2pi solve 0 fill us a0 P0 = Common.Ok f ->
  \sum_(l <- KalmanScan_Model.loglike_obs f) l = joint_ll log l2pi (data us y (size us)).
Proof. move=> R N n r log l2pi solve fill us a0 P0 x y f sok M full U logM ne E. rewrite (ll_total sok (isT : (0 < 1)%N) M full U E logM ne). by rewrite subrr mulr0 mul0r mulr0 addr0. Qed.
Print Assumptions C89_loglike_one_series.

(** The univariate filter without jitter, diagonal measurement noise, static matrices, ANY pattern of missing values: exact conditionals given the numbers that were observed;
    the log-likelihood is the joint log-density of those numbers, plus log (2 pi) / 2 for each innovation term that happens to be exactly zero. *)
Theorem C89_univariate_filter :
  forall (R : realFieldType) (N n p r : nat) (log : R -> R) (l2pi : R) (m : KalmanUni_Model.mats R n p r) (ys : seq (obs R p)) a0 P0
    (x : nat -> rv R N n) (y : nat -> rv R N p) f, let us := with_mats m ys in
  model us a0 P0 x y -> (forall i k, i != k -> m_H m i k = 0) -> nonsingular (data us y (size us)) ->
  (forall a b, 0 < a -> 0 < b -> log (a * b) = log a + log b) ->
  uni_filter log l2pi 0 m ys a0 P0 = Common.Ok f ->
  (forall t, (t < size ys)%N ->
    [/\ List.nth_error (KalmanScan_Model.predicted_states f) t = Some (given_mean (x t) (data us y t)) /\
        List.nth_error (KalmanScan_Model.predicted_covs f) t = Some (given_cov (x t) (data us y t)) &
        List.nth_error (KalmanScan_Model.filtered_states f) t = Some (given_mean (x t) (data us y t.+1)) /\
        List.nth_error (KalmanScan_Model.filtered_covs f) t = Some (given_cov (x t) (data us y t.+1))]) /\
  (ys <> [::] -> \sum_(l <- KalmanScan_Model.loglike_obs f) l = joint_ll log l2pi (data us y (size us)) + 2%:R^-1 * (zero_terms log (data us y (size us)))%:R * l2pi).
Proof.
  move=> R N n p r log l2pi m ys a0 P0 x y f us M Hd U logM E. split.
  - move=> t lt. have lt' : (t < size us)%N by rewrite size_map. have [u Eu] := nth_lt lt'. by have [A B _] := uni_all logM Hd M U E Eu.
  - move=> ne. exact: (uni_ll_all logM Hd M U E ne).
Qed.
Print Assumptions C89_univariate_filter.

(** The univariate filter reports observed moments for the last series only; with more than one series evaluating them is an error. *)
Theorem C89_univariate_observed_moments_refuted :
  forall (R : realFieldType) (n p r : nat) (log : R -> R) (l2pi j : R) (m : KalmanUni_Model.mats R n p r) ys a0 P0 f,
  (1 < p)%N -> uni_filter log l2pi j m ys a0 P0 = Common.Ok f ->
  evaluate_observed p (KalmanScan_Model.observed_states f) = Common.Err Common.AssertionError /\
  evaluate_observed p (KalmanScan_Model.observed_covs f) = Common.Err Common.AssertionError.
Proof. move=> R n p r log l2pi j m ys a0 P0 f lt _. rewrite /evaluate_observed. by case: eqP lt => // ->. Qed.
Print Assumptions C89_univariate_observed_moments_refuted.

(** The smoother: handed exact filtered moments of a model with static T, R, Q and no state intercept, it returns the moments of each state given the whole series,
    also when predicted covariances are singular.  The covariances carry the default jitter, which only ever adds to them. *)
Theorem C89_smoother_outputs_are_conditionals_partial :
  forall (R : realFieldType) (N n p r : nat) (pinv : forall m, 'M[R]_m -> 'M[R]_m) (j' : R) (us : seq (inputs R n p r)) a0 P0 (x : nat -> rv R N n) (y : nat -> rv R N p)
    (filtered : seq ('cV[R]_n * 'M[R]_n)) out,
  (forall m (A : 'M[R]_m), psd A -> A *m pinv m A *m A = A) -> 0 <= j' ->
  model us a0 P0 x y -> nonsingular (data us y (size us)) -> us <> [::] ->
  (forall t u, List.nth_error us t = Some u -> in_c u = 0) ->
  (forall s t u w, List.nth_error us s = Some u -> List.nth_error us t = Some w -> (in_T u, in_R u, in_Q u) = (in_T w, in_R w, in_Q w)) ->
  filtered = [seq (given_mean (x t) (data us y t.+1), given_cov (x t) (data us y t.+1)) | t <- iota 0 (size us)] ->
  KalmanScan_Model.smooth (fun f s m => smoother_step 0 pinv j' f.1 f.2 s.1 s.2 m.1.1 m.1.2 m.2) filtered (List.map (fun u => (in_T u, in_R u, in_Q u)) us) = Common.Ok out ->
  size out = size us /\
  forall t s, List.nth_error out t = Some s ->
  [/\ s.1 = given_mean (x t) (data us y (size us)), psd (s.2 - given_cov (x t) (data us y (size us))) & j' = 0 -> s.2 = given_cov (x t) (data us y (size us))].
Proof.
  move=> R N n p r pinv j' us a0 P0 x y filtered out pen j0 [eps [eta [H0 Hu Hx He Hs]]] U ne c0 stat Ef Es.
  have M : model us a0 P0 x y by exists eps, eta.
  have ns' : forall t, (t <= size us)%N -> nonsingular (data us y t).
  { move=> t lt. have := @nonsing_all _ _ _ _ _ us y t (size us - t). rewrite subnKC // => H. exact: H. }
  have K : forall t g, List.nth_error filtered t = Some g -> condL (x t) (data us y t.+1) g.1 g.2.
  { move=> t g Eg. have lt : (t < size us)%N.
    { have : List.nth_error filtered t <> None by rewrite Eg. move/List.nth_error_Some/ssrnat.ltP. rewrite Ef -[length _]/(size [seq (given_mean (x t) (data us y t.+1), given_cov (x t) (data us y t.+1)) | t <- iota 0 (size us)]) size_map size_iota. by []. }
    have E2 : List.nth_error filtered t = Some (given_mean (x t) (data us y t.+1), given_cov (x t) (data us y t.+1)).
    { rewrite Ef. have Hn : forall (A : Type) (h : nat -> A) m k q, (k < q)%N -> List.nth_error [seq h i | i <- iota m q] k = Some (h (m + k)%N).
      { move=> A h mm k q. elim: q mm k => [|q IH] mm [|k] //= lk; first by rewrite addn0. by rewrite IH // addSnnS. } by rewrite Hn. }
    move: Eg. rewrite E2 => -[<-] /=. apply: given_condL. exact: ns'. }
  have sf : size filtered = size us by rewrite Ef size_map size_iota. have s0 : (0 < size us)%N by case: (us) ne.
  have [sz H] := smooth_run Hu Hx He Hs pen j0 c0 stat sf s0 K Es.
  split=> // t s Et. have [Pex [Er [C E2 pEr Z]]] := H t s Et. have [-> EP] := condL_given U C. split=> //.
  - by rewrite E2 -EP addrAC subrr add0r.
  - move=> jz. by rewrite E2 (Z jz) addr0.
Qed.
Print Assumptions C89_smoother_outputs_are_conditionals_partial.

(** filter, then smooth: the standard filter on complete data ... *)
Theorem C89_filter_then_smooth :
  forall (R : realFieldType) (N n p r : nat) (log : R -> R) (cst : R) (solve : forall m n, 'M[R]_m -> 'M[R]_(m, n) -> 'M[R]_(m, n)) (pinv : forall m, 'M[R]_m -> 'M[R]_m) (fill j' : R)
    (us : seq (inputs R n p r)) a0 P0 (x : nat -> rv R N n) (y : nat -> rv R N p) f out,
  solve_ok solve -> (forall m (A : 'M[R]_m), psd A -> A *m pinv m A *m A = A) -> 0 <= j' -> (0 < p)%N -> model us a0 P0 x y -> complete fill us -> nonsingular (data us y (size us)) ->
  (forall t u, List.nth_error us t = Some u -> in_c u = 0) ->
  (forall s t u w, List.nth_error us s = Some u -> List.nth_error us t = Some w -> (in_T u, in_R u, in_Q u) = (in_T w, in_R w, in_Q w)) ->
  std_filter log cst solve 0 fill us a0 P0 = Common.Ok f ->
  KalmanScan_Model.smooth (fun f s m => smoother_step 0 pinv j' f.1 f.2 s.1 s.2 m.1.1 m.1.2 m.2)
    (List.combine (KalmanScan_Model.filtered_states f) (KalmanScan_Model.filtered_covs f)) (List.map (fun u => (in_T u, in_R u, in_Q u)) us) = Common.Ok out ->
  forall t s, List.nth_error out t = Some s ->
  [/\ s.1 = given_mean (x t) (data us y (size us)), psd (s.2 - given_cov (x t) (data us y (size us))) & j' = 0 -> s.2 = given_cov (x t) (data us y (size us))].
Proof.
  move=> R N n p r log cst solve pinv fill j' us a0 P0 x y f out sok pen j0 p0 M full U c0 stat E Es t s Et.
  have ne : us <> nil by move=> e; move: E; rewrite e.
  have [eps [eta [H0 Hu Hx He Hs]]] := M. have [s1 s2 _] := sizes E ne.
  have sc : size (List.combine (KalmanScan_Model.filtered_states f) (KalmanScan_Model.filtered_covs f)) = size us.
  { have := List.combine_length (KalmanScan_Model.filtered_states f) (KalmanScan_Model.filtered_covs f). rewrite -[length _]/(size (List.combine (KalmanScan_Model.filtered_states f) (KalmanScan_Model.filtered_covs f))) => ->.
    rewrite (_ : length (KalmanScan_Model.filtered_states f) = size us) // (_ : length (KalmanScan_Model.filtered_covs f) = size us) //. exact: PeanoNat.Nat.min_id. }
  have [sz H] := smooth_run Hu Hx He Hs pen j0 c0 stat sc ltac:(by case: (us) ne) (fun t g => filtered_cond sok p0 M full U E (t := t) (g := g)) Es.
  have [Pex [Er [C E2 pEr Z]]] := H t s Et. have [-> EP] := condL_given U C. split=> //.
  - by rewrite E2 -EP addrAC subrr add0r.
  - move=> jz. by rewrite E2 (Z jz) addr0.
Qed.
Print Assumptions C89_filter_then_smooth.

(** The moments "given the data" are those of the best affine predictor: no affine function of the data has a smaller mean square error, and it is attained. *)
Theorem C89_best_affine_predictor : forall (R : realFieldType) (N k : nat) (X : rv R N k) (l : seq (datum R N)), nonsingular l ->
  (forall b B, psd (mse X (l := l) b B - given_cov X l)) /\
  (exists b B, given_mean X l = b + B *m values l /\ mse X (l := l) b B = given_cov X l).
Proof.
  move=> R N k X l U. split.
  - move=> b B. rewrite /mse /cov /=. rewrite addrAC. apply: psd_add; first exact: given_best.
    set e := mean X - _. split; first by rewrite trmx_mul trmxK. move=> z. have -> : z^T *m (e *m e^T) *m z = (e^T *m z)^T *m (e^T *m z) by rewrite trmx_mul trmxK !mulmxA. exact: sq_ge0.
  - pose A := cov X (stack l) *m invmx (cov (stack l) (stack l)). exists (mean X - A *m mean (stack l)), A. split.
    + rewrite /given_mean -/A mulmxBr. by zmod.
    + rewrite /mse /= addrNK subrr mul0mx addr0. have C : condL X l (mean X + A *m (values l - mean (stack l))) (gram (load X - A *m load (stack l))).
      { exists A. split=> //. by rewrite mulmxBl /A -mulmxA -mulmxA mulVmx // mulmx1 subrr. } by have [_ <-] := condL_given U C.
Qed.
Print Assumptions C89_best_affine_predictor.

(** Invertible measurement noise is enough for the data to be nonsingular, whatever is missing. *)
Theorem C89_noise_makes_data_nonsingular : forall (R : realFieldType) (N n p r : nat) (us : seq (inputs R n p r)) a0 P0 (x : nat -> rv R N n) (y : nat -> rv R N p),
  model us a0 P0 x y -> (forall t u, List.nth_error us t = Some u -> in_H u \in unitmx) -> nonsingular (data us y (size us)).
Proof. exact: nonsingular_data. Qed.
Print Assumptions C89_noise_makes_data_nonsingular.

(** The hypotheses can be met: any two observations v, w of a local level model (all matrices 1, initial mean 0 and variance 1) over the rationals. *)
Section Example.
Let QR : realFieldType := [realFieldType of rat].
Let e (i : 'I_5) : 'M[QR]_(1, 5) := delta_mx 0 i.
Let row (v : QR) : inputs QR 1 1 1 := Inputs (fun _ => Some v) 0 0 1%:M 1%:M 1%:M 1%:M 1%:M.
Let us (v w : QR) := [:: row v; row w].
Let eps (t : nat) : rv QR 5 1 := RV 0 (match t with 0 => e (inord 1) | 1 => e (inord 2) | _ => 0 end).
Let eta (t : nat) : rv QR 5 1 := RV 0 (match t with 0 => e (inord 3) | 1 => e (inord 4) | _ => 0 end).
Fixpoint ex_x (t : nat) : rv QR 5 1 := match t with 0 => RV 0 (e (inord 0)) | s.+1 => affine 0 1%:M (ex_x s) 1%:M (eta s) end.
Definition ex_y (t : nat) : rv QR 5 1 := affine 0 1%:M (ex_x t) 1%:M (eps t).
Lemma ee i j : (i < 5)%N -> (j < 5)%N -> e (inord i) *m (e (inord j))^T = if i == j then 1%:M else 0.
Proof.
  move=> li lj. rewrite /e trmx_delta mul_delta_mx_cond -val_eqE /= !inordK //. case: eqP => _; last by rewrite mulr0n.
  rewrite mulr1n. apply/matrixP=> a b. by rewrite !ord1 !mxE !eqxx.
Qed.
Example C89_local_level : forall v w fill : QR, v != fill -> w != fill ->
  [/\ model (us v w) 0 1%:M ex_x ex_y, complete fill (us v w) & nonsingular (data (us v w) ex_y 2)].
Proof.
  move=> v w fill Hv Hw. have M : model (us v w) 0 1%:M ex_x ex_y.
  { exists eps, eta. rewrite /cov. split.
    - split; first exact: erefl. by rewrite [load _]/(e (inord 0)) ee.
    - case=> [|[|[|t]]] u; rewrite /= => E; [case: E => <- | case: E => <- | by [] | by []];
        (split; [reflexivity | reflexivity | split; [reflexivity | by rewrite ee] | split; [reflexivity | by rewrite ee]]).
    - case=> [|[|t]]; rewrite /=; split; by rewrite ?ee // trmx0 mulmx0.
    - case=> [|[|s]] [|[|t]]; rewrite /=; by rewrite ?ee // ?trmx0 ?mulmx0 ?mul0mx.
    - case=> [|[|s]] [|[|t]] H; (try by move: H; rewrite eqxx); rewrite /=; split; by rewrite ?ee // ?trmx0 ?mulmx0 ?mul0mx. }
  split; first exact: M.
  - case=> [|[|[|t]]] u i; rewrite /= => E; [case: E => <- | case: E => <- | by [] | by []]; [exists v | exists w]; split; by [reflexivity | assumption].
  - apply: (C89_noise_makes_data_nonsingular M). case=> [|[|[|t]]] u; rewrite /= => E; [case: E => <- | case: E => <- | by [] | by []]; exact: unitmx1.
Qed.
End Example.
