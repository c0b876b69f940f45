(** * C98: saved Kalman filter outputs, and the settings later calls use. *)
From Verif Require Import Common Dict Save_Model.
From mathcomp Require Import all_ssreflect all_algebra.
From Verif Require Import Kalman_Model.
From Verif Require KalmanScan_Model.
Set Implicit Arguments.
Unset Strict Implicit.
Unset Printing Implicit Defensive.
Import GRing.Theory Num.Theory.

(** ** Specification *)
Section Spec.
Context {V : Type}.
(** the seven outputs of a run of the filter *)
Record run := Run { f_state : V; p_state : V; o_state : V; f_cov : V; p_cov : V; o_cov : V; loglike : V }.
Definition as_list (x : run) : list V := [:: f_state x; p_state x; o_state x; f_cov x; p_cov x; o_cov x; loglike x].
(** the documented axes of each saved quantity *)
Definition axes (name : string) : list string :=
  (if String.eqb name "predicted_observed_state" then [:: "time"; "observed_state"] else
   if String.eqb name "predicted_observed_covariance" then [:: "time"; "observed_state"; "observed_state_aux"] else
   if String.eqb name "filtered_state" || String.eqb name "predicted_state" || String.eqb name "smoothed_state" then [:: "time"; "state"]
   else [:: "time"; "state"; "state_aux"])%string.
(** an axis is labelled when the model knows its coordinates *)
Definition labelled (coords : list string) (l : list string) : list (option string) :=
  List.map (fun d => if List.in_dec String.string_dec d coords then Some d else None) l.
End Spec.
Arguments run : clear implicits.

Lemma smem_dec (A : Type) (d : string) coords (x y : A) : (if smem d coords then x else y) = (if List.in_dec String.string_dec d coords then x else y).
Proof.
rewrite /smem. case: (List.in_dec _ _ _) => h.
- by have -> : List.existsb (String.eqb d) coords = true by apply/List.existsb_exists; exists d; split=> //; apply String.eqb_refl.
- case E : (List.existsb _ _) => //. move/List.existsb_exists: E => [z [hz /String.eqb_eq e]]. by case: h; rewrite e.
Qed.

Section Claim.
Context {V J F : Type} (fill0 : F) (jit0 : J) (filter : F -> J -> run V) (smoother : J -> V -> V -> V * V).
Notation build := (@build_statespace_graph V J F fill0 jit0 (fun f j => as_list (filter f j)) smoother).
Notation conditional := (@outputs_from_dummy_graph V J F fill0 jit0 (fun f j => as_list (filter f j)) smoother).
Definition given (A : Type) (d : A) (o : option A) : A := if o is Some x then x else d.

(** With save_kalman_filter_outputs_in_idata=True exactly eight quantities are saved.  The six outputs of the filter are each under their own name with their own
    axes, computed with the caller's marker and jitter, and the observed variable has the same observed means, covariances and log-likelihood.  Smoothed states and
    covariances come from smoothing these outputs (but see C98_smoother_jitter_refuted for their jitter).  Without the flag nothing is saved. *)
Theorem C98_saved_outputs_partial coords mfv jit : let x := filter (given fill0 mfv) (given jit0 jit) in let s := smoother jit0 (f_state x) (f_cov x) in
  exists b, build coords mfv jit true = Ok b /\
  let entry name v := dget (saved b) name = Some (v, labelled coords (axes name)) in
  entry "filtered_state"%string (f_state x) /\ entry "predicted_state"%string (p_state x) /\ entry "predicted_observed_state"%string (o_state x) /\
  entry "filtered_covariance"%string (f_cov x) /\ entry "predicted_covariance"%string (p_cov x) /\ entry "predicted_observed_covariance"%string (o_cov x) /\
  entry "smoothed_state"%string (fst s) /\ entry "smoothed_covariance"%string (snd s) /\
  List.length (saved b) = 8 /\ obs_mus b = o_state x /\ obs_covs b = o_cov x /\ obs_logp b = loglike x.
Proof.
rewrite /build_statespace_graph /filter_build_graph /build_smoother_graph /as_list /pop_last /=.
case: (smoother _ _ _) => ss sc /=. eexists; split; first reflexivity. rewrite /= /labelled /=.
by rewrite !smem_dec.
Qed.
Theorem C98_nothing_saved coords mfv jit : let x := filter (given fill0 mfv) (given jit0 jit) in
  exists b, build coords mfv jit false = Ok b /\ saved b = nil /\ obs_mus b = o_state x /\ obs_covs b = o_cov x /\ obs_logp b = loglike x.
Proof. by rewrite /build_statespace_graph /filter_build_graph /as_list /pop_last /=; eexists; split. Qed.
(** the observed variable gets both of its axes or none *)
Theorem C98_observed_axes coords mfv jit save b : build coords mfv jit save = Ok b ->
  obs_dims b = if List.in_dec String.string_dec "time"%string coords then if List.in_dec String.string_dec "observed_state"%string coords
    then Some [:: "time"; "observed_state"]%string else None else None.
Proof.
rewrite /build_statespace_graph /filter_build_graph /as_list /pop_last /= => - [<-] /=. rewrite andbT /TIME_DIM /OBS_STATE_DIM.
rewrite -(@smem_dec _ "time"%string) -(@smem_dec _ "observed_state"%string). by case: (smem _ _) => //=; case: (smem _ _).
Qed.
(** sample_conditional_* and forecast rerun the filter and the smoother with the default settings: with the defaults they start from exactly what is saved *)
Theorem C98_conditional_uses_defaults : let x := filter fill0 jit0 in
  conditional = Ok [:: (f_state x, f_cov x); (p_state x, p_cov x); smoother jit0 (f_state x) (f_cov x)].
Proof. by rewrite /outputs_from_dummy_graph /filter_build_graph /build_smoother_graph /as_list /pop_last /=; case: (smoother _ _ _). Qed.
Theorem C98_conditional_agrees coords mfv jit : given fill0 mfv = fill0 -> given jit0 jit = jit0 -> exists b l, build coords mfv jit true = Ok b /\ conditional = Ok l /\
  dget (saved b) "filtered_state"%string = omap (fun vc => (fst vc, labelled coords (axes "filtered_state"%string))) (List.nth_error l 0) /\
  dget (saved b) "filtered_covariance"%string = omap (fun vc => (snd vc, labelled coords (axes "filtered_covariance"%string))) (List.nth_error l 0) /\
  dget (saved b) "predicted_state"%string = omap (fun vc => (fst vc, labelled coords (axes "predicted_state"%string))) (List.nth_error l 1) /\
  dget (saved b) "predicted_covariance"%string = omap (fun vc => (snd vc, labelled coords (axes "predicted_covariance"%string))) (List.nth_error l 1) /\
  dget (saved b) "smoothed_state"%string = omap (fun vc => (fst vc, labelled coords (axes "smoothed_state"%string))) (List.nth_error l 2) /\
  dget (saved b) "smoothed_covariance"%string = omap (fun vc => (snd vc, labelled coords (axes "smoothed_covariance"%string))) (List.nth_error l 2).
Proof.
move=> hf hj. have [b [hb]] := C98_saved_outputs_partial coords mfv jit. rewrite hf hj => /= - [e1 [e2 [_ [e4 [e5 [_ [e7 [e8 _]]]]]]]].
exists b. eexists. split; first exact hb. split; first exact C98_conditional_uses_defaults. by rewrite e1 e2 e4 e5 e7 e8.
Qed.
End Claim.

(** ** The caller's jitter is forgotten *)
Section Refuted.
Local Open Scope ring_scope.
Context (R : realFieldType) (log : R -> R) (cst fill : R).
Definition slv m n (A : 'M[R]_m) (B : 'M[R]_(m, n)) : 'M[R]_(m, n) := invmx A *m B.
(** white noise, one series, two time steps without data *)
Definition gap : inputs R 1 1 1 := Inputs (fun _ => None) 0 0 0 1%:M 1%:M 1%:M 1%:M.
Definition cov_at (l : list 'M[R]_1) (t : nat) : R := nth 0 l t 0 0.
Inductive tensor := States (l : list 'cV[R]_1) | Covs (l : list 'M[R]_1) | Lik (l : list R).
Definition the_filter (fl j : R) : run tensor :=
  match std_filter log cst slv j fl [:: gap; gap] (0 : 'cV[R]_1) (1%:M : 'M[R]_1) with
  | Ok o => Run (States (KalmanScan_Model.filtered_states o)) (States (KalmanScan_Model.predicted_states o)) (States (KalmanScan_Model.observed_states o))
                (Covs (KalmanScan_Model.filtered_covs o)) (Covs (KalmanScan_Model.predicted_covs o)) (Covs (KalmanScan_Model.observed_covs o)) (Lik (KalmanScan_Model.loglike_obs o))
  | Err _ => Run (Lik nil) (Lik nil) (Lik nil) (Lik nil) (Lik nil) (Lik nil) (Lik nil)
  end.
Definition states_of t := if t is States l then l else nil.
Definition covs_of t := if t is Covs l then l else nil.
Definition the_smoother (jd j : R) (a P : tensor) : tensor * tensor :=
  let step f s (_ : unit) := smoother_step j (fun m (A : 'M[R]_m) => invmx A) jd (fst f) (snd f) (fst s) (snd s) (0 : 'M[R]_1) (1%:M : 'M[R]_1) (1%:M : 'M[R]_1) in
  match KalmanScan_Model.smooth step (List.combine (states_of a) (covs_of P)) [:: tt; tt] with
  | Ok l => (States (List.map fst l), Covs (List.map snd l))
  | Err _ => (Lik nil, Lik nil)
  end.
Lemma quad0 (A : 'M[R]_1) : quad_form_sym (0 : 'M[R]_1) A = 0. Proof. by rewrite /quad_form_sym !mul0mx trmx0 addr0 scaler0. Qed.
Lemma quadl1 : quad_form_sym (1%:M : 'M[R]_1) (1%:M : 'M[R]_1) = 1%:M.
Proof. rewrite /quad_form_sym !mul1mx trmx1 trmx1 -mulr2n -scaler_nat scalerA mulVf ?scale1r //. by rewrite pnatr_eq0. Qed.
Lemma quadr0 (A : 'M[R]_1) : quad_form_sym A (0 : 'M[R]_1) = 0. Proof. by rewrite /quad_form_sym mulmx0 mul0mx trmx0 addr0 scaler0. Qed.
Lemma W0 : maskW fill (in_y gap) = 0.
Proof. apply/matrixP=> i k. by rewrite !mxE /nan_mask /= mul0rn. Qed.
Lemma step_gap j (P : 'M[R]_1) : quad_form_sym 1%:M P = P -> KalmanScan_Model.o_Pf (std_step log cst slv j fill gap (0 : 'cV[R]_1) P) = P + j%:M /\
  KalmanScan_Model.o_Phat (std_step log cst slv j fill gap (0 : 'cV[R]_1) P) = 1%:M /\ KalmanScan_Model.o_ahat (std_step log cst slv j fill gap (0 : 'cV[R]_1) P) = 0.
Proof.
move=> hP. rewrite /std_step /std_update /Z_masked /H_masked W0 !mul0mx /=.
have -> : slv (0 + stabilize 0 j)^T (P *m (0 : 'M[R]_1)^T)^T = 0 by rewrite trmx0 mulmx0 trmx0 /slv mulmx0.
by rewrite trmx0 mul0mx subr0 hP quadr0 quad0 quadl1 addr0 add0r !mul0mx addr0 /stabilize scalemx1.
Qed.
Lemma the_filter_covs j : exists a, KalmanScan_Model.filtered_covs a = [:: 1%:M + j%:M; 1%:M + j%:M] /\ (exists l, KalmanScan_Model.filtered_states a = l /\ size l = 2%N) /\
  std_filter log cst slv j fill [:: gap; gap] (0 : 'cV[R]_1) (1%:M : 'M[R]_1) = Ok a.
Proof.
have [e1 [e2 e3]] := step_gap j quadl1. move: e1 e2 e3. rewrite /std_filter. move: (@std_step R log cst slv j fill 1 1 1) => st e1 e2 e3.
rewrite /KalmanScan_Model.build_graph /KalmanScan_Model.postprocess /=. eexists; split; last by split; [eexists | reflexivity].
by rewrite /= e2 e3 e1.
Qed.

(** with a jitter that is not the default, conditional sampling starts from other covariances than the fitted model: for every such jitter *)
Theorem C98_conditional_jitter_refuted (j j0 : R) : j <> j0 ->
  exists b l, build_statespace_graph fill j0 (fun f x => as_list (the_filter f x)) (the_smoother j0) nil None (Some j) true = Ok b /\
    outputs_from_dummy_graph fill j0 (fun f x => as_list (the_filter f x)) (the_smoother j0) = Ok l /\
    (exists P P', omap fst (dget (saved b) "filtered_covariance"%string) = Some (Covs P) /\ omap snd (List.nth_error l 0) = Some (Covs P') /\ cov_at P 0 = 1 + j /\ cov_at P' 0 = 1 + j0) /\ 1 + j <> 1 + j0.
Proof.
move=> hj. have := @C98_saved_outputs_partial _ _ _ fill j0 the_filter (the_smoother j0) nil None (Some j); rewrite /given; cbv zeta beta; move=> [b [hb [_ [_ [_ [e4 _]]]]]].
exists b. eexists. split; first exact hb. split; first exact (@C98_conditional_uses_defaults _ _ _ fill j0 the_filter (the_smoother j0)).
split; last by move=> e; apply: hj; apply: (addrI 1).
have [a [ha [_ Ha]]] := the_filter_covs j. have [a0 [ha0 [_ Ha0]]] := the_filter_covs j0.
exists (KalmanScan_Model.filtered_covs a), (KalmanScan_Model.filtered_covs a0). rewrite e4 /the_filter Ha Ha0.
split=> //. split=> //. by rewrite ha ha0 /cov_at /= !mxE /=.
Qed.
(** the smoothed covariances saved with the model are those of the default jitter, not of the caller's *)
Theorem C98_smoother_jitter_refuted (j j0 : R) : j <> j0 ->
  exists b P, build_statespace_graph fill j0 (fun f x => as_list (the_filter f x)) (the_smoother j0) nil None (Some j) true = Ok b /\
    omap fst (dget (saved b) "smoothed_covariance"%string) = Some (Covs P) /\ cov_at P 0 = 1 + j + j0 + j0 /\
    (exists P', snd (the_smoother j0 j (f_state (the_filter fill j)) (f_cov (the_filter fill j))) = Covs P' /\ cov_at P' 0 = 1 + j + j + j0) /\ 1 + j + j0 + j0 <> 1 + j + j + j0.
Proof.
move=> hj. have := @C98_saved_outputs_partial _ _ _ fill j0 the_filter (the_smoother j0) nil None (Some j); rewrite /given; cbv zeta beta; move=> [b [hb [_ [_ [_ [_ [_ [_ [_ [e8 _]]]]]]]]]].
have [a [ha [[l [hl sl]] Ha]]] := the_filter_covs j.
have S x : exists P, snd (the_smoother j0 x (f_state (the_filter fill j)) (f_cov (the_filter fill j))) = Covs P /\ cov_at P 0 = 1 + j + x + j0.
  rewrite /the_filter Ha /the_smoother /= hl ha. case: l {hl} sl => [//|a1 [//|a2 [|//]]] _ /=. eexists; split; first reflexivity.
  rewrite /cov_at /= /smoother_step /= mulmx0 mul0mx trmx0 quad0 addr0 /stabilize !scalemx1 !mxE /=. by [].
have [P [hP eP]] := S j0. exists b, P. split; first exact hb. split; first by rewrite e8 -hP. split; first by rewrite eP.
split; last by move=> e; apply: hj; move/(addIr j0): e; rewrite -!addrA => /addrI/addrI.
have [P' [hP' eP']] := S j. by exists P'.
Qed.
End Refuted.
