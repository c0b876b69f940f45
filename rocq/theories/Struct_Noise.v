(** C65 (regression) and C66 (noise variances) of structural components. *)
From Coq Require Import Reals String Ascii Lra.
From Verif Require Import Common Struct_Model Struct_Spec Struct_Proofs Struct_Season Struct_Freq
  Struct_Trend Struct_Sum Struct_Params Struct_Props.
Open Scope nat_scope.

Lemma eyeE i j : eye i j = if i =? j then 1%R else 0%R.
Proof. unfold eye, eye_below. rewrite Nat.add_0_r. auto. Qed.

(** diagonal shock covariance, identity selection *)
Lemma noise_eye p m e d : (forall i j, s_R m e i j = eye i j) ->
  (forall i j, i < p -> j < p -> s_Q m e i j = if i =? j then d i else 0%R) ->
  forall i j, i < p -> j < p -> noise_cov p m e i j = if i =? j then d i else 0%R.
Proof.
  intros HR HQ i j Hi Hj. unfold noise_cov.
  rewrite (rsum_one p _ i); auto.
  - rewrite (rsum_one p _ j); auto.
    + rewrite !HR, !eyeE, !Nat.eqb_refl, HQ by auto. lra.
    + intros l Hl Hne. rewrite !HR, !eyeE. destruct (Nat.eqb_spec j l); [congruence|lra].
  - intros k Hk Hne. apply rsum_0. intros l Hl. rewrite !HR, !eyeE.
    destruct (Nat.eqb_spec i k); [congruence|lra].
Qed.

(** ** C65 *)

(** The observation is the product of the data row with the current coefficients; the coefficients
    start at beta and move only by the shocks. *)
Theorem C65_regression_equation uid k name sn inn c :
  regression uid k name sn inn = Ok c ->
  forall e eps,
  (forall t, y_of c e eps t
             = rsum (c_k_states c) (fun j => e (uid, ("data_" ++ name)%string) t j * x_of c e eps t j)%R) /\
  (forall j, j < c_k_states c -> x_of c e eps 0 j = pv e (uid, ("beta_" ++ name)%string) j) /\
  (forall t j, j < c_k_states c -> x_of c e eps (S t) j = (x_of c e eps t j + eps t j)%R).
Proof.
  intros H e eps. apply regression_inv in H. destruct H as [n (_&_&_&K&P&_&M&_)].
  unfold y_of, x_of. rewrite K, P, M. split; [|split].
  - intros t. unfold observe. cbn [s_d s_Z]. lra.
  - intros j _. reflexivity.
  - intros t j Hj. cbn [run s_c s_T s_R]. unfold zvec.
    rewrite !rsum_eye by auto. lra.
Qed.

(** Without innovations: a linear regression with constant coefficients. *)
Theorem C65_regression_constant uid k name sn c :
  regression uid k name sn false = Ok c ->
  forall e t, y_of c e no_shocks t
    = rsum (c_k_states c) (fun j => e (uid, ("data_" ++ name)%string) t j
                                    * pv e (uid, ("beta_" ++ name)%string) j)%R.
Proof.
  intros H e t. destruct (C65_regression_equation _ _ _ _ _ _ H e no_shocks) as (Y&X0&XS).
  rewrite Y. apply rsum_ext. intros j Hj. f_equal.
  induction t; [auto|]. rewrite XS, IHt by auto. unfold no_shocks. lra.
Qed.

(** The number of coefficients is the number of names given, or k_exog; inconsistent calls are rejected. *)
Theorem C65_regression_accepted uid k name sn inn :
  (exists c, regression uid k name sn inn = Ok c) <->
  match k, sn with
  | None, None => False
  | Some k, Some l => length l = k
  | _, _ => True
  end.
Proof.
  split.
  - intros [c H]. apply regression_inv in H. destruct H as [n (E&_)]. revert E.
    unfold regression_state_names. destruct k as [k|], sn as [l|]; try discriminate; auto.
    destruct (Nat.eqb_spec (length l) k); [auto|discriminate].
  - intros H. unfold regression.
    assert (exists n l, regression_state_names k sn name = Ok (n, l)) as [n [l E]].
    { unfold regression_state_names. destruct k as [k|], sn as [l|]; eauto; [|contradiction].
      subst k. rewrite Nat.eqb_refl. eauto. }
    rewrite E. simpl. rewrite mk_component_ok; [eauto| |].
    + destruct inn; simpl; repeat constructor; simpl; intuition discriminate.
    + intros y; destruct inn; simpl; auto.
Qed.

Theorem C65_regression_count uid k name sn inn c :
  regression uid k name sn inn = Ok c ->
  (forall n, k = Some n -> c_k_states c = n) /\
  (forall l, sn = Some l -> c_k_states c = length l /\ c_state_names c = l).
Proof.
  intros H. apply regression_inv in H. destruct H as [n (E&L&_&K&_)]. rewrite K. revert E.
  unfold regression_state_names. destruct k as [k|], sn as [l|]; try discriminate.
  - destruct (Nat.eqb_spec (length l) k); [|discriminate]. intros E; inversion E; subst.
    split; intros ? F; inversion F; subst; auto.
  - intros E; inversion E; subst. split; intros ? F; inversion F; subst; auto.
  - intros E; inversion E; subst. split; intros ? F; inversion F; subst; auto.
Qed.

Example C65_example : exists c, regression 0 None "x" (Some ["a"; "b"]%string) false = Ok c /\ c_k_states c = 2.
Proof.
  destruct (proj2 (C65_regression_accepted 0 None "x" (Some ["a"; "b"]%string) false) I) as [c H].
  exists c. split; auto. apply (proj2 (C65_regression_count _ _ _ _ _ _ H) _ eq_refl).
Qed.

(** ** C66 Noise variances: sigma parameters are standard deviations of independent shocks *)

Theorem C66_trend_noise uid o io name c :
  level_trend uid o io name = Ok c ->
  forall e i j, i < c_k_states c -> j < c_k_states c ->
  noise_cov (c_k_posdef c) (c_ssm c) e i j
  = (let m := innovation_mask (c_k_states c) o io in
     if (i =? j) && nth i m false then pv e (uid, "sigma_trend"%string) (rank m i) ^ 2 else 0)%R.
Proof.
  intros H e i j Hi Hj. apply level_trend_inv in H. destruct H as [mask (_&_&_&H)]. cbv zeta in H.
  destruct H as (HL&_&Hk&Hp&Hm&_). rewrite Hk in *. rewrite Hp, Hm. cbv zeta.
  set (k := length mask) in *. set (im := innovation_mask k o io) in *. set (p := bsum im).
  unfold noise_cov, trend_ssm. cbn [s_R s_Q].
  set (sg := fun i => (pv e (uid, "sigma_trend"%string) i ^ 2)%R).
  assert (HQ : forall a b, a < p -> (if 0 <? p then set_fancy zmat (seq 0 p) (seq 0 p) sg else zmat) a b
               = if a =? b then sg a else 0%R).
  { intros a b Ha. destruct (Nat.ltb_spec 0 p); [|lia]. rewrite set_diag by auto. reflexivity. }
  assert (HR : forall a l, l < p -> eye a (nth l (flatnonzero im) 0)
               = if nth a im false && (l =? rank im a) then 1%R else 0%R).
  { intros a l Hl. rewrite eyeE. destruct (Nat.eqb_spec a (nth l (flatnonzero im) 0)) as [E|E].
    - assert (In a (flatnonzero im)) by (rewrite E; apply nth_In; rewrite flatnonzero_length; auto).
      apply flatnonzero_In in H. rewrite H. rewrite E at 1. rewrite rank_flatnonzero, Nat.eqb_refl by auto. auto.
    - destruct (nth a im false) eqn:Ea; auto. destruct (Nat.eqb_spec l (rank im a)); auto.
      subst l. rewrite flatnonzero_rank in E by auto. congruence. }
  rewrite (rsum_ext p _ (fun a => rsum p (fun b =>
     ((if nth i im false && (a =? rank im i) then 1 else 0) * (if a =? b then sg a else 0)
      * (if nth j im false && (b =? rank im j) then 1 else 0))%R)))
    by (intros a Ha; apply rsum_ext; intros b Hb; rewrite HQ, !HR by auto; auto).
  destruct (nth i im false) eqn:Ei.
  2:{ rewrite andb_false_r. apply rsum_0. intros a _. apply rsum_0. intros b _. simpl. lra. }
  rewrite andb_true_r.
  pose proof (rank_lt im i Ei) as Ri. fold p in Ri.
  rewrite (rsum_one p _ (rank im i)); auto.
  2:{ intros a Ha Hne. apply rsum_0. intros b _. destruct (Nat.eqb_spec a (rank im i)); [congruence|].
      simpl. lra. }
  rewrite (rsum_one p _ (rank im i)); auto.
  2:{ intros b Hb Hne. destruct (Nat.eqb_spec (rank im i) b); [congruence|]. lra. }
  rewrite !Nat.eqb_refl. simpl.
  destruct (Nat.eqb_spec i j) as [<-|Hne].
  - rewrite Ei, Nat.eqb_refl. unfold sg. simpl. lra.
  - destruct (nth j im false) eqn:Ej; simpl; [|lra].
    destruct (Nat.eqb_spec (rank im i) (rank im j)) as [E|E]; [|lra].
    exfalso. apply Hne. rewrite <- (flatnonzero_rank im i Ei), <- (flatnonzero_rank im j Ej), E. auto.
Qed.

Theorem C66_season_noise uid s inn name sn pop c :
  time_seasonality uid s inn name sn pop = Ok c ->
  forall e i j,
  noise_cov (c_k_posdef c) (c_ssm c) e i j
  = (if inn && (i =? 0) && (j =? 0) then pv e (uid, ("sigma_" ++ name)%string) 0%nat ^ 2 else 0)%R.
Proof.
  intros H e i j. apply ts_inv in H. destruct H as (_&_&_&_&P&M&_). rewrite P, M.
  unfold noise_cov, ts_ssm. cbn [s_R s_Q]. destruct inn; [|reflexivity]. simpl.
  destruct (i =? 0), (j =? 0); simpl; lra.
Qed.

Theorem C66_frequency_noise uid s n name inn c :
  frequency_seasonality uid s n name inn = Ok c ->
  forall e i j, i < c_k_states c -> j < c_k_states c ->
  noise_cov (c_k_posdef c) (c_ssm c) e i j
  = (if inn && (i =? j) then pv e (uid, ("sigma_" ++ name)%string) 0%nat ^ 2 else 0)%R.
Proof.
  intros H e i j Hi Hj. apply freq_inv in H. destruct H as [nn (_&_&_&_&K&P&[drop (_&_&M&_)]&_)].
  rewrite K in *. rewrite P, M. destruct inn.
  - rewrite (noise_eye _ _ _ (fun _ => (pv e (uid, ("sigma_" ++ name)%string) 0%nat ^ 2)%R)); auto.
    intros a b _ _. unfold freq_ssm. cbn [s_Q]. rewrite eyeE. destruct (a =? b); lra.
  - reflexivity.
Qed.

Theorem C66_cycle_noise uid name cl est damp inn c :
  cycle uid name cl est damp inn = Ok c ->
  forall e i j, i < c_k_states c -> j < c_k_states c ->
  noise_cov (c_k_posdef c) (c_ssm c) e i j
  = (if inn && (i =? j) then pv e (uid, ("sigma_" ++ name)%string) 0%nat ^ 2 else 0)%R.
Proof.
  intros H e i j Hi Hj. apply cycle_inv in H. destruct H as (_&_&_&K&P&M&_). rewrite K in *. rewrite P, M.
  destruct inn.
  - rewrite (noise_eye _ _ _ (fun _ => (pv e (uid, ("sigma_" ++ name)%string) 0%nat ^ 2)%R)); auto.
    intros a b _ _. unfold cycle_ssm. cbn [s_Q]. rewrite eyeE. destruct (a =? b); lra.
  - rewrite (noise_eye _ _ _ (fun _ => 0%R)); auto.
    + destruct (i =? j); auto.
    + intros a b _ _. unfold cycle_ssm. cbn [s_Q]. destruct (a =? b); auto.
Qed.

Theorem C66_regression_noise uid k name sn inn c :
  regression uid k name sn inn = Ok c ->
  forall e i j, i < c_k_states c -> j < c_k_states c ->
  noise_cov (c_k_posdef c) (c_ssm c) e i j
  = (if inn && (i =? j) then pv e (uid, ("sigma_beta_" ++ name)%string) i ^ 2 else 0)%R.
Proof.
  intros H e i j Hi Hj. apply regression_inv in H. destruct H as [n (_&_&_&K&P&_&M&_)].
  rewrite K in *. rewrite P, M.
  destruct inn.
  - rewrite (noise_eye _ _ _ (fun i => (pv e (uid, ("sigma_beta_" ++ name)%string) i ^ 2)%R)); auto.
    intros a b Ha _. cbn [s_Q]. rewrite set_diag by auto. reflexivity.
  - rewrite (noise_eye _ _ _ (fun _ => 0%R)); auto.
    + destruct (i =? j); auto.
    + intros a b _ _. cbn [s_Q]. unfold zmat. destruct (a =? b); auto.
Qed.

(** Only MeasurementError contributes to the observation noise, with variance sigma ** 2; it has no state. *)
Theorem C66_measurement_noise uid name c :
  measurement_error uid name = Ok c ->
  c_k_states c = 0 /\ c_k_posdef c = 0 /\
  forall e, s_H (c_ssm c) e = (pv e (uid, ("sigma_" ++ name)%string) 0%nat ^ 2)%R /\
            forall eps t, y_of c e eps t = 0%R.
Proof.
  intros H. apply measurement_inv in H. destruct H as (_&K&P&_&_&_&_&_&M&_).
  split; auto. split; auto. intros e. rewrite M. split; auto.
  intros eps t. unfold y_of. rewrite K, P, M. unfold observe. simpl. lra.
Qed.
Theorem C66_no_other_measurement_noise c :
  leaf c -> (forall uid name, measurement_error uid name <> Ok c) -> forall e, s_H (c_ssm c) e = 0%R.
Proof.
  intros L N e.
  destruct L as [uid o io name c H|uid name c H|uid o name c H|uid s inn name sn pop c H|uid s n name inn c H|uid name cl est damp inn c H|uid k name sn inn c H].
  - apply level_trend_inv in H. destruct H as [mask (_&_&_&H)]. cbv zeta in H.
    destruct H as (HL&_&Hk&Hp&Hm&_). rewrite Hm. auto.
  - exfalso. eapply N; eauto.
  - apply ar_inv in H. destruct H as [mask (_&_&_&_&_&M&_)]. rewrite M. auto.
  - apply ts_inv in H. destruct H as (_&_&_&_&_&M&_). rewrite M. auto.
  - apply freq_inv in H. destruct H as [nn (_&_&_&_&_&_&[drop (_&_&M&_)]&_)]. rewrite M. auto.
  - apply cycle_inv in H. destruct H as (_&_&_&_&_&M&_). rewrite M. auto.
  - apply regression_inv in H. destruct H as [n (_&_&_&_&_&_&M&_)]. rewrite M. auto.
Qed.

(** No component has a state or observation intercept, so sums have none either. *)
Theorem C66_no_intercepts c :
  assembled c -> forall e, s_d (c_ssm c) e = 0%R /\ forall i, s_c (c_ssm c) e i = 0%R.
Proof.
  intros A e. induction A as [c L|a b c A IHa B IHb E].
  - destruct L as [uid o io name c H|uid name c H|uid o name c H|uid s inn name sn pop c H|uid s n name inn c H|uid name cl est damp inn c H|uid k name sn inn c H].
    + apply level_trend_inv in H. destruct H as [mask (_&_&_&H)]. cbv zeta in H.
      destruct H as (HL&_&Hk&Hp&Hm&_). rewrite Hm. auto.
    + apply measurement_inv in H. destruct H as (_&_&_&_&_&_&_&_&M&_). rewrite M. auto.
    + apply ar_inv in H. destruct H as [mask (_&_&_&_&_&M&_)]. rewrite M. auto.
    + apply ts_inv in H. destruct H as (_&_&_&_&_&M&_). rewrite M. auto.
    + apply freq_inv in H. destruct H as [nn (_&_&_&_&_&_&[drop (_&_&M&_)]&_)]. rewrite M. auto.
    + apply cycle_inv in H. destruct H as (_&_&_&_&_&M&_). rewrite M. auto.
    + apply regression_inv in H. destruct H as [n (_&_&_&_&_&_&M&_)]. rewrite M. auto.
  - apply comp_add_inv in E. destruct E as [info (_&_&_&_&_&_&_&_&_&_&M)]. rewrite M.
    unfold combine_ssm. cbn [s_d s_c]. destruct IHa as [-> Ia], IHb as [-> Ib]. split; [lra|].
    intros i. unfold concat_vec. destruct (i <? c_k_states a); auto.
Qed.

Example C66_example : exists c, level_trend 0 (OInt 2) (Some (OMask [false; true])) "smooth" = Ok c /\
  forall e, noise_cov (c_k_posdef c) (c_ssm c) e 1 1 = (pv e (0%nat, "sigma_trend"%string) 0%nat ^ 2)%R /\
            noise_cov (c_k_posdef c) (c_ssm c) e 0 0 = 0%R.
Proof.
  exists (okc (level_trend 0 (OInt 2) (Some (OMask [false; true])) "smooth")).
  assert (H : level_trend 0 (OInt 2) (Some (OMask [false; true])) "smooth"
              = Ok (okc (level_trend 0 (OInt 2) (Some (OMask [false; true])) "smooth"))) by has.
  split; [exact H|]. intros e.
  assert (K : c_k_states (okc (level_trend 0 (OInt 2) (Some (OMask [false; true])) "smooth")) = 2) by vm_eq.
  split; rewrite (C66_trend_noise _ _ _ _ _ H) by (rewrite K; lia); rewrite K; reflexivity.
Qed.

(** The covariance the user supplies as "P0" (row-major) is the initial state covariance. *)
Theorem C33_initial_covariance c uid name c' m :
  assembled c -> NoDup (c_param_names c) -> NoDup (c_data_names c) ->
  build uid c name = Ok (c', m) ->
  forall user free i j,
  s_P0 (m_ssm m) (insert_env m user free) i j = user "P0"%string (i * c_k_states c + j).
Proof.
  intros A N1 N2 B user free i j.
  destruct (C33_own_placeholders_partial _ _ _ _ _ A N1 N2 B) as (_&_&INS&_).
  assert (E : s_P0 (m_ssm m) = (fun e i j => pv e (uid, "P0"%string) (i * c_k_states c + j))
              /\ In ("P0"%string, ((uid, "P0"%string), [c_k_states c; c_k_states c])) (m_vars m)).
  { unfold build in B. cbv zeta in B.
    destruct (make_and_register_variable _ _ uid _ _) as [vars|] eqn:EV in B; [|discriminate].
    simpl in B. inversion B; subst m. simpl. split; auto.
    unfold make_and_register_variable in EV.
    destruct (negb _); [discriminate|]. destruct (dmem _ _); [discriminate|]. inversion EV.
    apply in_or_app. right. left. auto. }
  destruct E as [-> H]. unfold pv. eapply INS. exact H.
Qed.
