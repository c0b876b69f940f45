(** Theorems about VARMAX, ETS and the labels of SARIMA (C25, C26, C27, C67). *)
From Coq Require Import Reals String Lra.
From Verif Require Import Common Struct_Model Struct_Proofs Multi_Model Multi_Spec Multi_Varma Multi_Ets.
Open Scope nat_scope.

(** ** C26 VARMAX *)

(** The j-th lag of the observed series before t+1: an earlier observation, or an initial value. *)
Definition y_lag (k : nat) (x0 : vec) (y : nat -> nat -> R) (t j l : nat) : R :=
  if j <=? t then y (t - j) l else x0 ((j - t) * k + l).
(** The j-th earlier shock before [eps t]; the shocks before time 0 are given by the initial state. *)
Definition e_lag (k p : nat) (x0 : vec) (eps : nat -> vec) (t j l : nat) : R :=
  if j <? t then eps (t - 1 - j) l else x0 ((max p 1 + (j - t)) * k + l).

(** y_{t+1} = sum_{j<p} A_{j+1} y_{t-j} + e_t + sum_{j<q} M_{j+1} e_{t-1-j}:
    the equation of VARMAX.py:27-60, for every order, every number of series, all coefficients and shocks. *)
Theorem C26_varma_equation p q k merr v m eps :
  varmax p q k merr v = Ok m ->
  let y := observed_at m eps in
  forall t i, i < k ->
  y (S t) i = (rsum p (fun j => rsum k (fun l => v_ar v i j l * y_lag k (v_x0 v) y t j l))
               + eps t i
               + rsum q (fun j => rsum k (fun l => v_ma v i j l * e_lag k p (v_x0 v) eps t j l)))%R.
Proof.
  intros H y t i Hi. assert (Hk : 0 < k) by lia. unfold y.
  rewrite (vobs _ _ _ _ _ _ eps Hk H), (vtop _ _ _ _ _ _ eps Hk H) by auto.
  assert (EY : forall t l, l < k -> states_at m eps t l = observed_at m eps t l).
  { intros t' l Hl. symmetry. apply (vobs _ _ _ _ _ _ eps Hk H). auto. }
  assert (E1 : rsum p (fun j => rsum k (fun l => (v_ar v i j l * states_at m eps t (j * k + l)%nat)%R))
     = rsum p (fun j => rsum k (fun l => (v_ar v i j l * y_lag k (v_x0 v) (observed_at m eps) t j l)%R))).
  { apply rsum_ext. intros j Hj. apply rsum_ext. intros l Hl. f_equal. unfold y_lag.
    rewrite (vlag_y _ _ _ _ _ _ eps Hk H) by lia. destruct (j <=? t); auto. }
  assert (E2 : rsum q (fun j => rsum k (fun l => (v_ma v i j l * states_at m eps t ((max p 1 + j) * k + l)%nat)%R))
     = rsum q (fun j => rsum k (fun l => (v_ma v i j l * e_lag k p (v_x0 v) eps t j l)%R))).
  { apply rsum_ext. intros j Hj. apply rsum_ext. intros l Hl. f_equal. unfold e_lag.
    apply (vlag_e _ _ _ _ _ _ eps Hk H); lia. }
  rewrite <- E1, <- E2. lra.
Qed.

(** The first observation is the first block of the initial state. *)
Theorem C26_varma_start p q k merr v m eps i :
  varmax p q k merr v = Ok m -> i < k -> observed_at m eps 0 i = v_x0 v i.
Proof.
  intros H Hi. assert (Hk : 0 < k) by lia. rewrite (vobs _ _ _ _ _ _ eps Hk H) by auto.
  destruct (vfacts _ _ _ _ _ _ Hk H) as (_&_&_&E&_). simpl. rewrite E. auto.
Qed.

(** Every order is accepted, and the shocks have the covariance [state_cov]. *)
Theorem C26_varma_accepted p q k merr v : 0 < k ->
  exists m, varmax p q k merr v = Ok m /\ ss_Q m = v_state_cov v /\ n_obs m = k /\ n_shocks m = k
            /\ n_states m = k * (max p 1 + q).
Proof.
  intros Hk. destruct (varmax_ok p q k merr v Hk) as (m&E&H). exists m.
  destruct H as (?&?&?&?&?&?&?&?&?&?&?&?). repeat split; auto.
Qed.

Example C26_example : exists m,
  varmax 2 3 2 false (VPar (fun _ => 1%R) eye (fun _ _ _ => 2%R) (fun _ _ _ => 3%R) eye zvec) = Ok m
  /\ observed_at m (fun _ _ => 0%R) 1 0 = 26%R.
Proof.
  destruct (C26_varma_accepted 2 3 2 false (VPar (fun _ => 1%R) eye (fun _ _ _ => 2%R) (fun _ _ _ => 3%R) eye zvec)
              ltac:(lia)) as (m&E&_).
  exists m. split; auto. rewrite (C26_varma_equation _ _ _ _ _ _ _ E) by lia.
  cbn [rsum v_ar v_ma]. unfold y_lag, e_lag. cbn [Nat.leb Nat.ltb Nat.sub v_x0].
  rewrite !(C26_varma_start _ _ _ _ _ _ _ _ E) by lia. cbn [v_x0]. lra.
Qed.

(** ** C27 ETS *)

(** The exponential smoothing recursions of series i (ETS.py:45-146, in the form of Hyndman et al.):
    l is the level, b the trend, and seas the seasonal effects starting at the initial ones (seas n is
    s_{n-m+1}; the initial effects are s_0, s_{-1}, ..., s_{-m+1}). *)
Record ets_recursion (trend seasonal : bool) (m : nat) (alpha beta gamma phi : R)
    (level0 trend0 : R) (season0 : nat -> R) (e y l b seas : nat -> R) : Prop := {
  er_level0 : l 0 = level0;
  er_trend0 : trend = true -> b 0 = trend0;
  er_season0 : seasonal = true -> forall j, j < m -> seas (m - 1 - j) = season0 j;
  er_no_trend : trend = false -> forall t, b t = 0%R;
  er_no_season : seasonal = false -> forall t, seas t = 0%R;
  er_obs : forall t, y (S t) = (l t + phi * b t + seas t + e t)%R;
  er_level : forall t, l (S t) = (l t + phi * b t + alpha * e t)%R;
  er_trend : trend = true -> forall t, b (S t) = (phi * b t + beta * e t)%R;
  er_season : seasonal = true -> forall t, seas (t + m) = (seas t + gamma * e t)%R }.

(** Every ETS model that can be constructed runs these recursions: the number of series and the flags are the
    requested ones, beta = alpha beta* and gamma = (1 - alpha) gamma* unless the transformed parameterization is
    used, and phi = 1 unless the trend is damped. The level, trend and seasonal effects are the named states. *)
Theorem C27_ets_recursions order names k_endog tr da se periods merr trf dense damp v m eps :
  ets order names k_endog tr da se periods merr trf dense damp v = Ok m ->
  exists trend damped seasonal mm,
    ets_flags order tr da se = Ok (trend, damped, seasonal) /\
    (seasonal = true -> periods = Some mm) /\
    n_obs m = snd (ets_names names k_endog) /\
    n_states m = n_obs m * (2 + b2n trend + b2n seasonal * mm) /\
    forall i, i < n_obs m ->
    let state j t := states_at m eps t (i * (2 + b2n trend + b2n seasonal * mm) + j) in
    exists l b seas,
      ets_recursion trend seasonal mm (e_alpha v i)
        (if trf then e_beta v i else (e_alpha v i * e_beta v i)%R)
        (if trf then e_gamma v i else ((1 - e_alpha v i) * e_gamma v i)%R)
        (if damped then e_phi v i else 1%R)
        (e_level v i) (e_trend v i) (e_seasonal v i)
        (fun t => eps t i) (fun t => observed_at m eps t i) l b seas
      /\ observed_at m eps 0 i = (l 0%nat + (if seasonal then seas (mm - 1)%nat else 0))%R
      /\ (forall t, state 1 t = l t)
      /\ (trend = true -> forall t, state 2 t = b t)
      /\ (seasonal = true -> forall t j, j < mm -> state (2 + b2n trend + j) t = seas (t + (mm - 1) - j)).
Proof.
  intros H. apply ets_inv in H.
  destruct H as (trend&damped&seasonal&k&mm&EF&Ek&Hk&Hd&Hs&_&N1&N2&N3&Ec&Ed&_&E0&ET&EZ&ER&_).
  set (each := 2 + b2n trend + b2n seasonal * mm) in *.
  assert (Hs' : seasonal = true -> 0 < mm) by (intros A; apply (Hs A)).
  exists trend, damped, seasonal, mm. split; auto. split; [intros A; apply (Hs A)|]. split; [congruence|].
  split; [rewrite N3; auto|]. rewrite N3. intros i Hi state.
  set (so := 2 + b2n trend).
  pose proof (level_step k mm trend damped seasonal trf v m eps Hs' N1 N2 Ec E0 ET EZ ER) as LS.
  pose proof (trend_step' k mm trend damped seasonal trf v m eps Hs' N1 N2 Ec E0 ET EZ ER) as TS.
  pose proof (innovation_step k mm trend damped seasonal trf v m eps Hs' N1 N2 Ec E0 ET EZ ER) as IS.
  pose proof (season_step k mm trend damped seasonal trf v m eps Hs' N1 N2 Ec E0 ET EZ ER) as SS.
  pose proof (season_lag k mm trend damped seasonal trf v m eps Hs' N1 N2 Ec E0 ET EZ ER) as SL.
  pose proof (obs_sum k mm trend damped seasonal trf v m eps Hs' N1 N2 Ed E0 ET EZ ER) as OS.
  pose proof (e_init k mm trend seasonal v m eps E0) as EI.
  cbv zeta in LS, TS, IS, SS, SL, OS, EI. fold each in LS, TS, IS, SS, SL, OS, EI. fold so in SS, SL, OS.
  assert (HE : 2 <= each) by (unfold each; lia).
  exists (fun t => states_at m eps t (i * each + 1)),
         (fun t => if trend then states_at m eps t (i * each + 2) else 0%R),
         (fun n => if seasonal then (if n <? mm then e_seasonal v i (mm - 1 - n)
                   else states_at m eps (n - (mm - 1)) (i * each + so)) else 0%R).
  assert (S0 : seasonal = true -> states_at m eps 0 (i * each + so) = e_seasonal v i 0).
  { intros A. rewrite EI; auto.
    - unfold ets_x0, so. rewrite A. rewrite Nat.leb_refl, Nat.sub_diag. auto.
    - unfold each, so. rewrite A. specialize (Hs' A). simpl. lia. }
  assert (SV : seasonal = true -> forall t, states_at m eps t (i * each + so + (mm - 1))
      = if t <? mm then e_seasonal v i (mm - 1 - t) else states_at m eps (t - (mm - 1)) (i * each + so)).
  { intros A t. specialize (Hs' A). rewrite SL by (auto; lia).
    destruct (Nat.leb_spec (mm - 1) t), (Nat.ltb_spec t mm); try lia; auto.
    replace (t - (mm - 1)) with 0 by lia. rewrite S0 by auto. f_equal. lia. }
  assert (LV : forall t, observed_at m eps (S t) i =
     (states_at m eps t (i * each + 1)%nat
      + (if damped then e_phi v i else 1) * (if trend then states_at m eps t (i * each + 2)%nat else 0)
      + (if seasonal then if t <? mm then e_seasonal v i (mm - 1 - t)%nat
           else states_at m eps (t - (mm - 1)) (i * each + so)%nat else 0) + eps t i)%R).
  { intros t. rewrite OS, IS, LS by auto. destruct seasonal.
    - rewrite SS, SV by auto. destruct trend; lra.
    - destruct trend; lra. }
  split; [constructor|split; [|split; [|split]]].
  - rewrite EI by (auto; lia). unfold ets_x0.
    destruct seasonal; [|destruct trend; reflexivity].
    destruct (Nat.leb_spec (2 + b2n trend) 1); [lia|]. destruct trend; reflexivity.
  - intros A. rewrite A. rewrite EI; auto.
    + unfold ets_x0. rewrite A. destruct seasonal; reflexivity.
    + unfold each. rewrite A. simpl. lia.
  - intros A j Hj. rewrite A. destruct (Nat.ltb_spec (mm - 1 - j) mm); [|lia]. f_equal. lia.
  - intros A t. rewrite A. auto.
  - intros A t. rewrite A. auto.
  - exact LV.
  - intros t. rewrite LS by auto. destruct trend; lra.
  - intros A t. rewrite A. rewrite TS by auto. auto.
  - intros A t. specialize (Hs' A). rewrite A. destruct (Nat.ltb_spec (t + mm) mm); [lia|].
    replace (t + mm - (mm - 1)) with (S t) by lia. rewrite SS, SV by auto. auto.
  - rewrite OS by auto. replace (i * each) with (i * each + 0) at 1 by lia. rewrite EI by (auto; lia).
    assert (Z0 : ets_x0 trend seasonal v i 0 = 0%R).
    { unfold ets_x0. destruct seasonal; [|destruct trend; reflexivity].
      destruct (Nat.leb_spec (2 + b2n trend) 0); [lia|]. destruct trend; reflexivity. }
    rewrite Z0. destruct seasonal; [|lra]. specialize (Hs' eq_refl).
    destruct (Nat.ltb_spec (mm - 1) mm); [|lia]. rewrite Nat.sub_diag, S0 by auto. lra.
  - intros t. reflexivity.
  - intros A t. rewrite A. reflexivity.
  - intros A t j Hj. rewrite A. unfold state. fold each. fold so. rewrite Nat.add_assoc, SL by auto.
    destruct (Nat.leb_spec j t), (Nat.ltb_spec (t + (mm - 1) - j) mm); try lia.
    + replace (t - j) with 0 by lia. rewrite S0 by auto. f_equal. lia.
    + f_equal. lia.
    + f_equal. lia.
Qed.

(** Which constructor calls are accepted. *)
Theorem C27_ets_accepted order names k_endog tr da se periods merr trf dense damp v trend damped seasonal :
  ets_flags order tr da se = Ok (trend, damped, seasonal) ->
  (0 < damp < 1)%R -> 0 < snd (ets_names names k_endog) ->
  (damped = true -> trend = true) ->
  (seasonal = true -> exists mm, periods = Some mm /\ 0 < mm) ->
  exists m, ets order names k_endog tr da se periods merr trf dense damp v = Ok m.
Proof.
  intros EF [H1 H2] Hk Hd Hs. unfold ets. rewrite EF. cbn [bind].
  destruct (Rlt_dec 0 damp); [|lra]. destruct (Rlt_dec damp 1); [|lra]. cbn [negb].
  destruct (ets_names names k_endog) as [nm k]. cbn [snd] in Hk.
  destruct seasonal; cbn [andb].
  - destruct (Hs eq_refl) as (mm&->&Hm). destruct (Nat.eqb_spec k 0); [lia|].
    destruct damped; [rewrite Hd by auto|]; cbn [andb negb]; destruct (Nat.eqb_spec mm 0); try lia; eexists; reflexivity.
  - destruct (Nat.eqb_spec k 0); [lia|].
    destruct damped; [rewrite Hd by auto|]; cbn [andb negb]; eexists; reflexivity.
Qed.

(** A concrete Holt-Winters model meets the hypotheses. *)
Definition ex_epar : epar :=
  EPar (fun _ => 0%R) (fun _ => 1%R) (fun _ _ => 0%R) eye (fun _ => (1/2)%R) (fun _ => (1/2)%R) (fun _ => (1/2)%R)
       (fun _ => (1/2)%R) (fun _ => 1%R) eye (fun _ => 3%R).
Lemma ex_accepted order seasonal : ets_flags (Some order) true false false = Ok (true, true, seasonal) \/
  ets_flags (Some order) true false false = Ok (true, false, seasonal) ->
  exists m, ets (Some order) ENone 2 true false false (Some 4) true false false (1/2)%R ex_epar = Ok m.
Proof.
  intros [H|H]; eapply (C27_ets_accepted _ _ _ _ _ _ _ _ _ _ _ _ _ _ _ H); try lra; simpl; try lia; eauto;
    intros _; exists 4; split; auto; lia.
Qed.
Example C27_example : exists m,
  ets (Some ["A"; "A"; "A"]%string) ENone 2 true false false (Some 4) true false false (1/2)%R ex_epar = Ok m
  /\ observed_at m (fun _ _ => 0%R) 5 1 = 5%R.
Proof.
  destruct (ex_accepted ["A"; "A"; "A"]%string true (or_intror eq_refl)) as (m&E).
  exists m. split; auto.
  destruct (C27_ets_recursions _ _ _ _ _ _ _ _ _ _ _ _ _ (fun _ _ => 0%R) E) as (tr&da&se&mm&EF&Hm&N&_&H).
  simpl in EF. assert (tr = true /\ da = false /\ se = true) as (->&->&->) by (inversion EF; auto).
  assert (mm = 4) as -> by (specialize (Hm eq_refl); congruence).
  simpl in N. rewrite N in H.
  destruct (H 1 ltac:(lia)) as (l&b&s&[L0 B0 S0 _ _ O L B SS]&_).
  specialize (B0 eq_refl). specialize (S0 eq_refl). specialize (B eq_refl). specialize (SS eq_refl).
  cbn [ex_epar e_level e_trend e_seasonal] in L0, B0, S0.
  rewrite O, !L, !B, B0, L0. pose proof (SS 0) as E4. simpl in E4. rewrite E4.
  pose proof (S0 3 ltac:(lia)) as E0. simpl in E0. rewrite E0. lra.
Qed.

(** The class docstring states other equations for a damped trend:
      y_t = l_{t-1} + b_{t-1} + e_t,  l_t = l_{t-1} + alpha e_t,  b_t = phi b_{t-1} + alpha beta* e_t
    (ETS.py:123-134).  The model does not follow them: it uses phi b_{t-1} and adds it to the level. *)
Theorem C27_docstring_damped_refuted :
  exists m, ets (Some ["A"; "Ad"; "N"]%string) ENone 2 true false false (Some 4) true false false (1/2)%R ex_epar = Ok m /\
  ~ exists l b : nat -> R, l 0 = e_level ex_epar 0 /\ b 0 = e_trend ex_epar 0 /\
      forall t, observed_at m (fun _ _ => 0%R) (S t) 0 = (l t + b t + 0)%R.
Proof.
  destruct (ex_accepted ["A"; "Ad"; "N"]%string false (or_introl eq_refl)) as (m&E).
  exists m. split; auto. intros (l'&b'&A1&A2&A3). specialize (A3 0).
  destruct (C27_ets_recursions _ _ _ _ _ _ _ _ _ _ _ _ _ (fun _ _ => 0%R) E) as (tr&da&se&mm&EF&Hm&N&_&H).
  simpl in EF. assert (tr = true /\ da = true /\ se = false) as (->&->&->) by (inversion EF; auto).
  simpl in N. rewrite N in H.
  destruct (H 0 ltac:(lia)) as (l&b&s&[L0 B0 _ _ S0 O _ _ _]&_).
  specialize (B0 eq_refl). specialize (S0 eq_refl).
  rewrite O, L0, B0, S0, A1, A2 in A3. cbn in A3. lra.
Qed.

(** And for Holt-Winters it states l_t = l_{t-1} + alpha e_t without the trend (ETS.py:108-117), which the model does
    not follow either. *)
Theorem C27_docstring_holt_winters_refuted :
  exists m, ets (Some ["A"; "A"; "A"]%string) ENone 2 true false false (Some 4) true false false (1/2)%R ex_epar = Ok m /\
  ~ exists l b s : nat -> R, l 0 = e_level ex_epar 0 /\ b 0 = e_trend ex_epar 0 /\
      (forall j, j < 4 -> s j = e_seasonal ex_epar 0 (3 - j)) /\
      forall t, observed_at m (fun _ _ => 0%R) (S t) 0 = (l t + b t + s t + 0)%R /\
                l (S t) = (l t + e_alpha ex_epar 0%nat * 0)%R /\
                b (S t) = (b t + e_alpha ex_epar 0%nat * e_beta ex_epar 0%nat * 0)%R.
Proof.
  destruct (ex_accepted ["A"; "A"; "A"]%string true (or_intror eq_refl)) as (m&E).
  exists m. split; auto. intros (l'&b'&s'&A1&A2&A3&A4).
  destruct (C27_ets_recursions _ _ _ _ _ _ _ _ _ _ _ _ _ (fun _ _ => 0%R) E) as (tr&da&se&mm&EF&Hm&N&_&H).
  simpl in EF. assert (tr = true /\ da = false /\ se = true) as (->&->&->) by (inversion EF; auto).
  assert (mm = 4) as -> by (specialize (Hm eq_refl); congruence).
  simpl in N. rewrite N in H.
  destruct (H 0 ltac:(lia)) as (l&b&s&[L0 B0 S0 _ _ O L B _]&_).
  specialize (B0 eq_refl). specialize (S0 eq_refl). specialize (B eq_refl).
  destruct (A4 1) as (Q1&_). destruct (A4 0) as (_&Q2&Q3).
  rewrite O, L, B, Q2, Q3, L0, B0, A1, A2, (A3 1) in Q1 by lia.
  pose proof (S0 2 ltac:(lia)) as E2. simpl in E2. rewrite E2 in Q1. cbn in Q1. lra.
Qed.

(** "damped_trend: ... Ignored if trend is False" (ETS.py:163-165): it is not ignored, the model cannot be built. *)
Theorem C27_damped_without_trend_refuted names k_endog periods merr trf dense v :
  0 < snd (ets_names names k_endog) ->
  ets None names k_endog false true false periods merr trf dense (1/2)%R v = Err IndexError.
Proof.
  intros Hk. unfold ets. cbn [ets_flags bind].
  destruct (Rlt_dec 0 (1/2)); [|lra]. destruct (Rlt_dec (1/2) 1); [|lra]. cbn [negb andb].
  destruct (ets_names names k_endog) as [nm k]. cbn [snd] in Hk. destruct (Nat.eqb_spec k 0); [lia|]. reflexivity.
Qed.

(** "endog_names: str or list of str": a string is split into its characters. *)
Theorem C27_string_name_refuted :
  ets_names (EStr "sales") 1 = (["s"; "a"; "l"; "e"; "s"]%string, 5).
Proof. reflexivity. Qed.

(** ** C67 Measurement error *)

Definition diag_of (k : nat) (d : nat -> R) (M : mat) : Prop :=
  forall i j, i < k -> j < k -> M i j = if i =? j then d i else 0%R.
Lemma set_diag_indices_diag k d : diag_of k d (set_diag_indices zmat k d).
Proof. intros i j Hi Hj. unfold set_diag_indices. rewrite set_diag by auto. reflexivity. Qed.

(** ETS: the measurement error of series i has standard deviation sigma_obs[i]; there is none without the option; the
    innovations have standard deviation sigma_state[i] or covariance state_cov. *)
Theorem C67_ets_noise order names k_endog tr da se periods merr trf dense damp v m :
  ets order names k_endog tr da se periods merr trf dense damp v = Ok m ->
  diag_of (n_obs m) (fun i => if merr then (e_sigma_obs v i ^ 2)%R else 0%R) (ss_H m) /\
  (if dense && negb (n_obs m =? 1) then ss_Q m = e_state_cov v
   else diag_of (n_obs m) (fun i => (e_sigma_state v i ^ 2)%R) (ss_Q m)).
Proof.
  intros H. apply ets_inv in H.
  destruct H as (trend&damped&seasonal&k&mm&_&_&_&_&_&_&_&_&N3&_&_&_&_&_&_&_&EH&EQ).
  rewrite N3. split.
  - rewrite EH. destruct merr; [apply set_diag_indices_diag|].
    intros i j _ _. destruct (i =? j); reflexivity.
  - rewrite EQ. destruct (dense && negb (k =? 1)); [reflexivity|apply set_diag_indices_diag].
Qed.

(** VARMAX: no measurement noise without the option... *)
Theorem C67_varmax_no_noise p q k v m : 0 < k ->
  varmax p q k false v = Ok m -> diag_of k (fun _ => 0%R) (ss_H m).
Proof.
  intros Hk H. destruct (vfacts _ _ _ _ _ _ Hk H) as (_&_&_&_&_&_&_&_&_&_&E&_). rewrite E.
  intros i j _ _. destruct (i =? j); reflexivity.
Qed.
(** ... but with it the VARIANCE is sigma_obs[i], not its square. *)
Theorem C67_varmax_noise_is_not_squared p q k v m : 0 < k ->
  varmax p q k true v = Ok m -> diag_of k (v_sigma_obs v) (ss_H m).
Proof.
  intros Hk H. destruct (vfacts _ _ _ _ _ _ Hk H) as (_&_&_&_&_&_&_&_&_&_&E&_). rewrite E.
  apply set_diag_indices_diag.
Qed.
Theorem C67_varmax_noise_refuted : exists p q k v m,
  varmax p q k true v = Ok m /\ ~ diag_of k (fun i => (v_sigma_obs v i ^ 2)%R) (ss_H m).
Proof.
  destruct (C26_varma_accepted 1 0 2 true (VPar zvec eye (fun _ _ _ => 0%R) (fun _ _ _ => 0%R) eye (fun _ => 2%R))
              ltac:(lia)) as (m&E&_).
  do 4 eexists. exists m. split; [exact E|]. intros A. specialize (A 0 0 ltac:(lia) ltac:(lia)).
  rewrite (C67_varmax_noise_is_not_squared _ _ _ _ _ (Nat.lt_0_succ 1) E 0 0) in A by lia. cbn in A. lra.
Qed.

(** ** C25 Labels *)

Lemma length_flat_map_const {A B} (f : A -> list B) n l :
  (forall x, length (f x) = n) -> length (flat_map f l) = length l * n.
Proof. intros H. induction l; simpl; auto. rewrite app_length, H, IHl. lia. Qed.

Lemma varmax_names_len en ke names k : varmax_names en ke = Ok (names, k) -> length names = k.
Proof.
  unfold varmax_names. destruct en as [l|], ke as [k'|]; try discriminate.
  - destruct (Nat.eqb_spec (length l) k'); [|discriminate]. intros H; inversion H; subst; auto.
  - intros H; inversion H; subst; auto.
  - intros H; inversion H; subst. rewrite map_length, seq_length. auto.
Qed.

(** VARMAX: one name per state and per observed series. *)
Theorem C25_varmax_labels p q en ke names k merr v m :
  varmax_names en ke = Ok (names, k) -> varmax p q k merr v = Ok m -> 0 < k ->
  length (varmax_state_names p q names) = n_states m /\ length names = n_obs m /\ n_shocks m = n_obs m.
Proof.
  intros HN H Hk. apply varmax_names_len in HN. destruct (vfacts _ _ _ _ _ _ Hk H) as (E1&E2&E3&_).
  rewrite E1, E2, E3. split; auto. unfold varmax_state_names.
  rewrite !app_length, !(length_flat_map_const _ k) by (intros; rewrite map_length; auto).
  rewrite !seq_length, HN. destruct p; simpl; nia.
Qed.

(** VARMAX: the advertised shape is that of the placeholder for every parameter but sigma_obs. *)
Theorem C25_varmax_param_shape_partial p q k stationary merr name :
  List.In name (varmax_param_names p q stationary merr) -> name <> "sigma_obs"%string ->
  varmax_info_shape p q k name = varmax_placeholder_shape p q k name.
Proof.
  intros _ Hn. unfold varmax_info_shape, varmax_placeholder_shape.
  destruct (String.eqb_spec name "sigma_obs"); [congruence|reflexivity].
Qed.
Theorem C25_varmax_sigma_obs_shape_refuted p q k stationary :
  List.In "sigma_obs"%string (varmax_param_names p q stationary true) /\
  varmax_info_shape p q k "sigma_obs" = [k; k] /\ varmax_placeholder_shape p q k "sigma_obs" = [k].
Proof.
  split; [|split; reflexivity]. unfold varmax_param_names. rewrite !in_app_iff. simpl. tauto.
Qed.

(** ETS *)
Theorem C25_ets_labels order names k_endog tr da se periods merr trf dense damp v m trend damped seasonal :
  ets order names k_endog tr da se periods merr trf dense damp v = Ok m ->
  ets_flags order tr da se = Ok (trend, damped, seasonal) ->
  let endog := fst (ets_names names k_endog) in
  length endog = n_obs m /\ length (ets_shock_names endog) = n_shocks m /\
  length (ets_state_names trend seasonal (match periods with Some x => x | None => 0 end) endog) = n_states m.
Proof.
  intros H EF. apply ets_inv in H.
  destruct H as (trend'&damped'&seasonal'&k&mm&EF'&Ek&Hk&_&Hs&_&N1&N2&N3&_).
  rewrite EF in EF'. inversion EF'; subst trend' damped' seasonal'. clear EF'.
  intros endog. assert (LE : length endog = k).
  { unfold endog. subst k. unfold ets_names in *. destruct names; simpl in *; auto.
    destruct (Nat.ltb_spec 1 k_endog); simpl.
    - rewrite map_length, seq_length. auto.
    - lia. }
  rewrite N1, N2, N3. split; auto. split.
  - unfold ets_shock_names. destruct (Nat.eqb_spec (length endog) 1); [simpl; congruence|].
    rewrite map_length. auto.
  - unfold ets_state_names.
    set (st := (["innovation"; "level"]%string ++ _)%list).
    assert (LS : length st = 2 + b2n trend + b2n seasonal * mm).
    { unfold st. rewrite !app_length. simpl. destruct seasonal; simpl.
      - destruct (Hs eq_refl) as [-> Hm]. rewrite map_length, seq_length. destruct trend; simpl; lia.
      - destruct trend; simpl; lia. }
    destruct (Nat.ltb_spec 1 (length endog)).
    + rewrite (length_flat_map_const _ (2 + b2n trend + b2n seasonal * mm)).
      * rewrite LE. auto.
      * intros. rewrite map_length. auto.
    + rewrite LS. replace k with 1 by lia. lia.
Qed.

Theorem C25_ets_param_shape k : 0 < k -> ets_info_vector k = ets_placeholder_vector k.
Proof.
  intros Hk. unfold ets_info_vector, ets_placeholder_vector.
  destruct (Nat.eqb_spec k 1), (Nat.ltb_spec 1 k); try lia; auto.
Qed.
(** with several series the placeholder of initial_seasonal is a matrix, its advertised shape a vector *)
Theorem C25_ets_seasonal_shape_refuted k m : 1 < k -> ets_info_seasonal k m <> ets_placeholder_seasonal k m.
Proof.
  intros Hk. unfold ets_info_seasonal, ets_placeholder_seasonal. destruct (Nat.eqb_spec k 1); [lia|]. discriminate.
Qed.

(** SARIMA *)
Lemma harvey_seasonal_len a0 a1 S0 D n : forall i curr, i + n = D -> 0 < S0 ->
  length (harvey_seasonal a0 a1 S0 D i n curr) = n * S0 - (if n =? 0 then 0 else 1).
Proof.
  induction n; intros i curr HD HS; [reflexivity|].
  cbn [harvey_seasonal]. rewrite !app_length, map_length, seq_length, IHn by lia.
  destruct (Nat.eqb_spec i (D - 1)).
  - replace n with 0 by lia. simpl. lia.
  - destruct n; [lia|]. simpl. nia.
Qed.

(** The default ("fast") state structure has one name per state.  The hypothesis excludes seasonal differencing with
    season length zero. *)
Theorem C25_sarima_labels p d q P D Q S0 : (D = 0 \/ 0 < S0) ->
  length (sarimax_state_names true p d q P D Q S0) = sarimax_k_states true p d q P D Q S0.
Proof.
  intros HS. unfold sarimax_state_names, sarimax_k_states, harvey_state_names, cleanup_states.
  rewrite map_length. cbn [app length]. rewrite !app_length, !map_length, !seq_length.
  assert (HL : forall a0 a1 curr, length (harvey_seasonal a0 a1 S0 D 0 D curr) = D * S0 - (if D =? 0 then 0 else 1)).
  { intros. destruct HS as [->|HS]; [reflexivity|]. apply harvey_seasonal_len; lia. }
  rewrite HL. assert (0 < D -> 0 < D * S0) by (intros; destruct HS; nia).
  destruct (Nat.ltb_spec 0 (d + D)), (Nat.ltb_spec 0 D); cbn [b2n length]; destruct (Nat.eqb_spec D 0); subst; nia.
Qed.

(** The "interpretable" structure has the right number of names exactly when a seasonal part does not come without
    the corresponding non-seasonal one. *)
Theorem C25_sarima_interpretable_labels_partial p q P Q S0 :
  length (sarimax_state_names false p 0 q P 0 Q S0) = sarimax_k_states false p 0 q P 0 Q S0
  <-> (0 < p \/ P * S0 <= 1) /\ (0 < q \/ Q * S0 <= 1).
Proof.
  unfold sarimax_state_names, sarimax_k_states. rewrite !app_length. cbn [length].
  assert (H : forall p P, length (if 0 <? p then map (fun i => fstr ["L"%string; str_of_nat (i + 1); ".data"%string])
                                     (seq 0 (sarimax_p_max p P S0 - 1)) else []) =
              if 0 <? p then sarimax_p_max p P S0 - 1 else 0).
  { intros. destruct (0 <? p0); auto. rewrite map_length, seq_length. auto. }
  assert (H' : forall p P, length (if 0 <? p then map (fun i => fstr ["L"%string; str_of_nat (i + 1); ".innovations"%string])
                                     (seq 0 (sarimax_p_max p P S0 - 1)) else []) =
              if 0 <? p then sarimax_p_max p P S0 - 1 else 0).
  { intros. destruct (0 <? p0); auto. rewrite map_length, seq_length. auto. }
  rewrite H, H'. unfold sarimax_p_max.
  destruct (Nat.ltb_spec 0 p), (Nat.ltb_spec 0 q); lia.
Qed.
Theorem C25_sarima_interpretable_labels_refuted : exists p q P Q S0,
  length (sarimax_state_names false p 0 q P 0 Q S0) <> sarimax_k_states false p 0 q P 0 Q S0.
Proof. exists 0, 1, 1, 0, 12. vm_compute. discriminate. Qed.
