(** Theorems about structural time series components (C25, C28-C34). *)
From Coq Require Import Reals String Ascii Lra.
From Verif Require Import Common Struct_Model Struct_Spec Struct_Proofs Struct_Season Struct_Freq
  Struct_Trend Struct_Sum Struct_Params.
Open Scope nat_scope.

(** The value of a successful construction, for the concrete cases below. *)
Definition dummy_comp : component :=
  Comp "" 0 0 false [] [] [] [] [] [] [] [] [] [] [] [] zero_ssm.
Definition okc (r : res component) : component := match r with Ok c => c | Err _ => dummy_comp end.
Definition is_ok {A} (r : res A) : bool := match r with Ok _ => true | Err _ => false end.
Lemma okc_eq r : is_ok r = true -> r = Ok (okc r).
Proof. destruct r; simpl; auto; discriminate. Qed.
Definition okb (r : res (component * sts)) : component * sts :=
  match r with Ok c => c | Err _ => (dummy_comp, Sts "" 0 0 [] [] [] [] [] [] [] [] zero_ssm) end.
Lemma okb_eq r : is_ok r = true -> r = Ok (fst (okb r), snd (okb r)).
Proof. destruct r as [[? ?]|]; simpl; auto; discriminate. Qed.
Ltac vm_eq := vm_compute; reflexivity.
Ltac has := first [apply okc_eq; vm_eq | apply okb_eq; vm_eq].

(** ** C28 Time-domain seasonality *)

(** Every TimeSeasonality that can be constructed shows, without shocks, the documented
    pattern of its coefficients. *)
Theorem C28_season_pattern uid s inn name sn pop c :
  time_seasonality uid s inn name sn pop = Ok c ->
  forall e t, y_of c e no_shocks t
              = documented_season s (pv e (uid, (name ++ "_coefs")%string)) t.
Proof.
  intros H e t. apply ts_inv in H. destruct H as (Hs&_&_&Hk&Hp&Hm&_). unfold y_of.
  rewrite Hk, Hp, Hm, ts_obs, ts_pattern, Nat.sub_0_r, D_period by lia. reflexivity.
Qed.

Theorem C28_season_period uid s inn name sn pop c :
  time_seasonality uid s inn name sn pop = Ok c ->
  forall e t, y_of c e no_shocks (t + s) = y_of c e no_shocks t.
Proof.
  intros H e t. rewrite !(C28_season_pattern _ _ _ _ _ _ _ H).
  apply ts_inv in H. apply D_period. lia.
Qed.

Theorem C28_season_sums_to_zero uid s inn name sn pop c :
  time_seasonality uid s inn name sn pop = Ok c ->
  forall e u, rsum s (fun i => y_of c e no_shocks (u + i)) = 0%R.
Proof.
  intros H e u. 
  rewrite (rsum_ext s _ (fun i => documented_season s (pv e (uid, (name ++ "_coefs")%string)) (u + i))).
  - apply ts_inv in H. apply D_sum0. lia.
  - intros i _. apply (C28_season_pattern _ _ _ _ _ _ _ H).
Qed.

(** With shocks: gamma_{t+1} = - (sum of the last s-1 effects) + omega_t (structural.py:1083). *)
Theorem C28_season_recursion uid s inn name sn pop c :
  time_seasonality uid s inn name sn pop = Ok c ->
  forall e eps t, s - 2 <= t ->
  y_of c e eps (S t) = (- rsum (s - 1) (fun i => y_of c e eps (t - i))
                        + (if inn then eps t 0%nat else 0))%R.
Proof.
  intros H e eps t Ht. apply ts_inv in H. destruct H as (Hs&_&_&Hk&Hp&Hm&_). unfold y_of.
  rewrite Hk, Hp, Hm, ts_obs, ts_step_0 by lia. f_equal. f_equal. apply rsum_ext. intros i Hi.
  rewrite ts_obs, ts_shift by lia. reflexivity.
Qed.

(** Which arguments are accepted. *)
Theorem C28_season_accepted uid s inn name sn :
  2 <= s -> (match sn with Some l => length l = s | None => True end) ->
  exists c, time_seasonality uid s inn name sn true = Ok c.
Proof. apply ts_constructible. Qed.

(** The pop_state=False option never constructs a component. *)
Theorem C28_pop_state_option_refuted uid s inn name sn c :
  time_seasonality uid s inn name sn false <> Ok c.
Proof. intros H. apply ts_inv in H. destruct H as (_&H&_). discriminate. Qed.

Example C28_example : exists c, time_seasonality 0 4 true "q" None true = Ok c /\
  forall e, y_of c e no_shocks 5 = (- (pv e (0%nat, "q_coefs"%string) 0%nat + pv e (0%nat, "q_coefs"%string) 1%nat
                                       + pv e (0%nat, "q_coefs"%string) 2%nat))%R.
Proof.
  destruct (ts_constructible 0 4 true "q" None) as [c H]; [lia|exact I|].
  exists c. split; auto. intros e. rewrite (C28_season_pattern _ _ _ _ _ _ _ H).
  unfold documented_season. simpl. lra.
Qed.

(** ** C29 Frequency-domain seasonality and cycles *)

(** Without shocks the effect is the documented sum of sinusoids of the initial states, whatever
    the (real) season length. *)
Theorem C29_frequency_pattern uid s n name inn c :
  frequency_seasonality uid s n name inn = Ok c ->
  exists nn x0, c_k_states c = nn * 2 /\
    (forall e i, x0 e i = s_x0 (c_ssm c) e i) /\
    forall e t, y_of c e no_shocks t
                = harmonic_sum s nn (fun j => x0 e (2 * j)) (fun j => x0 e (2 * j + 1)) t.
Proof.
  intros H. apply freq_inv in H. destruct H as [nn (_&_&_&_&Hk&Hp&[drop (_&_&Hm&_)]&_)].
  exists nn, (fun e i => s_x0 (c_ssm c) e i). split; auto. split; auto.
  intros e t. unfold y_of. rewrite Hk, Hp, Hm. apply freq_pattern.
Qed.

Theorem C29_frequency_period uid k n name inn c :
  frequency_seasonality uid (INR k) n name inn = Ok c ->
  forall e t, y_of c e no_shocks (t + k) = y_of c e no_shocks t.
Proof.
  intros H e t. assert (0 < k).
  { apply freq_inv in H. destruct H as [nn (_&Hs&_)]. destruct k; [simpl in Hs; lra|lia]. }
  destruct (C29_frequency_pattern _ _ _ _ _ _ H) as [nn [x0 (_&_&P)]].
  rewrite !P. apply harmonic_periodic; auto.
Qed.

(** Saturated case (s = 2 n): the initial value of the last sine state, which gets no parameter and is
    fixed to zero, could be anything without changing any observation. *)
Theorem C29_dropped_state_irrelevant uid s n name inn c :
  frequency_seasonality uid s n name inn = Ok c ->
  exists nn, c_k_states c = nn * 2 /\ 0 < nn /\
  (s = (2 * INR nn)%R ->
     (forall e, s_x0 (c_ssm c) e (nn * 2 - 1) = 0%R) /\
     dget (c_param_info c) name = Some [nn * 2 - 1] /\
     forall e t v,
       y_of c e no_shocks t
       = harmonic_sum s nn (fun j => s_x0 (c_ssm c) e (2 * j))
           (fun j => if j =? nn - 1 then v else s_x0 (c_ssm c) e (2 * j + 1)) t) /\
  (s <> (2 * INR nn)%R ->
     (forall e i, i < nn * 2 -> s_x0 (c_ssm c) e i = pv e (uid, name) i) /\
     dget (c_param_info c) name = Some [nn * 2]).
Proof.
  intros H. pose proof H as H0. apply freq_inv in H. destruct H as [nn (Hn&_&_&_&Hk&Hp&[drop (Hd1&Hd&Hm&Hi)]&_)].
  exists nn. split; auto. split; auto. split.
  - intros Es. assert (drop = 1) by (apply Hd; auto). subst drop. split; [|split].
    + intros e. rewrite Hm. simpl. destruct (Nat.ltb_spec (nn * 2 - 1) (nn * 2 - 1)); [lia|auto].
    + rewrite Hi. destruct inn; simpl; rewrite String.eqb_refl; auto.
    + intros e t v. unfold y_of. rewrite Hk, Hp, Hm, freq_pattern. apply harmonic_saturated; auto.
      intros j Hj. destruct (Nat.eqb_spec j (nn - 1)); [lia|auto].
  - intros Es. assert (drop <> 1) by (intros E; apply Es, Hd; auto). assert (drop = 0) by lia. subst drop.
    rewrite Nat.sub_0_r in *. split.
    + intros e i Hlt. rewrite Hm. simpl. apply Nat.ltb_lt in Hlt. rewrite Hlt. auto.
    + rewrite Hi. destruct inn; simpl; rewrite String.eqb_refl; auto.
Qed.

(** With shocks each harmonic follows the documented pair of equations (structural.py:1276-1278). *)
Theorem C29_frequency_equations uid s n name inn c :
  frequency_seasonality uid s n name inn = Ok c ->
  exists nn, c_k_states c = nn * 2 /\
  forall e eps t b, b < nn ->
  let lam := (2 * PI * INR (b + 1) / s)%R in
  x_of c e eps (S t) (2 * b) = (cos lam * x_of c e eps t (2 * b)%nat + sin lam * x_of c e eps t (2 * b + 1)%nat
                      + (if inn then eps t (2 * b)%nat else 0))%R /\
  x_of c e eps (S t) (2 * b + 1) = (- sin lam * x_of c e eps t (2 * b)%nat + cos lam * x_of c e eps t (2 * b + 1)%nat
                      + (if inn then eps t (2 * b + 1)%nat else 0))%R.
Proof.
  intros H. apply freq_inv in H. destruct H as [nn (_&_&_&_&Hk&Hp&[drop (_&_&Hm&_)]&_)].
  exists nn. split; auto. intros e eps t b Hb. unfold x_of. rewrite Hk, Hp, Hm.
  apply (freq_step uid s nn (nn * 2 - drop) inn name e eps t b Hb).
Qed.

(** Cycle: documented equations, and amplitude contracted by rho each step (rho = 1: preserved). *)
Theorem C29_cycle_equations uid name cl est damp inn c :
  cycle uid name cl est damp inn = Ok c ->
  forall e eps t,
  let rho := if damp then pv e (uid, (name ++ "_dampening_factor")%string) 0 else 1%R in
  let lam := (2 * PI / match cl with Some s => s | None => pv e (uid, (name ++ "_length")%string) 0%nat end)%R in
  let x := x_of c e eps in
  x (S t) 0 = (rho * (x t 0%nat * cos lam + x t 1%nat * sin lam) + eps t 0%nat)%R /\
  x (S t) 1 = (rho * (- x t 0%nat * sin lam + x t 1%nat * cos lam) + eps t 1%nat)%R /\
  y_of c e eps t = x t 0.
Proof.
  intros H e eps t. apply cycle_inv in H. destruct H as (_&_&_&Hk&Hp&Hm&_).
  unfold x_of, y_of. rewrite Hk, Hp, Hm. cbv zeta.
  destruct (cycle_step uid name cl damp inn e eps t) as [A B]. split; [exact A|]. split; [exact B|].
  apply cycle_obs.
Qed.

Theorem C29_cycle_amplitude uid name cl est damp inn c :
  cycle uid name cl est damp inn = Ok c ->
  forall e t,
  let rho := if damp then pv e (uid, (name ++ "_dampening_factor")%string) 0 else 1%R in
  let x := x_of c e no_shocks in
  (x t 0%nat ^ 2 + x t 1%nat ^ 2)%R = ((rho ^ 2) ^ t * (x O 0%nat ^ 2 + x O 1%nat ^ 2))%R.
Proof.
  intros H e t. apply cycle_inv in H. destruct H as (_&_&_&Hk&Hp&Hm&_).
  unfold x_of. rewrite Hk, Hp, Hm. apply cycle_amplitude.
Qed.

Theorem C29_cycle_period uid name k est inn c :
  cycle uid name (Some (INR k)) est false inn = Ok c ->
  forall e t, y_of c e no_shocks (t + k) = y_of c e no_shocks t.
Proof.
  intros H e t. apply cycle_inv in H. destruct H as (_&Hnz&_&Hk&Hp&Hm&_).
  unfold y_of. rewrite Hk, Hp, Hm, !cycle_obs.
  destruct (cycle_closed uid name (Some (INR k)) false inn e (t + k)) as [-> _].
  destruct (cycle_closed uid name (Some (INR k)) false inn e t) as [-> _].
  unfold cycle_rho, cycle_len. rewrite !pow1.
  assert (INR k <> 0%R) by (intros E; apply Hnz; rewrite E; auto).
  replace (2 * PI * INR (t + k) / INR k)%R with (2 * PI * INR t / INR k + 2 * INR 1 * PI)%R
    by (rewrite plus_INR; simpl INR; field; auto).
  rewrite sin_period_nat, cos_period_nat. reflexivity.
Qed.

Theorem C29_accepted uid s n name inn :
  s <> 0%R -> 0 < n -> exists c, frequency_seasonality uid s (Some (Z.of_nat n)) name inn = Ok c.
Proof. apply freq_constructible. Qed.

Example C29_example : exists c, frequency_seasonality 0 (INR 12) (Some 6%Z) "f" true = Ok c /\
  dget (c_param_info c) "f" = Some [11].
Proof.
  destruct (freq_constructible 0 (INR 12) 6 "f" true) as [c H]; [apply not_0_INR; lia|lia|].
  exists c. split; [exact H|].
  pose proof H as H0. apply freq_inv in H0. destruct H0 as [nn (_&_&En&_&Hk&_)].
  destruct (C29_dropped_state_irrelevant _ _ _ _ _ _ H) as [nn' (Hk'&_&H1&_)].
  assert (nn = 6) by lia. assert (nn' = 6) by lia. subst. 
  apply H1. simpl. lra.
Qed.

(** ** C30 Level and trend *)

(** For order 1 and 2, every innovation mask: the documented equations, the shock of each enabled
    derivative being the next one of the shock vector. *)
Theorem C30_trend_equations_partial uid o io name c :
  level_trend uid o io name = Ok c -> c_k_states c <= 2 ->
  forall e eps,
  documented_trend (c_k_states c) (x_of c e eps)
    (fun t i => let m := innovation_mask (c_k_states c) o io in
                if nth i m false then eps t (rank m i) else 0%R) /\
  forall t, y_of c e eps t = x_of c e eps t 0.
Proof.
  intros H K2 e eps. apply level_trend_inv in H. destruct H as [mask (_&K0&_&H)]. cbv zeta in H.
  destruct H as (HL&_&Hk&Hp&Hm&_). unfold x_of, y_of. rewrite Hk in *. rewrite Hp, Hm.
  set (k := length mask) in *. set (im := innovation_mask k o io) in *.
  split; [|intros t; apply trend_obs; auto].
  intros t i Hi. rewrite trend_step by auto. unfold trend_shock. f_equal.
  destruct k as [|[|[|k]]]; try lia; destruct i as [|[|i]]; try lia; simpl; lra.
Qed.

(** For every order >= 3 the documented equations fail: every state is moved by all the higher
    derivatives at once (the transition is a full upper triangle of ones). *)
Theorem C30_order_3_refuted uid o io name c :
  level_trend uid o io name = Ok c -> 3 <= c_k_states c ->
  exists e, ~ documented_trend (c_k_states c) (x_of c e no_shocks) (fun _ _ => 0%R).
Proof.
  intros H K3. apply level_trend_inv in H. destruct H as [mask (_&K0&_&H)]. cbv zeta in H.
  destruct H as (HL&_&Hk&Hp&Hm&_). unfold x_of. rewrite Hk in *. rewrite Hp, Hm.
  set (k := length mask) in *. set (im := innovation_mask k o io) in *.
  exists (fun _ _ i => if i =? 2 then 1%R else 0%R). intros D.
  specialize (D 0 0 ltac:(lia)). rewrite trend_step in D by (auto; lia).
  assert ((0 + 1 <? k) = true) as E1 by (apply Nat.ltb_lt; lia). rewrite E1 in D.
  cbn [run] in D. unfold trend_ssm in D. cbn [s_x0] in D. unfold pv in D. simpl in D.
  unfold trend_shock, no_shocks in D.
  rewrite (rsum_one k _ 2) in D; [|lia|].
  - simpl in D. destruct (nth 0 im false); lra.
  - intros i Hi Hne. simpl. destruct (Nat.eqb_spec i 2); [congruence|auto].
Qed.

(** What is true of every order: state i is the running sum of all states i, i+1, ... *)
Theorem C30_trend_actual uid o io name c :
  level_trend uid o io name = Ok c ->
  forall e eps t i, i < c_k_states c ->
  x_of c e eps (S t) i
  = (rsum (c_k_states c) (fun j => if (i <=? j)%nat then x_of c e eps t j else 0)
     + (let m := innovation_mask (c_k_states c) o io in
        if nth i m false then eps t (rank m i) else 0))%R.
Proof.
  intros H e eps t i Hi. apply level_trend_inv in H. destruct H as [mask (_&K0&_&H)]. cbv zeta in H.
  destruct H as (HL&_&Hk&Hp&Hm&_). unfold x_of. rewrite Hk in *. rewrite Hp, Hm.
  apply trend_step; auto.
Qed.

(** No innovations, order 2: a straight line with the initial level and slope. *)
Theorem C30_linear_trend uid name c :
  level_trend uid (OInt 2) (Some (OInt 0)) name = Ok c ->
  forall e t, y_of c e no_shocks t
   = (pv e (uid, "initial_trend"%string) 0%nat + INR t * pv e (uid, "initial_trend"%string) 1%nat)%R.
Proof.
  intros H e t. assert (Hk : c_k_states c = 2).
  { pose proof H as H1. apply level_trend_inv in H1. destruct H1 as [mask (E&_&_&H1)]. cbv zeta in H1.
    inversion E; subst mask. tauto. }
  destruct (C30_trend_equations_partial _ _ _ _ _ H ltac:(lia) e no_shocks) as [D O].
  rewrite Hk in D. rewrite O.
  assert (HX : x_of c e no_shocks t 0
     = (pv e (uid, "initial_trend"%string) 0%nat + INR t * pv e (uid, "initial_trend"%string) 1%nat)%R /\
     x_of c e no_shocks t 1 = pv e (uid, "initial_trend"%string) 1); [|tauto].
  induction t.
  - pose proof H as H1. apply level_trend_inv in H1. destruct H1 as [mask (_&_&_&H1)]. cbv zeta in H1.
    destruct H1 as (_&_&_&_&Hm&_). unfold x_of. rewrite Hm. simpl. lra.
  - destruct IHt as [I0 I1]. rewrite (D t 0), (D t 1) by lia. rewrite S_INR.
    replace (0 + 1 <? 2) with true by auto. replace (1 + 1 <? 2) with false by auto.
    change (0 + 1) with 1. rewrite I0, I1. unfold no_shocks. simpl. lra.
Qed.

Example C30_example : exists c, level_trend 0 (OInt 2) (Some (OMask [false; true])) "smooth" = Ok c /\
  c_k_states c = 2 /\ c_k_posdef c = 1.
Proof. eexists. split; [reflexivity|]. split; reflexivity. Qed.
Example C30_example3 : exists c, level_trend 0 (OInt 3) None "LevelTrend" = Ok c /\ c_k_states c = 3.
Proof. eexists. split; [reflexivity|]. reflexivity. Qed.

(** ** C31 Autoregression *)

(** x_{t+1} = sum over the enabled lags i+1 of rho * x_{t-i} + shock, the coefficients being taken in
    increasing order of lag; lags before the start contribute nothing (zero initial state). *)
Theorem C31_ar_equation uid o name c :
  autoregressive uid o name = Ok c ->
  exists mask, order_to_mask o = Ok mask /\ 0 < length mask /\
  forall e eps t,
  y_of c e eps (S t)
  = (rsum (length mask) (fun i =>
        if (i <=? t)%nat && nth i mask false
        then pv e (uid, "ar_params"%string) (rank mask i) * y_of c e eps (t - i) else 0)
     + eps t 0%nat)%R.
Proof.
  intros H. apply ar_inv in H. destruct H as [mask (Eo&K0&_&Hk&Hp&Hm&_)].
  exists mask. split; auto. split; auto. intros e eps t. unfold y_of. rewrite Hk, Hp, Hm.
  rewrite ar_equation by auto. f_equal. apply rsum_ext. intros i Hi. unfold ar_coef.
  destruct (i <=? t); simpl; auto. destruct (nth i mask false); simpl; lra.
Qed.

(** the shock has variance sigma_ar ** 2 *)
Theorem C31_ar_noise uid o name c :
  autoregressive uid o name = Ok c ->
  forall e, noise_cov 1 (c_ssm c) e 0 0 = (pv e (uid, "sigma_ar"%string) 0%nat ^ 2)%R.
Proof.
  intros H e. apply ar_inv in H. destruct H as [mask (Eo&K0&_&Hk&Hp&Hm&_)]. rewrite Hm.
  unfold noise_cov. simpl. lra.
Qed.

Example C31_example : exists c, autoregressive 0 (OMask [true; true; false; true]) "AR" = Ok c /\
  c_k_states c = 4.
Proof. eexists. split; reflexivity. Qed.

(** ** C32 Addition of components *)

(** The observation of a sum is the sum of the observations, the shocks being split in order. *)
Theorem C32_superposition a b c :
  comp_add a b = Ok c ->
  forall e eps t,
  y_of c e eps t = (y_of a e eps t + y_of b e (fun t j => eps t (c_k_posdef a + j)%nat) t)%R.
Proof.
  intros H e eps t. apply comp_add_inv in H. destruct H as [info (_&_&Hk&Hp&_&_&_&_&_&_&Hm)].
  unfold y_of. rewrite Hk, Hp, Hm. apply observe_combine.
Qed.

(** The state of a sum is the concatenation of the states. *)
Theorem C32_states a b c :
  comp_add a b = Ok c ->
  c_k_states c = c_k_states a + c_k_states b /\
  forall e eps t i,
  (i < c_k_states a -> x_of c e eps t i = x_of a e eps t i) /\
  (i < c_k_states b ->
     x_of c e eps t (c_k_states a + i) = x_of b e (fun t j => eps t (c_k_posdef a + j)%nat) t i).
Proof.
  intros H. apply comp_add_inv in H. destruct H as [info (_&_&Hk&Hp&_&_&_&_&_&_&Hm)].
  split; auto. intros e eps t i. unfold x_of. rewrite Hk, Hp, Hm. split; intros Hi.
  - rewrite run_combine by lia. apply Nat.ltb_lt in Hi. rewrite Hi. auto.
  - rewrite run_combine by lia. destruct (Nat.ltb_spec (c_k_states a + i) (c_k_states a)); [lia|].
    f_equal. lia.
Qed.

(** Noise: state noise covariances are block diagonal, measurement variances and observation intercepts add. *)
Theorem C32_noise a b c :
  comp_add a b = Ok c ->
  forall e,
  s_H (c_ssm c) e = (s_H (c_ssm a) e + s_H (c_ssm b) e)%R /\
  forall i j,
  noise_cov (c_k_posdef c) (c_ssm c) e i j
  = if i <? c_k_states a then (if j <? c_k_states a then noise_cov (c_k_posdef a) (c_ssm a) e i j else 0%R)
    else (if j <? c_k_states a then 0%R
          else noise_cov (c_k_posdef b) (c_ssm b) e (i - c_k_states a) (j - c_k_states a)).
Proof.
  intros H e. apply comp_add_inv in H. destruct H as [info (_&_&Hk&Hp&_&_&_&_&_&_&Hm)].
  rewrite Hp, Hm. split; [reflexivity|]. intros. apply noise_combine.
Qed.

(** Addition is associative: same matrices, labels and tables, in the same order. *)
Theorem C32_associative a b c ab bc l :
  comp_add a b = Ok ab -> comp_add ab c = Ok l -> comp_add b c = Ok bc ->
  exists r, comp_add a bc = Ok r /\
    c_name r = c_name l /\ c_k_states r = c_k_states l /\ c_k_posdef r = c_k_posdef l /\
    c_state_names r = c_state_names l /\ c_shock_names r = c_shock_names l /\
    c_param_names r = c_param_names l /\ c_info r = c_info l /\
    (NoDup (dkeys (c_vars a)) -> NoDup (dkeys (c_vars b)) -> NoDup (dkeys (c_vars c)) -> c_vars r = c_vars l) /\
    (NoDup (dkeys (c_param_info a)) -> NoDup (dkeys (c_param_info b)) -> NoDup (dkeys (c_param_info c)) ->
       c_param_info r = c_param_info l) /\
    forall e, ssm_eq (c_ssm l) e (c_ssm r) e.
Proof.
  intros Hab Hl Hbc.
  pose proof (comp_add_inv _ _ _ Hab) as [iab (Iab&Eab&K1&P1&S1&Sh1&N1&V1&D1&PI1&M1)].
  pose proof (comp_add_inv _ _ _ Hl) as [il (Il&El&K2&P2&S2&Sh2&N2&V2&D2&PI2&M2)].
  pose proof (comp_add_inv _ _ _ Hbc) as [ibc (Ibc&Ebc&K3&P3&S3&Sh3&N3&V3&D3&PI3&M3)].
  rewrite Eab in Il. rewrite combine_info_ok in Iab, Il, Ibc.
  destruct Iab as [Xab NDab], Il as [Xl NDl], Ibc as [Xbc NDbc].
  assert (Ir : combine_info (c_info a) (c_info bc) = Ok il).
  { apply combine_info_ok. rewrite Ebc, Xbc, Xl, Xab, !own_info_app, !own_info_idem, <- app_assoc.
    split; auto. rewrite Xab, !own_info_app, !own_info_idem, <- app_assoc in NDl. auto. }
  assert (Nm : exists r, comp_add a bc = Ok r /\ c_name r = c_name l).
  { unfold comp_add. rewrite Ir. simpl. eexists. split; [reflexivity|]. simpl.
    unfold comp_add in Hl. destruct (combine_info (c_info ab) (c_info c)) eqn:E; [|discriminate].
    simpl in Hl. inversion Hl; subst l. simpl in *. congruence. }
  destruct Nm as [r [Hr Nm]]. exists r. split; auto. split; auto.
  pose proof (comp_add_inv _ _ _ Hr) as [ir (Ir'&Er&K4&P4&S4&Sh4&N4&V4&D4&PI4&M4)].
  rewrite K4, P4, S4, Sh4, N4, V4, PI4, M4, K2, P2, S2, Sh2, N2, V2, PI2, M2, K1, P1, S1, Sh1, N1, V1, PI1, M1,
          K3, P3, S3, Sh3, N3, V3, PI3, M3, <- !app_assoc.
  repeat split; auto; try lia; try congruence.
  - intros. symmetry. apply dupdate_assoc; auto.
  - intros. symmetry. apply dupdate_assoc; auto.
  - apply combine_ssm_assoc. - apply combine_ssm_assoc. - apply combine_ssm_assoc.
  - apply combine_ssm_assoc. - apply combine_ssm_assoc. - apply combine_ssm_assoc.
  - apply combine_ssm_assoc. - apply combine_ssm_assoc. - apply combine_ssm_assoc.
Qed.

(** Two components of the same name are rejected; components with different names are accepted. *)
Theorem C32_duplicate_names_rejected a b :
  leaf a -> leaf b -> is_sum_name (c_name a) = false -> is_sum_name (c_name b) = false ->
  (c_name a = c_name b -> comp_add a b = Err ValueError) /\
  (c_name a <> c_name b -> exists c, comp_add a b = Ok c).
Proof.
  intros La Lb Na Nb. destruct (leaf_info a La) as [ca [Ea _]]. destruct (leaf_info b Lb) as [cb [Eb _]].
  split; intros E.
  - unfold comp_add. rewrite Ea, Eb, <- E. unfold combine_info. simpl. unfold info_add. simpl.
    rewrite Na. simpl. unfold dmem. simpl. rewrite String.eqb_refl. auto.
  - unfold comp_add. rewrite Ea, Eb. unfold combine_info. simpl. unfold info_add. simpl.
    rewrite Na. simpl. rewrite Nb. unfold dmem. simpl.
    destruct (String.eqb_spec (c_name b) (c_name a)); [congruence|]. simpl. eauto.
Qed.

Example C32_example : exists a b c, level_trend 0 (OInt 2) None "LevelTrend" = Ok a /\
  autoregressive 1 (OInt 1) "AR" = Ok b /\ comp_add a b = Ok c /\ c_k_states c = 3 /\ c_k_posdef c = 3 /\
  c_name c = "StateSpace[LevelTrend, AR]"%string.
Proof. do 3 eexists. split; [reflexivity|]. split; [reflexivity|]. split; [reflexivity|]. repeat split. Qed.

(** ** C33 Parameters of a sum *)

(** If no parameter or data name is used twice, then after build every parameter has exactly one
    placeholder, the user's value for a name reaches the placeholder of that name, and no placeholder
    of any matrix is left without a value (the matrices depend on nothing but the user's values
    and the data placeholders). *)
Theorem C33_own_placeholders_partial c uid name c' m :
  assembled c -> NoDup (c_param_names c) -> NoDup (c_data_names c) ->
  build uid c name = Ok (c', m) ->
  dkeys (m_vars m) = m_param_names m /\ NoDup (m_param_names m) /\
  (forall user free n v sh, In (n, (v, sh)) (m_vars m) -> forall t i, insert_env m user free v t i = user n i) /\
  (forall user free free', agree (map snd (c_data c)) free free' ->
     ssm_eq (m_ssm m) (insert_env m user free) (m_ssm m) (insert_env m user free')).
Proof.
  intros A ND NDd B.
  destruct (assembled_params c A ND) as [VK VS].
  destruct (assembled_local c A ND NDd) as [_ LOC].
  unfold build in B. cbv zeta in B.
  unfold make_and_register_variable in B.
  assert (smem "P0" (c_param_names c ++ ["P0"%string]) = true) as E1
    by (apply smem_In, in_or_app; right; left; auto).
  rewrite E1 in B. simpl in B. destruct (dmem (c_vars c) "P0") eqn:E2; [discriminate|].
  simpl in B. inversion B; subst c' m; clear B. cbn [m_vars m_param_names m_ssm].
  apply dmem_false in E2.
  assert (SND : forall n v sh, In (n, (v, sh)) (c_vars c ++ [("P0"%string, ((uid, "P0"%string), [c_k_states c; c_k_states c]))])%list ->
            snd v = n).
  { intros n v sh H. apply in_app_or in H. destruct H as [H|[H|[]]]; [eauto|]. inversion H; auto. }
  assert (INS : forall mm user free n v sh,
     m_vars mm = (c_vars c ++ [("P0"%string, ((uid, "P0"%string), [c_k_states c; c_k_states c]))])%list ->
     In (n, (v, sh)) (m_vars mm) -> forall t i, insert_env mm user free v t i = user n i).
  { intros mm user free n v sh EM H t i. unfold insert_env.
    destruct (find (fun kv => var_eqb (fst (snd kv)) v) (m_vars mm)) as [[n' [v' sh']]|] eqn:F.
    - pose proof (find_some _ _ F) as [F1 F2]. simpl in F2.
      assert (existsb (fun kv => var_eqb (fst (snd kv)) v) (m_vars mm) = true) as ->.
      { apply existsb_exists. eauto. }
      unfold var_eqb in F2. apply andb_prop in F2. destruct F2 as [G1 G2].
      apply String.eqb_eq in G2. rewrite EM in F1, H.
      rewrite <- (SND _ _ _ F1), G2. rewrite (SND _ _ _ H). auto.
    - exfalso. pose proof (find_none _ _ F _ H) as F2. simpl in F2.
      unfold var_eqb in F2. rewrite Nat.eqb_refl, String.eqb_refl in F2. discriminate. }
  split; [|split; [|split]].
  - rewrite dkeys_app, VK. auto.
  - apply NoDup_snoc; auto. rewrite <- VK. auto.
  - intros user free n v sh H t i. eapply INS; [reflexivity|exact H].
  - intros user free free' AG.
    set (mm := Sts _ _ _ _ _ _ _ _ _ _ _ _) in *.
    assert (AH : agree (held c) (insert_env mm user free) (insert_env mm user free')).
    { intros v Hv t i. unfold held in Hv. apply in_app_or in Hv. destruct Hv as [Hv|Hv].
      - apply in_map_iff in Hv. destruct Hv as [[n [v' sh]] [E Hin]]. simpl in E. subst v'.
        rewrite !(INS mm user _ n v sh); auto; apply in_or_app; auto.
      - unfold insert_env. destruct (existsb _ _); [destruct (find _ _) as [[n x]|]; auto|]; apply AG; auto. }
    destruct (LOC _ _ AH) as (L1&L2&L3&L4&L5&L6&L7&L8&L9).
    unfold ssm_eq. simpl. repeat split; auto.
    + intros i j. unfold pv.
      rewrite !(INS mm user _ "P0"%string (uid, "P0"%string) [c_k_states c; c_k_states c]);
        auto; apply in_or_app; right; left; auto.
    + destruct (c_k_posdef c =? 0); auto.
    + destruct (c_k_posdef c =? 0); auto.
Qed.

(** Two autoregressive components with different names are accepted by +, but share the parameter
    names "ar_params" and "sigma_ar": the names are listed twice, only the second component's
    placeholders are registered, and the first component's coefficients stay without a value. *)
Theorem C33_two_autoregressions_refuted :
  exists a b c c' m, autoregressive 0 (OInt 1) "ar1" = Ok a /\ autoregressive 1 (OInt 1) "ar2" = Ok b /\
    comp_add a b = Ok c /\ build 2 c None = Ok (c', m) /\
    m_param_names m = ["ar_params"; "sigma_ar"; "ar_params"; "sigma_ar"; "P0"]%string /\
    dkeys (m_vars m) = ["ar_params"; "sigma_ar"; "P0"]%string /\
    c_data c = [] /\
    exists user free free',
      s_T (m_ssm m) (insert_env m user free) 0 0 <> s_T (m_ssm m) (insert_env m user free') 0 0.
Proof.
  exists (okc (autoregressive 0 (OInt 1) "ar1")), (okc (autoregressive 1 (OInt 1) "ar2")).
  exists (okc (comp_add (okc (autoregressive 0 (OInt 1) "ar1")) (okc (autoregressive 1 (OInt 1) "ar2")))).
  eexists. eexists. split; [has|]. split; [has|]. split; [has|]. split; [has|].
  split; [vm_eq|]. split; [vm_eq|]. split; [vm_eq|].
  exists (fun _ _ => 0%R), (fun _ _ _ => 0%R), (fun _ _ _ => 1%R).
  match goal with |- ?a <> ?b => assert (a = 0%R) as -> by vm_eq; assert (b = 1%R) as -> by vm_eq end. lra.
Qed.

(** The same for two level/trend components. *)
Theorem C33_two_trends_refuted :
  exists a b c c' m, level_trend 0 (OInt 1) None "t1" = Ok a /\ level_trend 1 (OInt 1) None "t2" = Ok b /\
    comp_add a b = Ok c /\ build 2 c None = Ok (c', m) /\
    ~ NoDup (m_param_names m) /\
    exists user free free',
      s_x0 (m_ssm m) (insert_env m user free) 0 <> s_x0 (m_ssm m) (insert_env m user free') 0.
Proof.
  exists (okc (level_trend 0 (OInt 1) None "t1")), (okc (level_trend 1 (OInt 1) None "t2")).
  exists (okc (comp_add (okc (level_trend 0 (OInt 1) None "t1")) (okc (level_trend 1 (OInt 1) None "t2")))).
  eexists. eexists. split; [has|]. split; [has|]. split; [has|]. split; [has|].
  split.
  - vm_compute. intros H. inversion H; subst. apply H2. simpl. auto.
  - exists (fun _ _ => 0%R), (fun _ _ _ => 0%R), (fun _ _ _ => 1%R).
    match goal with |- ?a <> ?b => assert (a = 0%R) as -> by vm_eq; assert (b = 1%R) as -> by vm_eq end. lra.
Qed.

(** Building changes the component: the second model built from it lists "P0" twice. *)
Theorem C33_second_build_refuted c uid name c' m uid2 c'' m2 :
  build uid c name = Ok (c', m) -> build uid2 c' name = Ok (c'', m2) ->
  m_param_names m2 = (c_param_names c ++ ["P0"; "P0"]%string)%list /\ ~ NoDup (m_param_names m2).
Proof.
  unfold build. cbv zeta. intros H1 H2.
  destruct (make_and_register_variable _ _ uid _ _) in H1; [|discriminate]. simpl in H1.
  inversion H1; subst c' m; clear H1. cbn [c_param_names c_vars c_k_states] in H2.
  destruct (make_and_register_variable _ _ uid2 _ _) in H2; [|discriminate]. simpl in H2.
  inversion H2; subst c'' m2; clear H2. cbn [m_param_names]. rewrite <- app_assoc. simpl.
  split; auto. intros ND. apply NoDup_app_inv in ND. destruct ND as [_ [ND _]].
  inversion ND; subst. apply H1. left; auto.
Qed.
(** ... but its matrices, labels and placeholders are left alone. *)
Theorem C33_build_keeps_matrices c uid name c' m :
  build uid c name = Ok (c', m) ->
  c_ssm c' = c_ssm c /\ c_vars c' = c_vars c /\ c_state_names c' = c_state_names c /\
  c_shock_names c' = c_shock_names c /\ c_info c' = c_info c /\ c_k_states c' = c_k_states c /\
  c_k_posdef c' = c_k_posdef c.
Proof.
  unfold build. cbv zeta. intros H1.
  destruct (make_and_register_variable _ _ uid _ _) in H1; [|discriminate]. simpl in H1.
  inversion H1; subst c' m; clear H1. repeat split.
Qed.

(** Two regressions share the coordinate "exog_state": the first one's labels are lost. *)
Theorem C33_regression_coords_refuted :
  exists a b c, regression 0 (Some 2) "a" None false = Ok a /\ regression 1 (Some 3) "b" None false = Ok b /\
    comp_add a b = Ok c /\
    dget (c_param_dims c) "beta_a" = Some ["exog_state"%string] /\
    dget (c_param_info c) "beta_a" = Some [2] /\
    option_map (@length string) (dget (c_coords c) "exog_state") = Some 3.
Proof.
  exists (okc (regression 0 (Some 2) "a" None false)), (okc (regression 1 (Some 3) "b" None false)).
  eexists. split; [has|]. split; [has|]. split; [has|]. split; [vm_eq|]. split; vm_eq.
Qed.

Example C33_example : exists a b c c' m,
  level_trend 0 (OInt 2) None "LevelTrend" = Ok a /\ measurement_error 1 "obs" = Ok b /\
  comp_add a b = Ok c /\ build 2 c None = Ok (c', m) /\ assembled c /\
  NoDup (c_param_names c) /\ NoDup (c_data_names c) /\
  m_param_names m = ["initial_trend"; "sigma_trend"; "sigma_obs"; "P0"]%string.
Proof.
  exists (okc (level_trend 0 (OInt 2) None "LevelTrend")), (okc (measurement_error 1 "obs")).
  exists (okc (comp_add (okc (level_trend 0 (OInt 2) None "LevelTrend")) (okc (measurement_error 1 "obs")))).
  eexists. eexists. split; [has|]. split; [has|]. split; [has|]. split; [has|].
  split.
  - eapply asm_add; [apply asm_leaf; eapply (leaf_trend 0 (OInt 2) None "LevelTrend"); has
                    |apply asm_leaf; eapply (leaf_meas 1 "obs"); has|has].
  - split; [|split; [vm_compute; constructor|vm_eq]].
    vm_compute. repeat constructor; simpl; intuition discriminate.
Qed.

(** ** C25 (structural part) Labels and shapes *)

(** which constructor calls have correct labels *)
Inductive well_labelled : component -> Prop :=
| wl_trend uid n io name c : (n <= 7)%Z -> level_trend uid (OInt n) io name = Ok c -> well_labelled c
| wl_meas uid name c : measurement_error uid name = Ok c -> well_labelled c
| wl_ar uid n name c : autoregressive uid (OInt n) name = Ok c -> well_labelled c
| wl_season uid s inn name sn pop c : time_seasonality uid s inn name sn pop = Ok c -> well_labelled c
| wl_freq uid s n name inn c : frequency_seasonality uid s n name inn = Ok c -> well_labelled c
| wl_cycle uid name cl est damp c : cycle uid name cl est damp true = Ok c -> well_labelled c
| wl_reg uid k name sn c : regression uid k name sn false = Ok c -> well_labelled c
| wl_add a b c : well_labelled a -> well_labelled b -> comp_add a b = Ok c -> well_labelled c.

Lemma select_names_length (m : list bool) names : length names = length m ->
  length (select_names names m) = bsum m.
Proof.
  unfold select_names, bsum. rewrite map_length. revert names.
  induction m; intros [|x names] H; simpl in *; try discriminate; auto.
  destruct a; simpl; rewrite IHm; auto.
Qed.
Lemma bsum_repeat n : bsum (repeat true n) = n.
Proof. unfold bsum. induction n; simpl; auto. Qed.

Theorem C25_structural_labels_partial c :
  well_labelled c ->
  length (c_state_names c) = c_k_states c /\ length (c_shock_names c) = c_k_posdef c /\
  forall n, dget (c_param_info c) n = option_map snd (dget (c_vars c) n).
Proof.
  intros W. cut (labels_ok c); [intros (A&B&_&_&C); auto|].
  induction W as [uid n io name c Hn H|uid name c H|uid n name c H|uid s inn name sn pop c H|uid s n name inn c H|uid name cl est damp c H|uid k name sn c H|a b c Wa IHa Wb IHb E].
  - assert (L : leaf c) by (eapply leaf_trend; eauto). destruct (leaf_vars c L) as [[VK VS] ND].
    apply level_trend_inv in H. destruct H as [mask (Eo&K0&_&H)]. cbv zeta in H.
    destruct H as (HL&_&Hk&Hp&_&HS&HSh&HN&HP&HV&_).
    simpl in Eo. destruct (Z.ltb_spec n 0); [discriminate|]. inversion Eo; subst mask; clear Eo.
    rewrite repeat_length in *. set (k := Z.to_nat n) in *.
    assert (length (firstn k position_derivative_names) = k) as LF
      by (rewrite firstn_length; simpl; lia).
    unfold labels_ok. rewrite HS, HSh, Hk, Hp, VK. repeat split; auto.
    + rewrite select_names_length by (rewrite repeat_length; auto). apply bsum_repeat.
    + destruct (Nat.ltb_spec 0 (bsum (innovation_mask k (OInt n) io))).
      * apply select_names_length. lia.
      * simpl. lia.
    + unfold dkeys. rewrite <- HN. auto.
    + intros nm. rewrite HV. apply dget_map_vars.
  - apply measurement_inv in H. destruct H as (_&K&P&S&Sh&N&PI&V&_). unfold labels_ok.
    rewrite K, P, S, Sh, PI, V. repeat split; auto; try (simpl; repeat constructor; simpl; tauto).
    intros nm. simpl. destruct (String.eqb _ _); auto.
  - apply ar_inv in H. destruct H as [mask (Eo&_&_&K&P&_&S&Sh&_&N&PI&V&_)]. unfold labels_ok.
    rewrite K, P, S, Sh, PI, V. simpl in Eo. destruct (Z.ltb_spec n 0); [discriminate|]. inversion Eo; subst.
    rewrite repeat_length, bsum_repeat. repeat split; auto;
      try (simpl; repeat constructor; simpl; intuition discriminate).
    intros nm. simpl. destruct (String.eqb _ _); auto. destruct (String.eqb _ _); auto.
  - assert (L : leaf c) by (eapply leaf_season; eauto). destruct (leaf_vars c L) as [[VK VS] ND].
    apply ts_inv in H. destruct H as (_&_&_&K&P&_&S&_&Sh&_&N&PI&V). unfold labels_ok.
    rewrite K, P, S, Sh, VK. repeat split; auto.
    + destruct inn; auto.
    + rewrite N in ND. unfold dkeys. rewrite PI. destruct inn; auto.
    + intros nm. rewrite V. apply dget_map_vars.
  - assert (L : leaf c) by (eapply leaf_freq; eauto). destruct (leaf_vars c L) as [[VK VS] ND].
    apply freq_inv in H. destruct H as [nn (_&_&_&_&K&P&[drop (_&_&_&PI)]&S&Sh&N&_&V)]. unfold labels_ok.
    rewrite K, P, Sh, VK. repeat split; auto.
    + destruct inn; auto.
    + rewrite N in ND. unfold dkeys. rewrite PI. destruct inn; auto.
    + intros nm. rewrite V. apply dget_map_vars.
  - apply cycle_inv in H. destruct H as (_&_&_&K&P&_&S&Sh&_&N&V&ND). unfold labels_ok.
    rewrite K, P, Sh. repeat split; auto.
    + unfold dkeys. rewrite <- N. auto.
    + rewrite V, map_vars_keys, <- N. auto.
    + intros nm. rewrite V. apply dget_map_vars.
  - assert (L : leaf c) by (eapply leaf_reg; eauto). destruct (leaf_vars c L) as [[VK VS] ND].
    apply regression_inv in H. destruct H as [n (_&S&_&K&P&Sh&_&N&PI&V&_&_)]. unfold labels_ok.
    rewrite K, P, Sh, VK. repeat split; auto.
    + unfold dkeys. rewrite <- N. auto.
    + intros nm. rewrite V, PI. simpl. destruct (String.eqb _ _); auto.
  - exact (labels_add a b c IHa IHb E).
Qed.

(** LevelTrend with a skipped derivative, or of order above seven, has fewer state names than states. *)
Theorem C25_trend_state_names_refuted :
  (exists c, level_trend 0 (OMask [false; true]) None "LevelTrend" = Ok c /\
             c_k_states c = 2 /\ c_state_names c = ["trend"%string]) /\
  (exists c, level_trend 0 (OInt 8) (Some (OInt 0)) "LevelTrend" = Ok c /\
             c_k_states c = 8 /\ length (c_state_names c) = 7).
Proof.
  split; eexists; (split; [reflexivity|split; reflexivity]).
Qed.

(** A cycle without innovations has two shocks and no shock names. *)
Theorem C25_cycle_shock_names_refuted uid name s est damp c :
  cycle uid name (Some s) est damp false = Ok c -> c_k_posdef c = 2 /\ c_shock_names c = [].
Proof. intros H. apply cycle_inv in H. destruct H as (_&_&_&_&P&_&_&Sh&_). auto. Qed.

(** AutoregressiveComponent with disabled lags: param_info announces one coefficient per lag, the
    placeholder has one per enabled lag. *)
Theorem C25_ar_param_shape_refuted :
  exists c, autoregressive 0 (OMask [true; false; true]) "AR" = Ok c /\
    dget (c_param_info c) "ar_params" = Some [3] /\
    option_map snd (dget (c_vars c) "ar_params") = Some [2].
Proof. eexists; (split; [reflexivity|split; reflexivity]). Qed.

(** RegressionComponent with innovations: param_info announces a scalar sigma, the placeholder is a vector. *)
Theorem C25_regression_param_shape_refuted :
  exists c, regression 0 (Some 2) "x" None true = Ok c /\
    dget (c_param_info c) "sigma_beta_x" = Some [] /\
    option_map snd (dget (c_vars c) "sigma_beta_x") = Some [2].
Proof. eexists; (split; [reflexivity|split; reflexivity]). Qed.

Example C25_structural_example : exists c, time_seasonality 0 12 true "annual" None true = Ok c /\ well_labelled c.
Proof.
  destruct (ts_constructible 0 12 true "annual" None) as [c H]; [lia|exact I|].
  exists c. split; auto. eapply wl_season; eauto.
Qed.

(** ** C34 extract_components_from_idata *)

(** The component slices partition the state vector in order. *)
Theorem C34_slices_partition c :
  plain_names c ->
  length (state_slices (c_info c)) = length (c_info c) /\
  (forall k i j, nth_error (state_slices (c_info c)) k = Some (i, j) -> i <= j) /\
  (forall k i j i' j', nth_error (state_slices (c_info c)) k = Some (i, j) ->
     nth_error (state_slices (c_info c)) (S k) = Some (i', j') -> i' = j) /\
  (forall i j, nth_error (state_slices (c_info c)) 0 = Some (i, j) -> i = 0) /\
  (forall i j, nth_error (state_slices (c_info c)) (length (c_info c) - 1) = Some (i, j) -> j = c_k_states c).
Proof.
  intros P. destruct (plain_info c P) as [T _].
  assert (NE : c_info c <> []).
  { clear T. induction P as [c L N|a b c A IHa B IHb E].
    - destruct (leaf_info c L) as [ci [-> _]]. discriminate.
    - rewrite (plain_sum_info a b c A B E). destruct (c_info a); [congruence|discriminate]. }
  split; [apply state_slices_length|].
  unfold state_slices, total_states in *. rewrite <- T. clear T.
  rewrite <- (map_length snd (c_info c)) in *. 
  assert (NE' : map snd (c_info c) <> []) by (destruct (c_info c); [congruence|discriminate]).
  clear NE P. generalize dependent (map snd (c_info c)). intros l NE'.
  assert (G : forall start,
    (forall k i j, nth_error (slices_from start l) k = Some (i, j) -> i <= j) /\
    (forall k i j i' j', nth_error (slices_from start l) k = Some (i, j) ->
     nth_error (slices_from start l) (S k) = Some (i', j') -> i' = j) /\
    (forall i j, nth_error (slices_from start l) 0 = Some (i, j) -> i = start) /\
    (forall i j, nth_error (slices_from start l) (length l - 1) = Some (i, j) ->
       j = start + fold_right (fun ci s => ci_k_states ci + s) 0 l)).
  { clear NE'. induction l as [|ci l IH]; intros start; simpl.
    - repeat split; intros; try (destruct k; discriminate); discriminate.
    - destruct (IH (start + ci_k_states ci)) as (I1&I2&I3&I4). repeat split.
      + intros [|k] i j H; simpl in H; [inversion H; lia|eauto].
      + intros [|k] i j i' j' H H'; simpl in H, H'; [|eauto].
        inversion H; subst. apply (I3 i' j'). exact H'.
      + intros i j H. inversion H; auto.
      + intros i j. rewrite Nat.sub_0_r. destruct l as [|ci2 l]; simpl.
        * intros H; inversion H. lia.
        * intros H. rewrite (I4 i j); [simpl; lia|]. simpl. rewrite Nat.sub_0_r. exact H. }
  destruct (G 0) as (G1&G2&G3&G4). repeat split; eauto.
Qed.

(** Extraction from a sum is extraction from the parts, in order: names and columns. *)
Theorem C34_sum_of_extractions a b c :
  plain_names a -> plain_names b -> comp_add a b = Ok c ->
  length (c_state_names a) = c_k_states a ->
  subcomponent_names (c_state_names c) (c_info c)
  = (subcomponent_names (c_state_names a) (c_info a) ++ subcomponent_names (c_state_names b) (c_info b))%list /\
  forall x, hidden_columns (c_state_names c) (c_info c) x
  = (hidden_columns (c_state_names a) (c_info a) x
     ++ hidden_columns (c_state_names b) (c_info b) (fun i => x (c_k_states a + i)))%list.
Proof.
  intros A B E LA. destruct (plain_info a A) as [TA _].
  rewrite (plain_sum_info a b c A B E). apply comp_add_inv in E.
  destruct E as [info (_&_&_&_&ES&_)]. rewrite ES. split.
  - apply extract_names_app. lia.
  - intros x. rewrite extract_columns_app by lia. rewrite TA. auto.
Qed.

(** sum of the flagged entries of a vector *)
Lemma flagged_sum m (f : nat -> R) base :
  fold_right Rplus 0%R (map (fun k => f (base + k)) (flatnonzero m))
  = rsum (length m) (fun j => ((if nth j m false then 1 else 0) * f (base + j)%nat)%R).
Proof.
  revert base. induction m as [|b m IH]; intros base; auto.
  rewrite flatnonzero_cons, map_app. cbn [length]. rewrite rsum_S.
  rewrite map_map.
  rewrite (map_ext (fun x => f (base + S x)) (fun x => f (S base + x))) by (intros; f_equal; lia).
  rewrite (rsum_ext _ (fun i => _) (fun j => ((if nth j m false then 1 else 0) * f (S base + j)%nat)%R))
    by (intros; simpl; repeat f_equal; lia).
  rewrite <- (IH (S base)). destruct b; simpl; lra.
Qed.

(** The single column of a combined component (autoregression, both seasonalities, cycle) is that component's own
    contribution to the observation, and carries its name. *)
Theorem C34_combined_component c ci :
  leaf c -> c_info c = [(c_name c, ci)] -> ci_combine ci = true ->
  subcomponent_names (c_state_names c) (c_info c) = [c_name c] /\
  forall e t x, hidden_columns (c_state_names c) (c_info c) x
                = [rsum (c_k_states c) (fun j => (s_Z (c_ssm c) e t j * x j)%R)].
Proof.
  intros L EI EC. split.
  { rewrite EI. unfold subcomponent_names. simpl. rewrite EC. auto. }
  intros e t x. rewrite EI.
  assert (HC : forall obs, ci_obs ci = Some obs -> length obs = c_k_states c ->
    (forall j, j < c_k_states c -> s_Z (c_ssm c) e t j = if nth j obs false then 1%R else 0%R) ->
    hidden_columns (c_state_names c) [(c_name c, ci)] x
    = [rsum (c_k_states c) (fun j => (s_Z (c_ssm c) e t j * x j)%R)]).
  { intros obs EO EL EZ. unfold hidden_columns. simpl. rewrite EO, EC. simpl. f_equal.
    etransitivity; [exact (flagged_sum obs x 0)|]. rewrite EL. apply rsum_ext. intros j Hj. rewrite EZ by auto. auto. }
  assert (NR : forall j n, nth j (repeat false n) false = false).
  { intros j n. revert j. induction n; intros [|j]; simpl; auto. }
  destruct L as [uid o io name c H|uid name c H|uid o name c H|uid s inn name sn pop c H|uid s n name inn c H|uid name cl est damp inn c H|uid k name sn inn c H].
  - apply level_trend_inv in H. destruct H as [mask (_&_&_&H)]. cbv zeta in H.
    destruct H as (_&_&_&_&_&_&_&_&_&_&EI'). rewrite EI in EI'. inversion EI'; subst ci. discriminate.
  - apply measurement_inv in H. destruct H as (_&_&_&_&_&_&_&_&_&EI'). rewrite EI in EI'.
    inversion EI'; subst ci. discriminate.
  - apply ar_inv in H. destruct H as [mask (_&K0&_&K&_&M&_&_&_&_&_&_&EI')]. rewrite EI in EI'.
    injection EI' as _ Eci. apply (HC (true :: repeat false (length mask - 1))).
    + rewrite Eci. auto.
    + rewrite K. simpl. rewrite repeat_length. lia.
    + intros j _. rewrite M. simpl. destruct j; simpl; auto. rewrite NR. auto.
  - apply ts_inv in H. destruct H as (Hs&_&_&K&_&M&_&_&_&EI'&_). rewrite EI in EI'.
    injection EI' as _ Eci. apply (HC (true :: repeat false (s - 2))).
    + rewrite Eci. auto.
    + rewrite K. simpl. rewrite repeat_length. lia.
    + intros j _. rewrite M. simpl. destruct j; simpl; auto. rewrite NR. auto.
  - apply freq_inv in H. destruct H as [nn (_&_&_&_&K&_&[drop (_&_&M&_)]&_&_&_&EI'&_)]. rewrite EI in EI'.
    injection EI' as _ Eci. apply (HC (map Nat.even (seq 0 (nn * 2)))).
    + rewrite Eci. auto.
    + rewrite map_length, seq_length. auto.
    + intros j Hj. rewrite M. simpl. rewrite K in Hj.
      rewrite (nth_indep _ false (Nat.even 0)) by (rewrite map_length, seq_length; auto).
      rewrite map_nth, seq_nth by auto. auto.
  - apply cycle_inv in H. destruct H as (_&_&_&K&_&M&_&_&EI'&_). rewrite EI in EI'.
    injection EI' as _ Eci. apply (HC [true; false]).
    + rewrite Eci. auto.
    + auto.
    + intros j Hj. rewrite M. rewrite K in Hj. destruct j as [|[|j]]; simpl; auto; lia.
  - apply regression_inv in H. destruct H as [n (_&_&_&_&_&_&_&_&_&_&_&EI')]. rewrite EI in EI'.
    inversion EI'; subst ci. discriminate.
Qed.

Lemma pyslice_all {A} (l : list A) n : n = length l -> pyslice l 0 n = l.
Proof. intros ->. unfold pyslice. rewrite Nat.sub_0_r. simpl. apply firstn_all. Qed.

(** The columns of the other components (trend, regression, measurement error) are their states, one each, in order. *)
Theorem C34_separate_component c ci :
  leaf c -> c_info c = [(c_name c, ci)] -> ci_combine ci = false ->
  length (c_state_names c) = c_k_states c ->
  subcomponent_names (c_state_names c) (c_info c)
  = map (fun s => c_name c ++ "[" ++ s ++ "]")%string (c_state_names c) /\
  forall x, hidden_columns (c_state_names c) (c_info c) x = map x (seq 0 (c_k_states c)).
Proof.
  intros L EI EC LS. destruct (leaf_info c L) as [ci' [EI' EK]].
  rewrite EI in EI'. injection EI' as <-. split.
  - rewrite EI. unfold subcomponent_names. simpl. rewrite EC, EK, pyslice_all by auto.
    rewrite app_nil_r. auto.
  - intros x. rewrite EI. unfold hidden_columns. simpl.
    destruct (ci_obs ci) eqn:EO.
    + rewrite EC, EK, pyslice_all, app_nil_r, LS by auto. apply map_ext. auto.
    + assert (c_k_states c = 0) as ->; auto.
      clear - L EI EO. destruct L as [uid o io name c H|uid name c H|uid o name c H|uid s inn name sn pop c H|uid s n name inn c H|uid name cl est damp inn c H|uid k name sn inn c H].
      * apply level_trend_inv in H. destruct H as [mask (_&_&_&H)]. cbv zeta in H.
        destruct H as (_&_&_&_&_&_&_&_&_&_&EI'). rewrite EI in EI'. inversion EI'; subst ci. discriminate.
      * apply measurement_inv in H. tauto.
      * apply ar_inv in H. destruct H as [mask (_&K0&_&K&_&M&_&_&_&_&_&_&EI')]. rewrite EI in EI'.
        injection EI' as _ Eci. rewrite Eci in EO. discriminate.
      * apply ts_inv in H. destruct H as (Hs&_&_&K&_&M&_&_&_&EI'&_). rewrite EI in EI'.
        injection EI' as _ Eci. rewrite Eci in EO. discriminate.
      * apply freq_inv in H. destruct H as [nn (_&_&_&_&K&_&_&_&_&_&EI'&_)]. rewrite EI in EI'.
        injection EI' as _ Eci. rewrite Eci in EO. discriminate.
      * apply cycle_inv in H. destruct H as (_&_&_&K&_&M&_&_&EI'&_). rewrite EI in EI'.
        injection EI' as _ Eci. rewrite Eci in EO. discriminate.
      * apply regression_inv in H. destruct H as [n (_&_&_&_&_&_&_&_&_&_&_&EI')]. rewrite EI in EI'.
        inversion EI'; subst ci. discriminate.
Qed.

(** A trend with a skipped derivative has too few labels: the extracted column "LevelTrend[...]" then carries the
    label of the next component's state. *)
Theorem C34_mislabelled_column_refuted :
  exists a b c, level_trend 0 (OMask [false; true]) None "LevelTrend" = Ok a /\
    regression 1 (Some 1) "x" (Some ["price"%string]) false = Ok b /\ comp_add a b = Ok c /\
    subcomponent_names (c_state_names c) (c_info c)
    = ["LevelTrend[trend]"; "LevelTrend[price]"]%string.
Proof.
  exists (okc (level_trend 0 (OMask [false; true]) None "LevelTrend")), (okc (regression 1 (Some 1) "x" (Some ["price"%string]) false)).
  eexists. split; [has|]. split; [has|]. split; [has|]. vm_eq.
Qed.

(** A component whose name starts with "StateSpace" vanishes from the table of a sum: its states are attributed to
    the next component. *)
Theorem C34_statespace_name_refuted :
  exists a b c, autoregressive 0 (OInt 1) "StateSpaceNoise" = Ok a /\
    time_seasonality 1 3 false "s" None true = Ok b /\ comp_add a b = Ok c /\
    c_k_states c = 3 /\ dkeys (c_info c) = ["s"%string] /\ state_slices (c_info c) = [(0, 2)].
Proof.
  exists (okc (autoregressive 0 (OInt 1) "StateSpaceNoise")), (okc (time_seasonality 1 3 false "s" None true)).
  eexists. split; [has|]. split; [has|]. split; [has|]. split; [vm_eq|]. split; vm_eq.
Qed.

Example C34_example : exists a b c, level_trend 0 (OInt 2) None "LevelTrend" = Ok a /\
  autoregressive 1 (OInt 2) "AR" = Ok b /\ comp_add a b = Ok c /\ plain_names a /\ plain_names b /\ plain_names c /\
  subcomponent_names (c_state_names c) (c_info c) = ["LevelTrend[level]"; "LevelTrend[trend]"; "AR"]%string.
Proof.
  exists (okc (level_trend 0 (OInt 2) None "LevelTrend")), (okc (autoregressive 1 (OInt 2) "AR")).
  exists (okc (comp_add (okc (level_trend 0 (OInt 2) None "LevelTrend")) (okc (autoregressive 1 (OInt 2) "AR")))).
  split; [has|]. split; [has|]. split; [has|].
  assert (PA : plain_names (okc (level_trend 0 (OInt 2) None "LevelTrend")))
    by (apply plain_leaf; [eapply (leaf_trend 0 (OInt 2) None "LevelTrend"); has|vm_eq]).
  assert (PB : plain_names (okc (autoregressive 1 (OInt 2) "AR")))
    by (apply plain_leaf; [eapply (leaf_ar 1 (OInt 2) "AR"); has|vm_eq]).
  split; [exact PA|]. split; [exact PB|]. split; [|vm_eq].
  eapply plain_add; [exact PA|exact PB|has].
Qed.
