(** LevelTrendComponent, AutoregressiveComponent, RegressionComponent, MeasurementError. *)
From Coq Require Import Reals String Ascii Lra.
From Verif Require Import Common Struct_Model Struct_Spec Struct_Proofs.
Open Scope nat_scope.

(** *** level and trend *)
Definition trend_ssm (uid k kp : nat) (imask : list bool) : ssm :=
  Ssm (fun e => pv e (uid, "initial_trend"%string)) (fun _ => zmat) (fun _ => zvec) (fun _ => 0%R)
       (fun _ => set_fancy zmat (fst (triu_indices k)) (snd (triu_indices k)) (fun _ => 1%R))
       (fun _ _ j => if j =? 0 then 1%R else 0%R)
       (fun _ i j => eye i (nth j (flatnonzero imask) 0))
       (fun _ => 0%R)
       (fun e => if 0 <? kp
                 then set_fancy zmat (seq 0 kp) (seq 0 kp) (fun i => (pv e (uid, "sigma_trend"%string) i ^ 2)%R)
                 else zmat).

Lemma rev_head_nth {A} (l : list A) x r d : rev l = x :: r -> l <> [] /\ nth (length l - 1) l d = x.
Proof.
  intros H. assert (l = rev (x :: r)) by (rewrite <- H, rev_involutive; auto). subst l.
  split; [simpl; destruct (rev r); discriminate|].
  rewrite rev_length. simpl. rewrite app_nth2; rewrite rev_length.
  - match goal with |- nth ?n _ _ = _ => replace n with 0 by lia end. auto.
  - lia.
Qed.

Lemma max_state_spec m k : max_state_of m = Ok k ->
  0 < k /\ k <= length m /\ nth (k - 1) m false = true.
Proof.
  unfold max_state_of. destruct (rev (flatnonzero m)) as [|i r] eqn:E; [discriminate|].
  intros H. inversion H; subst k. destruct (rev_head_nth _ _ _ 0 E) as [H1 H2].
  assert (In i (flatnonzero m)).
  { rewrite <- H2. apply nth_In. destruct (flatnonzero m); [congruence|simpl; lia]. }
  apply flatnonzero_In in H0. replace (i + 1 - 1) with i by lia. repeat split; auto; try lia.
  destruct (Nat.lt_ge_cases i (length m)); [lia|]. rewrite nth_overflow in H0 by auto. discriminate.
Qed.

(** the innovation mask the user asked for *)
Definition innovation_mask (k : nat) (o : order) (io : option order) : list bool :=
  match (match io with None => o | Some x => x end) with
  | OInt n => map (fun i => i <? Z.to_nat n) (seq 0 k)
  | OMask l => firstn k l
  end.

Lemma map_const_false k : map (fun i => i <? 0) (seq 0 k) = repeat false k.
Proof.
  assert (forall b, map (fun i => i <? 0) (seq b k) = repeat false k) as H; auto.
  induction k; intros b; simpl; auto. f_equal. apply IHk.
Qed.

Lemma level_trend_inv uid o io name c :
  level_trend uid o io name = Ok c ->
  exists mask, order_to_mask o = Ok mask /\ 0 < length mask /\
    nth (length mask - 1) mask false = true /\
    let k := length mask in
    let imask := innovation_mask k o io in
    let kp := bsum imask in
    length imask = k /\ c_name c = name /\ c_k_states c = k /\ c_k_posdef c = kp /\
    c_ssm c = trend_ssm uid k kp imask /\
    c_state_names c = select_names (firstn k position_derivative_names) mask /\
    c_shock_names c = (if 0 <? kp then select_names (firstn k position_derivative_names) imask else []) /\
    c_param_names c = map fst (c_param_info c) /\
    c_param_info c = (("initial_trend"%string, [k]) ::
                       if 0 <? kp then [("sigma_trend"%string, [kp])] else []) /\
    c_vars c = map (fun ns => (fst ns, ((uid, fst ns), snd ns))) (c_param_info c) /\
    c_info c = [(name, CInfo k kp false (Some (map (fun i => i =? 0) (seq 0 k))))].
Proof.
  unfold level_trend. destruct (order_to_mask o) as [mask|] eqn:Eo; [|discriminate]. simpl.
  destruct (max_state_of mask) as [k|] eqn:Ek; [|discriminate]. simpl.
  destruct (max_state_spec _ _ Ek) as [K0 [K1 K2]].
  destruct (Nat.ltb_spec k (length mask)); [discriminate|].
  assert (k = length mask) by lia. subst k.
  set (k := length mask) in *.
  assert (HI : forall im kp, trend_innovations k (match io with Some x => x | None => o end) = Ok (im, kp) ->
               im = innovation_mask k o io).
  { intros im kp. unfold trend_innovations, innovation_mask.
    destruct (match io with Some x => x | None => o end) as [n|l]; intros E; inversion E; auto.
    destruct (Z.ltb_spec 0 n); auto. replace (Z.to_nat n) with 0 by lia.
    symmetry. apply map_const_false. }
  destruct (trend_innovations k _) as [[im kp]|] eqn:Ei; [|discriminate]. simpl.
  specialize (HI _ _ eq_refl).
  destruct (Nat.eqb_spec (length im) k) as [HL|]; [|discriminate]. simpl.
  destruct (Nat.eqb_spec (bsum im) kp) as [HB|]; [|discriminate]. simpl.
  destruct (triu_indices k) as [ti tj] eqn:Et.
  rewrite mk_component_ok.
  - intros E. inversion E; subst c. exists mask. simpl.
    split; auto. split; auto. split; auto. fold k. rewrite <- HI.
    split; auto. unfold trend_ssm. rewrite Et. simpl. subst kp.
    destruct (0 <? bsum im); repeat split; auto.
  - destruct (0 <? kp); simpl; repeat constructor; simpl; intuition discriminate.
  - destruct (0 <? kp); intros y; simpl; auto.
Qed.

Section TrendRun.
Variables (uid k : nat) (imask : list bool) (e : env) (eps : nat -> vec).
Hypothesis HL : length imask = k.
Let kp := bsum imask.
Let m := trend_ssm uid k kp imask.

(** the shock that reaches state i: the next enabled one, or none *)
Definition trend_shock (t : nat) (i : nat) : R :=
  if nth i imask false then eps t (rank imask i) else 0%R.

Lemma trend_shocks t i :
  rsum kp (fun j => (eye i (nth j (flatnonzero imask) 0%nat) * eps t j)%R) = trend_shock t i.
Proof.
  unfold trend_shock. destruct (nth i imask false) eqn:Ei.
  - rewrite (rsum_one kp _ (rank imask i)).
    + rewrite flatnonzero_rank by auto. unfold eye, eye_below. rewrite Nat.add_0_r, Nat.eqb_refl. lra.
    + apply rank_lt; auto.
    + intros j Hj Hne. unfold eye, eye_below. rewrite Nat.add_0_r.
      destruct (Nat.eqb_spec i (nth j (flatnonzero imask) 0)); [|lra].
      exfalso. apply Hne. rewrite e0. symmetry. apply rank_flatnonzero; auto.
  - apply rsum_0. intros j Hj. unfold eye, eye_below. rewrite Nat.add_0_r.
    destruct (Nat.eqb_spec i (nth j (flatnonzero imask) 0)); [|lra].
    assert (In i (flatnonzero imask)).
    { rewrite e0. apply nth_In. rewrite flatnonzero_length. auto. }
    apply flatnonzero_In in H. congruence.
Qed.

(** every state is moved by all the higher ones *)
Lemma trend_step t i : i < k ->
  run k kp m e eps (S t) i
  = (rsum k (fun j => if (i <=? j)%nat then run k kp m e eps t j else 0) + trend_shock t i)%R.
Proof.
  intros Hi. cbn [run].
  change (s_c m e i) with 0%R.
  change (s_R m e) with (fun i j => eye i (nth j (flatnonzero imask) 0)).
  cbv beta. rewrite trend_shocks. rewrite Rplus_0_l. f_equal. apply rsum_ext. intros j Hj.
  change (s_T m e) with (set_fancy zmat (fst (triu_indices k)) (snd (triu_indices k)) (fun _ => 1%R)).
  rewrite triu_entry by auto. destruct (i <=? j); lra.
Qed.

Lemma trend_obs t : 0 < k -> observe k kp m e eps t = run k kp m e eps t 0.
Proof.
  intros Hk. unfold observe. change (s_d m e) with 0%R.
  change (s_Z m e t) with (fun j => if j =? 0 then 1%R else 0%R).
  rewrite (rsum_one k _ 0); auto.
  - simpl (0 =? 0). cbv iota. lra.
  - intros i _ Hi. destruct (Nat.eqb_spec i 0); [lia|lra].
Qed.
End TrendRun.

(** *** autoregression *)
Definition ar_ssm (uid : nat) (mask : list bool) : ssm :=
  Ssm (fun _ => zvec) (fun _ => zmat) (fun _ => zvec) (fun _ => 0%R)
       (fun e => set_fancy (eye_below 1) (repeat 0 (bsum mask)) (flatnonzero mask)
                   (fun i => pv e (uid, "ar_params"%string) i))
       (fun _ _ j => if j =? 0 then 1%R else 0%R)
       (fun _ i j => if (i =? 0) && (j =? 0) then 1%R else 0%R)
       (fun _ => 0%R)
       (fun e i j => if (i =? 0) && (j =? 0) then (pv e (uid, "sigma_ar"%string) 0%nat ^ 2)%R else 0%R).

Lemma ar_inv uid o name c :
  autoregressive uid o name = Ok c ->
  exists mask, order_to_mask o = Ok mask /\ 0 < length mask /\
    c_name c = name /\ c_k_states c = length mask /\ c_k_posdef c = 1 /\
    c_ssm c = ar_ssm uid mask /\ length (c_state_names c) = length mask /\
    length (c_shock_names c) = 1 /\
    c_coords c = [("ar_lag"%string, map str_of_nat (map (fun i => i + 1) (flatnonzero mask)))] /\
    c_param_names c = ["ar_params"; "sigma_ar"]%string /\
    c_param_info c = [("ar_params"%string, [length mask]); ("sigma_ar"%string, [])] /\
    c_vars c = [("ar_params"%string, ((uid, "ar_params"%string), [bsum mask]));
                ("sigma_ar"%string, ((uid, "sigma_ar"%string), []))] /\
    c_info c = [(name, CInfo (length mask) 1 true (Some (true :: repeat false (length mask - 1))))].
Proof.
  unfold autoregressive. destruct (order_to_mask o) as [mask|] eqn:Eo; [|discriminate]. simpl.
  destruct (length mask) as [|k] eqn:El; [discriminate|]. simpl.
  rewrite mk_component_ok.
  - intros E. inversion E; subst c. exists mask. simpl.
    rewrite map_length, seq_length. rewrite El. rewrite ?Nat.sub_0_r.
    repeat split; auto; try lia. all: replace (S k - 1) with k by lia; auto.
  - simpl; repeat constructor; simpl; intuition discriminate.
  - intros y; simpl; auto.
Qed.

Lemma combine_repeat_l (l : list nat) n : length l = n -> combine (repeat 0 n) l = map (fun x => (0, x)) l.
Proof. intros <-. induction l; simpl; congruence. Qed.

(** the coefficient the component puts on lag i + 1 *)
Definition ar_coef (uid : nat) (mask : list bool) (e : env) (i : nat) : R :=
  if nth i mask false then pv e (uid, "ar_params"%string) (rank mask i) else 0%R.

Lemma ar_T_0 uid mask e j : s_T (ar_ssm uid mask) e 0 j = ar_coef uid mask e j.
Proof.
  simpl. unfold ar_coef.
  assert (HL : length (repeat 0 (bsum mask)) = length (flatnonzero mask))
    by (rewrite repeat_length, flatnonzero_length; auto).
  assert (HC : combine (repeat 0 (bsum mask)) (flatnonzero mask) = map (fun x => (0, x)) (flatnonzero mask))
    by (apply combine_repeat_l; apply flatnonzero_length).
  destruct (nth j mask false) eqn:Ej.
  - pose proof (set_fancy_hit (eye_below 1) (repeat 0 (bsum mask)) (flatnonzero mask)
      (fun i => pv e (uid, "ar_params"%string) i) (rank mask j) HL) as H.
    rewrite flatnonzero_rank in H by auto.
    replace (nth (rank mask j) (repeat 0 (bsum mask)) 0) with 0 in H.
    + apply H.
      * rewrite HC. apply NoDup_map_inj; [intros; congruence|apply flatnonzero_NoDup].
      * rewrite repeat_length. apply rank_lt; auto.
    + clear. generalize (rank mask j). induction (bsum mask); intros [|r]; simpl; auto.
  - rewrite set_fancy_miss; auto.
    + unfold eye_below. destruct (Nat.eqb_spec 0 (j + 1)); [lia|auto].
    + rewrite HC, in_map_iff. intros [x [E Hx]]. inversion E; subst x.
      apply flatnonzero_In in Hx. congruence.
Qed.

Lemma ar_T_S uid mask e i j : s_T (ar_ssm uid mask) e (S i) j = if i =? j then 1%R else 0%R.
Proof.
  simpl. rewrite set_fancy_miss.
  - unfold eye_below. rewrite Nat.add_1_r. simpl. auto.
  - rewrite repeat_length, flatnonzero_length; auto.
  - rewrite combine_repeat_l by apply flatnonzero_length. rewrite in_map_iff.
    intros [x [E Hx]]. inversion E.
Qed.

Section ARRun.
Variables (uid : nat) (mask : list bool) (e : env) (eps : nat -> vec).
Hypothesis Hk : 0 < length mask.
Let k := length mask.
Let m := ar_ssm uid mask.
Notation x := (run k 1 m e eps).

Lemma ar_step_0 t : x (S t) 0 = (rsum k (fun j => ar_coef uid mask e j * x t j) + eps t 0%nat)%R.
Proof.
  cbn [run rsum]. change (s_c m e 0%nat) with 0%R. change (s_R m e 0%nat 0%nat) with 1%R.
  rewrite (rsum_ext k _ (fun j => (ar_coef uid mask e j * x t j)%R)); [lra|].
  intros j Hj. unfold m at 1. rewrite ar_T_0. auto.
Qed.

Lemma ar_step_S t i : S i < k -> x (S t) (S i) = x t i.
Proof.
  intros Hi. cbn [run rsum]. change (s_c m e (S i)) with 0%R. change (s_R m e (S i) 0%nat) with 0%R.
  rewrite (rsum_one k _ i); [|lia|].
  - unfold m at 1. rewrite ar_T_S, Nat.eqb_refl. lra.
  - intros j Hj Hne. unfold m at 1. rewrite ar_T_S. destruct (Nat.eqb_spec i j); [congruence|lra].
Qed.

Lemma ar_shift t i : i < k -> i <= t -> x t i = x (t - i) 0.
Proof.
  revert t. induction i; intros t Hi Ht; [rewrite Nat.sub_0_r; auto|].
  destruct t; [lia|]. rewrite ar_step_S by auto. rewrite IHi by lia. f_equal.
Qed.

Lemma ar_obs t : observe k 1 m e eps t = x t 0.
Proof.
  unfold observe. change (s_d m e) with 0%R.
  change (s_Z m e t) with (fun j => if j =? 0 then 1%R else 0%R).
  rewrite (rsum_one k _ 0); auto.
  - simpl (0 =? 0). cbv iota. lra.
  - intros i _ Hi. destruct (Nat.eqb_spec i 0); [lia|lra].
Qed.

(** before enough history the missing lags come from the (zero) initial state *)
Lemma ar_early t i : i < k -> t < i -> x t i = 0%R.
Proof.
  revert t. induction i; intros t Hi Ht; [lia|].
  destruct t; [reflexivity|]. rewrite ar_step_S by auto. apply IHi; lia.
Qed.

Lemma ar_equation t :
  observe k 1 m e eps (S t)
  = (rsum k (fun i => if (i <=? t)%nat then ar_coef uid mask e i * observe k 1 m e eps (t - i) else 0)
     + eps t 0%nat)%R.
Proof.
  rewrite ar_obs, ar_step_0. f_equal. apply rsum_ext. intros i Hi.
  destruct (Nat.leb_spec i t).
  - rewrite ar_obs. rewrite ar_shift by auto. auto.
  - rewrite ar_early by auto. lra.
Qed.
End ARRun.

(** *** regression *)
Lemma regression_inv uid k name sn inn c :
  regression uid k name sn inn = Ok c ->
  exists n, regression_state_names k sn name = Ok (n, c_state_names c) /\ length (c_state_names c) = n /\
    c_name c = name /\ c_k_states c = n /\ c_k_posdef c = n /\
    c_shock_names c = c_state_names c /\
    c_ssm c = Ssm (fun e => pv e (uid, ("beta_" ++ name)%string)) (fun _ => zmat) (fun _ => zvec) (fun _ => 0%R)
       (fun _ => eye) (fun e t j => e (uid, ("data_" ++ name)%string) t j) (fun _ => eye) (fun _ => 0%R)
       (fun e => if inn
                 then set_fancy zmat (seq 0 n) (seq 0 n) (fun i => (pv e (uid, ("sigma_beta_" ++ name)%string) i ^ 2)%R)
                 else zmat) /\
    c_param_names c = map fst (c_param_info c) /\
    c_param_info c = ((("beta_" ++ name)%string, [n]) ::
                      if inn then [(("sigma_beta_" ++ name)%string, [])] else []) /\
    c_vars c = ((("beta_" ++ name)%string, ((uid, ("beta_" ++ name)%string), [n])) ::
                if inn then [(("sigma_beta_" ++ name)%string, ((uid, ("sigma_beta_" ++ name)%string), [n]))] else []) /\
    c_data c = [(("data_" ++ name)%string, (uid, ("data_" ++ name)%string))] /\
    c_info c = [(name, CInfo n n false (Some (repeat true n)))].
Proof.
  unfold regression. destruct (regression_state_names k sn name) as [[n names]|] eqn:E; [|discriminate].
  simpl. assert (length names = n).
  { revert E. unfold regression_state_names. destruct k as [k|], sn as [l|]; try discriminate.
    - destruct (Nat.eqb_spec (length l) k); [|discriminate]. intros E; inversion E; subst; auto.
    - intros E; inversion E. rewrite map_length, seq_length; auto.
    - intros E; inversion E; auto. }
  rewrite mk_component_ok.
  - intros E'. inversion E'; subst c. simpl. exists n. destruct inn; repeat split; auto.
  - destruct inn; simpl; repeat constructor; simpl; intuition discriminate.
  - intros y; destruct inn; simpl; auto.
Qed.

Lemma measurement_inv uid name c :
  measurement_error uid name = Ok c ->
  c_name c = name /\ c_k_states c = 0 /\ c_k_posdef c = 0 /\ c_state_names c = [] /\ c_shock_names c = [] /\
  c_param_names c = [("sigma_" ++ name)%string] /\
  c_param_info c = [(("sigma_" ++ name)%string, [])] /\
  c_vars c = [(("sigma_" ++ name)%string, ((uid, ("sigma_" ++ name)%string), []))] /\
  c_ssm c = Ssm (fun _ => zvec) (fun _ => zmat) (fun _ => zvec) (fun _ => 0%R) (fun _ => zmat)
       (fun _ _ => zvec) (fun _ => zmat) (fun e => (pv e (uid, ("sigma_" ++ name)%string) 0%nat ^ 2)%R) (fun _ => zmat) /\
  c_info c = [(name, CInfo 0 0 false None)].
Proof.
  unfold measurement_error. rewrite mk_component_ok.
  - intros E. inversion E; subst c. simpl. repeat split; auto.
  - simpl; repeat constructor; simpl; intuition discriminate.
  - intros y; simpl; auto.
Qed.
