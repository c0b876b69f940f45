(** Property theorems C16, C17 and the alignment part of C21. *)
From Verif Require Import Common KalmanScan_Model KalmanScan_Spec KalmanScan_Proofs.

(** ** C16.  For every update and prediction function (all filters), every data set of n >= 1 rows:
    n entries everywhere; predicted[0] is the initial state; filtered[t], observed[t], loglike[t] come from the
    update of predicted[t] with row t; predicted[t+1] is the prediction from filtered[t]. *)
Definition step_of {A C Ob OC L Y} (update : Y -> A -> C -> A * C * Ob * OC * L) (predict : Y -> A -> C -> A * C)
  (y : Y) (a : A) (P : C) : @step_out A C Ob OC L :=
  let '(af, Pf, mu, cov, ll) := update y a P in
  let '(ahat, Phat) := predict y af Pf in
  {| o_af := af; o_ahat := ahat; o_mu := mu; o_Pf := Pf; o_Phat := Phat; o_cov := cov; o_ll := ll |}.

Theorem C16_filter_outputs_aligned :
  forall (A C Ob OC L Y : Type) (update : Y -> A -> C -> A * C * Ob * OC * L) (predict : Y -> A -> C -> A * C)
         (ys : list Y) (a0 : A) (P0 : C),
  ys <> [] ->
  exists f, build_graph (step_of update predict) ys a0 P0 = Ok f /\
    length (filtered_states f) = length ys /\ length (predicted_states f) = length ys /\
    length (observed_states f) = length ys /\ length (filtered_covs f) = length ys /\
    length (predicted_covs f) = length ys /\ length (observed_covs f) = length ys /\
    length (loglike_obs f) = length ys /\
    nth_error (predicted_states f) 0 = Some a0 /\ nth_error (predicted_covs f) 0 = Some P0 /\
    forall t y, nth_error ys t = Some y ->
      exists a P af Pf mu cov ll,
        nth_error (predicted_states f) t = Some a /\ nth_error (predicted_covs f) t = Some P /\
        update y a P = (af, Pf, mu, cov, ll) /\
        nth_error (filtered_states f) t = Some af /\ nth_error (filtered_covs f) t = Some Pf /\
        nth_error (observed_states f) t = Some mu /\ nth_error (observed_covs f) t = Some cov /\
        nth_error (loglike_obs f) t = Some ll /\
        (t + 1 < length ys ->
           nth_error (predicted_states f) (t + 1) = Some (fst (predict y af Pf)) /\
           nth_error (predicted_covs f) (t + 1) = Some (snd (predict y af Pf))).
Proof.
  intros A C Ob OC L Y update predict ys a0 P0 Hne.
  destruct (build_ok (step_of update predict) ys a0 P0 Hne)
    as [f [Hf [H1 [H2 [H3 [H4 [H5 [H6 [H7 H]]]]]]]]].
  exists f. repeat (split; [assumption|]).
  destruct ys as [|y0 ys]; [contradiction|].
  destruct (H 0 y0 eq_refl) as [Ha [HP _]]. cbn [before fst snd] in Ha, HP.
  split; [exact Ha|]. split; [exact HP|].
  intros t y Hy. destruct (H t y Hy) as [Ka [KP [Kaf [KPf [Kmu [Kcov Kll]]]]]].
  set (a := fst _) in *. set (P := snd _) in *.
  destruct (update y a P) as [[[[af Pf] mu] cov] ll] eqn:Eu.
  destruct (predict y af Pf) as [ah Ph] eqn:Ep.
  assert (Es : step_of update predict y a P =
    {| o_af := af; o_ahat := ah; o_mu := mu; o_Pf := Pf; o_Phat := Ph; o_cov := cov; o_ll := ll |})
    by (unfold step_of; now rewrite Eu, Ep).
  rewrite Es in Kaf, KPf, Kmu, Kcov, Kll. cbn in Kaf, KPf, Kmu, Kcov, Kll.
  exists a, P, af, Pf, mu, cov, ll. repeat (split; [assumption|]).
  intros Ht. rewrite Ep. cbn [fst snd].
  destruct (nth_error (y0 :: ys) (t + 1)) as [y'|] eqn:Ey'; [|apply nth_error_None in Ey'; cbn [length] in *; lia].
  destruct (H (t + 1) y' Ey') as [Ja [JP _]].
  rewrite Nat.add_1_r in Ja, JP.
  rewrite (before_S (step_of update predict) (y0 :: ys) a0 P0 t y Hy) in Ja, JP. fold a P in Ja, JP.
  rewrite Es in Ja, JP. cbn [fst snd o_ahat o_Phat] in Ja, JP.
  rewrite Nat.add_1_r. auto.
Qed.
Print Assumptions C16_filter_outputs_aligned.

(** a run on three rows with a nontrivial (scalar, integer) update and prediction *)
Example C16_case :
  exists f, build_graph (step_of (fun (y a P : nat) => (a + y, P * 2, a, P, y * a)) (fun y a P => (a + 1, P + y)))
              [5; 7; 11] 3 1 = Ok f /\
    predicted_states f = [3; 9; 17] /\ filtered_states f = [8; 16; 28] /\ predicted_covs f = [1; 7; 21].
Proof. eexists; split; [reflexivity|]. now split. Qed.

(** an empty data set has no outputs of the right shape: the concatenation with a0 has one entry too many *)
Theorem C16_empty_data_rejected : forall (A C Ob OC L Y : Type) (st : Y -> A -> C -> @step_out A C Ob OC L) a0 P0,
  build_graph st [] a0 P0 = Err AssertionError.
Proof. reflexivity. Qed.

(** ** C17, standard and square-root filters: whichever of the seven matrices vary with time. *)
Theorem C17_time_varying_matrices_reach_their_slots :
  forall (V : Type) (c d T Z R H Q : param V) len t (y a P : V),
  legal c Pc len -> legal d Pd len -> legal T PT len -> legal Z PZ len ->
  legal R PR len -> legal H PH len -> legal Q PQ len -> t < len ->
  exists sp vc vd vT vZ vR vH vQ,
    split_vars (combine [c; d; T; Z; R; H; Q] PARAM_NAMES) = Ok sp /\
    step_args true sp t y a P = Some [y; a; P; vc; vd; vT; vZ; vR; vH; vQ] /\
    value_at c Pc t = Some vc /\ value_at d Pd t = Some vd /\ value_at T PT t = Some vT /\
    value_at Z PZ t = Some vZ /\ value_at R PR t = Some vR /\ value_at H PH t = Some vH /\ value_at Q PQ t = Some vQ.
Proof. intros V. exact (@route_all V). Qed.
Print Assumptions C17_time_varying_matrices_reach_their_slots.

(** the smoother: T, R, Q in their slots *)
Theorem C17_smoother_matrices_reach_their_slots :
  forall (V : Type) (T R Q : param V) len t (a P asm Psm : V),
  legal T PT len -> legal R PR len -> legal Q PQ len -> t < len ->
  exists sp vT vR vQ sl,
    split_vars (combine [T; R; Q] smoother_names) = Ok sp /\
    Forall2 (fun x v => nth_error (slices x) t = Some v) (seqs sp) sl /\
    smoother_unpack sp (a :: P :: sl ++ [asm; Psm] ++ map whole (nonseqs sp)) = Some [a; P; asm; Psm; vT; vR; vQ] /\
    value_at T PT t = Some vT /\ value_at R PR t = Some vR /\ value_at Q PQ t = Some vQ.
Proof.
  intros V T R Q len t a P asm Psm HT HR HQ Ht. cbn [combine smoother_names split_vars].
  destruct (legal_dec T PT len HT) as [[ET VT]|[ET [LT VT]]];
  destruct (legal_dec R PR len HR) as [[ER VR]|[ER [LR VR]]];
  destruct (legal_dec Q PQ len HQ) as [[EQ VQ]|[EQ [LQ VQ]]];
  rewrite ET, ER, EQ; cbn [bind seqs nonseqs seq_names nonseq_names];
  rewrite VT, VR, VQ;
  repeat match goal with
  | L : length (slices ?x) = len |- _ =>
      let v := fresh "v" in let E := fresh "E" in
      destruct (nth_ok (slices x) len t L Ht) as [v E]; rewrite ?E; clear L
  end;
  do 4 eexists; 
  first [ exists [v1; v0; v] | exists [v0; v] | exists [v] | exists [] ];
  (split; [reflexivity|]);
  cbn [seqs nonseqs map]; (split; [repeat (apply Forall2_cons; [assumption|]); apply Forall2_nil|]);
  (split; [reflexivity | repeat split; reflexivity]).
Qed.
Print Assumptions C17_smoother_matrices_reach_their_slots.

(** hypotheses met: time-varying d and Z, the rest static, three time steps *)
Definition st_ {V} (n : nat) (v : V) : param V := {| ndim := n; whole := v; slices := [] |}.
Definition tv_ {V} (n : nat) (v : V) (l : list V) : param V := {| ndim := n; whole := v; slices := l |}.
Example C17_case : exists sp,
  split_vars (combine [st_ 1 10; tv_ 2 0 [20;21;22]; st_ 2 30; tv_ 3 0 [40;41;42]; st_ 2 50; st_ 2 60; st_ 2 70]
                PARAM_NAMES) = Ok sp /\
  step_args true sp 1 1 2 3 = Some [1;2;3;10;21;30;41;50;60;70].
Proof. eexists; split; [vm_compute; reflexivity | vm_compute; reflexivity]. Qed.

(** ** The univariate filter does not reorder its arguments: C17 fails for it as soon as one matrix varies.
    Full statement: the theorem above with [step_args false].  Counterexample for any single time-varying matrix:
    the slice arrives in the slot of the state mean. *)
Theorem C17_univariate_filter_refuted :
  forall (V : Type) (c d T Z R H Q : param V) len t (y a P vd : V),
  ndim c = 1 -> ndim d = 2 -> ndim T = 2 -> ndim Z = 2 -> ndim R = 2 -> ndim H = 2 -> ndim Q = 2 ->
  length (slices d) = len -> nth_error (slices d) t = Some vd ->
  exists sp, split_vars (combine [c; d; T; Z; R; H; Q] PARAM_NAMES) = Ok sp /\
    step_args false sp t y a P =
      Some [y; vd; a; P; whole c; whole T; whole Z; whole R; whole H; whole Q].
Proof.
  intros V c d T Z R H Q len t y a P vd Ec Ed ET EZ ER EH EQ Hl Hv.
  cbn [combine PARAM_NAMES split_vars]. unfold time_varies.
  rewrite Ec, Ed, ET, EZ, ER, EH, EQ. cbn.
  eexists; split; [reflexivity|]. unfold step_args, scan_args. cbn. now rewrite Hv.
Qed.
Print Assumptions C17_univariate_filter_refuted.

(** with all matrices static it is routed correctly *)
Theorem C17_univariate_static :
  forall (V : Type) (c d T Z R H Q : param V) t (y a P : V),
  ndim c = 1 -> ndim d = 1 -> ndim T = 2 -> ndim Z = 2 -> ndim R = 2 -> ndim H = 2 -> ndim Q = 2 ->
  exists sp, split_vars (combine [c; d; T; Z; R; H; Q] PARAM_NAMES) = Ok sp /\
    step_args false sp t y a P =
      Some [y; a; P; whole c; whole d; whole T; whole Z; whole R; whole H; whole Q].
Proof.
  intros V c d T Z R H Q t y a P Ec Ed ET EZ ER EH EQ.
  cbn [combine PARAM_NAMES split_vars]. unfold time_varies.
  rewrite Ec, Ed, ET, EZ, ER, EH, EQ. cbn. eexists; split; reflexivity.
Qed.

(** ** C21 (alignment).  Proved: n entries, last = last filtered, entry t combines filtered[t] and smoothed[t+1];
    with static matrices the step is the right one.  Missing from the full property: with time-varying matrices
    the step uses the matrices of time t+1 (refuted below); the intercept is ignored (see Kalman_Props). *)
Theorem C21_smoother_alignment_partial :
  forall (St M : Type) (step : St -> St -> M -> St) (filtered : list St) (m : M),
  filtered <> [] ->
  exists out, smooth step filtered (repeat m (length filtered)) = Ok out /\
    length out = length filtered /\
    nth_error out (length filtered - 1) = nth_error filtered (length filtered - 1) /\
    forall t f next, nth_error filtered t = Some f -> nth_error out (t + 1) = Some next ->
      nth_error out t = Some (step f next m).
Proof.
  intros St M step filtered m Hne.
  destruct (smooth_spec step filtered (repeat m (length filtered)) Hne (repeat_length _ _))
    as [out [Ho [Hl [Hlast H]]]].
  exists out. repeat (split; [assumption|]).
  intros t f next Hf Hn. apply (H t f m next Hf); [|exact Hn].
  assert (Ht : t + 1 < length filtered) by (rewrite <- Hl; apply nth_error_Some; congruence).
  rewrite (nth_error_nth' _ m) by (rewrite repeat_length; lia). f_equal. apply nth_repeat.
Qed.
Print Assumptions C21_smoother_alignment_partial.

(** every data set with matrices that vary: entry t is computed with the matrices of time t+1 *)
Theorem C21_time_varying_matrices_off_by_one :
  forall (St M : Type) (step : St -> St -> M -> St) (filtered : list St) (ms : list M),
  filtered <> [] -> length ms = length filtered ->
  exists out, smooth step filtered ms = Ok out /\ length out = length filtered /\
    nth_error out (length filtered - 1) = nth_error filtered (length filtered - 1) /\
    forall t f m next, nth_error filtered t = Some f -> nth_error ms (t + 1) = Some m ->
      nth_error out (t + 1) = Some next -> nth_error out t = Some (step f next m).
Proof. intros St M step. exact (smooth_spec step). Qed.
Print Assumptions C21_time_varying_matrices_off_by_one.

(** hence the claim "entry t uses the matrices of time t" is false *)
Theorem C21_time_varying_refuted :
  ~ (forall (St M : Type) (step : St -> St -> M -> St) (filtered : list St) (ms : list M) out,
      length ms = length filtered -> smooth step filtered ms = Ok out ->
      forall t f m next, nth_error filtered t = Some f -> nth_error ms t = Some m ->
        nth_error out (t + 1) = Some next -> nth_error out t = Some (step f next m)).
Proof.
  intros H. specialize (H nat nat (fun f n m => f + n * m) [1; 1] [2; 3] [4; 1] eq_refl eq_refl 0 1 2 1
    eq_refl eq_refl eq_refl). discriminate H.
Qed.
Print Assumptions C21_time_varying_refuted.

Example C21_case : smooth (fun f n m => f + n * m) [1; 2; 3] (repeat 2 3) = Ok [17; 8; 3].
Proof. reflexivity. Qed.
