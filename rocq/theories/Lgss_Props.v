(** C37 (unconditional sampling), C38 (impulse responses), C75 (conditional sampling). *)
From Verif Require Common KalmanScan_Model.
From mathcomp Require Import all_ssreflect all_algebra.
From Verif Require Import Lgss_Model Lgss_Spec Lgss_Proofs.
Set Implicit Arguments.
Unset Strict Implicit.
Unset Printing Implicit Defensive.
Import GRing.Theory.
Import Common(res, Ok, Err, bind, ValueError, IndexError, TypeError, AssertionError).
Import KalmanScan_Model(pname, Pc, Pd, PT, PZ, PR, PH, PQ, PARAM_NAMES, pname_eqb).
Local Open Scope ring_scope.

Section Props.
Context (R : ringType) (k p r : nat) (Rng : Type) (normal : Rng -> forall n, 'cV[R]_n * Rng) (factor : forall n, 'M[R]_n -> 'M[R]_n).
Notation noise := (noise normal factor).
Notation gen := (gen p r normal).
Notation after := (after normal).
Implicit Type s : system R k p r.

Lemma gen_S g i : gen g i.+1 = gen (after (after g r) p) i.
Proof. by elim: i => [|i IHi] //=; rewrite -IHi. Qed.
Lemma scan_ok s : forall n t st g, covers s (t + n) ->
  exists xs, scan normal factor s (seq_names s) t n st g = Ok xs /\ size xs = n /\
    forall i m, (i < n)%N -> matrices_at s (t + i) m ->
      let prev := nth 0 (st :: xs) i in let x := nth 0 xs i in
      usubmx x = m_c m + m_T m *m usubmx prev + m_R m *m noise (gen g i) (m_Q m) /\
      dsubmx x = m_d m + m_Z m *m usubmx x + noise (after (gen g i) r) (m_H m).
Proof.
  elim=> [|n IH] t st g Hc; first by exists [::].
  have Ht : (t < t + n.+1)%N by rewrite addnS ltnS leq_addr.
  have [m Hm] := covers_at Hc Ht.
  rewrite /=. move: (step_ok normal factor st g Hm).
  case: (scan_args _ _ _ _ _) => [args|e] //= ->.
  rewrite -addSnnS in Hc.
  have [xs [E [Hs Hx]]] := IH t.+1 (let a := m_c m + m_T m *m usubmx st + m_R m *m noise g (m_Q m) in
        col_mx a (m_d m + m_Z m *m a + noise (after g r) (m_H m))) (after (after g r) p) Hc.
  rewrite /= E /=. eexists; split; first reflexivity. split; first by rewrite /= Hs.
  move=> [|i] m' Hi Hm'.
  - rewrite addn0 in Hm'. rewrite (matrices_at_unique Hm Hm').
    by rewrite /= col_mxKu col_mxKd.
  - move: (Hx i m'). rewrite addSnnS => /(_ Hi Hm') [E1 E2]. split.
    + rewrite E1 (gen_S g i). by [].
    + rewrite E2 (gen_S g i). by [].
Qed.

(** C37: what is simulated.  The latent states start from a draw of N(a0, P0) and follow the transition equation with the matrices of
    time t and fresh shocks; the observation after step t is Z_t x_{t+1} + d_t + fresh noise. *)
Theorem C37_trajectory_partial s a0 P0 steps g : covers s (maxn steps 1) ->
  exists xs ys, lgss normal factor a0 P0 s (seq_names s) steps true g = Ok (xs, ys) /\ size xs = steps.+1 /\ size ys = steps.+1 /\
    nth 0 xs 0 = a0 + noise g P0 /\
    (forall m, matrices_at s 0 m -> nth 0 ys 0 = m_Z m *m nth 0 xs 0 + noise g (m_H m)) /\
    (forall t m, (t < steps)%N -> matrices_at s t m ->
       nth 0 xs t.+1 = m_c m + m_T m *m nth 0 xs t + m_R m *m noise (gen g t) (m_Q m) /\
       nth 0 ys t.+1 = m_d m + m_Z m *m nth 0 xs t.+1 + noise (after (gen g t) r) (m_H m)).
Proof.
  move=> Hc. have H0 : covers s 1.
  { move: Hc => [[H1 H2 H3 H4] [H5 H6 H7]].
    have L : forall A (x : param A), long_enough (maxn steps 1) x -> long_enough 1 x.
    { move=> A [//|l] /=. by rewrite geq_max => /andP []. }
    by split; split; apply: L. }
  have Hs : covers s (0 + steps).
  { move: Hc => [[H1 H2 H3 H4] [H5 H6 H7]]. rewrite add0n.
    have L : forall A (x : param A), long_enough (maxn steps 1) x -> long_enough steps x.
    { move=> A [//|l] /=. by rewrite geq_max => /andP []. }
    by split; split; apply: L. }
  have [m0 Hm0] := covers_at H0 (ltnSn 0).
  have S : forall A (x : param A) a, at_time x 0 = Some a -> at_start x = Ok a.
  { move=> A [b|[|b l]] a //=; by case=> ->. }
  move: (Hm0) => [[A1 A2 A3 A4] [A5 A6 A7]].
  rewrite /lgss (S _ _ _ A4) (S _ _ _ A6) /= !mvnormal_eq /=.
  set x0 := a0 + _. set y0 := _ + noise g (m_H m0).
  have [sts [E [Hz Hx]]] := scan_ok (col_mx x0 y0) g Hs.
  rewrite E /=. eexists; eexists; split; first reflexivity.
  rewrite /= !size_map Hz col_mxKu col_mxKd. do 3! split=> //. split.
  - move=> m Hm. have -> : m_Z m = m_Z m0 by case: Hm => [[? ? ? B4] _]; move: B4; rewrite A4; case.
    have -> // : m_H m = m_H m0 by case: Hm => [_ [? B6 ?]]; move: B6; rewrite A6; case.
  - move=> t m Ht Hm. have [E1 E2] := Hx t m Ht Hm.
    rewrite (nth_map 0) ?Hz // (nth_map 0) ?Hz // E2 E1. split=> //.
    congr (_ + _ *m _ + _). case: t Ht {Hm E1 E2} => [|t] Ht /=; first by rewrite col_mxKu.
    by rewrite (nth_map 0) // Hz ltnW.
Qed.

(** With static observation matrices and no observation intercept every observation is the documented one. *)
Definition observation_static s d Z H : Prop := [/\ s_d s = Const d, s_Z s = Const Z & s_H s = Const H].
Theorem C37_observation_equation s a0 P0 steps g Z H : covers s (maxn steps 1) -> observation_static s 0 Z H ->
  exists xs ys, lgss normal factor a0 P0 s (seq_names s) steps true g = Ok (xs, ys) /\
    nth 0 ys 0 = Z *m nth 0 xs 0 + noise g H /\
    forall t, (t < steps)%N -> nth 0 ys t.+1 = Z *m nth 0 xs t.+1 + noise (after (gen g t) r) H.
Proof.
  move=> Hc [E1 E2 E3]. have [xs [ys [E [_ [_ [_ [Hy Hs]]]]]]] := C37_trajectory_partial a0 P0 g Hc.
  exists xs, ys. split=> //.
  have HZ : forall t m, matrices_at s t m -> [/\ m_d m = 0, m_Z m = Z & m_H m = H].
  { move=> t m [[_ B2 _ B4] [_ B6 _]]. move: B2 B4 B6. rewrite E1 E2 E3 /=. by do 3! (case=> <-). }
  split.
  - have [m Hm] : exists m, matrices_at s 0 m by apply: (covers_at Hc); rewrite leq_max orbT.
    rewrite (Hy m Hm). by have [_ -> ->] := HZ _ _ Hm.
  - move=> t Ht. have [m Hm] : exists m, matrices_at s t m by apply: (covers_at Hc); rewrite leq_max Ht.
    have [_ ->] := Hs t m Ht Hm. have [-> -> ->] := HZ _ _ Hm. by rewrite add0r.
Qed.

(** The first observation ignores the observation intercept: it is the same whatever d is. *)
Theorem C37_first_observation_without_intercept_refuted s a0 P0 steps g Z H d :
  covers s (maxn steps 1) -> observation_static s d Z H ->
  exists xs ys, lgss normal factor a0 P0 s (seq_names s) steps true g = Ok (xs, ys) /\
    nth 0 ys 0 = Z *m nth 0 xs 0 + noise g H /\
    (d != 0 -> nth 0 ys 0 <> d + Z *m nth 0 xs 0 + noise g H) /\
    forall t, (t < steps)%N -> nth 0 ys t.+1 = d + Z *m nth 0 xs t.+1 + noise (after (gen g t) r) H.
Proof.
  move=> Hc [E1 E2 E3]. have [xs [ys [E [_ [_ [_ [Hy Hs]]]]]]] := C37_trajectory_partial a0 P0 g Hc.
  exists xs, ys. split=> //.
  have HZ : forall t m, matrices_at s t m -> [/\ m_d m = d, m_Z m = Z & m_H m = H].
  { move=> t m [[_ B2 _ B4] [_ B6 _]]. move: B2 B4 B6. rewrite E1 E2 E3 /=. by do 3! (case=> <-). }
  have Y0 : nth 0 ys 0 = Z *m nth 0 xs 0 + noise g H.
  { have [m Hm] : exists m, matrices_at s 0 m by apply: (covers_at Hc); rewrite leq_max orbT.
    rewrite (Hy m Hm). by have [_ -> ->] := HZ _ _ Hm. }
  split=> //. split.
  - move=> Hd. rewrite Y0 -addrA => /eqP. rewrite eq_sym -subr_eq0 addrK. by apply/negP.
  - move=> t Ht. have [m Hm] : exists m, matrices_at s t m by apply: (covers_at Hc); rewrite leq_max Ht.
    have [_ ->] := Hs t m Ht Hm. by have [-> -> ->] := HZ _ _ Hm.
Qed.

(** With a time-varying design matrix the observation at time t+1 uses the matrix of time t: without measurement noise,
    y_{t+1} = d_t + Z_t x_{t+1}. *)
Theorem C37_design_off_by_one_refuted s a0 P0 steps g t m m' : covers s (maxn steps 1) -> (t < steps)%N ->
  matrices_at s t m -> matrices_at s t.+1 m' -> (forall n cov g', @factor n cov *m (normal g' n).1 = 0) -> m_d m = m_d m' ->
  exists xs ys, lgss normal factor a0 P0 s (seq_names s) steps true g = Ok (xs, ys) /\
    nth 0 ys t.+1 = m_d m + m_Z m *m nth 0 xs t.+1 /\
    (nth 0 ys t.+1 = m_d m' + m_Z m' *m nth 0 xs t.+1 <-> (m_Z m - m_Z m') *m nth 0 xs t.+1 = 0).
Proof.
  move=> Hc Ht Hm Hm' N Ed. have [xs [ys [E [_ [_ [_ [_ Hs]]]]]]] := C37_trajectory_partial a0 P0 g Hc.
  exists xs, ys. split=> //. have [_ Ey] := Hs t m Ht Hm.
  have Y : nth 0 ys t.+1 = m_d m + m_Z m *m nth 0 xs t.+1 by rewrite Ey /Lgss_Spec.noise N addr0.
  split=> //. rewrite Y -Ed mulmxBl. split.
  - by move/addrI => ->; rewrite subrr.
  - by move/eqP; rewrite subr_eq0 => /eqP ->.
Qed.

(** Labels: the requested number of steps gives one state more than steps, labelled 0..steps; without it one state per time label. *)
Theorem C37_requested_length s a0 P0 time steps g : covers s (maxn steps 1) ->
  exists xs ys, sample_unconditional normal factor a0 P0 s time (Some steps) false g = Ok (iota 0 steps.+1, (xs, ys)) /\
    size xs = steps.+1 /\ size ys = steps.+1.
Proof.
  move=> Hc. have [xs [ys [E [H1 [H2 _]]]]] := C37_trajectory_partial a0 P0 g Hc.
  exists xs, ys. rewrite /sample_unconditional /= size_iota subn1 /= E. by [].
Qed.
Theorem C37_data_length s a0 P0 time use g : (0 < size time)%N -> covers s (size time) ->
  exists xs ys, sample_unconditional normal factor a0 P0 s time None use g = Ok (time, (xs, ys)) /\
    size xs = size time /\ size ys = size time.
Proof.
  move=> Ht Hc. have Hc' : covers s (maxn (size time - 1) 1).
  { move: Hc => [[H1 H2 H3 H4] [H5 H6 H7]].
    have L : forall A (x : param A), long_enough (size time) x -> long_enough (maxn (size time - 1) 1) x.
    { move=> A [//|l] /= Hl. rewrite geq_max (leq_trans (leq_subr _ _) Hl) /=. exact: leq_trans Ht Hl. }
    by split; split; apply: L. }
  have [xs [ys [E [H1 [H2 _]]]]] := C37_trajectory_partial a0 P0 g Hc'.
  exists xs, ys. rewrite /sample_unconditional. have -> : unconditional_steps time None use = Ok (time, (size time - 1)%N) by case: use.
  rewrite /= E /= H1 H2. by rewrite subn1 prednK.
Qed.
(** Asking for the data's time dimension and stating its length is accepted but gives one state too many for the labels. *)
Theorem C37_data_steps_refuted s a0 P0 time steps g : (0 < size time)%N -> covers s (size time) ->
  (steps <> size time -> sample_unconditional normal factor a0 P0 s time (Some steps) true g = Err ValueError) /\
  exists xs ys, sample_unconditional normal factor a0 P0 s time (Some (size time)) true g = Ok (time, (xs, ys)) /\
    size xs = (size time).+1 /\ size ys = (size time).+1.
Proof.
  move=> Ht Hc. split.
  - move=> H. rewrite /sample_unconditional /=. by case: eqP => // E; case: H.
  - have Hm : covers s (maxn (size time) 1) by rewrite (maxn_idPl Ht).
    have [xs [ys [E [H1 [H2 _]]]]] := C37_trajectory_partial a0 P0 g Hm.
    exists xs, ys. by rewrite /sample_unconditional /= eqxx /= E.
Qed.
(** The forecast starts one step after the state it is initialised from and has one entry per forecast label. *)
Theorem C37_forecast_first_step s mu P n g m : covers s n -> (0 < n)%N -> matrices_at s 0 m ->
  exists xs ys, forecast_trajectory normal factor mu P s n g = Ok (xs, ys) /\ size xs = n /\ size ys = n /\
    nth 0 xs 0 = m_c m + m_T m *m (mu + noise g P) + m_R m *m noise g (m_Q m) /\
    nth 0 ys 0 = m_d m + m_Z m *m nth 0 xs 0 + noise (after g r) (m_H m).
Proof.
  move=> Hc Hn Hm.
  have S : forall A (x : param A) a, at_time x 0 = Some a -> at_start x = Ok a.
  { move=> A [b|[|b l]] a //=; by case=> ->. }
  move: (Hm) => [[A1 A2 A3 A4] [A5 A6 A7]]. rewrite /forecast_trajectory /lgss (S _ _ _ A4) (S _ _ _ A6) /= !mvnormal_eq /=.
  set x0 := mu + _. set y0 := _ + noise g (m_H m).
  have [sts [E [Hz Hx]]] := @scan_ok s n 0 (col_mx x0 y0) g Hc.
  rewrite E /=. eexists; eexists; split; first reflexivity.
  rewrite !size_map Hz. do 2! split=> //. rewrite !(nth_map 0) ?Hz //.
  have [E1 E2] := Hx 0%N m Hn Hm. split=> //. rewrite E1 /= col_mxKu. by [].
Qed.
End Props.

(** The initial state, the initial measurement error and the first shock are computed from the same random numbers: with as many states as
    series and shocks there is one vector z of standard normals behind all three, so they are not independent draws. *)
Theorem C37_initial_noise_shared_refuted (R : ringType) n (Rng : Type) (normal : Rng -> forall n, 'cV[R]_n * Rng)
    (factor : forall n, 'M[R]_n -> 'M[R]_n) (s : system R n n n) a0 P0 steps g m : covers s (maxn steps 1) -> (0 < steps)%N -> matrices_at s 0 m ->
  exists xs ys z, lgss normal factor a0 P0 s (seq_names s) steps true g = Ok (xs, ys) /\
    nth 0 xs 0 = a0 + factor _ P0 *m z /\
    nth 0 ys 0 = m_Z m *m nth 0 xs 0 + factor _ (m_H m) *m z /\
    nth 0 xs 1 = m_c m + m_T m *m nth 0 xs 0 + m_R m *m (factor _ (m_Q m) *m z).
Proof.
  move=> Hc Hs Hm. have [xs [ys [E [_ [_ [E0 [Hy Ht]]]]]]] := C37_trajectory_partial normal factor a0 P0 g Hc.
  exists xs, ys, (normal g n).1. split=> //. split=> //. split; first exact: Hy.
  by have [-> _] := Ht 0%N m Hs Hm.
Qed.

(** ** C38: impulse responses *)
Section Irf.
Context (R : ringType) (k p r : nat) (Rng : Type) (normal : Rng -> forall n, 'cV[R]_n * Rng) (factor : forall n, 'M[R]_n -> 'M[R]_n).
Context (orth : 'M[R]_r -> 'M[R]_r).
Implicit Type m : mats R k p r.
(** T^h x *)
Definition power m (h : nat) (x : 'cV[R]_k) : 'cV[R]_k := iter h (fun y => m_T m *m y) x.
Lemma power_lin m h x y : power m h (x + y) = power m h x + power m h y.
Proof. elim: h => [|h IH] //=. by rewrite IH mulmxDr. Qed.
Lemma power_S m h x : power m h.+1 x = power m h (m_T m *m x).
Proof. by elim: h => [|h IH] //=; rewrite -IH. Qed.
Lemma power0 m h : power m h 0 = 0.
Proof. by elim: h => [|h IH] //=; rewrite IH mulmx0. Qed.
Lemma irf_conv m l : forall x h, (h < size l)%N ->
  nth 0 (irf_scan m l x) h = power m h.+1 x + \sum_(i < h.+1) power m (h - i) (m_c m + m_R m *m nth 0 l i).
Proof.
  elim: l => [//|s l IH] x [|h] Hh /=.
  - rewrite big_ord_recl big_ord0 addr0 /irf_step /= addrAC addrC. by [].
  - rewrite (IH (irf_step m s x) h) // [in RHS]big_ord_recl. rewrite addrA. congr (_ + _).
    change (power m h.+1 (irf_step m s x) = power m h.+2 x + power m h.+1 (m_c m + m_R m *m s)).
    rewrite (power_S m h.+1) -power_lin. congr (power m h.+1 _). rewrite /irf_step. by rewrite addrAC addrC.
Qed.
Lemma irf_size m l x : size (irf_scan m l x) = size l.
Proof. by elim: l x => //= s l IH x; rewrite IH. Qed.

(** The response to a shock trajectory is the convolution, of the trajectory's length whatever n_steps is; the state intercept, if
    any, acts as a constant additional shock. *)
Theorem C38_trajectory_convolution m n_steps use l o g : exists irf,
  impulse_response_function normal factor orth m n_steps use None None (Some l) o false g = Ok irf /\ size irf = size l /\
  forall h, (h < size l)%N -> nth 0 irf h = \sum_(i < h.+1) power m (h - i) (m_c m + m_R m *m nth 0 l i).
Proof.
  eexists; split; first by rewrite /impulse_response_function /choose_shock /=; reflexivity.
  split; first by rewrite irf_size. move=> h Hh. rewrite irf_conv //.
  by rewrite power0 add0r.
Qed.
(** A single shock of the given size: T^h R s, when there is no state intercept. *)
Lemma single m n s h : m_c m = 0 -> (h < n.+1)%N -> nth 0 (irf_scan m (s :: nseq n 0) 0) h = power m h (m_R m *m s).
Proof.
  move=> Hc Hh. rewrite irf_conv; last by rewrite /= size_nseq.
  rewrite power0 add0r big_ord_recl /= subn0 Hc add0r big1 ?addr0 // => i _.
  rewrite add0r /bump leq0n add1n /= nth_nseq. by case: ifP; rewrite mulmx0 power0.
Qed.
Theorem C38_single_shock m n use s o g : m_c m = 0 -> exists irf,
  impulse_response_function normal factor orth m n.+1 use (Some s) None None o false g = Ok irf /\ size irf = n.+1 /\
  forall h, (h < n.+1)%N -> nth 0 irf h = power m h (m_R m *m s).
Proof.
  move=> Hc. exists (irf_scan m (s :: nseq n 0) 0). split; first by [].
  split; first by rewrite irf_size /= size_nseq. by move=> h Hh; rewrite single.
Qed.
(** Otherwise the shock is a draw with the chosen covariance: the one given, else the model's. *)
Theorem C38_covariance_shock m n Q use o g : m_c m = 0 ->
  let cov := match Q with Some q => q | None => m_Q m end in (Q = None -> use = true) ->
  exists irf, impulse_response_function normal factor orth m n.+1 use None Q None o false g = Ok irf /\ size irf = n.+1 /\
  forall h, (h < n.+1)%N -> nth 0 irf h = power m h (m_R m *m noise normal factor g (if o then orth cov else cov)).
Proof.
  move=> Hc cov HQ. exists (irf_scan m ((mvnormal normal factor g 0 (if o then orth cov else cov)).2 :: nseq n 0) 0). split.
  - rewrite /impulse_response_function /choose_shock. by case: Q HQ @cov => [q|] HQ cov //=; rewrite (HQ erefl).
  - split; first by rewrite irf_size /= size_nseq. move=> h Hh. by rewrite single // mvnormal_eq /= add0r.
Qed.
(** At most one shock specification. *)
Theorem C38_exclusive m n use size cov traj o kw g : (1 < isSome size + isSome cov + isSome traj)%N ->
  impulse_response_function normal factor orth m n use size cov traj o kw g = Err ValueError.
Proof. by rewrite /impulse_response_function /choose_shock => ->. Qed.
(** compile_kwargs can never be used although the code looks for it. *)
Theorem C38_compile_kwargs_refuted m n use size cov traj o g irf :
  impulse_response_function normal factor orth m n use size cov traj o true g <> Ok irf.
Proof.
  rewrite /impulse_response_function. case: (choose_shock _ _ _ _ _ _ _) => [sk|e] //=. by case: (shocks _ _ _ _ _).
Qed.
End Irf.
(** orthogonalize_shocks: the "covariance" used is not symmetric unless the shocks are uncorrelated already. *)
Theorem C38_orthogonalized_covariance_refuted (F : fieldType) n (L Q : 'M[F]_n) :
  (forall i j : 'I_n, (i < j)%N -> L i j = 0) -> L *m L^T = Q -> (forall i, Q i i != 0) ->
  (orthogonalized L Q)^T = orthogonalized L Q -> forall i j, i != j -> Q i j = 0.
Proof.
  move=> Hl E Hq Hs.
  have D : forall i j, i != j -> L i j = 0.
  { move=> i j Hij. case: (ltngtP i j) => [H|H|H]; first exact: Hl; last by move: Hij; rewrite -val_eqE /= H eqxx.
    move/matrixP: Hs => /(_ j i). rewrite !mxE (Hl j i H) mul0r => /eqP. rewrite mulf_eq0 invr_eq0 (negbTE (Hq _)) orbF. by move/eqP. }
  move=> i j Hij. rewrite -E mxE big1 // => l _. rewrite mxE.
  case: (eqVneq i l) => [<-|H]; last by rewrite (D i l H) mul0r.
  by rewrite (D j i) ?mulr0 // eq_sym.
Qed.

(** ** C75: conditional sampling *)
Section Cond.
Context (R : ringType) (k p r : nat) (Rng : Type) (normal : Rng -> forall n, 'cV[R]_n * Rng) (factor : forall n, 'M[R]_n -> 'M[R]_n).
Notation noise := (noise normal factor).
Fixpoint gen1 n (g : Rng) (t : nat) : Rng := match t with 0 => g | t'.+1 => after normal (gen1 n g t') n end.
Lemma gen1_S n g t : gen1 n g t.+1 = gen1 n (after normal g n) t.
Proof. by elim: t => //= t IH; rewrite -IH. Qed.
Lemma sequence_mvn_spec n (l : seq ('cV[R]_n * 'M[R]_n)) : forall g,
  size (sequence_mvn normal factor l g) = size l /\
  forall t, (t < size l)%N -> nth 0 (sequence_mvn normal factor l g) t = (nth (0, 0) l t).1 + noise (gen1 n g t) (nth (0, 0) l t).2.
Proof.
  elim: l => [|[mu cov] l IH] g //=. rewrite mvnormal_eq /=. have [H1 H2] := IH (after normal g n). split; first by rewrite H1.
  move=> [|t] Ht //=. rewrite H2 // -gen1_S. by [].
Qed.
(** Latent states are drawn, step by step and independently, from the filter's distribution of that step; observations from the implied
    one except that the observation intercept is left out of the mean. *)
Theorem C75_conditional_partial (ms : seq (mats R k p r)) outputs g g' : size ms = size outputs ->
  let out := sample_conditional normal factor ms outputs g g' in
  size out.1 = size outputs /\ size out.2 = size outputs /\
  forall t m mu P, (t < size outputs)%N -> List.nth_error ms t = Some m -> List.nth_error outputs t = Some (mu, P) ->
    nth 0 out.1 t = mu + noise (gen1 k g t) P /\
    nth 0 out.2 t = m_Z m *m mu + noise (gen1 p g' t) (m_Z m *m P *m (m_Z m)^T + m_H m).
Proof.
  move=> Hs out. rewrite /out /sample_conditional /=.
  have [H1 H2] := sequence_mvn_spec outputs g.
  have [H3 H4] := sequence_mvn_spec [seq observed_moments x.1 x.2 | x <- zip ms outputs] g'.
  have Sz : size [seq observed_moments x.1 x.2 | x <- zip ms outputs] = size outputs by rewrite size_map size_zip Hs minnn.
  rewrite H3 Sz. do 2! split=> //. move=> t m mu P Ht Em Eo. rewrite H2 // H4 ?Sz //.
  have N : forall A (d : A) l i x, List.nth_error l i = Some x -> nth d l i = x.
  { move=> A d. elim=> [|a l IH] [|i] x //=; [by case|exact: IH]. }
  rewrite (N _ _ _ _ _ Eo) /=. split=> //.
  have -> : nth (0, 0) [seq observed_moments x.1 x.2 | x <- zip ms outputs] t = observed_moments m (mu, P).
  { rewrite (nth_map (m, (mu, P))); last by rewrite size_zip Hs minnn.
    by rewrite nth_zip //= (N _ _ _ _ _ Eo) (N _ _ _ _ _ Em). }
  by [].
Qed.
Theorem C75_observed_intercept_refuted (m : mats R k p r) outputs g g' mu P t : m_d m != 0 -> List.nth_error outputs t = Some (mu, P) -> (t < size outputs)%N ->
  nth 0 (sample_conditional normal factor (nseq (size outputs) m) outputs g g').2 t
  <> m_d m + m_Z m *m mu + noise (gen1 p g' t) (m_Z m *m P *m (m_Z m)^T + m_H m).
Proof.
  move=> Hd Eo Ht. have [_ [_ H]] := C75_conditional_partial g g' (size_nseq (size outputs) m).
  have Em : List.nth_error (nseq (size outputs) m) t = Some m.
  { elim: (size outputs) t Ht {Eo H} => [//|n IH] [|t] //= Ht. exact: IH. }
  have [_ ->] := H t m mu P Ht Em Eo. rewrite -[X in _ <> X]addrA => /eqP. rewrite eq_sym -subr_eq0 addrK. by apply/negP.
Qed.
End Cond.

(** ** A concrete system: one state, one series, one shock, time-varying design *)
Definition ex_one (x : int) : 'M[int]_1 := x%:M.
Definition ex_normal (g : nat) (n : nat) : 'cV[int]_n * nat := (const_mx (g%:R), g.+1).
Definition ex_factor n (P : 'M[int]_n) := P.
Definition ex_s : system [ringType of int] 1 1 1 :=
  {| s_c := Const 0; s_d := Const (ex_one 5%:R); s_T := Const (ex_one 2%:R); s_Z := Vary [:: ex_one 1%:R; ex_one 10%:R; ex_one 100%:R];
     s_R := Const (ex_one 1%:R); s_H := Const 0; s_Q := Const 0 |}.
Definition ex_m (z : int) : mats [ringType of int] 1 1 1 :=
  {| m_c := 0; m_d := ex_one 5%:R; m_T := ex_one 2%:R; m_Z := ex_one z; m_R := ex_one 1%:R; m_H := 0; m_Q := 0 |}.
(** the true observations with the matrices of their own time would be 6, 25, 405 *)
Example C37_example : covers ex_s (maxn 2 1) /\ matrices_at ex_s 0 (ex_m 1%:R) /\ matrices_at ex_s 1 (ex_m 10%:R) /\ matrices_at ex_s 2 (ex_m 100%:R) /\
  exists xs ys, lgss ex_normal ex_factor (ex_one 1%:R) 0 ex_s (seq_names ex_s) 2 true 7%N = Ok (xs, ys) /\
    nth 0 xs 1 = ex_one 2%:R /\ nth 0 xs 2 = ex_one 4%:R /\
    nth 0 ys 0 = ex_one 1%:R /\ nth 0 ys 1 = ex_one 7%:R /\ nth 0 ys 2 = ex_one 45%:R.
Proof.
  have Hc : covers ex_s (maxn 2 1) by split; split.
  have A0 : matrices_at ex_s 0 (ex_m 1%:R) by split; split.
  have A1 : matrices_at ex_s 1 (ex_m 10%:R) by split; split.
  do 4! (split; first by []).
  have [xs [ys [E [H1 [H2 [H3 [H4 H5]]]]]]] := C37_trajectory_partial ex_normal ex_factor (ex_one 1%:R) 0 7%N Hc.
  exists xs, ys. split=> //.
  have N : forall g n, noise ex_normal ex_factor g (0 : 'M[int]_n) = 0 by move=> g n; rewrite /noise /ex_factor mul0mx.
  move: H3 (H4 _ A0) (H5 0%N _ isT A0) (H5 1%N _ isT A1) => /=. rewrite !N !mulmx0 !addr0 !add0r => -> -> [-> ->] [-> ->].
  rewrite /ex_one -!scalar_mxM -?raddfD /=. by [].
Qed.
Example C38_example : m_c (ex_m 1%:R) = 0 /\
  impulse_response_function ex_normal ex_factor id (ex_m 1%:R) 3 true (Some (ex_one 3%:R)) None None false false 0%N
  = Ok [:: irf_step (ex_m 1%:R) (ex_one 3%:R) 0; ex_one 2%:R *m irf_step (ex_m 1%:R) (ex_one 3%:R) 0;
           ex_one 2%:R *m (ex_one 2%:R *m irf_step (ex_m 1%:R) (ex_one 3%:R) 0)].
Proof.
  split=> //. rewrite /impulse_response_function /choose_shock /=. by rewrite /irf_step /= !mulmx0 !add0r !addr0.
Qed.
