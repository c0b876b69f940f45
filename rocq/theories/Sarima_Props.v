(** C22, C23, C24, C64: theorems about BayesianSARIMA's state space. *)
From Coq Require Import ZArith Lia.
From mathcomp Require Import all_ssreflect all_algebra.
From Verif Require Import McLia McTac Sarima_Model Sarima_Spec Sarima_Proofs Sarima_Proofs2 Sarima_Proofs3 Sarima_Proofs4.
Set Implicit Arguments.
Unset Strict Implicit.
Unset Printing Implicit Defensive.
Import GRing.Theory.
Local Open Scope ring_scope.

(** The season length is positive whenever some seasonal order is; see [C23_season_length_zero_accepted]. *)
Definition seasonal_ok (P D Q S : nat) : Prop := [/\ (0 < P -> 0 < S)%N, (0 < D -> 0 < S)%N & (0 < Q -> 0 < S)%N].

(** A state trajectory of the "fast" SARIMA(p,d,q)(P,D,Q,S) state space with the given coefficients, driven by shocks [e]. *)
Definition sarima_traj (R : comRingType) (d D S : nat) (phi theta Phi Theta : seq R) (s : nat -> nat -> R) (e : nat -> R) : Prop :=
  let p := size phi in let q := size theta in let P := size Phi in let Q := size Theta in
  ss_run (k_states p d q P D Q S) (fast_T p d q P D Q S phi Phi) (fast_R d q D Q S theta Theta) s e.
(** the observed series of such a trajectory *)
Definition sarima_obs (R : comRingType) (d D S : nat) (phi theta Phi Theta : seq R) (s : nat -> nat -> R) (t : nat) : R :=
  let p := size phi in let q := size theta in let P := size Phi in let Q := size Theta in
  observe (k_states p d q P D Q S) (sarima_Z R p d q P D Q S) s t.

(** C22: (1 - B)^d (1 - B^S)^D y_t is the ARMA state x_t*. *)
Theorem C22_differencing_identity (R : comRingType) d D S (phi theta Phi Theta : seq R) s e t :
  seasonal_ok (size Phi) D (size Theta) S -> verify_order (size phi) (size theta) (size Phi) (size Theta) S ->
  sarima_traj d D S phi theta Phi Theta s e -> (d + S * D <= t)%N ->
  lagpoly (diff_poly R d D S) (sarima_obs d D S phi theta Phi Theta s) t = s t (d + S * D)%N.
Proof.
case=> SP SD SQ ok run ht; rewrite /sarima_obs (diff_identity SD SP SQ ok run ht).
by rewrite /n_diffs addnC.
Qed.

(** C23, AR side: the ARMA block of the transition matrix is the companion matrix of the product polynomial. *)
Theorem C23_ar_column_is_product_polynomial (R : comRingType) d D S (phi theta Phi Theta : seq R) i c :
  let p := size phi in let q := size theta in let P := size Phi in let Q := size Theta in
  seasonal_ok P D Q S -> verify_order p q P Q S ->
  (i < maxn (p + P * S) (q + Q * S + 1))%N -> (c < k_states p d q P D Q S)%N ->
  fast_T p d q P D Q S phi Phi (d + S * D + i)%N c =
  (if c == (d + S * D)%N then - (ar_poly phi 1 * ar_poly Phi S)`_i.+1 else 0) + (c == d + S * D + i.+1)%N%:R.
Proof.
move=> p q P Q [SP SD SQ] ok hi hc.
rewrite (_ : (d + S * D = n_diffs d D S)%N); last by rewrite /n_diffs addnC.
rewrite (fT_E SD SP SQ ok) //; last by rewrite /k_states /k_lags; mlia.
by rewrite T_arma // ?leq_addr ?addKn ?coefB ?coef1 ?sub0r /= 1?addrC // /k_lags addnC.
Qed.
(** C23, MA side *)
Theorem C23_ma_column_is_product_polynomial (R : comRingType) d D S (phi theta Phi Theta : seq R) r :
  let p := size phi in let q := size theta in let P := size Phi in let Q := size Theta in
  seasonal_ok P D Q S -> verify_order p q P Q S -> (r < k_states p d q P D Q S)%N ->
  fast_R d q D Q S theta Theta r 0%N =
  if (d + S * D <= r)%N then (ma_poly theta 1 * ma_poly Theta S)`_(r - (d + S * D)) else 0.
Proof.
move=> p q P Q [SP SD SQ] ok hr.
rewrite (_ : (d + S * D = n_diffs d D S)%N); last by rewrite /n_diffs addnC.
exact: (fR_E SD SP SQ ok).
Qed.
(** every coefficient of both polynomials has a cell: the state is long enough *)
Theorem C23_state_long_enough (R : comRingType) d D S (phi theta Phi Theta : seq R) j :
  let p := size phi in let q := size theta in let P := size Phi in let Q := size Theta in
  let K := (k_states p d q P D Q S - (d + S * D))%N in
  ((K < j)%N -> (ar_poly phi 1 * ar_poly Phi S)`_j = 0) /\ ((K <= j)%N -> (ma_poly theta 1 * ma_poly Theta S)`_j = 0).
Proof.
move=> p q P Q K; have KE : K = maxn (p + P * S) (q + Q * S + 1) by rewrite /K /k_states /k_lags /n_diffs; mlia.
split=> h; apply: nth_default.
  apply: leq_trans (size_prod (size_arp phi 1) (size_arp Phi S)) _; rewrite muln1 -/p -/P; mlia.
apply: leq_trans (size_prod (size_map_ theta 1) (size_map_ Theta S)) _; rewrite muln1 -/q -/Q; mlia.
Qed.
(** orders are rejected exactly when some lag is claimed by both polynomials *)
Theorem C23_orders_rejected_iff_lags_overlap (p q P Q S : nat) :
  ~~ verify_order p q P Q S <->
  (exists i j, (i < P) && (j < p) && (i.+1 * S == j.+1))%N \/ (exists i j, (i < Q) && (j < q) && (i.+1 * S == j.+1))%N.
Proof.
have ov a A : overlap a A S <-> (exists i j, (i < A) && (j < a) && (i.+1 * S == j.+1))%N.
  split=> [/hasP[x /mapP[i]]|[i [j /andP[/andP[h1 h2] h3]]]].
    by rewrite mem_iota => hi -> /mapP[j]; rewrite mem_iota => hj e; exists i, j; mlia.
  apply/hasP; exists ((1 + i) * S)%N; apply/mapP; first by exists i; rewrite ?mem_iota.
  by exists j; rewrite ?mem_iota //; mlia.
rewrite /verify_order negb_and !negbK -!ov; split; [by move/orP|by move/orP].
Qed.
(** refuted part: a season length of zero with positive seasonal orders is never rejected *)
Theorem C23_season_length_zero_accepted (p q P Q : nat) : verify_order p q P Q 0.
Proof.
apply/negPn/negP => /C23_orders_rejected_iff_lags_overlap [] [i [j]]; rewrite muln0; mlia.
Qed.

(** C24: from time d + S D + (number of ARMA states) on, every trajectory of the fast representation satisfies
    phi(B) Phi(B^S) (1-B)^d (1-B^S)^D y_t = theta(B) Theta(B^S) e_t. *)
Theorem C24_sarima_equation (R : comRingType) d D S (phi theta Phi Theta : seq R) s e t :
  seasonal_ok (size Phi) D (size Theta) S -> verify_order (size phi) (size theta) (size Phi) (size Theta) S ->
  sarima_traj d D S phi theta Phi Theta s e ->
  (k_states (size phi) d (size theta) (size Phi) D (size Theta) S <= t)%N ->
  lagpoly (ar_poly phi 1 * ar_poly Phi S * ((1 - 'X) ^+ d * (1 - 'X^S) ^+ D)) (sarima_obs d D S phi theta Phi Theta s) t =
  lagpoly (ma_poly theta 1 * ma_poly Theta S) e t.
Proof.
case=> SP SD SQ ok run ht; apply: (sarima_equation SD SP SQ ok run).
by move: ht; rewrite /k_states /n_diffs; mlia.
Qed.
(** the "interpretable" representation (no differencing) satisfies the same equation; its observed series is state 0 *)
Theorem C24_interpretable_equation (R : comRingType) S (phi theta Phi Theta : seq R) s e t :
  let p := size phi in let q := size theta in let P := size Phi in let Q := size Theta in
  seasonal_ok P 0 Q S -> verify_order p q P Q S ->
  ss_run (interp_k p q P Q S) (interp_T p q P Q S phi Phi theta Theta) (@interp_R R p q P Q S) s e ->
  (interp_k p q P Q S <= t)%N ->
  lagpoly (ar_poly phi 1 * ar_poly Phi S) (fun u => s u 0%N) t = lagpoly (ma_poly theta 1 * ma_poly Theta S) e t.
Proof. by move=> p q P Q [SP _ SQ] ok run ht; exact: (interp_equation SP SQ ok run). Qed.
(** its states are what their names say: the lags of y, then the innovation and its lags *)
Theorem C24_interpretable_states (R : comRingType) S (phi theta Phi Theta : seq R) s e t j :
  let p := size phi in let q := size theta in let P := size Phi in let Q := size Theta in
  seasonal_ok P 0 Q S -> verify_order p q P Q S ->
  ss_run (interp_k p q P Q S) (interp_T p q P Q S phi Phi theta Theta) (@interp_R R p q P Q S) s e ->
  ((j < p_max p P S)%N -> (j <= t)%N -> s t j = s (t - j)%N 0%N) /\
  ((j < q_max q Q S)%N -> (j < t)%N -> s t (p_max p P S + j)%N = e (t - j)%N).
Proof.
move=> p q P Q [SP _ SQ] ok run; split=> h1 h2.
  exact: (istate_y SP SQ ok run).
exact: (istate_e SP SQ ok run).
Qed.

(** C64: the linear system of the stationary initialization, (I - T) x0 = c, is solvable for every c exactly when there
    is no differencing and the AR polynomial does not vanish at 1. *)
Theorem C64_stationary_initialization_iff (F : fieldType) d D S (phi theta Phi Theta : seq F) :
  let p := size phi in let q := size theta in let P := size Phi in let Q := size Theta in
  let k := k_states p d q P D Q S in
  seasonal_ok P D Q S -> verify_order p q P Q S ->
  ((1%:M - \matrix_(r < k, c < k) fast_T p d q P D Q S phi Phi r c) \in unitmx) =
  [&& d == 0%N, D == 0%N & (ar_poly phi 1 * ar_poly Phi S).[1] != 0].
Proof. by move=> p q P Q k [SP SD SQ] ok; exact: (stationary_iff d SD SP SQ ok). Qed.
(** refuted: with any differencing the default stationary initialization has no solution for some intercepts, whatever
    the parameter values *)
Theorem C64_differenced_refuted (F : fieldType) d D S (phi theta Phi Theta : seq F) :
  let p := size phi in let q := size theta in let P := size Phi in let Q := size Theta in
  let k := k_states p d q P D Q S in
  seasonal_ok P D Q S -> verify_order p q P Q S -> (0 < d + D)%N ->
  ~~ ((1%:M - \matrix_(r < k, c < k) fast_T p d q P D Q S phi Phi r c) \in unitmx).
Proof.
move=> p q P Q k sok ok h; rewrite C64_stationary_initialization_iff //.
by apply/negP => /and3P[/eqP d0 /eqP D0]; mlia.
Qed.

(** ** non-vacuity: trajectories exist for every initial state and shock sequence *)
Fixpoint run_of (R : comRingType) (k : nat) (T Rm : mat R) (s0 : nat -> R) (e : nat -> R) (t : nat) : nat -> R :=
  if t is t'.+1 then fun r => \sum_(c < k) T r c * run_of k T Rm s0 e t' c + Rm r 0%N * e t'.+1 else s0.
Lemma run_of_ok (R : comRingType) k (T Rm : mat R) s0 e : ss_run k T Rm (run_of k T Rm s0 e) e.
Proof. by []. Qed.
Example sarima_traj_exists (R : comRingType) d D S (phi theta Phi Theta : seq R) s0 e :
  exists s, sarima_traj d D S phi theta Phi Theta s e /\ s 0%N = s0.
Proof. by eexists; split; first exact: (@run_of_ok _ _ _ _ s0 e). Qed.
Example airline_model_meets_hypotheses : seasonal_ok 1 1 1 12 /\ verify_order 1 1 1 1 12 = true.
Proof. by vm_compute. Qed.
Example overlapping_orders : verify_order 12 0 1 0 12 = false /\ verify_order 11 0 1 0 12 = true.
Proof. by []. Qed.

(** the matrix printed in the docstring of make_SARIMA_transition_matrix for SARIMA(0,2,0)x(0,2,0,4) *)
Definition dense (T : mat [comRingType of int]) (k : nat) : seq (seq int) := [seq [seq T r c | c <- iota 0 k] | r <- iota 0 k].
Example docstring_matrix : dense (sarima_T [comRingType of int] 0 2 0 0 2 0 4) 11 =
  [seq [seq (x%:Z)%R | x <- row] | row <-
  [:: [:: 1; 1; 0; 0; 0; 1; 0; 0; 0; 1; 1];
      [:: 0; 1; 0; 0; 0; 1; 0; 0; 0; 1; 1];
      [:: 0; 0; 0; 0; 0; 1; 0; 0; 0; 1; 1];
      [:: 0; 0; 1; 0; 0; 0; 0; 0; 0; 0; 0];
      [:: 0; 0; 0; 1; 0; 0; 0; 0; 0; 0; 0];
      [:: 0; 0; 0; 0; 1; 0; 0; 0; 0; 0; 0];
      [:: 0; 0; 0; 0; 0; 0; 0; 0; 0; 1; 1];
      [:: 0; 0; 0; 0; 0; 0; 1; 0; 0; 0; 0];
      [:: 0; 0; 0; 0; 0; 0; 0; 1; 0; 0; 0];
      [:: 0; 0; 0; 0; 0; 0; 0; 0; 1; 0; 0];
      [:: 0; 0; 0; 0; 0; 0; 0; 0; 0; 0; 0]]%N].
Proof. by vm_compute. Qed.
