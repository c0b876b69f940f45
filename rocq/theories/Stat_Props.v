(** C88: the stationary initialization starts the model from its stationary distribution. *)
From Coq Require Import Reals Lra.
From mathcomp Require Import all_ssreflect all_algebra.
From mathcomp Require Import mxtens complex.
From Verif Require Import McLia McTac RealMc Stat_Model Stat_Proofs.
From Verif Require Import Lgss_Model Fdraw_Props.
From Verif Require Import Sarima_Model Sarima_Spec Sarima_Proofs Sarima_Proofs2 Sarima_Proofs3 Sarima_Proofs4 Sarima_Props.
Set Implicit Arguments.
Unset Strict Implicit.
Unset Printing Implicit Defensive.
Import Order.TTheory GRing.Theory Num.Theory.
Local Open Scope ring_scope.

(** ** Specification *)
Section Spec.
Context (F : fieldType).
(** a distribution (mean x, covariance P) of the state that one step of the model x' = c + T x + R e, e ~ N(0, Q), leaves unchanged *)
Definition invariant k r (T : 'M[F]_k) (Rm : 'M[F]_(k, r)) (Q : 'M[F]_r) (c x : 'cV[F]_k) (P : 'M[F]_k) : Prop :=
  x = c + T *m x /\ P = T *m P *m T^T + Rm *m Q *m Rm^T.
(** what is assumed of the solver of A X + X A' = C: an answer is a solution, and a unique solution is found *)
Definition continuous_solver_ok (s : forall n, 'M[F]_n -> 'M[F]_n -> option 'M[F]_n) : Prop :=
  (forall n (A C X : 'M[F]_n), s n A C = Some X -> A *m X + X *m A^T = C) /\
  (forall n (A C X : 'M[F]_n), A *m X + X *m A^T = C -> (forall Y, A *m Y + Y *m A^T = 0 -> Y = 0) -> s n A C = Some X).
End Spec.

(** a system with constant matrices *)
Definition const_mats (F : ringType) k p r (T : 'M[F]_k) (Rm : 'M[F]_(k, r)) (Q : 'M[F]_r) (c : 'cV[F]_k) d Z H : nat -> mats F k p r :=
  fun _ => {| m_c := c; m_d := d; m_T := T; m_Z := Z; m_R := Rm; m_H := H; m_Q := Q |}.

Section Invariant.
Context (F : fieldType) (s : forall n, 'M[F]_n -> 'M[F]_n -> option 'M[F]_n) (Hs : continuous_solver_ok s) (H2 : (2%:R : F) != 0).

Lemma discrete_sound method n (A Q P : 'M[F]_n) : solve_discrete_lyapunov s A Q method = Some P -> P = A *m P *m A^T + Q.
Proof.
  case: method => /=; first exact: direct_sound.
  rewrite /lyapunov_bilinear /inv unit_tr1. case: ifP => // U. move/(proj1 Hs). by move/(bilinear_equation Q P H2 U).
Qed.
Lemma discrete_complete method n (A Q : 'M[F]_n) : lyap_unique A -> (A + 1%:M) \in unitmx -> exists P, solve_discrete_lyapunov s A Q method = Some P.
Proof.
  move=> HA U. case: method => /=; first exact: direct_complete.
  have [P EP] := direct_complete Q HA. exists P. rewrite /lyapunov_bilinear /inv unit_tr1 U. apply: (proj2 Hs).
  - apply/(bilinear_equation Q P H2 U). exact: direct_sound.
  - move=> Y EY. apply: HA. rewrite -[RHS]addr0. apply/(bilinear_equation 0 Y H2 U). by rewrite EY mulmx0 mul0mx scaler0 oppr0.
Qed.
Lemma init_invariant jax k r (T : 'M[F]_k) (Rm : 'M[F]_(k, r)) Q c x0 P0 :
  stationary_initialization s jax T Rm Q c = Some (x0, P0) \/ varmax_initialization s T Rm Q c = Some (x0, P0) -> invariant T Rm Q c x0 P0.
Proof.
  move=> H. have K : exists method, solve (1%:M - T) c = Some x0 /\ solve_discrete_lyapunov s T (Rm *m Q *m Rm^T) method = Some P0.
  { case: H; rewrite /stationary_initialization /varmax_initialization; case: (solve _ _) => [x|] //.
    - case E: (solve_discrete_lyapunov _ _ _ _) => [P|] //= [<- <-]. eexists. split=> //. exact: E.
    - case E: (solve_discrete_lyapunov _ _ _ _) => [P|] //= [<- <-]. eexists. split=> //. exact: E. }
  case: K => method [/solveP E1 /discrete_sound E2]. split=> //. by rewrite -{1}E1 mulmxBl mul1mx subrK.
Qed.
(** If the initialization succeeds, the model never leaves it: at every horizon the predicted mean and covariance of the state are the initial ones. *)
Theorem C88_moments_constant jax k r p (T : 'M[F]_k) (Rm : 'M[F]_(k, r)) Q c (d : 'cV[F]_p) Z H x0 P0 h :
  stationary_initialization s jax T Rm Q c = Some (x0, P0) \/ varmax_initialization s T Rm Q c = Some (x0, P0) ->
  pmean (const_mats T Rm Q c d Z H) x0 h = x0 /\ pcov (const_mats T Rm Q c d Z H) P0 h = P0.
Proof.
  move=> /init_invariant [E1 E2]. split; elim: h => [|h IH] //=; rewrite IH.
  - by rewrite -E1.
  - by rewrite -E2.
Qed.
End Invariant.

Lemma R2_neq0 : (2%:R : R) != 0. Proof. by rewrite pnatr_eq0. Qed.
Section Stable.
Context (s : forall n, 'M[R]_n -> 'M[R]_n -> option 'M[R]_n) (Hs : continuous_solver_ok s).
Context (k r : nat) (T : 'M[R]_k) (HT : eigenvalues_inside T) (Rm : 'M[R]_(k, r)) (Q : 'M[R]_r) (c : 'cV[R]_k).
Let V : powers_vanish T := eigenvalues_powers HT.
Lemma unit_p1 : (T + 1%:M) \in unitmx.
Proof. have := unit_1mT (vanish_N V). by rewrite opprK addrC. Qed.
Lemma invariant_unique x P x' P' : invariant T Rm Q c x P -> invariant T Rm Q c x' P' -> x = x' /\ P = P'.
Proof.
  move=> [E1 E2] [E1' E2']. split.
  - apply/eqP. rewrite -subr_eq0. apply/eqP. apply: (fixed_zero V). by rewrite mulmxBr {1}E1 {1}E1' opprD addrACA subrr add0r.
  - apply/eqP. rewrite -subr_eq0. apply/eqP. apply: (lyap_vanish_unique V). by rewrite mulmxBr mulmxBl {1}E2 {1}E2' opprD addrACA subrr addr0.
Qed.
Lemma cov_sym x P : invariant T Rm Q c x P -> Q^T = Q -> P^T = P.
Proof.
  move=> HI HQ. have [E1 E2] := HI. have : invariant T Rm Q c x P^T; last by move/(invariant_unique HI) => [_ <-].
  split=> //. rewrite {1}E2 linearD /= !trmx_mul !trmxK HQ !mulmxA. by [].
Qed.
Lemma cov_psd x P : invariant T Rm Q c x P -> psd Q -> psd P.
Proof.
  move=> [_ E2] HQ. apply: (lyap_psd V E2) => y. have -> : y *m (Rm *m Q *m Rm^T) *m y^T = (y *m Rm) *m Q *m (y *m Rm)^T; last exact: HQ. by rewrite trmx_mul !mulmxA.
Qed.
(** When every complex eigenvalue of T lies inside the unit circle the initialization always succeeds, with either method, and gives the only distribution that the model leaves unchanged;
    its covariance is symmetric and positive semidefinite when Q is. *)
Theorem C88_defined : exists x0 P0, (forall jax, stationary_initialization s jax T Rm Q c = Some (x0, P0)) /\ varmax_initialization s T Rm Q c = Some (x0, P0) /\
  invariant T Rm Q c x0 P0 /\ (forall x P, invariant T Rm Q c x P -> x = x0 /\ P = P0) /\ (Q^T = Q -> P0^T = P0) /\ (psd Q -> psd P0).
Proof.
  have U1 := unit_1mT V. have L := lyap_vanish_unique V. have Up := unit_p1. pose M := Rm *m Q *m Rm^T.
  have [P0 E0] := discrete_complete Hs R2_neq0 Direct M L Up. have I0 := discrete_sound Hs R2_neq0 E0.
  have A : forall m, solve_discrete_lyapunov s T M m = Some P0.
  { move=> m. have [P E] := discrete_complete Hs R2_neq0 m M L Up. rewrite E. congr Some. have I := discrete_sound Hs R2_neq0 E.
    apply/eqP. rewrite -subr_eq0. apply/eqP. apply: L. by rewrite mulmxBr mulmxBl {1}I {1}I0 opprD addrACA subrr addr0. }
  have J : invariant T Rm Q c (invmx (1%:M - T) *m c) P0.
  { split=> //. have E : (1%:M - T) *m (invmx (1%:M - T) *m c) = c by rewrite mulmxA mulmxV // mul1mx. by rewrite -{2}E mulmxBl mul1mx subrK. }
  exists (invmx (1%:M - T) *m c), P0. split; [|split; [|split; [|split; [|split]]]] => //.
  - move=> jax. by rewrite /stationary_initialization /solve U1 -/M A.
  - by rewrite /varmax_initialization /solve U1 -/M A.
  - move=> x P HI. exact: invariant_unique.
  - exact: (cov_sym J).
  - exact: (cov_psd J).
Qed.
(** The model forgets where it was started: from any mean and covariance the predicted moments tend to those of the initialization. *)
Theorem C88_limit p (d : 'cV[R]_p) Z H x0 P0 mu V0 : invariant T Rm Q c x0 P0 -> forall eps : R, 0 < eps -> exists N, forall h, (N <= h)%N ->
  (forall i j, `|pmean (const_mats T Rm Q c d Z H) mu h i j - x0 i j| < eps) /\ (forall i j, `|pcov (const_mats T Rm Q c d Z H) V0 h i j - P0 i j| < eps).
Proof.
  move=> [E1 E2] eps He.
  have K1 : forall h, pmean (const_mats T Rm Q c d Z H) mu h - x0 = mpow T h (mu - x0).
  { elim=> // h IH. rewrite [mpow T h.+1 _]iterS -/(mpow T h (mu - x0)) -IH /= mulmxBr {1}E1 opprD addrACA subrr add0r. by []. }
  have K2 : forall h, pcov (const_mats T Rm Q c d Z H) V0 h - P0 = mpow T h (V0 - P0) *m (mpow T h 1%:M)^T.
  { elim=> [|h IH]; first by rewrite /= trmx1 mulmx1. rewrite /= {1}E2 opprD addrACA subrr addr0 -mulmxBl -mulmxBr IH trmx_mul !mulmxA. by []. }
  have [N1 H1] := vanish_mul V (mu - x0) He. have [N2 H2] := vanish_quad V (V0 - P0) He.
  exists (maxn N1 N2) => h. rewrite geq_max => /andP [Hn1 Hn2]. split=> i j.
  - have := H1 h Hn1 i j. by rewrite -K1 !mxE.
  - have := H2 h Hn2 i j. by rewrite -K2 !mxE.
Qed.
End Stable.

(** ** SARIMA models without differencing *)
Section Sarima.
Lemma cplx_row m n (M : 'M[R]_(m, n)) (v : 'cV[R[i]]_n) r : (cplx M *m v) r 0 = \sum_c (M r c)%:C%C * v c 0.
Proof. rewrite mxE. by apply: eq_bigr => c _; rewrite mxE. Qed.
(** the AR polynomial phi(z) Phi(z^S) has its complex roots outside the unit circle *)
Definition stationary_coefficients (S : nat) (phi Phi : seq R) : Prop :=
  forall z : R[i], root (map_poly (real_complex R) (ar_poly phi 1 * ar_poly Phi S)) z -> 1 < `|z|.

Lemma rootE_inv (A : {poly R}) (l : R[i]) K : l != 0 -> (size A <= K.+1)%N -> \sum_(i < K.+1) (A`_i)%:C%C * l ^+ (K - i) = 0 -> root (map_poly (real_complex R) A) l^-1.
Proof.
  move=> Hl HA E. rewrite rootE. apply/eqP. apply: (mulfI (expf_neq0 K Hl)). rewrite mulr0 -E (@horner_coef_wide _ K.+1); last by rewrite size_map_poly.
  rewrite mulr_sumr. apply: eq_bigr => i _. rewrite coef_map /= mulrCA. congr (_ * _). rewrite exprVn -expfB_cond ?(negbTE Hl) ?add0n //. by rewrite -ltnS.
Qed.
Lemma norm_of_inv (l : R[i]) : l != 0 -> 1 < `|l^-1| -> `|l| < 1.
Proof. move=> Hl. rewrite normfV. by rewrite invf_gt1 // normr_gt0. Qed.

Theorem C88_sarima_fast S (phi theta Phi Theta : seq R) :
  let p := size phi in let q := size theta in let P := size Phi in let Q := size Theta in let k := k_states p 0 q P 0 Q S in
  seasonal_ok P 0 Q S -> verify_order p q P Q S -> stationary_coefficients S phi Phi ->
  eigenvalues_inside (\matrix_(i < k, j < k) fast_T p 0 q P 0 Q S phi Phi i j).
Proof.
  move=> p q P Q k sok ok HA l v Nv E. case: (eqVneq l 0) => [->|Hl]; first by rewrite normr0 ltr01.
  apply: norm_of_inv => //. apply: HA. set A := ar_poly phi 1 * ar_poly Phi S.
  have Ek : k = maxn (p + P * S) (q + Q * S + 1) by rewrite /k /k_states /k_lags /n_diffs; mlia.
  have Hk : (0 < k)%N by rewrite Ek; mlia.
  pose w (i : nat) : R[i] := if insub i is Some o then v o 0 else 0.
  have wE (o : 'I_k) : w o = v o 0 by rewrite /w valK.
  have wK i : (k <= i)%N -> w i = 0. { move=> Hi. rewrite /w insubF //. by rewrite ltnNge Hi. }
  have step i : (i < k)%N -> w i.+1 = l * w i + (A`_i.+1)%:C%C * w 0%N.
  { move=> Hi. move/matrixP/(_ (Ordinal Hi) 0): E. rewrite cplx_row [RHS]mxE -wE /= => E'.
    have S1 : \sum_c ((\matrix_(i0 < k, j < k) fast_T p 0 q P 0 Q S phi Phi i0 j) (Ordinal Hi) c)%:C%C * v c 0 = - (A`_i.+1)%:C%C * w 0%N + w i.+1.
    { rewrite (eq_bigr (fun c : 'I_k => (if c == 0%N :> nat then - (A`_i.+1)%:C%C * w 0%N else 0) + (if c == i.+1 :> nat then w i.+1 else 0))).
      - rewrite big_split /=. congr (_ + _).
        + rewrite (bigD1 (Ordinal Hk)) //= big1 ?addr0 // => c Hc. case: eqP => // Z. case/negP: Hc. by apply/eqP/val_inj.
        + case: (ltnP i.+1 k) => Hi1; last first. { rewrite wK // big1 // => c _. by rewrite if_same. }
          rewrite (bigD1 (Ordinal Hi1)) //= eqxx big1 ?addr0 // => c Hc. case: eqP => // Z. case/negP: Hc. by apply/eqP/val_inj.
      - move=> c _. rewrite mxE. have Hi' : (i < maxn (p + P * S) (q + Q * S + 1))%N by rewrite -Ek.
        have := @C23_ar_column_is_product_polynomial _ 0 0 S phi theta Phi Theta i c sok ok Hi' (ltn_ord c). rewrite muln0 !add0n -/p -/q -/P -/Q -/A => ->.
        rewrite -wE rmorphD /= mulrDl. congr (_ + _).
        + case: eqP => [->|_]; last by rewrite rmorph0 mul0r. by rewrite rmorphN.
        + case: eqP => [->|_]; [by rewrite rmorph1 mul1r|by rewrite rmorph0 mul0r]. }
    rewrite S1 in E'. rewrite -E' mulNr addrAC addNr add0r. by []. }
  have A0 : A`_0 = 1.
  { have := ar_coef phi Phi S 0. rewrite -/A coefB coef1 /= => e0. apply/esym/eqP. rewrite -subr_eq0 -e0. case: (sok) => [SP _ _]. by rewrite gcoef0. }
  have closed i : (i <= k)%N -> w i = (\sum_(j < i.+1) (A`_j)%:C%C * l ^+ (i - j)) * w 0%N.
  { elim: i => [|i IH] Hi; first by rewrite big_ord1 A0 rmorph1 !mul1r.
    rewrite step // IH ?(ltnW Hi) // [in RHS]big_ord_recr /= subnn expr0 mulr1 mulrDl. congr (_ + _). rewrite mulrA mulr_sumr. congr (_ * _). apply: eq_bigr => j _. rewrite mulrCA -exprS subSn //. by rewrite -ltnS. }
  have w0 : w 0%N != 0.
  { apply/negP => /eqP Z. case/negP: Nv. apply/eqP/matrixP => i j. rewrite ord1 mxE -wE closed ?Z ?mulr0 //. exact: ltnW. }
  apply: (rootE_inv (K := k)) => //.
  - apply/leq_sizeP => j Hj. have [K _] := C23_state_long_enough 0 0 S phi theta Phi Theta j. apply: K. by rewrite muln0 addn0 subn0.
  - apply: (mulIf w0). by rewrite mul0r -closed // wK.
Qed.
Theorem C88_sarima_interpretable S (phi theta Phi Theta : seq R) :
  let p := size phi in let q := size theta in let P := size Phi in let Q := size Theta in let k := interp_k p q P Q S in
  seasonal_ok P 0 Q S -> verify_order p q P Q S -> stationary_coefficients S phi Phi ->
  eigenvalues_inside (\matrix_(i < k, j < k) interp_T p q P Q S phi Phi theta Theta i j).
Proof.
  move=> p q P Q k sok ok HA l v Nv E. case: (eqVneq l 0) => [->|Hl]; first by rewrite normr0 ltr01.
  apply: norm_of_inv => //. apply: HA. set A := ar_poly phi 1 * ar_poly Phi S. set M := ma_poly theta 1 * ma_poly Theta S.
  pose pm := p_max p P S. pose qm := q_max q Q S. have Ek : k = (pm + qm)%N by [].
  have Hp : (0 < pm)%N by rewrite /pm /p_max; mlia. have Hq : (0 < qm)%N by rewrite /qm /q_max; mlia. have Hk : (0 < k)%N by rewrite Ek; mlia.
  case: (sok) => [SP _ SQ].
  pose w (i : nat) : R[i] := if insub i is Some o then v o 0 else 0.
  have wE (o : 'I_k) : w o = v o 0 by rewrite /w valK.
  have row i (Hi : (i < k)%N) : l * w i = \sum_(c < k) (interp_T p q P Q S phi Phi theta Theta i c)%:C%C * w c.
  { move/matrixP/(_ (Ordinal Hi) 0): E. rewrite cplx_row [RHS]mxE -wE /= => <-. apply: eq_bigr => c _. by rewrite mxE wE. }
  have TE i c : (i < k)%N -> (c < k)%N -> interp_T p q P Q S phi Phi theta Theta i c = if i == 0%N then (if (c < pm)%N then (1 - A)`_c.+1 else (M - 1)`_(c - pm).+1) else if i == pm then 0 else (i == c.+1)%:R.
  { move=> Hi Hc. exact: (iT_E SP SQ ok). }
  have wpm : w pm = 0.
  { have Hi : (pm < k)%N by rewrite Ek; mlia. apply: (mulfI Hl). rewrite mulr0 row // big1 // => c _. rewrite TE // eqxx ifF ?rmorph0 ?mul0r //. by apply/negP => /eqP Z; move: Hp; rewrite Z. }
  have shift i : (i.+1 < k)%N -> i.+1 != pm -> l * w i.+1 = w i.
  { move=> Hi Ni. have Hi' : (i < k)%N by mlia. rewrite row // (bigD1 (Ordinal Hi')) //= TE //= (negbTE Ni) eqxx rmorph1 mul1r big1 ?addr0 // => c Hc. rewrite TE //= (negbTE Ni) eqSS.
    case: eqP => [Z|_]; last by rewrite rmorph0 mul0r. case/negP: Hc. apply/eqP/val_inj. by rewrite /= -Z. }
  have wmo j : (j < qm)%N -> w (pm + j)%N = 0.
  { elim: j => [|j IH] Hj; first by rewrite addn0. apply: (mulfI Hl). rewrite mulr0 addnS shift ?IH //; first by mlia. - by rewrite Ek; mlia. - apply/negP => /eqP; mlia. }
  have war i : (i < pm)%N -> w i = l^-1 ^+ i * w 0%N.
  { elim: i => [|i IH] Hi; first by rewrite expr0 mul1r. apply: (mulfI Hl). rewrite shift; [|rewrite Ek; mlia|apply/negP => /eqP; mlia]. rewrite IH ?(ltnW Hi) // exprS !mulrA divff // mul1r. by []. }
  have w0 : w 0%N != 0.
  { apply/negP => /eqP Z. case/negP: Nv. apply/eqP/matrixP => i j. rewrite ord1 mxE -wE. case: (ltnP i pm) => Hi; first by rewrite war // Z mulr0.
    have -> : i = (pm + (i - pm))%N :> nat by rewrite subnKC. rewrite wmo //. have Hi' : (i < pm + qm)%N by exact: ltn_ord. mlia. }
  have A0 : A`_0 = 1.
  { have := ar_coef phi Phi S 0. rewrite -/A coefB coef1 /= => e0. apply/esym/eqP. by rewrite -subr_eq0 -e0 gcoef0. }
  have R0' : l * w 0%N = - \sum_(c < pm) (A`_c.+1)%:C%C * w c.
  { rewrite row // -(big_mkord xpredT (fun c => (interp_T p q P Q S phi Phi theta Theta 0%N c)%:C%C * w c)) Ek (@big_cat_nat _ _ _ pm) //=; last by mlia.
    rewrite [X in _ + X]big_nat_cond [X in _ + X]big1 ?addr0.
    - rewrite big_mkord -sumrN. apply: eq_bigr => c _. have Hc : (c < k)%N by have := ltn_ord c; rewrite Ek; mlia. rewrite TE // eqxx ltn_ord. by rewrite coefB coef1 /= sub0r rmorphN mulNr.
    - move=> c /andP [/andP [H1 H2] _]. have -> : c = (pm + (c - pm))%N by rewrite subnKC. rewrite wmo ?mulr0 //. mlia. }
  apply: (rootE_inv (K := pm)) => //.
  - apply: leq_trans (_ : (p + P * S).+1 <= _)%N; last by rewrite /pm /p_max; mlia. by have := size_prod (size_arp phi 1) (size_arp Phi S); rewrite muln1.
  - apply: (mulIf w0). rewrite mul0r big_ord_recl A0 rmorph1 mul1r subn0. apply: (mulfI (invr_neq0 (expf_neq0 (pm - 1) Hl))). rewrite mulr0 mulrDl mulrDr.
    have -> : (l ^+ (pm - 1))^-1 * (l ^+ pm * w 0%N) = l * w 0%N.
    { rewrite mulrA -{2}(subnK Hp) addn1 exprSr mulrA mulVf ?mul1r //. exact: expf_neq0. }
    rewrite R0'. apply/eqP. rewrite addrC subr_eq0. apply/eqP. rewrite mulr_suml mulr_sumr. apply: eq_bigr => c _. rewrite /= /bump add1n (war c) // mulrCA. rewrite -!mulrA. congr (_ * _).
    rewrite exprVn !mulrA. congr (_ * _). have Hc := ltn_ord c.
    have -> : (pm - 1 = (pm - c.+1) + c)%N by mlia. rewrite exprD invfM mulrA divff ?mul1r //. exact: expf_neq0.
Qed.
(** A sufficient condition, for every order: the absolute AR coefficients sum to less than one, and so do the seasonal ones. *)
Theorem C88_small_coefficients S (phi Phi : seq R) : (0 < size Phi -> 0 < S)%N -> \sum_(a <- phi) `|a| < 1 -> \sum_(a <- Phi) `|a| < 1 -> stationary_coefficients S phi Phi.
Proof.
  move=> HS H1 H2 z Hz.
  have K : forall (a : seq R) s0, \sum_(x <- a) `|x| < 1 -> `|z| <= 1 -> ~~ root (map_poly (real_complex R) (ar_poly a s0)) z.
  { move=> a s0 Ha Hz1. apply/negP. rewrite rootE /ar_poly rmorphB /= rmorph1 rmorph_sum hornerD hornerN hornerC subr_eq0 => /eqP E.
    have : (1 : R[i]) <= (\sum_(x <- a) `|x|)%:C%C; last by rewrite -(rmorph1 (ComplexField.real_complex_rmorphism R_rcfType)) lecR leNgt Ha.
    have -> : (1 : R[i]) = `|1| by rewrite normr1. rewrite {1}E horner_sum. apply: le_trans (ler_norm_sum _ _ _) _. rewrite (big_nth 0) big_mkord rmorph_sum /=. apply: ler_sum => i _.
    rewrite map_polyZ /= map_polyXn hornerZ hornerXn normrM normrX. apply: le_trans (_ : `|(a`_i)%:C%C : R[i]| <= _).
    - by rewrite ler_pimulr ?normr_ge0 // exprn_ile1 ?normr_ge0.
    - by rewrite normc_def /= expr0n /= addr0 sqrtr_sqr. }
  have Rz : `|z| \is Num.real by exact: normr_real. rewrite real_ltNge ?rpred1 //. apply/negP => Hz1. move: Hz. rewrite rmorphM rootM => /orP []; apply/negP; exact: K.
Qed.
(** SARIMA, both state structures: with stationary coefficients and no differencing the default initialization is defined for every mean and shock variance, invariant, unique and a covariance. *)
Theorem C88_sarima (s : forall n, 'M[R]_n -> 'M[R]_n -> option 'M[R]_n) S (phi theta Phi Theta : seq R) : continuous_solver_ok s ->
  let p := size phi in let q := size theta in let P := size Phi in let Q := size Theta in
  seasonal_ok P 0 Q S -> verify_order p q P Q S -> stationary_coefficients S phi Phi ->
  forall k (T : 'M[R]_k), ((k = k_states p 0 q P 0 Q S) /\ (forall i j : 'I_k, T i j = fast_T p 0 q P 0 Q S phi Phi i j)) \/
                          ((k = interp_k p q P Q S) /\ (forall i j : 'I_k, T i j = interp_T p q P Q S phi Phi theta Theta i j)) ->
  forall (Rm : 'cV[R]_k) (sigma : R) (c : 'cV[R]_k) jax, exists x0 P0, stationary_initialization s jax T Rm ((sigma ^+ 2)%:M : 'M_1) c = Some (x0, P0) /\
    invariant T Rm ((sigma ^+ 2)%:M : 'M_1) c x0 P0 /\ (forall x P', invariant T Rm ((sigma ^+ 2)%:M : 'M_1) c x P' -> x = x0 /\ P' = P0) /\ P0^T = P0 /\ psd P0.
Proof.
  move=> Hs p q P Q sok ok HA k T HT Rm sigma c jax.
  have HE : eigenvalues_inside T.
  { case: HT => [[Ek HT]|[Ek HT]]; subst k.
    - have := @C88_sarima_fast S phi theta Phi Theta sok ok HA. have -> : (\matrix_(i, j) fast_T (size phi) 0 (size theta) (size Phi) 0 (size Theta) S phi Phi i j) = T by apply/matrixP => i j; rewrite mxE HT. by [].
    - have := @C88_sarima_interpretable S phi theta Phi Theta sok ok HA. have -> : (\matrix_(i, j) interp_T (size phi) (size theta) (size Phi) (size Theta) S phi Phi theta Theta i j) = T by apply/matrixP => i j; rewrite mxE HT. by []. }
  have [x0 [P0 [E [_ [I [U [HS HP]]]]]]] := C88_defined Hs HE Rm ((sigma ^+ 2)%:M : 'M_1) c.
  exists x0, P0. split; [exact: E|split; [exact: I|split; [exact: U|split]]].
  - apply: HS. by rewrite tr_scalar_mx.
  - apply: HP => x. rewrite mul_mx_scalar -scalemxAl !mxE big_ord1 !mxE. apply: mulr_ge0; first exact: sqr_ge0. by rewrite -expr2 sqr_ge0.
Qed.
(** REFUTED for differenced models: the initialization is undefined whatever the coefficients, the intercept and the variances. *)
Theorem C88_differenced_refuted (s : forall n, 'M[R]_n -> 'M[R]_n -> option 'M[R]_n) d D S (phi theta Phi Theta : seq R) :
  let p := size phi in let q := size theta in let P := size Phi in let Q := size Theta in let k := k_states p d q P D Q S in
  seasonal_ok P D Q S -> verify_order p q P Q S -> (0 < d + D)%N ->
  let T := \matrix_(i < k, j < k) fast_T p d q P D Q S phi Phi i j in
  forall jax r (Rm : 'M[R]_(k, r)) Qm c, stationary_initialization s jax T Rm Qm c = None.
Proof. move=> p q P Q k sok ok Hd T jax r Rm Qm c. by rewrite /stationary_initialization /solve (negbTE (C64_differenced_refuted (F := R_fieldType) sok ok Hd)). Qed.
End Sarima.

Section Rot.
Context (F : fieldType).
Add Field ff : (@f_field F).
Lemma rot_ring (c s ai aj bi bj : F) : (c ^+ 2 + s ^+ 2) * (ai * aj + bi * bj) = (c * ai - s * bi) * (c * aj - s * bj) + (s * ai + c * bi) * (s * aj + c * bj).
Proof. fchange. ring. Qed.
End Rot.
(** REFUTED beyond that: with an eigenvalue on the unit circle (for example a seasonal unit root, or a root of the AR polynomial at -1) the direct method has no answer, whatever the shocks. *)
Theorem C88_unit_root_refuted k (T : 'M[R]_k) (l : R[i]) (v : 'cV[R[i]]_k) Q : v != 0 -> cplx T *m v = l *: v -> `|l| = 1 -> lyapunov_direct T Q = None.
Proof.
  move=> Nv E Hl. pose a : 'cV[R]_k := \col_i complex.Re (v i 0). pose b : 'cV[R]_k := \col_i complex.Im (v i 0). pose c := complex.Re l. pose s := complex.Im l.
  have Hcs : c ^+ 2 + s ^+ 2 = 1.
  { move: Hl. rewrite normc_def => /(congr1 (@complex.Re R)) /= Hl. have := sqr_sqrtr (addr_ge0 (sqr_ge0 c) (sqr_ge0 s)). by rewrite -/c -/s in Hl *; rewrite Hl expr1n. }
  have Ea : T *m a = c *: a - s *: b /\ T *m b = s *: a + c *: b.
  { have K : forall i, (complex.Re (\sum_j (T i j)%:C%C * v j 0) = \sum_j T i j * complex.Re (v j 0)) /\ (complex.Im (\sum_j (T i j)%:C%C * v j 0) = \sum_j T i j * complex.Im (v j 0)).
    { move=> i. rewrite !raddf_sum /=. split; apply: eq_bigr => j _; case: (v j 0) => x y /=; [by rewrite mul0r subr0|by rewrite mul0r addr0]. }
    split; apply/matrixP => i j; rewrite ord1.
    - move/matrixP/(_ i 0): E. rewrite cplx_row [RHS]mxE => /(congr1 (@complex.Re R)). rewrite (proj1 (K i)) => E. rewrite !mxE. have -> : \sum_j0 T i j0 * a j0 0 = \sum_j0 T i j0 * complex.Re (v j0 0) by apply: eq_bigr => j0 _; rewrite mxE.
      rewrite E /c /s. by case: (l) => l1 l2; case: (v i 0) => x y.
    - move/matrixP/(_ i 0): E. rewrite cplx_row [RHS]mxE => /(congr1 (@complex.Im R)). rewrite (proj2 (K i)) => E. rewrite !mxE. have -> : \sum_j0 T i j0 * b j0 0 = \sum_j0 T i j0 * complex.Im (v j0 0) by apply: eq_bigr => j0 _; rewrite mxE.
      rewrite E /c /s. case: (l) => l1 l2; case: (v i 0) => x y /=. by rewrite addrC. }
  case: Ea => Ea Eb. pose X := a *m a^T + b *m b^T.
  have EX : X = T *m X *m T^T.
  { rewrite /X mulmxDr mulmxDl !mulmxA Ea Eb -!mulmxA -!trmx_mul Ea Eb. apply/matrixP => i j. rewrite !mxE !big_ord1 !mxE.
    set ai := complex.Re (v i 0). set aj := complex.Re (v j 0). set bi := complex.Im (v i 0). set bj := complex.Im (v j 0).
    transitivity ((c ^+ 2 + s ^+ 2) * (ai * aj + bi * bj)); first by rewrite Hcs mul1r.
    exact: rot_ring. }
  have NX : X != 0.
  { apply/negP => /eqP Z. case/negP: Nv. apply/eqP/matrixP => i j. rewrite ord1 mxE. move/matrixP/(_ i i): Z. rewrite !mxE !big_ord1 !mxE -!expr2 => /eqP. rewrite paddr_eq0 ?sqr_ge0 // !sqrf_eq0.
    case: (v i 0) => x y /=. by move=> /andP [/eqP -> /eqP ->]. }
  rewrite /lyapunov_direct /solve. case U: (_ \in unitmx) => //. move/kron_unit: U => /(_ X EX) Z. by rewrite Z eqxx in NX.
Qed.

(** ** The hypotheses are met *)
Section Examples.
(** a solver of the continuous equation exists: the system (A (x) I + I (x) A) vec(X) = vec(C) *)
Lemma kron_ravel2 (F : fieldType) k (A B X : 'M[F]_k) : kron A B *m ravel X = ravel (A *m X *m B^T).
Proof.
  apply/matrixP => a b. rewrite !mxE [RHS](eq_bigr (fun l => \sum_i A (mxtens_unindex a).1 i * X i l * B (mxtens_unindex a).2 l)); last by move=> l _; rewrite !mxE mulr_suml.
  rewrite exchange_big pair_big /= (reindex (@mxtens_index k k)) /=; last by exists (@mxtens_unindex k k) => i _; [apply: mxtens_indexK|apply: mxtens_unindexK].
  apply: eq_bigr => [[i j] _]. rewrite !mxE mxtens_indexK /=. by rewrite -mulrA (mulrC (B _ j)) mulrA.
Qed.
Definition kron_solver (F : fieldType) n (A C : 'M[F]_n) : option 'M[F]_n := omap (@reshape F n) (solve (kron A 1%:M + kron 1%:M A) (ravel C)).
Lemma continuous_solver_exists (F : fieldType) : continuous_solver_ok (@kron_solver F).
Proof.
  have K : forall n (A X : 'M[F]_n), (kron A 1%:M + kron 1%:M A) *m ravel X = ravel (A *m X + X *m A^T).
  { move=> n A X. rewrite mulmxDl !kron_ravel2 trmx1 mulmx1 mul1mx. by apply/matrixP => i j; rewrite !mxE. }
  have Z : forall n, ravel (0 : 'M[F]_n) = 0 by move=> n; apply/matrixP => i j; rewrite !mxE.
  split=> n A C X.
  - rewrite /kron_solver. case E: (solve _ _) => [x|] //= [<-]. apply: (@ravel_inj F). rewrite -K reshapeK. exact: solveP.
  - move=> E U. have Hu : (kron A 1%:M + kron 1%:M A) \in unitmx.
    { rewrite -unitmx_tr unitmxE unitfE. apply/negP => /det0P [v Nv]. rewrite -[v]trmxK -trmx_mul => /(congr1 trmx). rewrite trmxK trmx0 -(reshapeK v^T) K -Z => /(@ravel_inj F) /U W.
      case/negP: Nv. by rewrite -trmx_eq0 -(reshapeK v^T) W Z. }
    rewrite /kron_solver /solve Hu /= -E -K mulmxA mulVmx // mul1mx ravelK. by [].
Qed.
(** AR(1) with |phi| < 1: mean c / (1 - phi) and variance sigma^2 / (1 - phi^2) *)
Example C88_ar1_example (phi sigma c : R) jax : `|phi| < 1 ->
  stationary_initialization (@kron_solver R_fieldType) jax ((phi%:M : 'M[R]_1)) (1%:M : 'M_1) ((sigma ^+ 2)%:M : 'M_1) (c%:M : 'cV_1) = Some ((c / (1 - phi))%:M, (sigma ^+ 2 / (1 - phi ^+ 2))%:M).
Proof.
  move=> Hphi. have HA : stationary_coefficients 0 [:: phi] [::] by apply: C88_small_coefficients; rewrite ?big_nil ?ltr01 // big_seq1.
  have N1 : 1 - phi != 0. { rewrite subr_eq0 eq_sym. apply/negP => /eqP Z. by rewrite Z normr1 ltxx in Hphi. }
  have N2 : 1 + phi != 0. { rewrite addrC addr_eq0. apply/negP => /eqP Z. by rewrite Z normrN1 ltxx in Hphi. }
  have sok : seasonal_ok 0 0 0 0 by []. have ok : verify_order 1 0 0 0 0 by [].
  have [|x0 [P0 [E [I [U _]]]]] := @C88_sarima (@kron_solver R_fieldType) 0 [:: phi] [::] [::] [::] (@continuous_solver_exists R_fieldType) sok ok HA 1 (phi%:M) _ 1%:M sigma (c%:M) jax.
  - left. split=> // i j. rewrite !ord1 mxE eqxx. by vm_compute.
  - rewrite E. have [|-> ->] := U ((c / (1 - phi))%:M) ((sigma ^+ 2 / (1 - phi ^+ 2))%:M); last by [].
    split.
    + rewrite -scalar_mxM -raddfD /=. congr (_%:M). apply: (mulIf N1). 
      by rewrite divfK // mulrDl -mulrA divfK // mulrBr mulr1 [phi * c]mulrC subrK.
    + rewrite trmx1 mulmx1 mul1mx tr_scalar_mx -!scalar_mxM -raddfD /=. congr (_%:M). have N3 : 1 - phi ^+ 2 != 0 by rewrite -{1}(expr1n R_ringType 2) subr_sqr mulf_neq0.
      apply: (mulIf N3). rewrite divfK // mulrDl [phi * _ * phi]mulrAC -[_ * (sigma ^+ 2 / _) * _]mulrA divfK // mulrBr mulr1 -expr2 [phi ^+ 2 * _]mulrC addrC subrK. by [].
Qed.
End Examples.
