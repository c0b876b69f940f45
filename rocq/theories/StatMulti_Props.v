(** C88 for the VARMAX and ETS models of Multi_Model: when their stationary initialization is defined. *)
From Coq Require Import Reals String Lra ZArith Lia.
From Verif Require Common Struct_Model Multi_Model Multi_Varma Multi_Ets StatEntries.
From mathcomp Require Import all_ssreflect all_algebra.
From mathcomp Require Import complex.
From Verif Require Import McLia McTac RealMc Stat_Model Stat_Proofs Stat_Props.
Set Implicit Arguments.
Unset Strict Implicit.
Unset Printing Implicit Defensive.
Import Order.TTheory GRing.Theory Num.Theory.
Import Common(res, Ok, Err).
Import Multi_Model(vpar, v_ar, varmax, varmax_k_states, n_states, ss_T, ss_R, ss_Q, epar, e_phi, ets_T, b2n).
Import StatEntries.
Local Open Scope ring_scope.

(** the transition matrix of a model with [n] states, as a matrix *)
Definition mx_of (n m : nat) (M : nat -> nat -> R) : 'M[R]_(n, m) := \matrix_(i, j) M i j.

Section Vec.
Context (k : nat) (v : 'cV[R[i]]_k).
Definition nv (i : nat) : R[i] := if insub i is Some o then v o 0 else 0.
Lemma nvE (o : 'I_k) : nv o = v o 0. Proof. by rewrite /nv valK. Qed.
Lemma nv_row (M : nat -> nat -> R) l i : cplx (mx_of k k M) *m v = l *: v -> (i < k)%N -> l * nv i = \sum_(0 <= c < k) (M i c)%:C%C * nv c.
Proof.
  move=> E Hi. move/matrixP/(_ (Ordinal Hi) 0): E. rewrite cplx_row [RHS]mxE -nvE /= => <-. rewrite big_mkord. apply: eq_bigr => c _. by rewrite mxE nvE.
Qed.
Lemma nv_zero : (forall i, (i < k)%N -> nv i = 0) -> v = 0.
Proof. move=> H. apply/matrixP => i j. rewrite ord1 mxE -nvE. exact: H. Qed.
End Vec.
Lemma sum_at (C : ringType) n (F : nat -> C) i : (i < n)%N -> (forall c, (c < n)%N -> c != i -> F c = 0) -> \sum_(0 <= c < n) F c = F i.
Proof.
  move=> Hi H. rewrite big_mkord (bigD1 (Ordinal Hi)) //= big1 ?addr0 // => c Hc. exact: H.
Qed.
Lemma sum_blocks (C : ringType) n k (F : nat -> C) : \sum_(0 <= c < n * k) F c = \sum_(b < n) \sum_(l < k) F (b * k + l)%N.
Proof.
  elim: n => [|n IH]; first by rewrite mul0n big_nil big_ord0. rewrite big_ord_recr /= -IH (@big_cat_nat _ _ _ (n * k)) //=; last by rewrite mulSn leq_addl. congr (_ + _).
  rewrite -{1}[(n * k)%N]add0n big_addn mulSn addnK big_mkord. apply: eq_bigr => l _. by rewrite addnC.
Qed.

(** ** VARMAX *)
Section Varmax.
(** the VAR coefficients are stationary: det(I - A_1 z - ... - A_p z^p) has no zero in the closed unit disc, i.e. no nonzero w with w = (A_1 z + ... + A_p z^p) w *)
Definition var_stationary (p k : nat) (ar : nat -> nat -> nat -> R) : Prop :=
  forall (z : R[i]) (w : 'I_k -> R[i]), `|z| <= 1 -> (forall r, w r = \sum_(b < p) \sum_(c < k) z ^+ b.+1 * (ar r b c)%:C%C * w c) -> forall r, w r = 0.

Theorem C88_varmax p q k merr v m : (0 < k)%N -> varmax p q k merr v = Ok m -> var_stationary p k (v_ar v) -> eigenvalues_inside (mx_of (n_states m) (n_states m) (ss_T m)).
Proof.
  move=> Hk Em HA. have Hk' : (0 < k)%coq_nat by apply/ssrnat.ltP.
  have [m' [Em' [Hn [_ [_ [_ [_ [_ [_ [HT _]]]]]]]]]] := @Multi_Varma.varmax_ok p q k merr v Hk'. have {Em'} Emm : m' = m by move: Em'; rewrite Em; case. subst m'.
  set a := Nat.max p 1 in Hn HT. have [Ha [Hpa Hp0]] : (0 < a)%N /\ (p <= a)%N /\ (p = 0%N \/ p = a). { rewrite /a. split; [|split]; mlia. }
  set N := n_states m in Hn *. have EN : N = (k * (a + q))%N by rewrite Hn.
  move=> l v0 Nv E. apply/contraT => Hl. case/negP: Nv. apply/eqP. 
  have Rl : `|l| \is Num.real by exact: normr_real. rewrite -real_leNgt ?rpred1 // in Hl.
  have l0 : l != 0. { apply/negP => /eqP Z. move: Hl. by rewrite Z normr0 real_leNgt ?rpred0 ?rpred1 // ltr01. }
  pose w := nv v0. have T' i j : (i < N)%N -> (j < N)%N -> ss_T m i j = Multi_Varma.vT p q k v i j. { rewrite EN => /ssrnat.ltP Hi /ssrnat.ltP Hj. exact: HT. }
  have row i : (i < N)%N -> l * w i = \sum_(0 <= c < N) (Multi_Varma.vT p q k v i c)%:C%C * w c.
  { move=> Hi. rewrite (nv_row E Hi) !big_mkord. apply: eq_bigr => c _. by rewrite T'. }
  have sh i j : (k <= i)%N -> (i < N)%N -> (j < N)%N -> Multi_Varma.vT p q k v i j = if (k * a <= i)%N && (i < k * (a + 1))%N then 0 else if (j + k == i)%N then 1 else 0.
  { rewrite EN => /ssrnat.leP Hi /ssrnat.ltP Hi' /ssrnat.ltP Hj. rewrite (@vT_shift p q k v i j Hk' Hi Hi' Hj) -/a. case: (Nat.leb_spec _ _) => H1; case: (Nat.ltb_spec _ _) => H2; case: (Nat.eqb_spec _ _) => H3 /=.
    all: repeat (case: leqP => ?); repeat (case: eqP => ?) => //=; exfalso; mlia. }
  have kN : (k * a <= N)%N by rewrite EN leq_mul2l leq_addr orbT.
  have kkN : (k <= k * a)%N by rewrite -{1}[k]muln1 leq_mul2l Ha orbT.
  have rowz i : (k * a <= i)%N -> (i < k * (a + 1))%N -> (i < N)%N -> w i = 0.
  { move=> H1 H2 H3. apply: (mulfI l0). rewrite mulr0 row // big_nat big1 // => c Hc. rewrite sh ?H1 ?H2 //; [by rewrite mul0r|exact: leq_trans H1]. }
  have rows i : (k <= i)%N -> (i < N)%N -> ~~ ((k * a <= i)%N && (i < k * (a + 1))%N) -> l * w i = w (i - k)%N.
  { move=> H1 H2 H3. rewrite row // (@sum_at _ _ _ (i - k)%N); last first.
    - move=> c Hc Nc. rewrite sh // (negbTE H3). case: eqP => [Ec|]; last by rewrite mul0r. by case/negP: Nc; rewrite -Ec addnK.
    - exact: leq_ltn_trans (leq_subr _ _) H2.
    - rewrite sh //; last exact: leq_ltn_trans (leq_subr _ _) H2. by rewrite (negbTE H3) subnK // eqxx mul1r. }
  have tail i : (k * a <= i)%N -> (i < N)%N -> w i = 0.
  { have [n] := ubnP i. elim: n i => // n IH i Hin H1 H2. case: (ltnP i (k * (a + 1))%N) => H3; first exact: rowz.
    apply: (mulfI l0). have H4 : (k * a + k <= i)%N by move: H3; rewrite mulnDr muln1. rewrite mulr0 rows //; [apply: IH; mlia| |]; [mlia|].
    by rewrite negb_and -!leqNgt H3 orbT. }
  have lagw b r : (b < a)%N -> (r < k)%N -> l ^+ b * w (b * k + r)%N = w r.
  { move=> + Hr. elim: b => [|b IH] Hb; first by rewrite expr0 mul1r mul0n add0n. rewrite -IH; last exact: ltnW.
    have Hlt : (b.+1 * k + r < k * a)%N by rewrite mulnC; mnia. have Hge : (k <= b.+1 * k + r)%N by rewrite mulSn -addnA leq_addr.
    rewrite exprSr -mulrA rows //; last by rewrite negb_and -ltnNge Hlt. by congr (_ * w _); rewrite mulSn -addnA addnC addnK.
    exact: leq_trans kN. }
  have top r : (r < k)%N -> l * w r = \sum_(b < a) \sum_(c < k) (Multi_Varma.vT p q k v r (b * k + c)%N)%:C%C * w (b * k + c)%N.
  { move=> Hr. rewrite row; last by apply: leq_trans kN; apply: leq_trans kkN. rewrite (@big_cat_nat _ _ _ (k * a)%N) //= [X in _ + X]big_nat [X in _ + X]big1 ?addr0.
    - by rewrite -(sum_blocks a k (fun c => (Multi_Varma.vT p q k v r c)%:C%C * w c)) mulnC.
    - move=> c /andP [H1 H2]. by rewrite tail // mulr0. }
  have head r : (r < k)%N -> w r = 0.
  { case: Hp0 => [P0|Pa].
    - move=> Hr. apply: (mulfI l0). rewrite mulr0 top // big1 // => b _. rewrite big1 // => c _. have Ea : a = 1%N by rewrite /a P0. have Eb : nat_of_ord b = 0%N by have := ltn_ord b; rewrite [X in (_ < X)%N]Ea; case: (nat_of_ord b).
      rewrite Eb mul0n add0n P0 vT_top0 ?mul0r //; by apply/ssrnat.ltP.
    - move=> Hr. have := HA l^-1 (fun r : 'I_k => w r) _ _ (Ordinal Hr). apply.
      + rewrite normfV. by rewrite invf_le1 // normr_gt0.
      + move=> r'. apply: (mulfI l0). rewrite top // mulr_sumr Pa. apply: eq_bigr => b _. rewrite mulr_sumr. apply: eq_bigr => c _.
        rewrite (@vT_top a q k v r' b c); try (by apply/ssrnat.ltP).
        rewrite -(lagw b c) // exprS exprVn !mulrA divff // mul1r. rewrite [in RHS](mulrAC _ (_%:C)%C) mulVf ?mul1r //. by rewrite expf_neq0. }
  apply: nv_zero => i Hi. case: (ltnP i (k * a)%N) => H; last exact: tail.
  have Hq : (i %/ k < a)%N by rewrite ltn_divLR // mulnC. have Hr : (i %% k < k)%N by rewrite ltn_pmod.
  have /eqP := lagw _ _ Hq Hr. by rewrite -divn_eq (head _ Hr) mulf_eq0 expf_eq0 (negbTE l0) andbF /= => /eqP.
Qed.
End Varmax.

(** ** ETS *)
Section Ets.
Context (dm : R) (k mm : nat) (trend damped seasonal : bool) (v : epar).
Let each := (2 + b2n trend + b2n seasonal * mm)%N.
Let T := mx_of (k * each) (k * each) (ets_T k mm trend damped seasonal dm v).
Lemma ets_row (l : R[i]) (x : 'cV[R[i]]_(k * each)) i r : cplx T *m x = l *: x -> (i < k)%N -> (r < each)%N ->
  l * nv x (i * each + r)%N = \sum_(0 <= s < each) (Tbd dm trend damped seasonal mm v i r s)%:C%C * nv x (i * each + s)%N.
Proof.
  move=> E Hi Hr. rewrite (nv_row E); last by mnia. rewrite sum_blocks (bigD1 (Ordinal Hi)) //= [X in _ + X]big1 ?addr0.
  - rewrite big_mkord. apply: eq_bigr => s _. rewrite ets_T_at ?Nat.eqb_refl //; by apply/ssrnat.ltP.
  - move=> j Nj. rewrite big1 // => s _. rewrite ets_T_at; try (by apply/ssrnat.ltP). case: Nat.eqb_spec => [Ej|]; last by rewrite mul0r.
    by case/negP: Nj; apply/eqP/val_inj.
Qed.
(** l x = a x forces x = 0 when |a| < 1 <= |l| *)
Lemma dead (l a x : R[i]) : 1 <= `|l| -> `|a| < 1 -> l * x = a * x -> x = 0.
Proof.
  move=> Hl Ha E. apply/eqP. have /eqP : (l - a) * x = 0 by rewrite mulrBl E subrr. rewrite mulf_eq0 => /orP [/eqP Z|//]. exfalso.
  have Z' : l = a by apply/eqP; rewrite -subr_eq0 Z. move: Ha. by rewrite -Z' real_ltNge ?rpred1 ?normr_real // Hl.
Qed.
(** the ETS transition with the dampening put in is stable, if the dampening is and, in a damped model, phi is *)
Theorem C88_ets : (0 < k)%N -> (seasonal -> 0 < mm)%N -> `|dm| < 1 -> (damped -> forall i, (i < k)%N -> `|e_phi v i| < 1) -> eigenvalues_inside T.
Proof.
  move=> Hk Hmm Hdm Hphi l x Nx E. apply/contraT => Hl. case/negP: Nx. apply/eqP.
  rewrite -real_leNgt ?rpred1 ?normr_real // in Hl. have l0 : l != 0. { apply/negP => /eqP Z. move: Hl. by rewrite Z normr0 real_leNgt ?rpred0 ?rpred1 // ltr01. }
  have Hc (a : R) : `|a| < 1 -> `|(a%:C)%C| < 1 :> R[i]. { move=> Ha. by rewrite normc_def /= expr0n addr0 sqrtr_sqr ltcR. }
  have e0 : (0 < each)%N by rewrite /each; mlia.
  suff H i : (i < k)%N -> forall r, (r < each)%N -> nv x (i * each + r)%N = 0.
  { apply: nv_zero => n Hn. rewrite (divn_eq n each). apply: H; [by rewrite ltn_divLR|by rewrite ltn_pmod]. }
  move=> Hi. pose w r := nv x (i * each + r)%N. pose so := (2 + b2n trend)%N.
  have row r : (r < each)%N -> l * w r = \sum_(0 <= s < each) (Tbd dm trend damped seasonal mm v i r s)%:C%C * w s by move=> Hr; exact: ets_row.
  have soe : (so <= each)%N by rewrite /each leq_addr.
  have base r s : (r < so)%N -> Tbd dm trend damped seasonal mm v i r s = if (r == 1%N) && (s == 1%N) then dm else if trend && (r == 1%N) && (s == 2%N) then trend_damp damped 1 (e_phi v i) else if trend && (r == 2%N) && (s == 2%N) then trend_damp damped dm (e_phi v i) else 0.
  { move=> Hr. rewrite Tbd_base //. exact/ssrnat.ltP. }
  have w0 : w 0%N = 0. { apply: (mulfI l0). rewrite mulr0 row // big1_seq // => s _. rewrite base //= !andbF /=. by rewrite mul0r. }
  have w2 : trend -> w 2%N = 0.
  { move=> tr. have H2 : (2 < so)%N by rewrite /so tr. apply: (@dead l (trend_damp damped dm (e_phi v i))%:C%C) => //.
    - apply: Hc. rewrite /trend_damp. case: damped Hphi => // /(_ isT). exact.
    - rewrite row; last exact: leq_trans soe. rewrite (@sum_at _ _ _ 2%N); [|exact: leq_trans soe|].
      + by rewrite base // tr.
      + move=> c Hc' Nc. by rewrite base //= tr /= (negbTE Nc) mul0r. }
  have w1 : w 1%N = 0.
  { apply: (@dead l dm%:C%C) => //; first exact: Hc. rewrite row; last exact: leq_trans soe. rewrite (@sum_at _ _ _ 1%N); [|exact: leq_trans soe|].
    + by rewrite base.
    + move=> c Hc' Nc. rewrite base //= (negbTE Nc) /= andbT andbF /=. case: eqP => [Ec|]; last by rewrite andbF /= mul0r.
      case tr: trend => /=; last by rewrite mul0r. by rewrite Ec w2 // mulr0. }
  move=> r Hr. rewrite -/(w r). case: (ltnP r so) => Hrs.
  { move: Hrs. rewrite /so. case: r Hr => [|[|[|r]]] Hr // Hrs; [apply: w2; by move: Hrs; case: (trend)|by move: Hrs; case: (trend)]. }
  have Hs : seasonal. { move: Hr Hrs. rewrite /each /so. case: (seasonal) => //. rewrite mul0n addn0 => H1 H2. mlia. }
  have Ee : each = (so + mm)%N by rewrite /each Hs mul1n.
  have Hm := Hmm Hs.
  have srow r' s : (r' < mm)%N -> (s < each)%N -> Tbd dm trend damped seasonal mm v i (so + r')%N s = if (s < so)%N then 0 else if (r' == 0%N) && (s - so == mm - 1)%N then dm else if (r' == (s - so) + 1)%N then 1 else 0.
  { move=> H1 H2. rewrite Hs Tbd_season; [|exact/ssrnat.ltP|apply/ssrnat.ltP; by move: H2; rewrite Ee]. rewrite -/so.
    case: (Nat.ltb_spec _ _) => H3; case: ltnP => H4 //; try (exfalso; rewrite /so in H4 H3; mlia). }
  have step r' : (r'.+1 < mm)%N -> l * w (so + r'.+1)%N = w (so + r')%N.
  { move=> H. rewrite row; last by rewrite Ee ltn_add2l. rewrite (@sum_at _ _ _ (so + r')%N).
    - rewrite srow //; last by rewrite Ee ltn_add2l ltnW. rewrite ltnNge leq_addr /= addKn addn1 eqxx. by rewrite mul1r.
    - by rewrite Ee ltn_add2l ltnW.
    - move=> c Hc' Nc. rewrite srow //. case: ltnP => Hcs; first by rewrite mul0r. rewrite /= addn1 eqSS. case: eqP => [Ec|]; last by rewrite mul0r.
      by case/negP: Nc; rewrite Ec subnKC. }
  have first : l * w so = dm%:C%C * w (so + (mm - 1))%N.
  { rewrite -{1}[so]addn0 row; last by rewrite Ee ltn_add2l. rewrite (@sum_at _ _ _ (so + (mm - 1))%N).
    - rewrite srow //; last by rewrite Ee ltn_add2l subn1 prednK. by rewrite ltnNge leq_addr /= addKn eqxx.
    - by rewrite Ee ltn_add2l subn1 prednK.
    - move=> c Hc' Nc. rewrite srow //. case: ltnP => Hcs; first by rewrite mul0r. rewrite /= addn1 /=. case: eqP => [Ec|]; last by rewrite mul0r.
      by case/negP: Nc; rewrite -Ec subnKC. }
  have chain r' : (r' < mm)%N -> l ^+ r' * w (so + r')%N = w so.
  { elim: r' => [|r' IH] H; first by rewrite expr0 mul1r addn0. by rewrite exprSr -mulrA step // IH // ltnW. }
  have ws : w so = 0.
  { apply: (@dead (l ^+ mm) dm%:C%C).
    - by rewrite normrX exprn_ege1.
    - exact: Hc.
    - rewrite -{2}(chain (mm - 1)%N); last by rewrite subn1 prednK. rewrite mulrCA -first -{1}[mm](@prednK mm) // exprSr subn1 mulrA. by []. }
  have Hq : (r - so < mm)%N by rewrite ltn_subLR // -Ee.
  have /eqP := chain _ Hq. by rewrite ws subnKC // mulf_eq0 expf_eq0 (negbTE l0) andbF /= => /eqP.
Qed.
End Ets.

(** the two initializations, put together *)
Theorem C88_varmax_init (s : forall n, 'M[R]_n -> 'M[R]_n -> option 'M[R]_n) p q k merr v m : continuous_solver_ok s ->
  (0 < k)%N -> varmax p q k merr v = Ok m -> var_stationary p k (v_ar v) ->
  let n := n_states m in let T := mx_of n n (ss_T m) in
  forall r (Rm : 'M[R]_(n, r)) (Q : 'M[R]_r) c, exists x0 P0, varmax_initialization s T Rm Q c = Some (x0, P0) /\
    invariant T Rm Q c x0 P0 /\ (forall x P, invariant T Rm Q c x P -> x = x0 /\ P = P0) /\ (Q^T = Q -> P0^T = P0) /\ (psd Q -> psd P0).
Proof.
  move=> Hs Hk Em HA n T r Rm Q c. have HE := C88_varmax Hk Em HA. have [x0 [P0 [_ [E [I [U [HS HP]]]]]]] := C88_defined Hs HE Rm Q c.
  by exists x0, P0.
Qed.
Theorem C88_ets_init (s : forall n, 'M[R]_n -> 'M[R]_n -> option 'M[R]_n) (dm : R) k mm (trend damped seasonal : bool) v : continuous_solver_ok s ->
  (0 < k)%N -> (seasonal -> 0 < mm)%N -> `|dm| < 1 -> (damped -> forall i, (i < k)%N -> `|e_phi v i| < 1) ->
  let n := (k * (2 + b2n trend + b2n seasonal * mm))%N in let T := mx_of n n (ets_T k mm trend damped seasonal dm v) in
  forall r (Rm : 'M[R]_(n, r)) (Q : 'M[R]_r), exists P0, (forall method, ets_initialization s method T Rm Q = Some P0) /\
    P0 = T *m P0 *m T^T + Rm *m Q *m Rm^T /\ (forall P, P = T *m P *m T^T + Rm *m Q *m Rm^T -> P = P0) /\ (Q^T = Q -> P0^T = P0) /\ (psd Q -> psd P0).
Proof.
  move=> Hs Hk Hmm Hdm Hphi n T r Rm Q. have HE := @C88_ets dm k mm trend damped seasonal v Hk Hmm Hdm Hphi. have V := eigenvalues_powers HE.
  have [x0 [P0 [_ [_ [I [U [HS HP]]]]]]] := C88_defined Hs HE Rm Q 0. have L := lyap_vanish_unique V. have Up := unit_p1 HE.
  exists P0. split; [|split; [by case: I|split; [|by split]]].
  - move=> method. rewrite /ets_initialization. have [P E] := discrete_complete Hs R2_neq0 method (Rm *m Q *m Rm^T) L Up. rewrite -/T in E. rewrite E. congr Some.
    have E2 := discrete_sound Hs R2_neq0 E. by have [] := U x0 P (conj (proj1 I) E2).
  - move=> P E2. by have [] := U x0 P (conj (proj1 I) E2).
Qed.
(** REFUTED for a damped trend with phi = 1 or -1 (allowed by the model, and phi = 1 is the undamped trend): initialization_dampening does not reach the trend, because phi overwrites it,
    and no covariance satisfies the equation as soon as the trend of that series has a shock. *)
Theorem C88_ets_damped_refuted (s : forall n, 'M[R]_n -> 'M[R]_n -> option 'M[R]_n) (dm : R) k mm (seasonal : bool) v i : continuous_solver_ok s ->
  (i < k)%N -> e_phi v i ^+ 2 = 1 ->
  let each := (3 + b2n seasonal * mm)%N in let n := (k * each)%N in let T := mx_of n n (ets_T k mm true true seasonal dm v) in
  forall r (Rm : 'M[R]_(n, r)) (Q : 'M[R]_r) (o : 'I_n), nat_of_ord o = (i * each + 2)%N -> (Rm *m Q *m Rm^T) o o != 0 ->
  forall method, ets_initialization s method T Rm Q = None.
Proof.
  move=> Hs Hi Hphi each n T r Rm Q o Eo Hq method. rewrite /ets_initialization. case E: (solve_discrete_lyapunov _ _ _ _) => [P|] //. exfalso.
  have E2 := discrete_sound Hs R2_neq0 E.
  have rowT c : T o c = if (c == o) then e_phi v i else 0.
  { rewrite mxE Eo. have e3 : (2 < each)%N by rewrite /each; mlia. have c3 := ltn_ord c. have Hce : (c < k * each)%N by []. rewrite (divn_eq c each).
    rewrite (@ets_T_at dm k mm true true seasonal v i (c %/ each)%N 2 (c %% each)%N).
    - rewrite Tbd_base; last by apply/ssrnat.ltP. rewrite /= /trend_damp. rewrite -val_eqE /= Eo {3}(divn_eq c each). case: Nat.eqb_spec => [Ei|Ni].
      + rewrite -Ei eqn_add2l. by case: Nat.eqb_spec => [->|N2] //; case: eqP.
      + case: eqP => // /(congr1 (divn^~ each)). have p0 : (0 < each)%N by exact: ltn_trans e3. rewrite !divnMDl // (divn_small e3) (divn_small (ltn_pmod _ p0)) !addn0 => Z. by case: Ni.
    - exact/ssrnat.ltP.
    - apply/ssrnat.ltP. by rewrite ltn_divLR // (ltn_trans _ e3).
    - exact/ssrnat.ltP.
    - apply/ssrnat.ltP. by rewrite ltn_pmod // (ltn_trans _ e3). }
  have rowT' m (A : 'M[R]_(n, m)) c : (T *m A) o c = e_phi v i * A o c.
  { rewrite mxE (bigD1 o) //= big1 ?addr0; first by rewrite rowT eqxx. move=> j /negbTE Nj. by rewrite rowT Nj mul0r. }
  case/negP: Hq. apply/eqP. move/matrixP/(_ o o): E2. rewrite [RHS]mxE. have -> : (T *m P *m T^T) o o = P o o.
  { rewrite -mulmxA rowT' -[_ *m T^T]trmxK trmx_mul trmxK mxE rowT' mxE mulrA -expr2 Hphi mul1r. by []. }
  by move/eqP; rewrite -subr_eq0 opprD addrA subrr add0r oppr_eq0 => /eqP.
Qed.
(** a class of stationary VAR coefficients: row sums below one *)
Theorem C88_var_small p k (ar : nat -> nat -> nat -> R) : (forall r, (r < k)%N -> \sum_(b < p) \sum_(c < k) `|ar r b c| < 1) -> var_stationary p k ar.
Proof.
  move=> H z w Hz E r0. pose f (r : 'I_k) : R := complex.Re `|w r|.
  have fE r : `|w r| = ((f r)%:C)%C by rewrite /f RRe_real // normr_real.
  case: (@Order.TotalTheory.arg_maxP _ R_realDomainType _ r0 xpredT f isT) => r _ Hr.
  have f0 : 0 <= f r by rewrite -lecR -fE normr_ge0.
  have K : f r <= (\sum_(b < p) \sum_(c < k) `|ar r b c|) * f r.
  { rewrite -lecR -fE {1}E rmorphM rmorph_sum mulr_suml. apply: le_trans (ler_norm_sum _ _ _) _. apply: ler_sum => b _.
    rewrite rmorph_sum mulr_suml. apply: le_trans (ler_norm_sum _ _ _) _. apply: ler_sum => c _. rewrite !normrM. 
    have -> : `|((ar r b c)%:C)%C| = (`|ar r b c|%:C)%C :> R[i] by rewrite normc_def /= expr0n addr0 sqrtr_sqr.
    have A0 : (0 : R[i]) <= (`|ar r b c|%:C)%C by rewrite -[0]/(0%:C)%C lecR normr_ge0.
    apply: ler_pmul; [by rewrite mulr_ge0 ?normr_ge0|by rewrite normr_ge0| |].
    - rewrite -[X in _ <= X]mul1r ler_pmul ?normr_ge0 // normrX exprn_ile1 ?normr_ge0 //.
    - rewrite fE lecR. exact: Hr. }
  have Z : f r = 0.
  { apply: le_anti. rewrite f0 andbT leNgt. apply/negP => Hf. move: K. rewrite -{1}[f r]mul1r ler_pmul2r // leNgt H //. }
  apply/eqP. rewrite -normr_le0 fE -[0]/(0%:C)%C lecR -Z. exact: Hr.
Qed.
