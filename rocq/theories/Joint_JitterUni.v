(** C89, continued: the univariate filter with jitter, as the jitter goes to 0. *)
From mathcomp Require Import all_ssreflect all_algebra.
From Verif Require Common KalmanScan_Model KalmanScan_Spec KalmanScan_Proofs.
From Verif Require Import McTac Kalman_Model Kalman_Spec Kalman_Proofs Kalman_Seq Kalman_LL Kalman_Run KalmanUni_Model Joint_Spec Joint_Proofs Joint_Stack Joint_Run Joint_Uni Joint_Lim Joint_Jitter Joint_Props.
Set Implicit Arguments.
Unset Strict Implicit.
Unset Printing Implicit Defensive.
Import Order.Theory GRing.Theory Num.Theory.
Local Open Scope ring_scope.

Section Inner.
Context (R : realFieldType) (n : nat) (log log' : R -> R).
Definition smooth_row (w : uni_row R n) (P : 'M[R]_n) : Prop := r_nan w \/ (r_Z w *m (P *m (r_Z w)^T)) 0 0 + r_h w != 0.
Lemma inner_lim (w : uni_row R n) (fa : R -> 'cV[R]_n) (fP : R -> 'M[R]_n) a P : mlim fa a -> mlim fP P -> smooth_row w P ->
  mlim (fun j => (uni_inner log j w (fa j) (fP j)).1.1.1.1) (uni_inner log' 0 w a P).1.1.1.1 /\
  mlim (fun j => (uni_inner log j w (fa j) (fP j)).1.1.1.2) (uni_inner log' 0 w a P).1.1.1.2.
Proof.
  move=> La LP [nn|F0].
  { have [m [F ->]] := uni_inner_nan log' 0 a P nn. split; [apply: mlim_eq La | apply: mlim_eq LP]; apply: ev_all => j _; by have [m' [F' ->]] := uni_inner_nan log j (fa j) (fP j) nn. }
  case nn: (r_nan w).
  { have [m [F ->]] := uni_inner_nan log' 0 a P nn. split; [apply: mlim_eq La | apply: mlim_eq LP]; apply: ev_all => j _; by have [m' [F' ->]] := uni_inner_nan log j (fa j) (fP j) nn. }
  have LZ : mlim (fun j => fP j *m (r_Z w)^T) (P *m (r_Z w)^T) by exact: mlim_mul LP (mlim_const _).
  have L0 : lim (fun j => (r_Z w *m (fP j *m (r_Z w)^T)) 0 0 + r_h w) ((r_Z w *m (P *m (r_Z w)^T)) 0 0 + r_h w).
  { apply: lim_add (lim_const _). exact: (mlim_mul (mlim_const _) LZ). }
  have LF : lim (fun j => (r_Z w *m (fP j *m (r_Z w)^T)) 0 0 + r_h w + j) ((r_Z w *m (P *m (r_Z w)^T)) 0 0 + r_h w + 0) by exact: lim_add L0 (@lim_id R).
  have LK : mlim (fun j => ((r_Z w *m (fP j *m (r_Z w)^T)) 0 0 + r_h w + j)^-1 *: (fP j *m (r_Z w)^T)) (((r_Z w *m (P *m (r_Z w)^T)) 0 0 + r_h w + 0)^-1 *: (P *m (r_Z w)^T)).
  { apply: mlim_scale LZ. apply: lim_inv LF. by rewrite addr0. }
  have Lv : lim (fun j => r_y w - ((r_Z w *m fa j) 0 0 + r_d w)) (r_y w - ((r_Z w *m a) 0 0 + r_d w)).
  { apply: lim_add (lim_const _) _. apply: lim_opp. apply: lim_add (lim_const _). exact: (mlim_mul (mlim_const _) La). }
  have E0 := lim_nz F0 L0. rewrite /uni_inner nn (negbTE F0) /= scale1r. split.
  - apply: mlim_eq (mlim_add La (mlim_scale Lv LK)). by apply: ev_imp E0 => j _ /negbTE ->; rewrite /= scale1r.
  - apply: mlim_eq (mlim_sub LP (mlim_scale LF (mlim_mul LK (mlim_tr LK)))). by apply: ev_imp E0 => j _ /negbTE ->; rewrite /= scale1r.
Qed.
Lemma scan_cons1 lg j (w : uni_row R n) ws a P : (uni_scan lg j (w :: ws) a P).1 = (uni_scan lg j ws (uni_inner lg j w a P).1.1.1.1 (uni_inner lg j w a P).1.1.1.2).1.
Proof. rewrite uni_scan_cons. case: (uni_inner _ _ _ _ _) => [[[[a1 P1] ?] ?] ?] /=. by case: (uni_scan _ _ _ _ _) => [[? ?] ?]. Qed.
End Inner.

Section Scan.
Context (R : realFieldType) (N n p : nat) (log : R -> R).
Context (X : rv R N n) (Y : rv R N p) (E : 'M[R]_(p, N)) (Z : 'M[R]_(p, n)) (H : 'M[R]_p) (d : 'cV[R]_p) (ob : obs R p).
Hypothesis XE : load X *m E^T = 0.
Hypothesis EH : gram E = H.
Hypothesis Hd : forall i k, i != k -> H i k = 0.
Hypothesis LY : load Y = Z *m load X + E.
Hypothesis MY : mean Y = d + Z *m mean X.
Local Notation obs_on := (obs_on Y ob).
Local Notation row_on := (row_on Z H d ob).
Let lg0 : R -> R := fun _ => 0.
Lemma scan_lim s : forall l a P (fa : R -> 'cV[R]_n) (fP : R -> 'M[R]_n), mlim fa a -> mlim fP P -> condL X l a P -> (forall i, i \in s -> load (stack l) *m (row i E)^T = 0) -> uniq s -> nonsingular (l ++ obs_on s) ->
  exists a2 P2, [/\ condL X (l ++ obs_on s) a2 P2, mlim (fun j => (uni_scan log j [seq row_on i | i <- s] (fa j) (fP j)).1.1) a2 &
    mlim (fun j => (uni_scan log j [seq row_on i | i <- s] (fa j) (fP j)).1.2) P2].
Proof.
  elim: s => [|i s IH] l a P fa fP La LP C O us U. { exists a, P. by rewrite /= cats0. }
  move: us; rewrite cons_uniq => /andP [nis us]. have -> : [seq row_on i | i <- i :: s] = row_on i :: [seq row_on i | i <- s] by [].
  have Eo : obs_on (i :: s) = (if ob i is Some v then [:: Datum (mean Y i 0) (\row_j load Y i j) v] else [::]) ++ obs_on s by rewrite /Joint_Uni.obs_on /=; case: (ob i).
  move: U. rewrite {}Eo.
  suff K : forall l1, condL X l1 (uni_inner lg0 0 (row_on i) a P).1.1.1.1 (uni_inner lg0 0 (row_on i) a P).1.1.1.2 -> smooth_row (row_on i) P ->
    (forall k, k \in s -> load (stack l1) *m (row k E)^T = 0) -> nonsingular (l1 ++ obs_on s) ->
    exists a2 P2, [/\ condL X (l1 ++ obs_on s) a2 P2, mlim (fun j => (uni_scan log j (row_on i :: [seq row_on i | i <- s]) (fa j) (fP j)).1.1) a2 &
      mlim (fun j => (uni_scan log j (row_on i :: [seq row_on i | i <- s]) (fa j) (fP j)).1.2) P2].
  { case Ei: (ob i) => [v|].
    - set w := Datum _ _ _. rewrite catA => U. have Ul := nonsingular_cat U.
      have Er : row_on i = Row v (row i Z) (d i 0) (H i i) false by rewrite /Joint_Uni.row_on /isnan_mask Ei.
      have lw : d_load w = row i Z *m load X + row i E by rewrite -row_mul -linearD /= -LY; apply/matrixP => ? ?; rewrite !mxE.
      have K1 := @inner_step R N n lg0 X l a P (row_on i) (row i E) w C (row_orth i XE) (O i (mem_head _ _)). rewrite Er in K K1 *.
      have K2 := K1 erefl ltac:(by rewrite /gram (gram_row EH)). have K3 := K2 ltac:(by rewrite /w [d_mean _]/= MY mxE -row_mul [RHS]/= [(row i _) _ _]mxE).
      case EI: (uni_inner lg0 0 (Row v (row i Z) (d i 0) (H i i) false) a P) K => [[[[a1 P1] yh] F] ll] K. have [C1 Co Ed Eq [Fn Ell]] := K3 lw erefl Ul _ _ _ _ _ EI. apply: K U => //.
      + right. move: Fn. move: EI. rewrite /uni_inner /= => -[_ _ _ <- _]. by rewrite addr0.
      + move=> k ks. have [e [_ L _]] := dat_cat (dat_self l) (dat_one w). rewrite L. case: _ / e {L}. rewrite castmx_id mul_col_mx (O k); last by rewrite inE ks orbT.
        rewrite lw mulmxDl -mulmxA (row_orth k XE) mulmx0 add0r (gram_row EH) Hd; last by apply: contraNneq nis => ->. by rewrite -scalemx1 scale0r col_mx0.
    - rewrite cat0s => U. have Er : r_nan (row_on i) by rewrite /Joint_Uni.row_on /isnan_mask Ei. apply: K U.
      + have [m [F ->]] := uni_inner_nan lg0 0 a P Er. exact: C.
      + by left.
      + by move=> k ks; apply: O; rewrite inE ks orbT. }
  move=> l1 C1 sm O1 U1. have [L1 L2] := inner_lim log lg0 La LP sm. have [a2 [P2 [C2 L3 L4]]] := IH l1 _ _ _ _ L1 L2 C1 O1 us U1. exists a2, P2. split=> //.
  - apply: mlim_eq L3. by apply: ev_all => j _; rewrite scan_cons1.
  - apply: mlim_eq L4. by apply: ev_all => j _; rewrite scan_cons1.
Qed.
End Scan.

Section Run.
Context (R : realFieldType) (N n p r : nat) (log : R -> R) (cst : R).
Context (m : KalmanUni_Model.mats R n p r) (ys : seq (obs R p)) (a0 : 'cV[R]_n) (P0 : 'M[R]_n) (x : nat -> rv R N n) (y : nat -> rv R N p).
Hypothesis Hd : forall i k, i != k -> m_H m i k = 0.
Local Notation us := (with_mats m ys).
Hypothesis M : model us a0 P0 x y.
Hypothesis U : nonsingular (data us y (size us)).
Local Notation D := (data us y).
Local Notation st j := (@uni_step R log cst j n p r).
Local Notation bef j := (KalmanScan_Spec.before (st j) us a0 P0).
Lemma mlim_half k (f : R -> 'M[R]_k) A : mlim f A -> mlim (fun j => 2%:R^-1 *: (f j + (f j)^T)) (2%:R^-1 *: (A + A^T)).
Proof. move=> L. apply: mlim_scale; [exact: lim_const | exact: mlim_add L (mlim_tr L)]. Qed.
Lemma mlim_quad k l (B : 'M[R]_(k, l)) (f : R -> 'M[R]_l) A : mlim f A -> mlim (fun j => quad_form_sym B (f j)) (quad_form_sym B A).
Proof. move=> L. rewrite /quad_form_sym. apply: mlim_half. exact: mlim_mul (mlim_mul (mlim_const _) L) (mlim_const _). Qed.
Lemma uni_step_lim t u (fa : R -> 'cV[R]_n) (fP : R -> 'M[R]_n) a P : List.nth_error us t = Some u -> mlim fa a -> mlim fP P -> condL (x t) (D t) a P ->
  exists af Pf, [/\ condL (x t) (D t.+1) af Pf,
   mlim (fun j => KalmanScan_Model.o_af (st j u (fa j) (fP j))) af, mlim (fun j => KalmanScan_Model.o_Pf (st j u (fa j) (fP j))) Pf,
   mlim (fun j => KalmanScan_Model.o_ahat (st j u (fa j) (fP j))) (in_T u *m af + in_c u) &
   mlim (fun j => KalmanScan_Model.o_Phat (st j u (fa j) (fP j))) (in_T u *m Pf *m (in_T u)^T + in_R u *m in_Q u *m (in_R u)^T)].
Proof.
  move=> Eu La LP C. have [eps [eta [H0 Hu Hx He Hs]]] := M. have lt := lt_nth Eu. have [B1 B2 B3 B4] := past Hu Hx He Hs (ltnW lt) (leqnn t).
  have [_ _ [_ EH] [_ EQ]] := Hu _ _ Eu. have [Ly My] := load_y Hu Eu.
  have O1 : forall i, i \in enum 'I_p -> load (stack (D t)) *m (row i (load (eps t)))^T = 0 by move=> i _; exact: row_orth (orth_stack B3).
  have Ed : forall i k, i != k -> in_H u i k = 0 by rewrite (with_H Eu).
  have Un : nonsingular (D t ++ obs_on (y t) (in_y u) (enum 'I_p)) by rewrite -[obs_on _ _ _]/(observed (y t) (in_y u)) -(data_S y Eu); exact: ns_le.
  have [af [Pf [C2 L1 L2]]] := @scan_lim R N n p log (x t) (y t) (load (eps t)) (in_Z u) (in_H u) (in_d u) (in_y u) B1 EH Ed Ly My (enum 'I_p) (D t) a P fa fP La LP C O1 (enum_uniq _) Un.
  rewrite -[obs_on _ _ _]/(observed (y t) (in_y u)) -(data_S y Eu) in C2.
  rewrite -[[seq row_on _ _ _ _ i | i <- _]]/(uni_rows (in_y u) (in_d u) (in_Z u) (in_H u)) in L1 L2.
  have sP := psd_sym (isCond_psd C2). have sQ : (in_Q u)^T = in_Q u by rewrite -EQ; exact: psd_sym (cov_psd _).
  pose sc j := uni_scan log j (uni_rows (in_y u) (in_d u) (in_Z u) (in_H u)) (fa j) (fP j).
  have Est : forall j, let o := st j u (fa j) (fP j) in let Pj := stabilize (2%:R^-1 *: ((sc j).1.2 + (sc j).1.2^T)) j in
    [/\ KalmanScan_Model.o_af o = (sc j).1.1, KalmanScan_Model.o_Pf o = Pj, KalmanScan_Model.o_ahat o = in_T u *m (sc j).1.1 + in_c u &
        KalmanScan_Model.o_Phat o = quad_form_sym (in_T u) Pj + quad_form_sym (in_R u) (in_Q u)].
  { move=> j. rewrite /uni_step /uni_update -/(sc j). case: (sc j) => [[? ?] ?]. case: (uni_obs _ _ _ _ _ _) => ? ? /=. by []. }
  have LPf : mlim (fun j => stabilize (2%:R^-1 *: ((sc j).1.2 + (sc j).1.2^T)) j) Pf.
  { have L := mlim_half L2. rewrite sP half_dbl in L. rewrite /stabilize -[X in mlim _ X]addr0 -(scale0r (1%:M : 'M[R]_n)). apply: mlim_add L _. apply: mlim_scale; [exact: lim_id | exact: mlim_const]. }
  exists af, Pf. split=> //.
  - apply: mlim_eq L1. by apply: ev_all => j _; have [-> _ _ _] := Est j.
  - apply: mlim_eq LPf. by apply: ev_all => j _; have [_ -> _ _] := Est j.
  - apply: mlim_eq (mlim_add (mlim_mul (mlim_const (in_T u)) L1) (mlim_const (in_c u))). by apply: ev_all => j _; have [_ _ -> _] := Est j.
  - rewrite -[in_T u *m Pf *m _]quad_symE // -[in_R u *m _ *m _]quad_symE //.
    apply: mlim_eq (mlim_add (mlim_quad (in_T u) LPf) (mlim_const (quad_form_sym (in_R u) (in_Q u)))). by apply: ev_all => j _; have [_ _ _ ->] := Est j.
Qed.
Lemma uni_bef_lim t : (t <= size us)%N -> exists a P, [/\ condL (x t) (D t) a P, mlim (fun j => (bef j t).1) a & mlim (fun j => (bef j t).2) P].
Proof.
  elim: t => [|t IH] lt.
  { exists a0, P0. have [eps [eta [H0 _ _ _ _]]] := M. split; [exact: cond0 | |]; case: (us) => [|? ?] /=; exact: mlim_const. }
  have [a [P [C La LP]]] := IH (ltnW lt). have [u Eu] := nth_lt lt.
  have [af [Pf [C1 _ _ L1 L2]]] := uni_step_lim Eu La LP C.
  exists (in_T u *m af + in_c u), (in_T u *m Pf *m (in_T u)^T + in_R u *m in_Q u *m (in_R u)^T). split.
  - have [eps [eta [H0 Hu Hx He Hs]]] := M. exact: (next_cond Hu Hx He Hs Eu C1).
  - apply: (mlim_eq _ L1). apply: ev_all => j _. by rewrite (KalmanScan_Proofs.before_S (st j) us a0 P0 t u Eu).
  - apply: (mlim_eq _ L2). apply: ev_all => j _. by rewrite (KalmanScan_Proofs.before_S (st j) us a0 P0 t u Eu).
Qed.
End Run.

(** The univariate filter on any series with any missing entries, generated by a linear Gaussian model with static matrices and uncorrelated measurement noise:
    as the jitter goes to 0 its predicted and filtered moments tend to the exact conditional mean and covariance of the state. *)
Theorem C89_small_jitter_univariate :
  forall (R : realFieldType) (N n p r : nat) (log : R -> R) (l2pi : R) (m : KalmanUni_Model.mats R n p r) (ys : seq (obs R p)) a0 P0
    (x : nat -> rv R N n) (y : nat -> rv R N p), let us := with_mats m ys in
  model us a0 P0 x y -> (forall i k, i != k -> m_H m i k = 0) -> nonsingular (data us y (size us)) -> ys <> [::] ->
  forall eps, 0 < eps -> exists2 j0, 0 < j0 & forall j, 0 < j -> j < j0 -> exists f, uni_filter log l2pi j m ys a0 P0 = Common.Ok f /\
  forall t, (t < size ys)%N -> exists a P af Pf,
  [/\ List.nth_error (KalmanScan_Model.predicted_states f) t = Some a /\ List.nth_error (KalmanScan_Model.predicted_covs f) t = Some P,
      List.nth_error (KalmanScan_Model.filtered_states f) t = Some af /\ List.nth_error (KalmanScan_Model.filtered_covs f) t = Some Pf,
      (forall i, `|a i 0 - given_mean (x t) (data us y t) i 0| < eps) /\ (forall i k, `|P i k - given_cov (x t) (data us y t) i k| < eps) &
      (forall i, `|af i 0 - given_mean (x t) (data us y t.+1) i 0| < eps) /\ (forall i k, `|Pf i k - given_cov (x t) (data us y t.+1) i k| < eps)].
Proof.
  move=> R N n p r log cst m ys a0 P0 x y us M Hd U ne' eps e0.
  have ne : us <> nil by move: ne'; rewrite /us; case: (ys).
  pose st j := @uni_step R log cst j n p r. pose bf j t := KalmanScan_Spec.before (st j) us a0 P0 t.
  have mev : forall m k (g : R -> 'M[R]_(m, k)) L, mlim g L -> ev (fun j => forall i l, `|g j i l - L i l| < eps).
  { move=> m' k g L H. apply: ev_fin => i. apply: ev_fin => l. exact: H. }
  have K : ev (fun j => forall t, (t < size us)%N -> forall u, List.nth_error us t = Some u -> let o := st j u (bf j t).1 (bf j t).2 in
    ((forall i l, `|(bf j t).1 i l - given_mean (x t) (data us y t) i l| < eps) /\ (forall i l, `|(bf j t).2 i l - given_cov (x t) (data us y t) i l| < eps)) /\
    ((forall i l, `|KalmanScan_Model.o_af o i l - given_mean (x t) (data us y t.+1) i l| < eps) /\ (forall i l, `|KalmanScan_Model.o_Pf o i l - given_cov (x t) (data us y t.+1) i l| < eps))).
  { apply: ev_nat => t lt. have [u Eu] := nth_lt lt. have [a [P [C La LP]]] := uni_bef_lim log cst Hd M U (ltnW lt).
    have [af [Pf [C1 L1 L2 _ _]]] := uni_step_lim log cst Hd M U Eu La LP C.
    have [Ea EP] := condL_given (ns_le U (ltnW lt)) C. have [Eaf EPf] := condL_given (ns_le U lt) C1. rewrite -Ea -EP -Eaf -EPf.
    apply: ev_imp (ev_and (ev_and (mev _ _ _ _ La) (mev _ _ _ _ LP)) (ev_and (mev _ _ _ _ L1) (mev _ _ _ _ L2))) => j _ H u'. rewrite Eu => -[<-]. exact: H. }
  have [j0 j0p H] := K. exists j0 => // j jp jl. have [f [Ef [_ [_ [_ [_ [_ [_ [_ Hf]]]]]]]]] := KalmanScan_Proofs.build_ok (st j) us a0 P0 ne.
  exists f. split=> // t lt0. have lt : (t < size us)%N by rewrite /us size_map. have [u Eu] := nth_lt lt. have [E1 [E2 [E3 [E4 _]]]] := Hf t u Eu.
  have [[G1 G2] [G3 G4]] := H j jp jl t lt u Eu.
  exists (bf j t).1, (bf j t).2, (KalmanScan_Model.o_af (st j u (bf j t).1 (bf j t).2)), (KalmanScan_Model.o_Pf (st j u (bf j t).1 (bf j t).2)).
  split; [by split | by split | split=> // i; exact: G1 | split=> // i; exact: G3].
Qed.
Print Assumptions C89_small_jitter_univariate.

(** The hypotheses can be met: a local level model over the rationals whose second observation is missing. *)
Section Example.
Let QR : realFieldType := [realFieldType of rat].
Example C89_univariate_missing_level : forall v : QR, let m : KalmanUni_Model.mats QR 1 1 1 := Mats 0 0 1%:M 1%:M 1%:M 1%:M 1%:M in let ys := [:: (fun _ => Some v); (fun _ => None)] in
  [/\ model (with_mats m ys) 0 1%:M Joint_Props.ex_x Joint_Props.ex_y, (forall i k, i != k -> m_H m i k = 0), nonsingular (data (with_mats m ys) Joint_Props.ex_y 2) & ys <> [::]].
Proof.
  move=> v m ys. have Hv : v != v + 1 by rewrite -subr_eq0 opprD addrA subrr add0r oppr_eq0 oner_eq0.
  have [M _ N _] := C89_missing_level Hv. split=> //. by move=> i k; rewrite !ord1.
Qed.
End Example.
