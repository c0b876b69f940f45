(** C62, C89, continued: the square-root filter as the jitter goes to 0. *)
From mathcomp Require Import all_ssreflect all_algebra.
From Verif Require Common KalmanScan_Model KalmanScan_Spec KalmanScan_Proofs.
From Verif Require Import McTac Kalman_Model Kalman_Spec Kalman_Proofs Kalman_Missing Kalman_Seq Kalman_Sqrt Kalman_LL Kalman_Run Joint_Spec Joint_Proofs Joint_Stack Joint_Run Joint_Nonsing Joint_Lim Joint_Props Joint_Jitter Kalman_Cases.
Set Implicit Arguments.
Unset Strict Implicit.
Unset Printing Implicit Defensive.
Import Order.Theory GRing.Theory Num.Theory.
Local Open Scope ring_scope.

(** each row is observed as a whole (without the value that marks missing data) or missing as a whole *)
Definition whole_rows (R : realFieldType) (fill : R) n p r (us : seq (inputs R n p r)) : Prop :=
  forall t u, List.nth_error us t = Some u -> (forall i, exists w, in_y u i = Some w /\ w != fill) \/ (forall i, in_y u i = None).

Section Sq.
Context (R : realFieldType).
(** a factor whose square converges need not converge, but it is bounded *)
Lemma factor_small m n (f : R -> 'M[R]_(m, n)) A : mlim (fun j => f j *m (f j)^T) A -> mlim (fun j => j *: f j) 0.
Proof.
  move=> F i k e e0. set c := `|A i i| + 1. have c0 : 0 < c by rewrite ltr_paddl. have c1 : 1 <= c by rewrite /c ler_addr.
  have B : ev (fun j => `|f j i k| < c).
  { apply: ev_imp (lim_bound (F i i)) => j _ h.
    have s : (f j i k) ^+ 2 <= (f j *m (f j)^T) i i.
    { rewrite mxE (bigD1 k) //= mxE -expr2 ler_addl. apply: sumr_ge0 => l _. by rewrite mxE -expr2 sqr_ge0. }
    have s2 : `|f j i k| ^+ 2 < c.
    { rewrite -normrX ger0_norm ?sqr_ge0 //. apply: le_lt_trans s _. apply: le_lt_trans (ler_norm _) h. }
    case: (ltP `|f j i k| c) => // g. have g2 : `|f j i k| <= `|f j i k| ^+ 2 by rewrite expr2 ler_pemulr // (le_trans c1 g).
    have := lt_le_trans s2 (le_trans g g2). by rewrite ltxx. }
  have E : ev (fun j => j < e / c) by exists (e / c); [exact: divr_gt0 | move=> j _].
  apply: ev_imp (ev_and B E) => j jp [b l]. rewrite !mxE subr0 normrM gtr0_norm //. rewrite ltr_pdivl_mulr // in l.
  apply: le_lt_trans l. by rewrite ler_wpmul2l // ltW.
Qed.
Lemma mlim_square_stab n (f : R -> 'M[R]_n) A : mlim (fun j => f j *m (f j)^T) A -> mlim (fun j => stabilize (f j) j *m (stabilize (f j) j)^T) A.
Proof.
  move=> F. have S := factor_small F.
  have K : mlim (fun j => f j *m (f j)^T + (j *: f j + (j *: f j)^T + j *: (j *: 1%:M))) (A + (0 + 0^T + 0 *: (0 *: 1%:M))).
  { apply: (mlim_add F). apply: mlim_add; first exact: (mlim_add S (mlim_tr S)). apply: mlim_scale; first exact: lim_id. apply: mlim_scale (mlim_const _). exact: lim_id. }
  rewrite trmx0 scale0r !addr0 in K. apply: mlim_eq K. apply: ev_all => j _.
  rewrite /stabilize [(_ + _)^T]linearD /= linearZ /= trmx1 mulmxDl !mulmxDr -!scalemxAl -!scalemxAr !mulmx1 mul1mx -!addrA. congr (_ + (_ + (_ + _))). by apply/matrixP => i k; rewrite !mxE.
Qed.
End Sq.

Section S.
Context (R : realFieldType) (N n p r : nat) (log : R -> R) (cst : R)
  (cholesky : forall m, 'M[R]_m -> 'M[R]_m) (qr_r : forall m n, 'M[R]_(m, n) -> 'M[R]_n) (solve_tri : forall m n, 'M[R]_m -> 'M[R]_(m, n) -> 'M[R]_(m, n)) (fill : R).
Context (us : seq (inputs R n p r)) (a0 : 'cV[R]_n) (L0 : 'M[R]_n) (x : nat -> rv R N n) (y : nat -> rv R N p).
Local Notation st j := (@sqrt_step R log cst j fill cholesky qr_r solve_tri n p r).
Local Notation D := (data us y).
Local Notation bef j := (KalmanScan_Spec.before (st j) us a0 L0).
Hypothesis cok : forall m (A : 'M[R]_m), psd A -> chol_spec A (cholesky A).
Hypothesis qok : forall m k (M : 'M[R]_(m, k)), (k <= m)%N -> qr_spec M (qr_r M).
Hypothesis tok : tri_ok solve_tri.
Hypothesis p0 : (0 < p)%N.
Hypothesis M : model us a0 (L0 *m L0^T) x y.
Hypothesis rows : whole_rows fill us.
Local Notation sq A := (A *m A^T).
Section Step.
Context (t : nat) (u : inputs R n p r).
Hypothesis Eu : List.nth_error us t = Some u.
Hypothesis ns1 : nonsingular (D t.+1).
Lemma psdH' : psd (in_H u). Proof. have [eps [eta [_ Hu _ _ _]]] := M. have [_ _ [_ <-] _] := Hu _ _ Eu. exact: cov_psd. Qed.
Lemma psdQ' : psd (in_Q u). Proof. have [eps [eta [_ Hu _ _ _]]] := M. have [_ _ _ [_ <-]] := Hu _ _ Eu. exact: cov_psd. Qed.
(** the prediction is exact *)
Lemma pred_sq a (L : 'M[R]_n) : let w := sqrt_predict cholesky qr_r a L (in_c u) (in_T u) (in_R u) (in_Q u) in
  w.1 = in_T u *m a + in_c u /\ sq w.2 = in_T u *m sq L *m (in_T u)^T + in_R u *m in_Q u *m (in_R u)^T.
Proof.
  have [E1 E2] := @sqrt_predict_moments R cholesky qr_r n r a L (in_c u) (in_T u) (in_R u) (in_Q u) (cok psdQ') (qok _ (leq_addr _ _)).
  move=> w. split; first exact: E1. rewrite /w E2 /= !quad_symE ?(psd_sym psdQ') //. by rewrite trmx_mul trmxK.
Qed.
Lemma step_lim' (fa : R -> 'cV[R]_n) (fL : R -> 'M[R]_n) a P : mlim fa a -> mlim (fun j => sq (fL j)) P -> condL (x t) (D t) a P ->
  exists af Pf, [/\ condL (x t) (D t.+1) af Pf,
   mlim (fun j => KalmanScan_Model.o_af (st j u (fa j) (fL j))) af, mlim (fun j => sq (KalmanScan_Model.o_Pf (st j u (fa j) (fL j)))) Pf,
   mlim (fun j => KalmanScan_Model.o_ahat (st j u (fa j) (fL j))) (in_T u *m af + in_c u) &
   mlim (fun j => sq (KalmanScan_Model.o_Phat (st j u (fa j) (fL j)))) (in_T u *m Pf *m (in_T u)^T + in_R u *m in_Q u *m (in_R u)^T)].
Proof.
  move=> La LP C.
  suff : exists af Pf, exists ga : R -> 'cV[R]_n, exists gL : R -> 'M[R]_n, [/\ condL (x t) (D t.+1) af Pf, mlim ga af, mlim (fun j => sq (gL j)) Pf &
     ev (fun j => KalmanScan_Model.o_af (st j u (fa j) (fL j)) = ga j /\ sq (KalmanScan_Model.o_Pf (st j u (fa j) (fL j))) = sq (stabilize (gL j) j) /\
       let w := sqrt_predict cholesky qr_r (ga j) (stabilize (gL j) j) (in_c u) (in_T u) (in_R u) (in_Q u) in
       KalmanScan_Model.o_ahat (st j u (fa j) (fL j)) = w.1 /\ sq (KalmanScan_Model.o_Phat (st j u (fa j) (fL j))) = sq w.2)].
  { move=> [af [Pf [ga [gL [C1 L1 L2 E]]]]]. exists af, Pf. have L3 := mlim_square_stab L2. split=> //.
    - apply: mlim_eq L1. by apply: ev_imp E => j _ [-> _].
    - apply: mlim_eq L3. by apply: ev_imp E => j _ [_ [-> _]].
    - apply: mlim_eq (mlim_add (mlim_mul (mlim_const (in_T u)) L1) (mlim_const (in_c u))). apply: ev_imp E => j _ [_ [_ [-> _]]]. by have [-> _] := pred_sq (ga j) (stabilize (gL j) j).
    - apply: mlim_eq (mlim_add (mlim_mul (mlim_mul (mlim_const (in_T u)) L3) (mlim_const _)) (mlim_const _)). apply: ev_imp E => j _ [_ [_ [_ ->]]]. by have [_ ->] := pred_sq (ga j) (stabilize (gL j) j). }
  have [eps [eta [H0 Hu Hx He Hs]]] := M.
  case: (rows Eu) => [full|none].
  - pose v : 'cV[R]_p := \col_i odflt 0 (in_y u i). have Ev : forall i, in_y u i = Some (v i 0) by move=> i; rewrite mxE; have [w [-> _]] := full i.
    have [_ UF] := full_unit Hu Hx He Hs Eu Ev C ns1. have C1 := full_update Hu Hx He Hs Eu Ev C ns1.
    have nm : forall i, nan_mask fill (in_y u) i = false by move=> i; rewrite /nan_mask; have [w [-> wf]] := full i; exact: negbTE.
    have W1 : maskW fill (in_y u) = 1%:M by apply/matrixP => i k; rewrite !mxE nm.
    have EZ : Z_masked fill (in_y u) (in_Z u) = in_Z u by rewrite /Z_masked W1 mul1mx.
    have EH : H_masked fill (in_y u) (in_H u) = in_H u by rewrite /H_masked W1 mul1mx.
    have EA : all_nan fill (in_y u) = false by apply/negbTE/forallPn; exists (Ordinal p0); rewrite nm.
    have EY : y_masked fill (in_y u) = v by apply/matrixP => i k; rewrite ord1 !mxE nm Ev mxE.
    have cH : chol_spec (in_H u) (if in_H u == 0 then in_H u else cholesky (in_H u)).
    { case: eqP => [->|_]; last exact: cok psdH'. by split; [apply/is_trig_mxP => i k _; rewrite mxE | rewrite mul0mx]. }
    have LF : mlim (fun j => innov_cov (sq (fL j)) (in_Z u) (in_H u)) (innov_cov P (in_Z u) (in_H u)).
    { apply: (mlim_add _ (mlim_const _)). apply: (mlim_mul _ (mlim_const _)). exact: (mlim_mul (mlim_const _) LP). }
    have LK : mlim (fun j => gain (sq (fL j)) (in_Z u) (in_H u)) (gain P (in_Z u) (in_H u)).
    { apply: (mlim_mul _ (mlim_inv UF LF)). exact: (mlim_mul LP (mlim_const _)). }
    pose up j := sqrt_update log cst cholesky qr_r solve_tri (fa j) (fL j) v (in_d u) (in_Z u) (in_H u) false.
    have Eup : ev (fun j => (up j).1.1.1.1 = cond_mean (fa j) (sq (fL j)) (in_Z u) (in_H u) v (in_d u) /\ sq (up j).1.1.1.2 = cond_cov (sq (fL j)) (in_Z u) (in_H u)).
    { apply: ev_imp (mlim_unit UF LF) => j _ Uj. by have [-> [-> _]] := sqrt_update_moments log cst (fa j) v (in_d u) cH (qok _ (leqnn _)) tok Uj. }
    exists (cond_mean a P (in_Z u) (in_H u) v (in_d u)), (cond_cov P (in_Z u) (in_H u)), (fun j => (up j).1.1.1.1), (fun j => (up j).1.1.1.2). split=> //.
    + have LM : mlim (fun j => cond_mean (fa j) (sq (fL j)) (in_Z u) (in_H u) v (in_d u)) (cond_mean a P (in_Z u) (in_H u) v (in_d u)).
      { apply: (mlim_add La _). apply: (mlim_mul LK _). apply: (mlim_sub (mlim_const _) _). exact: (mlim_mul (mlim_const _) La). }
      apply: mlim_eq LM. by apply: ev_imp Eup => j _ [-> _].
    + have LC : mlim (fun j => cond_cov (sq (fL j)) (in_Z u) (in_H u)) (cond_cov P (in_Z u) (in_H u)) by exact: (mlim_sub LP (mlim_mul (mlim_mul LK (mlim_const _)) LP)).
      apply: mlim_eq LC. by apply: ev_imp Eup => j _ [_ ->].
    + apply: ev_all => j _. rewrite /sqrt_step EZ EH EA EY -/(up j). by case: (up j) => [[[[? ?] ?] ?] ?] /=.
  - have EA : all_nan fill (in_y u) by apply/forallP => i; rewrite /nan_mask none.
    have ED : D t.+1 = D t.
    { rewrite (data_S y Eu). have -> : observed (y t) (in_y u) = [::]; last by rewrite cats0. rewrite /observed. elim: (enum 'I_p) => //= i s ->. by rewrite none. }
    exists a, P, fa, fL. rewrite ED. split=> //. apply: ev_all => j _. by rewrite /sqrt_step /sqrt_update EA /=.
Qed.
End Step.
Hypothesis U : nonsingular (D (size us)).
Lemma bef_lim' t : (t <= size us)%N -> exists a P, [/\ condL (x t) (D t) a P, mlim (fun j => (bef j t).1) a & mlim (fun j => sq (bef j t).2) P].
Proof.
  elim: t => [|t IH] lt.
  { exists a0, (sq L0). have [eps [eta [H0 _ _ _ _]]] := M. split; [exact: cond0 | |]; case: (us) => [|? ?] /=; exact: mlim_const. }
  have [a [P [C La LP]]] := IH (ltnW lt). have [u Eu] := nth_lt lt.
  have [af [Pf [C1 _ _ L1 L2]]] := step_lim' Eu (ns_le U lt) La LP C.
  exists (in_T u *m af + in_c u), (in_T u *m Pf *m (in_T u)^T + in_R u *m in_Q u *m (in_R u)^T). split.
  - have [eps [eta [H0 Hu Hx He Hs]]] := M. exact: (next_cond Hu Hx He Hs Eu C1).
  - apply: (mlim_eq _ L1). apply: ev_all => j _. by rewrite (KalmanScan_Proofs.before_S (st j) us a0 L0 t u Eu).
  - apply: (mlim_eq _ L2). apply: ev_all => j _. by rewrite (KalmanScan_Proofs.before_S (st j) us a0 L0 t u Eu).
Qed.
End S.

(** The square-root filter, started at a factor of the initial covariance, on a series whose rows are observed or missing as a whole, generated by any
    time-varying linear Gaussian model: as the jitter goes to 0 its predicted and filtered moments tend to the exact conditional moments of the state,
    hence to those of the standard filter. *)
Theorem C62_small_jitter :
  forall (R : realFieldType) (N n p r : nat) (log : R -> R) (cst : R) (cholesky : forall m, 'M[R]_m -> 'M[R]_m)
    (qr_r : forall m n, 'M[R]_(m, n) -> 'M[R]_n) (solve_tri : forall m n, 'M[R]_m -> 'M[R]_(m, n) -> 'M[R]_(m, n)) (fill : R)
    (us : seq (inputs R n p r)) a0 (L0 : 'M[R]_n) (x : nat -> rv R N n) (y : nat -> rv R N p),
  (forall m (A : 'M[R]_m), psd A -> chol_spec A (cholesky m A)) -> (forall m k (M : 'M[R]_(m, k)), (k <= m)%N -> qr_spec M (qr_r m k M)) -> tri_ok solve_tri -> (0 < p)%N ->
  model us a0 (L0 *m L0^T) x y -> whole_rows fill us -> nonsingular (data us y (size us)) -> us <> [::] ->
  forall eps, 0 < eps -> exists2 j0, 0 < j0 & forall j, 0 < j -> j < j0 -> exists f, sqrt_filter log cst j fill cholesky qr_r solve_tri us a0 L0 = Common.Ok f /\
  forall t, (t < size us)%N -> exists a P af Pf,
  [/\ List.nth_error (KalmanScan_Model.predicted_states f) t = Some a /\ List.nth_error (KalmanScan_Model.predicted_covs f) t = Some P,
      List.nth_error (KalmanScan_Model.filtered_states f) t = Some af /\ List.nth_error (KalmanScan_Model.filtered_covs f) t = Some Pf,
      (forall i, `|a i 0 - given_mean (x t) (data us y t) i 0| < eps) /\ (forall i k, `|P i k - given_cov (x t) (data us y t) i k| < eps) &
      (forall i, `|af i 0 - given_mean (x t) (data us y t.+1) i 0| < eps) /\ (forall i k, `|Pf i k - given_cov (x t) (data us y t.+1) i k| < eps)].
Proof.
  move=> R N n p r log cst chol qr tri fill us a0 L0 x y cok qok tok p0 M rows U ne eps e0.
  pose st j := @sqrt_step R log cst j fill chol qr tri n p r. pose bf j t := KalmanScan_Spec.before (st j) us a0 L0 t.
  have mev : forall m k (g : R -> 'M[R]_(m, k)) L, mlim g L -> ev (fun j => forall i l, `|g j i l - L i l| < eps).
  { move=> m k g L H. apply: ev_fin => i. apply: ev_fin => l. exact: H. }
  have K : ev (fun j => forall t, (t < size us)%N -> forall u, List.nth_error us t = Some u -> let o := st j u (bf j t).1 (bf j t).2 in
    ((forall i l, `|(bf j t).1 i l - given_mean (x t) (data us y t) i l| < eps) /\ (forall i l, `|((bf j t).2 *m (bf j t).2^T) i l - given_cov (x t) (data us y t) i l| < eps)) /\
    ((forall i l, `|KalmanScan_Model.o_af o i l - given_mean (x t) (data us y t.+1) i l| < eps) /\
     (forall i l, `|(KalmanScan_Model.o_Pf o *m (KalmanScan_Model.o_Pf o)^T) i l - given_cov (x t) (data us y t.+1) i l| < eps))).
  { apply: ev_nat => t lt. have [u Eu] := nth_lt lt. have [a [P [C La LP]]] := bef_lim' log cst cok qok tok p0 M rows U (ltnW lt).
    have [af [Pf [C1 L1 L2 _ _]]] := step_lim' log cst cok qok tok p0 M rows Eu (ns_le U lt) La LP C.
    have [Ea EP] := condL_given (ns_le U (ltnW lt)) C. have [Eaf EPf] := condL_given (ns_le U lt) C1. rewrite -Ea -EP -Eaf -EPf.
    apply: ev_imp (ev_and (ev_and (mev _ _ _ _ La) (mev _ _ _ _ LP)) (ev_and (mev _ _ _ _ L1) (mev _ _ _ _ L2))) => j _ H u'. rewrite Eu => -[<-]. exact: H. }
  have [j0 j0p H] := K. exists j0 => // j jp jl. have [f [Ef [_ [_ [_ [_ [_ [_ [_ Hf]]]]]]]]] := KalmanScan_Proofs.build_ok (st j) us a0 L0 ne.
  rewrite /sqrt_filter Ef. eexists; split; first by [].
  move=> t lt. have [u Eu] := nth_lt lt. have [E1 [E2 [E3 [E4 _]]]] := Hf t u Eu.
  have [[G1 G2] [G3 G4]] := H j jp jl t lt u Eu.
  have sqn : forall m (l : seq 'M[R]_m) k L, List.nth_error l k = Some L -> List.nth_error (square_seq l) k = Some (L *m L^T).
  { move=> m l k L E. exact: (List.map_nth_error _ _ _ E). }
  exists (bf j t).1, ((bf j t).2 *m (bf j t).2^T), (KalmanScan_Model.o_af (st j u (bf j t).1 (bf j t).2)),
    (KalmanScan_Model.o_Pf (st j u (bf j t).1 (bf j t).2) *m (KalmanScan_Model.o_Pf (st j u (bf j t).1 (bf j t).2))^T).
  split; [by split=> //=; exact: sqn | by split=> //=; exact: sqn | split=> // i; exact: G1 | split=> // i; exact: G3].
Qed.
Print Assumptions C62_small_jitter.

(** The hypotheses can be met, over every real closed field and with the routines of Kalman_Cases: a local level model (all matrices 1, initial mean 0,
    initial factor 1) whose second observation is missing. *)
Section Example.
Context (K : rcfType).
Let e (i : 'I_5) : 'M[K]_(1, 5) := delta_mx 0 i.
Let row (v : option K) : inputs K 1 1 1 := Inputs (fun _ => v) 0 0 1%:M 1%:M 1%:M 1%:M 1%:M.
Let eps (t : nat) : rv K 5 1 := RV 0 (match t with 0 => e (inord 1) | 1 => e (inord 2) | _ => 0 end).
Let eta (t : nat) : rv K 5 1 := RV 0 (match t with 0 => e (inord 3) | 1 => e (inord 4) | _ => 0 end).
Fixpoint lev_x (t : nat) : rv K 5 1 := match t with 0 => RV 0 (e (inord 0)) | s.+1 => affine 0 1%:M (lev_x s) 1%:M (eta s) end.
Definition lev_y (t : nat) : rv K 5 1 := affine 0 1%:M (lev_x t) 1%:M (eps t).
Lemma lev_ee i j : (i < 5)%N -> (j < 5)%N -> e (inord i) *m (e (inord j))^T = if i == j then 1%:M else 0.
Proof.
  move=> li lj. rewrite /e trmx_delta mul_delta_mx_cond -val_eqE /= !inordK //. case: eqP => _; last by rewrite mulr0n.
  rewrite mulr1n. apply/matrixP=> a b. by rewrite !ord1 !mxE !eqxx.
Qed.
Example C62_missing_level : forall v fill : K, v != fill -> let us := [:: row (Some v); row None] in
  (forall m (A : 'M[K]_m), psd A -> chol_spec A (Kalman_Cases.chol A)) /\ (forall m k (M : 'M[K]_(m, k)), (k <= m)%N -> qr_spec M (Kalman_Cases.qr_x M)) /\
  tri_ok (@Kalman_Cases.solve_x K) /\
  [/\ model us 0 ((1%:M : 'M[K]_1) *m (1%:M)^T) lev_x lev_y, whole_rows fill us, nonsingular (data us lev_y 2) & us <> [::]].
Proof.
  move=> v fill Hv us. split; first by move=> m A; exact: Kalman_Cases.chol_ok. split; first by move=> m k M _; exact: Kalman_Cases.qr_x_ok.
  split; first exact: Kalman_Cases.solve_x_tri.
  have M : model us 0 ((1%:M : 'M[K]_1) *m (1%:M)^T) lev_x lev_y.
  { rewrite trmx1 mulmx1. exists eps, eta. rewrite /cov. split.
    - split; first exact: erefl. by rewrite [load _]/(e (inord 0)) lev_ee.
    - case=> [|[|[|t]]] u; rewrite /= => E; [case: E => <- | case: E => <- | by [] | by []];
        (split; [reflexivity | reflexivity | split; [reflexivity | by rewrite lev_ee] | split; [reflexivity | by rewrite lev_ee]]).
    - case=> [|[|t]]; rewrite /=; split; by rewrite ?lev_ee // trmx0 mulmx0.
    - case=> [|[|s]] [|[|t]]; rewrite /=; by rewrite ?lev_ee // ?trmx0 ?mulmx0 ?mul0mx.
    - case=> [|[|s]] [|[|t]] H; (try by move: H; rewrite eqxx); rewrite /=; split; by rewrite ?lev_ee // ?trmx0 ?mulmx0 ?mul0mx. }
  split=> //.
  - case=> [|[|[|t]]] u //= [<-]; [left=> i; by exists v | by right].
  - apply: (Joint_Props.C89_noise_makes_data_nonsingular M). case=> [|[|[|t]]] u; rewrite /= => E; [case: E => <- | case: E => <- | by [] | by []]; exact: unitmx1.
Qed.
End Example.
