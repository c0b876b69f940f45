(** C89, continued: the standard filter with jitter and missing entries, as the jitter goes to 0. *)
From mathcomp Require Import all_ssreflect all_algebra.
From Verif Require Common KalmanScan_Model KalmanScan_Spec KalmanScan_Proofs.
From Verif Require Import McTac Kalman_Model Kalman_Spec Kalman_Proofs Kalman_Missing Kalman_Seq Kalman_Sqrt Kalman_LL Kalman_Run Joint_Spec Joint_Proofs Joint_Stack Joint_Run Joint_Nonsing Joint_Lim Joint_Props.
Set Implicit Arguments.
Unset Strict Implicit.
Unset Printing Implicit Defensive.
Import Order.Theory GRing.Theory Num.Theory.
Local Open Scope ring_scope.

(** no observed value equals the value that marks missing data, and the measurement noise of observed and missing series is uncorrelated *)
Definition separable (R : realFieldType) (fill : R) n p r (us : seq (inputs R n p r)) : Prop :=
  forall t u, List.nth_error us t = Some u ->
  (forall i w, in_y u i = Some w -> w != fill) /\ (forall i k, in_y u i = None -> in_y u k <> None -> in_H u i k = 0 /\ in_H u k i = 0).

Section S.
Context (R : realFieldType) (N n p r : nat) (log : R -> R) (cst : R)
  (solve : forall m n, 'M[R]_m -> 'M[R]_(m, n) -> 'M[R]_(m, n)) (fill : R).
Context (us : seq (inputs R n p r)) (a0 : 'cV[R]_n) (P0 : 'M[R]_n) (x : nat -> rv R N n) (y : nat -> rv R N p).
Local Notation st j := (@std_step R log cst solve j fill n p r).
Local Notation D := (data us y).
Local Notation bef j := (KalmanScan_Spec.before (st j) us a0 P0).
Hypothesis sok : solve_ok solve.
Hypothesis M : model us a0 P0 x y.
Hypothesis sep : separable fill us.
Section Step.
Context (t : nat) (u : inputs R n p r).
Hypothesis Eu : List.nth_error us t = Some u.
Local Notation f := (@obs_index R p (in_y u)).
Local Notation Zo := (rowsub f (in_Z u)).
Local Notation Ho := (mxsub f f (in_H u)).
Local Notation yo := (\col_k odflt 0 (in_y u (f k)) : 'cV[R]_(size (obs_seq (in_y u)))).
Local Notation do := (rowsub f (in_d u)).
Lemma mask_isnan i : nan_mask fill (in_y u) i = isnan_mask (in_y u) i.
Proof. have [H _] := sep Eu. rewrite /nan_mask /isnan_mask. case E: (in_y u i) => [w|] //. exact: negbTE (H _ _ E). Qed.
Lemma lists : lists_observed (nan_mask fill (in_y u)) f.
Proof. have [I L] := obs_index_lists (in_y u). split=> // i. rewrite mask_isnan. exact: L. Qed.
Lemma dec : decoupled (nan_mask fill (in_y u)) (in_H u).
Proof.
  have [_ H] := sep Eu. move=> i k. rewrite !mask_isnan /isnan_mask. case Ei: (in_y u i) => [wi|]; case Ek: (in_y u k) => [wk|] //= _.
  - have [] := H k i Ek; by rewrite ?Ei.
  - have [] := H i k Ei; by rewrite ?Ek.
Qed.
Lemma psdH : psd (in_H u). Proof. have [eps [eta [_ Hu _ _ _]]] := M. have [_ _ [_ <-] _] := Hu _ _ Eu. exact: cov_psd. Qed.
Lemma psdQ : psd (in_Q u). Proof. have [eps [eta [_ Hu _ _ _]]] := M. have [_ _ _ [_ <-]] := Hu _ _ Eu. exact: cov_psd. Qed.
Lemma okin : ok_inputs fill u. Proof. split; [exact: psdH | split; [exact: psdQ | exact: dec]]. Qed.
(** for a positive jitter, the update is the textbook update with the observed rows *)
Lemma step_obs j a P : 0 < j -> psd P -> let o := st j u a P in let Hj := stabilize Ho j in
  let af := cond_mean a P Zo Hj yo do in let Pf := cond_cov P Zo Hj - j *: (gain P Zo Hj *m (gain P Zo Hj)^T) + j *: 1%:M in
  [/\ KalmanScan_Model.o_af o = af, KalmanScan_Model.o_Pf o = Pf, KalmanScan_Model.o_ahat o = in_T u *m af + in_c u &
      KalmanScan_Model.o_Phat o = in_T u *m Pf *m (in_T u)^T + in_R u *m in_Q u *m (in_R u)^T].
Proof.
  move=> jp pP o Hj af Pf. have pO : psd Ho := obs_psd f psdH.
  have uF : innov_cov P Zo Hj \in unitmx.
  { have := innov_pd Zo pP (psd_stabilize (ltW jp) pO). apply. rewrite /Hj (mxsub_S f (in_H u)). exact: pd_stab jp psdH. }
  have [E1 E2] := masked_update log cst lists pP psdH dec jp sok a (in_d u) uF.
  move: E1 E2. rewrite [std_update _ _ _ _ a P yo do Zo Ho false](std_updateE log cst sok a yo do false pP pO (ltW jp) uF).
  have sP : psd (KalmanScan_Model.o_Pf o) := (std_step_psd log cst solve a (ltW jp) okin pP).1.
  rewrite /o /std_step in sP *. case E: (std_update _ _ _ _ a P (y_masked fill (in_y u)) _ _ _ _) => [[[[af' Pf'] mu] F] ll] /= E1 E2.
  rewrite E /predict /= in sP *.
  have EP : stabilize Pf' j = Pf by rewrite E2.
  rewrite !quad_symE ?(psd_sym psdQ) ?(psd_sym sP) // EP E1. by [].
Qed.
Hypothesis ns1 : nonsingular (D t.+1).
Section Cond.
Context (a : 'cV[R]_n) (P : 'M[R]_n).
Hypothesis C : condL (x t) (D t) a P.
Lemma obs_update : innov_cov P Zo Ho \in unitmx /\ condL (x t) (D t.+1) (cond_mean a P Zo Ho yo do) (cond_cov P Zo Ho).
Proof.
  have [eps [eta [H0 Hu Hx He Hs]]] := M. have [B1 _ B3 _] := past Hu Hx He Hs (ltnW (lt_nth Eu)) (leqnn t). have [_ _ [_ EH] _] := Hu _ _ Eu. have [Ly My] := load_y Hu Eu.
  have EG : gram (rowsub f (load (eps t))) = Ho.
  { rewrite -EH /cov /gram. by apply/matrixP => i k; rewrite !mxE; apply: eq_bigr => l _; rewrite !mxE. }
  have EL : rowsub f (load (y t)) = Zo *m load (x t) + rowsub f (load (eps t)).
  { rewrite Ly. apply/matrixP => i k. rewrite !mxE. congr (_ + _). by apply: eq_bigr => l _; rewrite !mxE. }
  have EM : rowsub f (mean (y t)) = do + Zo *m mean (x t).
  { rewrite My. apply/matrixP => i k. rewrite !mxE. congr (_ + _). by apply: eq_bigr => l _; rewrite !mxE. }
  have O1 : load (x t) *m (rowsub f (load (eps t)))^T = 0.
  { have -> : load (x t) *m (rowsub f (load (eps t)))^T = colsub f (load (x t) *m (load (eps t))^T) by apply/matrixP => i k; rewrite !mxE; apply: eq_bigr => l _; rewrite !mxE.
    by rewrite B1; apply/matrixP => i k; rewrite !mxE. }
  have O3 : load (stack (D t)) *m (rowsub f (load (eps t)))^T = 0.
  { have -> : load (stack (D t)) *m (rowsub f (load (eps t)))^T = colsub f (load (stack (D t)) *m (load (eps t))^T) by apply/matrixP => i k; rewrite !mxE; apply: eq_bigr => l _; rewrite !mxE.
    by rewrite (orth_stack B3); apply/matrixP => i k; rewrite !mxE. }
  have dt : dat (D t.+1) (col_mx (mean (stack (D t))) (do + Zo *m mean (x t))) (col_mx (load (stack (D t))) (Zo *m load (x t) + rowsub f (load (eps t)))) (col_mx (values (D t)) yo).
  { rewrite (data_S y Eu) -EL -EM. apply: dat_cat; [exact: dat_self | exact: dat_obs]. }
  have UF : innov_cov P Zo Ho \in unitmx.
  { have [Dd _] := dat_gram dt. have [K _] := core_det Zo do yo C O1 O3. move: ns1. rewrite /nonsingular unitmxE Dd K EG unitrM -!unitmxE => /andP []. by []. }
  split=> //. apply: (condL_dat dt). have := core_update do yo C O1 O3. rewrite EG. exact.
Qed.
End Cond.
(** limits pass through one step *)
Lemma step_lim (fa : R -> 'cV[R]_n) (fP : R -> 'M[R]_n) a P : mlim fa a -> mlim fP P -> (forall j, 0 < j -> psd (fP j)) -> condL (x t) (D t) a P ->
  exists af Pf, [/\ condL (x t) (D t.+1) af Pf,
   mlim (fun j => KalmanScan_Model.o_af (st j u (fa j) (fP j))) af, mlim (fun j => KalmanScan_Model.o_Pf (st j u (fa j) (fP j))) Pf,
   mlim (fun j => KalmanScan_Model.o_ahat (st j u (fa j) (fP j))) (in_T u *m af + in_c u) &
   mlim (fun j => KalmanScan_Model.o_Phat (st j u (fa j) (fP j))) (in_T u *m Pf *m (in_T u)^T + in_R u *m in_Q u *m (in_R u)^T)].
Proof.
  move=> La LP pP C. have [UF C1] := obs_update C. exists (cond_mean a P Zo Ho yo do), (cond_cov P Zo Ho).
  have LH : mlim (fun j => stabilize Ho j) Ho.
  { rewrite -[X in mlim _ X]addr0 -(scale0r (1%:M : 'M[R]_(size (obs_seq (in_y u))))). apply: (mlim_add (mlim_const _) _). apply: mlim_scale; [exact: lim_id | exact: mlim_const]. }
  have LF : mlim (fun j => innov_cov (fP j) Zo (stabilize Ho j)) (innov_cov P Zo Ho).
  { apply: (mlim_add _ LH). apply: (mlim_mul _ (mlim_const _)). exact: (mlim_mul (mlim_const _) LP). }
  have LK : mlim (fun j => gain (fP j) Zo (stabilize Ho j)) (gain P Zo Ho).
  { apply: (mlim_mul _ (mlim_inv UF LF)). exact: (mlim_mul LP (mlim_const _)). }
  have Laf : mlim (fun j => cond_mean (fa j) (fP j) Zo (stabilize Ho j) yo do) (cond_mean a P Zo Ho yo do).
  { apply: (mlim_add La _). apply: (mlim_mul LK _). apply: (mlim_sub (mlim_const _) _). exact: (mlim_mul (mlim_const _) La). }
  have LPf : mlim (fun j => cond_cov (fP j) Zo (stabilize Ho j) - j *: (gain (fP j) Zo (stabilize Ho j) *m (gain (fP j) Zo (stabilize Ho j))^T) + j *: 1%:M) (cond_cov P Zo Ho).
  { rewrite -[X in mlim _ X]subr0 -[X in mlim _ X]addr0. rewrite -{1}(scale0r (gain P Zo Ho *m (gain P Zo Ho)^T)) -(scale0r (1%:M : 'M[R]_n)).
    apply: mlim_add; last by apply: mlim_scale; [exact: lim_id | exact: mlim_const]. apply: mlim_sub; last first.
    { apply: mlim_scale; first exact: lim_id. apply: (mlim_mul LK (mlim_tr LK)). }
    exact: (mlim_sub LP (mlim_mul (mlim_mul LK (mlim_const _)) LP)). }
  split=> //.
  - apply: (mlim_eq _ Laf). apply: ev_all => j jp. by have [-> _ _ _] := step_obs (fa j) jp (pP j jp).
  - apply: (mlim_eq _ LPf). apply: ev_all => j jp. by have [_ -> _ _] := step_obs (fa j) jp (pP j jp).
  - apply: (mlim_eq _ (mlim_add (mlim_mul (mlim_const (in_T u)) Laf) (mlim_const (in_c u)))). apply: ev_all => j jp. by have [_ _ -> _] := step_obs (fa j) jp (pP j jp).
  - apply: (mlim_eq _ (mlim_add (mlim_mul (mlim_mul (mlim_const (in_T u)) LPf) (mlim_const _)) (mlim_const _))). apply: ev_all => j jp. by have [_ _ _ ->] := step_obs (fa j) jp (pP j jp).
Qed.
End Step.
Hypothesis U : nonsingular (D (size us)).
Lemma ns_le t : (t <= size us)%N -> nonsingular (D t).
Proof.
  move=> lt. have : forall k, (t + k <= size us)%N -> nonsingular (D (t + k)) -> nonsingular (D t).
  { elim=> [|k IH] l V; first by rewrite addn0 in V. rewrite addnS in l V. apply: IH; first exact: ltnW. have [u Eu] := nth_lt l. move: V. rewrite (data_S y Eu). exact: nonsingular_cat. }
  move=> /(_ (size us - t)%N). rewrite subnKC //. by apply.
Qed.
Lemma psdP0 : psd P0. Proof. have [eps [eta [[_ <-] _ _ _ _]]] := M. exact: cov_psd. Qed.
Lemma bef_psd j t : 0 < j -> (t <= size us)%N -> psd (bef j t).2.
Proof.
  move=> jp. elim: t => [|t IH] lt. { have := psdP0. by case: us a0 P0. }
  have [u Eu] := nth_lt lt. rewrite (KalmanScan_Proofs.before_S (st j) us a0 P0 t u Eu) /=.
  exact: (std_step_psd log cst solve _ (ltW jp) (okin Eu) (IH (ltnW lt))).2.
Qed.
Lemma bef_lim t : (t <= size us)%N -> exists a P, [/\ condL (x t) (D t) a P, mlim (fun j => (bef j t).1) a & mlim (fun j => (bef j t).2) P].
Proof.
  elim: t => [|t IH] lt.
  { exists a0, P0. have [eps [eta [H0 _ _ _ _]]] := M. split; [exact: cond0 | |]; case: (us) => [|? ?] /=; exact: mlim_const. }
  have [a [P [C La LP]]] := IH (ltnW lt). have [u Eu] := nth_lt lt.
  have [af [Pf [C1 _ _ L1 L2]]] := step_lim Eu (ns_le lt) La LP (fun j jp => bef_psd jp (ltnW lt)) C.
  exists (in_T u *m af + in_c u), (in_T u *m Pf *m (in_T u)^T + in_R u *m in_Q u *m (in_R u)^T). split.
  - have [eps [eta [H0 Hu Hx He Hs]]] := M. exact: (next_cond Hu Hx He Hs Eu C1).
  - apply: (mlim_eq _ L1). apply: ev_all => j _. by rewrite (KalmanScan_Proofs.before_S (st j) us a0 P0 t u Eu).
  - apply: (mlim_eq _ L2). apply: ev_all => j _. by rewrite (KalmanScan_Proofs.before_S (st j) us a0 P0 t u Eu).
Qed.
End S.

(** The standard filter, on any series with any missing entries, generated by any time-varying linear Gaussian model: as the jitter goes to 0 its predicted
    and filtered moments tend to the exact conditional mean and covariance of the state given the entries observed before t, respectively up to t. *)
Theorem C89_small_jitter_missing :
  forall (R : realFieldType) (N n p r : nat) (log : R -> R) (cst : R) (solve : forall m n, 'M[R]_m -> 'M[R]_(m, n) -> 'M[R]_(m, n)) (fill : R)
    (us : seq (inputs R n p r)) a0 P0 (x : nat -> rv R N n) (y : nat -> rv R N p),
  solve_ok solve -> model us a0 P0 x y -> separable fill us -> nonsingular (data us y (size us)) -> us <> [::] ->
  forall eps, 0 < eps -> exists2 j0, 0 < j0 & forall j, 0 < j -> j < j0 -> exists f, std_filter log cst solve j fill us a0 P0 = Common.Ok f /\
  forall t, (t < size us)%N -> exists a P af Pf,
  [/\ List.nth_error (KalmanScan_Model.predicted_states f) t = Some a /\ List.nth_error (KalmanScan_Model.predicted_covs f) t = Some P,
      List.nth_error (KalmanScan_Model.filtered_states f) t = Some af /\ List.nth_error (KalmanScan_Model.filtered_covs f) t = Some Pf,
      (forall i, `|a i 0 - given_mean (x t) (data us y t) i 0| < eps) /\ (forall i k, `|P i k - given_cov (x t) (data us y t) i k| < eps) &
      (forall i, `|af i 0 - given_mean (x t) (data us y t.+1) i 0| < eps) /\ (forall i k, `|Pf i k - given_cov (x t) (data us y t.+1) i k| < eps)].
Proof.
  move=> R N n p r log cst solve fill us a0 P0 x y sok M sep U ne eps e0.
  pose st j := @std_step R log cst solve j fill n p r. pose bf j t := KalmanScan_Spec.before (st j) us a0 P0 t.
  have mev : forall m k (g : R -> 'M[R]_(m, k)) L, mlim g L -> ev (fun j => forall i l, `|g j i l - L i l| < eps).
  { move=> m k g L H. apply: ev_fin => i. apply: ev_fin => l. exact: H. }
  have K : ev (fun j => forall t, (t < size us)%N -> forall u, List.nth_error us t = Some u -> let o := st j u (bf j t).1 (bf j t).2 in
    ((forall i l, `|(bf j t).1 i l - given_mean (x t) (data us y t) i l| < eps) /\ (forall i l, `|(bf j t).2 i l - given_cov (x t) (data us y t) i l| < eps)) /\
    ((forall i l, `|KalmanScan_Model.o_af o i l - given_mean (x t) (data us y t.+1) i l| < eps) /\ (forall i l, `|KalmanScan_Model.o_Pf o i l - given_cov (x t) (data us y t.+1) i l| < eps))).
  { apply: ev_nat => t lt. have [u Eu] := nth_lt lt. have [a [P [C La LP]]] := bef_lim log cst sok M sep U (ltnW lt).
    have [af [Pf [C1 L1 L2 _ _]]] := step_lim log cst sok M sep Eu (ns_le U lt) La LP (fun j jp => bef_psd log cst solve M sep jp (ltnW lt)) C.
    have [Ea EP] := condL_given (ns_le U (ltnW lt)) C. have [Eaf EPf] := condL_given (ns_le U lt) C1. rewrite -Ea -EP -Eaf -EPf.
    apply: ev_imp (ev_and (ev_and (mev _ _ _ _ La) (mev _ _ _ _ LP)) (ev_and (mev _ _ _ _ L1) (mev _ _ _ _ L2))) => j _ H u'. rewrite Eu => -[<-]. exact: H. }
  have [j0 j0p H] := K. exists j0 => // j jp jl. have [f [Ef [_ [_ [_ [_ [_ [_ [_ Hf]]]]]]]]] := KalmanScan_Proofs.build_ok (st j) us a0 P0 ne.
  exists f. split=> // t lt. have [u Eu] := nth_lt lt. have [E1 [E2 [E3 [E4 _]]]] := Hf t u Eu.
  have [[G1 G2] [G3 G4]] := H j jp jl t lt u Eu.
  exists (bf j t).1, (bf j t).2, (KalmanScan_Model.o_af (st j u (bf j t).1 (bf j t).2)), (KalmanScan_Model.o_Pf (st j u (bf j t).1 (bf j t).2)).
  split; [by split | by split | split=> // i; exact: G1 | split=> // i; exact: G3].
Qed.
Print Assumptions C89_small_jitter_missing.

(** The hypotheses can be met: a local level model over the rationals whose second observation is missing. *)
Section Example.
Let QR : realFieldType := [realFieldType of rat].
Let row (v : option QR) : inputs QR 1 1 1 := Inputs (fun _ => v) 0 0 1%:M 1%:M 1%:M 1%:M 1%:M.
Example C89_missing_level : forall v fill : QR, v != fill -> let us := [:: row (Some v); row None] in
  [/\ model us 0 1%:M Joint_Props.ex_x Joint_Props.ex_y, separable fill us, nonsingular (data us Joint_Props.ex_y 2) & us <> [::]].
Proof.
  move=> v fill Hv us. have [[eps [eta [H0 Hu Hx He Hs]]] _ _] := Joint_Props.C89_local_level Hv Hv.
  have M : model us 0 1%:M Joint_Props.ex_x Joint_Props.ex_y.
  { exists eps, eta. split=> //. case=> [|[|[|t]]] u; rewrite /= => E; [case: E => <- | case: E => <- | by [] | by []].
    - have [A1 A2 A3 A4] := Hu 0%N _ erefl. by split.
    - have [A1 A2 A3 A4] := Hu 1%N _ erefl. by split. }
  split=> //.
  - case=> [|[|[|t]]] u; rewrite /= => E; [case: E => <- | case: E => <- | by [] | by []]; split=> //= i w. by move=> [<-].
  - apply: (Joint_Props.C89_noise_makes_data_nonsingular M). case=> [|[|[|t]]] u; rewrite /= => E; [case: E => <- | case: E => <- | by [] | by []]; exact: unitmx1.
Qed.
End Example.
