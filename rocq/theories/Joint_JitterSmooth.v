(** C89, continued: filter, then smooth, as the jitter goes to 0. *)
From mathcomp Require Import all_ssreflect all_algebra.
From Verif Require Common KalmanScan_Model KalmanScan_Spec KalmanScan_Proofs.
From Verif Require Import McTac Kalman_Model Kalman_Spec Kalman_Proofs Kalman_Missing Kalman_Seq Kalman_Sqrt Kalman_LL Kalman_Run Joint_Spec Joint_Proofs Joint_Stack Joint_Run Joint_Smooth Joint_Nonsing Joint_Lim Joint_Props Joint_Jitter.
Set Implicit Arguments.
Unset Strict Implicit.
Unset Printing Implicit Defensive.
Import Order.Theory GRing.Theory Num.Theory.
Local Open Scope ring_scope.

Section S.
Context (R : realFieldType).
Lemma mlim_stab n (f : R -> 'M[R]_n) A c : mlim f A -> lim c 0 -> mlim (fun j => stabilize (f j) (c j)) (stabilize A 0).
Proof. move=> F C. apply: (mlim_add F). exact: mlim_scale C (mlim_const _). Qed.
Lemma mlim_quad m n (f : R -> 'M[R]_(m, n)) (g : R -> 'M[R]_n) A B : mlim f A -> mlim g B -> mlim (fun j => quad_form_sym (f j) (g j)) (quad_form_sym A B).
Proof.
  move=> F G. have H := mlim_mul (mlim_mul F G) (mlim_tr F). move: H. rewrite /quad_form_sym. move: (A *m B *m A^T) => L H.
  apply: mlim_scale; first exact: lim_const. exact: (mlim_add H (mlim_tr H)).
Qed.
End S.
Section Step.
Context (R : realFieldType) (n r : nat) (pinv : forall m, 'M[R]_m -> 'M[R]_m).
Hypothesis pen : forall m (A : 'M[R]_m), psd A -> A *m pinv A *m A = A.
Lemma pinv_unit m (A : 'M[R]_m) : psd A -> A \in unitmx -> pinv A = invmx A.
Proof. move=> pA U. have E := pen pA. apply: (can_inj (mulKmx U)). rewrite mulmxV //. by rewrite -(mulmxK U (A *m pinv A)) E mulmxV. Qed.
Lemma sm_lim (fa ga : R -> 'cV[R]_n) (fP gP : R -> 'M[R]_n) c a P b B (T : 'M[R]_n) (Rm : 'M[R]_(n, r)) (Q : 'M[R]_r) :
  mlim fa a -> mlim fP P -> (forall j, 0 < j -> psd (fP j)) -> mlim ga b -> mlim gP B -> lim c 0 -> psd P -> psd Q ->
  T *m P *m T^T + Rm *m Q *m Rm^T \in unitmx ->
  let o := sm_step pinv 0 0 (a, P) (b, B) (T, Rm, Q) in let g := fun j => sm_step pinv j (c j) (fa j, fP j) (ga j, gP j) (T, Rm, Q) in
  mlim (fun j => (g j).1) o.1 /\ mlim (fun j => (g j).2) o.2.
Proof.
  move=> La LP pP Lb LB Lc p0 pQ U o g. rewrite /o /g /sm_step /smoother_step /smoother_predict /=.
  set hP := fun j => stabilize (quad_form_sym T (fP j) + quad_form_sym Rm Q) j. set Ph := stabilize (quad_form_sym T P + quad_form_sym Rm Q) 0.
  have Lh : mlim hP Ph by apply: mlim_stab (@lim_id R); apply: mlim_add (mlim_const _); apply: mlim_quad LP; exact: mlim_const.
  have EPh : Ph = T *m P *m T^T + Rm *m Q *m Rm^T by rewrite /Ph stab00 !quad_symE ?(psd_sym p0) ?(psd_sym pQ).
  have pPh : psd Ph by rewrite EPh; apply: psd_add; apply: psd_congr.
  have UPh : Ph \in unitmx by rewrite EPh.
  have phP : forall j, 0 < j -> psd (hP j).
  { move=> j jp. rewrite /hP !quad_symE ?(psd_sym pQ) ?(psd_sym (pP j jp)) //. apply: psd_stabilize; first exact: ltW. apply: psd_add; apply: psd_congr => //; exact: pP. }
  have Li : mlim (fun j => pinv (hP j)) (pinv Ph).
  { rewrite pinv_unit //. apply: mlim_eq (mlim_inv UPh Lh). apply: ev_imp (mlim_unit UPh Lh) => j jp Uj. by rewrite pinv_unit //; apply: phP. }
  have LG : mlim (fun j => (pinv (hP j) *m T *m fP j)^T) (pinv Ph *m T *m P)^T.
  { apply: mlim_tr. apply: (mlim_mul _ LP). exact: (mlim_mul Li (mlim_const _)). }
  split.
  - apply: (mlim_add La). apply: (mlim_mul LG). apply: (mlim_sub Lb). exact: (mlim_mul (mlim_const _) La).
  - apply: mlim_stab Lc. apply: mlim_stab (@lim_id R). apply: (mlim_add LP). apply: (mlim_quad LG). exact: (mlim_sub LB Lh).
Qed.
End Step.

Section Run.
Context (R : realFieldType) (N n p r : nat) (log : R -> R) (cst : R)
  (solve : forall m n, 'M[R]_m -> 'M[R]_(m, n) -> 'M[R]_(m, n)) (pinv : forall m, 'M[R]_m -> 'M[R]_m) (fill : R).
Context (us : seq (inputs R n p r)) (a0 : 'cV[R]_n) (P0 : 'M[R]_n) (x : nat -> rv R N n) (y : nat -> rv R N p) (c : R -> R).
Local Notation st j := (@std_step R log cst solve j fill n p r).
Local Notation D := (data us y).
Local Notation bef j := (KalmanScan_Spec.before (st j) us a0 P0).
Hypothesis sok : solve_ok solve.
Hypothesis pen : forall m (A : 'M[R]_m), psd A -> A *m pinv A *m A = A.
Hypothesis M : model us a0 P0 x y.
Hypothesis sep : separable fill us.
Hypothesis U : nonsingular (D (size us)).
Hypothesis c0 : forall t u, List.nth_error us t = Some u -> in_c u = 0.
Hypothesis stat : forall s t u w, List.nth_error us s = Some u -> List.nth_error us t = Some w -> (in_T u, in_R u, in_Q u) = (in_T w, in_R w, in_Q w).
Hypothesis Lc : lim c 0.
Hypothesis gain_ok : forall t, (t.+1 < size us)%N -> given_cov (x t.+1) (D t.+1) \in unitmx.
Local Notation F0 := ((0, 0) : 'cV[R]_n * 'M[R]_n).
(** the filtered moments at t *)
Definition filt j t : 'cV[R]_n * 'M[R]_n :=
  match List.nth_error us t with Some u => let o := st j u (bef j t).1 (bef j t).2 in (KalmanScan_Model.o_af o, KalmanScan_Model.o_Pf o) | None => F0 end.
Lemma filt_lim t u : List.nth_error us t = Some u -> exists a P, [/\ condL (x t) (D t.+1) a P, mlim (fun j => (filt j t).1) a & mlim (fun j => (filt j t).2) P].
Proof.
  move=> Eu. have lt := lt_nth Eu. have [a [P [C La LP]]] := bef_lim log cst sok M sep U (ltnW lt).
  have [af [Pf [C1 L1 L2 _ _]]] := step_lim log cst sok M sep Eu (ns_le U lt) La LP (fun j jp => bef_psd log cst solve M sep jp (ltnW lt)) C.
  exists af, Pf. split=> //; rewrite /filt Eu /=; [exact: L1 | exact: L2].
Qed.
Lemma filt_psd j t : 0 < j -> psd (filt j t).2.
Proof.
  move=> jp. rewrite /filt. case Eu: (List.nth_error us t) => [u|] /=; last exact: psd0.
  exact: (std_step_psd log cst solve _ (ltW jp) (okin M sep Eu) (bef_psd log cst solve M sep jp (ltnW (lt_nth Eu)))).1.
Qed.
(** what the smoother computes, from the end *)
Fixpoint back j k : 'cV[R]_n * 'M[R]_n :=
  match k with
  | 0 => filt j (size us - 1)
  | k'.+1 => match List.nth_error us (size us - 1 - k) with
             | Some u => sm_step pinv j (c j) (filt j (size us - 1 - k)) (back j k') (in_T u, in_R u, in_Q u)
             | None => F0 end
  end.
Lemma back_lim k : (k < size us)%N -> exists a P, [/\ condL (x (size us - 1 - k)) (D (size us)) a P, mlim (fun j => (back j k).1) a & mlim (fun j => (back j k).2) P].
Proof.
  elim: k => [|k IH] lt.
  - have l1 : (size us - 1 < size us)%N by rewrite subn1 prednK. have [u Eu] := nth_lt l1.
    have [a [P [C La LP]]] := filt_lim Eu. rewrite subn0. exists a, P. split=> //. rewrite subn1 prednK // in C. by rewrite subn1.
  - have [b [B [Cb Lb LB]]] := IH (ltnW lt). set t := (size us - 1 - k.+1)%N.
    have Et : (t.+1 = size us - 1 - k)%N by rewrite /t subnS prednK // subn_gt0 subn1 -ltnS prednK //; exact: leq_trans lt.
    have ltt : (t.+1 < size us)%N. { rewrite Et -subnDA ltn_subrL /=. exact: leq_trans lt. }
    have [u Eu] := nth_lt (ltnW ltt). have [a [P [C La LP]]] := filt_lim Eu.
    have [eps [eta [H0 Hu Hx He Hs]]] := M.
    have Cn := next_cond Hu Hx He Hs Eu C. have [_ EPn] := condL_given (ns_le U (ltnW ltt)) Cn.
    have Un : in_T u *m P *m (in_T u)^T + in_R u *m in_Q u *m (in_R u)^T \in unitmx by rewrite EPn; exact: gain_ok.
    rewrite -Et in Cb.
    have [L1 L2] := sm_lim pen La LP (fun j jp => filt_psd t jp) Lb LB Lc (isCond_psd C) (psdQ M Eu) Un.
    have := smooth_one Hu Hx He Hs pen 0 Eu (c0 Eu) C Cb (psd0 _ _). rewrite addr0 => -[Pex [Er [C1 E2 _ Z]]].
    rewrite (Z erefl erefl) addr0 in E2. rewrite -E2 in C1.
    exists (sm_step pinv 0 0 (a, P) (b, B) (in_T u, in_R u, in_Q u)).1, (sm_step pinv 0 0 (a, P) (b, B) (in_T u, in_R u, in_Q u)).2. split=> //.
    + apply: mlim_eq L1. apply: ev_all => j _. by rewrite /= -/t Eu.
    + apply: mlim_eq L2. apply: ev_all => j _. by rewrite /= -/t Eu.
Qed.
End Run.
Section Link.
Context (R : realFieldType) (N n p r : nat) (log : R -> R) (cst : R)
  (solve : forall m n, 'M[R]_m -> 'M[R]_(m, n) -> 'M[R]_(m, n)) (pinv : forall m, 'M[R]_m -> 'M[R]_m) (fill : R).
Context (us : seq (inputs R n p r)) (a0 : 'cV[R]_n) (P0 : 'M[R]_n) (c : R -> R).
Local Notation st j := (@std_step R log cst solve j fill n p r).
Local Notation bk := (back log cst solve pinv fill us a0 P0 c).
Hypothesis stat : forall s t u w, List.nth_error us s = Some u -> List.nth_error us t = Some w -> (in_T u, in_R u, in_Q u) = (in_T w, in_R w, in_Q w).
Lemma nth_combine (A B : Type) (l1 : list A) (l2 : list B) k a1 b1 : List.nth_error l1 k = Some a1 -> List.nth_error l2 k = Some b1 -> List.nth_error (List.combine l1 l2) k = Some (a1, b1).
Proof. elim: l1 l2 k => [|? ? IH] [|? ?] [|k] //=; by [move=> [->] [->] | exact: IH]. Qed.
Lemma link j : us <> [::] -> exists f out, [/\ std_filter log cst solve j fill us a0 P0 = Common.Ok f,
  KalmanScan_Model.smooth (sm_step pinv j (c j)) (List.combine (KalmanScan_Model.filtered_states f) (KalmanScan_Model.filtered_covs f)) (List.map (fun u => (in_T u, in_R u, in_Q u)) us) = Common.Ok out,
  size out = size us & forall k, (k < size us)%N -> List.nth_error out (size us - 1 - k) = Some (bk j k)].
Proof.
  move=> ne. have [f [Ef [L1 [_ [_ [L4 [_ [_ [_ Hf]]]]]]]]] := KalmanScan_Proofs.build_ok (st j) us a0 P0 ne.
  set fl := List.combine (KalmanScan_Model.filtered_states f) (KalmanScan_Model.filtered_covs f).
  have Hfl : forall t, (t < size us)%N -> List.nth_error fl t = Some (filt log cst solve fill us a0 P0 j t).
  { move=> t lt. have [u Eu] := nth_lt lt. have [_ [_ [E3 [E4 _]]]] := Hf t u Eu. rewrite /filt Eu. exact: nth_combine E3 E4. }
  have sz : length fl = size us by rewrite List.combine_length L1 L4; exact: PeanoNat.Nat.min_id.
  have pos : (0 < size us)%N by case: (us) ne.
  have fne : fl <> [::] by move=> e; move: pos; rewrite -sz e.
  have [out [Eo [Lo [Hl Hn]]]] := KalmanScan_Proofs.smooth_spec (sm_step pinv j (c j)) fl (List.map (fun u => (in_T u, in_R u, in_Q u)) us) fne ltac:(by rewrite List.map_length sz).
  exists f, out. split=> //; first by rewrite -[size out]/(length out) Lo.
  elim=> [|k IH] lt.
  - rewrite subn0. have Hl' : List.nth_error out (size us - 1) = List.nth_error fl (size us - 1) by move: Hl; rewrite sz; exact. rewrite Hl'. apply: Hfl. by rewrite subn1 prednK.
  - set t := (size us - 1 - k.+1)%N. have Et : (t + 1 = size us - 1 - k)%N by rewrite /t addn1 subnS prednK // subn_gt0 subn1 -ltnS prednK.
    have ltt : (t + 1 < size us)%N by rewrite Et -subnDA ltn_subrL pos.
    have [u1 Eu1] := nth_lt ltt. have lt0 : (t < size us)%N by move: (ltnW ltt); rewrite addn1. have [u Eu] := nth_lt lt0.
    have Em : List.nth_error (List.map (fun u => (in_T u, in_R u, in_Q u)) us) (t + 1) = Some (in_T u, in_R u, in_Q u).
    { rewrite (List.map_nth_error _ _ _ Eu1). by rewrite (stat Eu Eu1). }
    have E1 := IH (ltnW lt). rewrite -Et in E1. rewrite (Hn t _ _ _ (Hfl t lt0) Em E1) /= -/t Eu. by [].
Qed.
End Link.

(** Filter, then smooth, any series with any missing entries, generated by a linear Gaussian model whose T, R, Q do not vary and whose intercept is 0, and
    whose one-step-ahead state covariances are invertible: as the jitter (and with it the default jitter the smoother adds once more, any function of it that
    tends to 0) goes to 0, the smoothed moments tend to the exact conditional mean and covariance of the state given the whole series. *)
Theorem C89_small_jitter_smoother :
  forall (R : realFieldType) (N n p r : nat) (log : R -> R) (cst : R) (solve : forall m n, 'M[R]_m -> 'M[R]_(m, n) -> 'M[R]_(m, n)) (pinv : forall m, 'M[R]_m -> 'M[R]_m) (fill : R)
    (us : seq (inputs R n p r)) a0 P0 (x : nat -> rv R N n) (y : nat -> rv R N p) (default_jitter : R -> R),
  solve_ok solve -> (forall m (A : 'M[R]_m), psd A -> A *m pinv m A *m A = A) -> model us a0 P0 x y -> separable fill us -> nonsingular (data us y (size us)) -> us <> [::] ->
  (forall t u, List.nth_error us t = Some u -> in_c u = 0) ->
  (forall s t u w, List.nth_error us s = Some u -> List.nth_error us t = Some w -> (in_T u, in_R u, in_Q u) = (in_T w, in_R w, in_Q w)) ->
  (forall t, (t.+1 < size us)%N -> given_cov (x t.+1) (data us y t.+1) \in unitmx) ->
  (forall e, 0 < e -> exists2 d, 0 < d & forall j, 0 < j -> j < d -> `|default_jitter j - 0| < e) ->
  forall eps, 0 < eps -> exists2 j0, 0 < j0 & forall j, 0 < j -> j < j0 -> exists f out, 
  [/\ std_filter log cst solve j fill us a0 P0 = Common.Ok f,
      KalmanScan_Model.smooth (fun f s m => smoother_step j pinv (default_jitter j) f.1 f.2 s.1 s.2 m.1.1 m.1.2 m.2)
        (List.combine (KalmanScan_Model.filtered_states f) (KalmanScan_Model.filtered_covs f)) (List.map (fun u => (in_T u, in_R u, in_Q u)) us) = Common.Ok out,
      size out = size us & forall t s, List.nth_error out t = Some s ->
      (forall i, `|s.1 i 0 - given_mean (x t) (data us y (size us)) i 0| < eps) /\ (forall i k, `|s.2 i k - given_cov (x t) (data us y (size us)) i k| < eps)].
Proof.
  move=> R N n p r log cst solve pinv fill us a0 P0 x y c sok pen M sep U ne c0 stat gok Lc eps e0.
  have mev : forall m k (g : R -> 'M[R]_(m, k)) L, mlim g L -> ev (fun j => forall i l, `|g j i l - L i l| < eps).
  { move=> m k g L H. apply: ev_fin => i. apply: ev_fin => l. exact: H. }
  have K : ev (fun j => forall k, (k < size us)%N -> let s := back log cst solve pinv fill us a0 P0 c j k in
    (forall i l, `|s.1 i l - given_mean (x (size us - 1 - k)%N) (data us y (size us)) i l| < eps) /\ (forall i l, `|s.2 i l - given_cov (x (size us - 1 - k)%N) (data us y (size us)) i l| < eps)).
  { apply: ev_nat => k lt. have [a [P [C La LP]]] := back_lim log cst sok pen M sep U c0 Lc gok lt.
    have [<- <-] := condL_given U C. exact: ev_and (mev _ _ _ _ La) (mev _ _ _ _ LP). }
  have [j0 j0p H] := K. exists j0 => // j jp jl. have [f [out [E1 E2 E3 E4]]] := link log cst solve pinv fill a0 P0 c stat j ne.
  exists f, out. split=> // t s Es. have lt : (t < size us)%N by rewrite -E3; apply/ssrnat.ltP/List.nth_error_Some; rewrite Es.
  have Et : (size us - 1 - (size us - 1 - t) = t)%N by rewrite subKn // subn1 -ltnS prednK //; exact: leq_trans lt.
  have lk : (size us - 1 - t < size us)%N by rewrite -subnDA ltn_subrL; exact: leq_trans lt.
  have := E4 _ lk. rewrite Et Es => -[->]. have [G1 G2] := H j jp jl _ lk. rewrite Et in G1 G2. by split.
Qed.
Print Assumptions C89_small_jitter_smoother.

(** The hypotheses can be met: the local level model of C89_missing_level. *)
Section Example.
Let QR : realFieldType := [realFieldType of rat].
Let row (v : option QR) : inputs QR 1 1 1 := Inputs (fun _ => v) 0 0 1%:M 1%:M 1%:M 1%:M 1%:M.
Example C89_missing_level_smoothed : forall v fill : QR, v != fill -> let us := [:: row (Some v); row None] in
  [/\ model us 0 1%:M Joint_Props.ex_x Joint_Props.ex_y, separable fill us, nonsingular (data us Joint_Props.ex_y 2),
      (forall t u, List.nth_error us t = Some u -> in_c u = 0) /\
      (forall s t u w, List.nth_error us s = Some u -> List.nth_error us t = Some w -> (in_T u, in_R u, in_Q u) = (in_T w, in_R w, in_Q w)) &
      (forall t, (t.+1 < size us)%N -> given_cov (Joint_Props.ex_x t.+1) (data us Joint_Props.ex_y t.+1) \in unitmx)].
Proof.
  move=> v fill Hv us. have [M sep U _] := C89_missing_level Hv. split=> //.
  - split; first by case=> [|[|[|t]]] u //= [<-].
    by case=> [|[|[|s]]] [|[|[|t]]] u w //= [<-] [<-].
  - case=> [|t] // _. have [eps [eta [H0 Hu Hx He Hs]]] := M. have Eu : List.nth_error us 0 = Some (row (Some v)) by [].
    have sok : solve_ok (fun m k (A : 'M[QR]_m) (B : 'M[QR]_(m, k)) => invmx A *m B) by move=> m k A B _ uA; rewrite mulKVmx.
    have [a [P [C _ _]]] := filt_lim (fun _ => 0) 0 sok M sep U Eu.
    have Cn := next_cond Hu Hx He Hs Eu C. have [_ EC] := condL_given (ns_le U (t := 1) erefl) Cn. rewrite -EC.
    have pP := isCond_psd C. rewrite /= !mul1mx !trmx1 !mulmx1.
    have p1 : psd (1%:M : 'M[QR]_1) by split; [rewrite trmx1 | move=> z; rewrite mulmx1; exact: sq_ge0].
    have := innov_pd (1%:M : 'M[QR]_1) pP p1 (unitmx1 _ _). by rewrite /innov_cov mul1mx trmx1 mulmx1.
Qed.
End Example.
