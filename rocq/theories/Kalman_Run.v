(** Whole runs of the standard filter and of the smoother. *)
From mathcomp Require Import all_ssreflect all_algebra.
From Verif Require Common KalmanScan_Model KalmanScan_Spec KalmanScan_Proofs.
From Verif Require Import McTac Kalman_Model Kalman_Spec Kalman_Proofs Kalman_Seq Kalman_Missing Kalman_Sqrt.
Set Implicit Arguments.
Unset Strict Implicit.
Unset Printing Implicit Defensive.
Import Order.Theory GRing.Theory Num.Theory.
Local Open Scope ring_scope.

Section Run.
Context (R : realFieldType) (log : R -> R) (cst : R)
  (solve : forall m n, 'M[R]_m -> 'M[R]_(m, n) -> 'M[R]_(m, n)) (fill : R) (n p r : nat).
Implicit Types (us : seq (inputs R n p r)) (a : 'cV[R]_n) (P : 'M[R]_n).

Lemma stab00 m (A : 'M[R]_m) : stabilize A 0 = A.
Proof. by rewrite /stabilize scale0r addr0. Qed.

Lemma Forall_nth (X : Type) (Q : X -> Prop) l k x : List.Forall Q l -> List.nth_error l k = Some x -> Q x.
Proof. by move=> /List.Forall_forall h e; apply: h; apply: List.nth_error_In e. Qed.

Lemma full_ok us : List.Forall (@full_data R fill n p r) us -> List.Forall (@ok_inputs R fill n p r) us.
Proof.
apply: List.Forall_impl => u [nm [pH [_ pQ]]]; split=> //; split=> // i k.
by rewrite !nm eqxx.
Qed.

Lemma std_run_exact us a0 P0 f :
  solve_ok solve -> (0 < p)%N -> psd P0 -> List.Forall (@full_data R fill n p r) us ->
  std_filter log cst solve 0 fill us a0 P0 = Common.Ok f ->
  forall t u, List.nth_error us t = Some u -> exists (y : 'cV[R]_p) a P,
    (forall i, in_y u i = Some (y i 0)) /\
    List.nth_error (KalmanScan_Model.predicted_states f) t = Some a /\
    List.nth_error (KalmanScan_Model.predicted_covs f) t = Some P /\
    let a_f := cond_mean a P (in_Z u) (in_H u) y (in_d u) in let P_f := cond_cov P (in_Z u) (in_H u) in
    List.nth_error (KalmanScan_Model.filtered_states f) t = Some a_f /\
    List.nth_error (KalmanScan_Model.filtered_covs f) t = Some P_f /\
    ((t.+1 < size us)%N ->
     List.nth_error (KalmanScan_Model.predicted_states f) t.+1 = Some (in_T u *m a_f + in_c u) /\
     List.nth_error (KalmanScan_Model.predicted_covs f) t.+1 =
       Some (in_T u *m P_f *m (in_T u)^T + in_R u *m in_Q u *m (in_R u)^T)).
Proof.
move=> sok p0 pP0 fd E t u Et.
have [_ psdp] := std_filter_psd (lexx 0) (full_ok fd) pP0 E.
have ne : us <> nil by move=> e; move: Et; rewrite e; case: (t).
have [g [Eg [_ [_ [_ [_ [_ [_ [_ H]]]]]]]]] :=
  KalmanScan_Proofs.build_ok (std_step log cst solve 0 fill (n := n) (p := p) (r := r)) us a0 P0 ne.
move: Eg; rewrite -/(std_filter log cst solve 0 fill us a0 P0) E => -[eg]; subst g.
have [Ha [HP [Haf [HPf _]]]] := H t u Et.
set st := @std_step R log cst solve 0 fill n p r in Ha HP Haf HPf H.
set a := fst _ in Ha Haf HPf. set P := snd _ in HP Haf HPf.
have pP : psd P := Forall_nth psdp HP.
have fu := Forall_nth fd Et. have [nm [pH [uH pQ]]] := fu.
have [EZ EH EA] := full_mask p0 fu.
have uF := innov_pd (in_Z u) pP pH uH.
exists (y_masked fill (in_y u)), a, P; split.
  move=> i; rewrite mxE nm; move: (nm i); rewrite /nan_mask; by case: (in_y u i).
split=> //; split=> // a_f P_f.
have pPf : psd P_f by apply: cond_cov_psd.
have Eo : st u a P = {| KalmanScan_Model.o_af := a_f; KalmanScan_Model.o_ahat := in_T u *m a_f + in_c u;
   KalmanScan_Model.o_mu := in_d u + in_Z u *m a; KalmanScan_Model.o_Pf := P_f;
   KalmanScan_Model.o_Phat := in_T u *m P_f *m (in_T u)^T + in_R u *m in_Q u *m (in_R u)^T;
   KalmanScan_Model.o_cov := innov_cov P (in_Z u) (in_H u);
   KalmanScan_Model.o_ll := KalmanScan_Model.o_ll (st u a P) |}.
  rewrite /st /std_step EZ EH EA.
  have uF' : innov_cov P (in_Z u) (stabilize (in_H u) 0) \in unitmx by rewrite stab00.
  rewrite (std_updateE log cst sok a _ (in_d u) false pP pH (lexx 0) uF') !stab00 !scale0r !subr0.
  by rewrite /predict /= !quad_symE ?(psd_sym pPf) ?(psd_sym pQ).
rewrite Eo /= in Haf HPf.
split=> //; split=> // lt.
have [u' Et'] : exists u', List.nth_error us t.+1 = Some u'.
  case e: (List.nth_error us t.+1) => [u'|]; first by exists u'.
  by move/List.nth_error_None: e => /ssrnat.leP; rewrite leqNgt lt.
have [Ja [JP _]] := H t.+1 u' Et'.
by move: Ja JP; rewrite (KalmanScan_Proofs.before_S st us a0 P0 t u Et) -/a -/P Eo.
Qed.
End Run.

(** ** The smoother *)
Section Smooth.
Context (R : realFieldType) (pinv : forall m, 'M[R]_m -> 'M[R]_m).
(** [pinv] inverts invertible matrices *)
Definition pinv_ok : Prop := forall m (A : 'M[R]_m), A \in unitmx -> pinv A = invmx A.
Hypothesis pok : pinv_ok.
Context (n r : nat).
Implicit Types (a : 'cV[R]_n) (P T : 'M[R]_n) (Rm : 'M[R]_(n, r)) (Q : 'M[R]_r).

Lemma smoother_stepE j j' a P a_s P_s T Rm Q : psd P -> psd P_s -> psd Q -> 0 <= j ->
  let W := stabilize (Rm *m Q *m Rm^T) j in
  innov_cov P T W \in unitmx ->
  smoother_step j pinv j' a P a_s P_s T Rm Q =
  (cond_mean a P T W a_s 0,
   stabilize (stabilize (cond_cov P T W + gain P T W *m P_s *m (gain P T W)^T) j) j').
Proof.
move=> pP pPs pQ j0 W uF.
have pW : psd W by apply: psd_stabilize => //; apply: psd_congr.
have pF := innov_psd T pP pW.
rewrite /smoother_step /smoother_predict.
have -> : stabilize (quad_form_sym T P + quad_form_sym Rm Q) j = innov_cov P T W.
  by rewrite !quad_symE ?(psd_sym pP) ?(psd_sym pQ) // /innov_cov /W /stabilize addrA.
rewrite pok //.
have -> : (invmx (innov_cov P T W) *m T *m P)^T = gain P T W.
  by rewrite !trmx_mul trmx_inv (psd_sym pF) (psd_sym pP) mulmxA.
congr (_, stabilize (stabilize _ _) _).
  by rewrite /cond_mean subr0.
rewrite quad_symE; last by rewrite linearB /= (psd_sym pPs) (psd_sym pF).
rewrite (cond_cov_KFK (psd_sym pP) (psd_sym pW) uF) mulmxBr mulmxBl.
zmod.
Qed.

Lemma scal_unit m (j : R) : 0 < j -> (j *: 1%:M : 'M[R]_m) \in unitmx.
Proof. by move=> jp; rewrite unitmxZ ?unitmx1 // unitfE gt_eqF. Qed.

Lemma pd_stab m k (A : 'M[R]_(m, k)) (B : 'M[R]_k) (j : R) : 0 < j -> psd B -> stabilize (A *m B *m A^T) j \in unitmx.
Proof.
move=> jp pB.
have := innov_pd A pB (psd_scal1 m (ltW jp)) (scal_unit m jp).
by rewrite /innov_cov /stabilize.
Qed.

Lemma smoother_step_psd j j' a P a_s P_s T Rm Q : psd P -> psd P_s -> psd Q -> 0 < j -> 0 <= j' ->
  psd (smoother_step j pinv j' a P a_s P_s T Rm Q).2.
Proof.
move=> pP pPs pQ jp j'0.
have pW : psd (stabilize (Rm *m Q *m Rm^T) j) by apply: psd_stabilize; [apply: ltW | apply: psd_congr].
have uF := innov_pd T pP pW (pd_stab Rm jp pQ).
rewrite (smoother_stepE _ _ _ pP pPs pQ (ltW jp) uF) /=.
have pj := ltW jp.
do 2 (apply: psd_stabilize => //).
by apply: psd_add; [apply: cond_cov_psd | apply: psd_congr].
Qed.

(** matrices of one step: T, R, Q *)
Definition mats := ('M[R]_n * 'M[R]_(n, r) * 'M[R]_r)%type.
Definition sm_step j j' (f s : 'cV[R]_n * 'M[R]_n) (m : mats) : 'cV[R]_n * 'M[R]_n :=
  smoother_step j pinv j' f.1 f.2 s.1 s.2 m.1.1 m.1.2 m.2.

Lemma scan2_psd j j' xs ms s : 0 < j -> 0 <= j' -> List.Forall (fun x => psd x.2) xs ->
  List.Forall (fun m : mats => psd m.2) ms -> psd s.2 ->
  List.Forall (fun x => psd x.2) (KalmanScan_Model.scan2 (sm_step j j') xs ms s).
Proof.
move=> jp j'0; elim: xs ms s => [|x xs IH] [|m ms] s /= fx fm ps; try by constructor.
inversion fx; inversion fm; subst.
have px : psd (sm_step j j' x s m).2 by apply: smoother_step_psd.
by constructor=> //; apply: IH.
Qed.

Lemma smooth_psd j j' filtered ms out : 0 < j -> 0 <= j' ->
  List.Forall (fun x => psd x.2) filtered -> List.Forall (fun m : mats => psd m.2) ms ->
  KalmanScan_Model.smooth (sm_step j j') filtered ms = Common.Ok out ->
  List.Forall (fun x => psd x.2) out.
Proof.
move=> jp j'0 ff fm. rewrite /KalmanScan_Model.smooth.
have fr := List.Forall_rev ff.
case e: (List.rev filtered) => [|last rest] // [<-].
have pl : psd last.2 by rewrite e in fr; inversion fr.
apply/List.Forall_app; split; last by constructor.
apply/List.Forall_rev; apply: scan2_psd => //.
- apply/List.Forall_rev. exact: Forall_firstn.
- exact/List.Forall_rev.
Qed.
End Smooth.
