(** The standard filter with any jitter: its covariances cover the errors. *)
From Coq Require Import Ring Field.
From mathcomp Require Import all_ssreflect all_algebra.
From Verif Require Common KalmanScan_Model KalmanScan_Spec KalmanScan_Proofs.
From Verif Require Import McTac Kalman_Model Kalman_Spec Kalman_Proofs Kalman_Seq Kalman_LL Kalman_Run KalmanUni_Model Joint_Spec Joint_Proofs Joint_Stack Joint_Run Cons_Spec Cons_Proofs.
Set Implicit Arguments.
Unset Strict Implicit.
Unset Printing Implicit Defensive.
Import Order.Theory GRing.Theory Num.Theory.
Local Open Scope ring_scope.

Section Values.
Context (R : realFieldType) (N n p r : nat).
Lemma nth_with (us : seq (inputs R n p r)) v t u : List.nth_error us t = Some u -> List.nth_error (with_values us v) t = Some (with_row u (v t)).
Proof. elim: us v t => [|w us IH] v [|t] //=; [by case=> -> | exact: (IH (fun s => v s.+1))]. Qed.
Lemma size_with (us : seq (inputs R n p r)) v : size (with_values us v) = size us.
Proof. elim: us v => [|w us IH] v //=. by rewrite IH. Qed.
Lemma covers_more k (us : seq (inputs R n p r)) (y : nat -> rv R N p) m (X : rv R N k) b B P Q : psd Q -> covers us y m X b B P -> covers us y m X b B (P + Q).
Proof. move=> pQ [A1 A2 A3]. split=> //. rewrite addrAC. exact: psd_add. Qed.
Lemma covers_psd k (us : seq (inputs R n p r)) (y : nat -> rv R N p) m (X : rv R N k) b B P : covers us y m X b B P -> psd P.
Proof.
  move=> [A1 A2 A3]. apply: psd_ge A3 _. rewrite /mse_of A2 subrr mul0mx addr0. exact: gram_psd.
Qed.
Lemma on_values_upd k (M : 'M[R]_k) (K : 'M[R]_(k, p)) b B (v : nat -> 'cV[R]_p) (e : 'cV[R]_k) t :
  M *m on_values b t B v + e + K *m v t = on_values (M *m b + e) t.+1 (fun s => if s == t then K else M *m B s) v.
Proof.
  rewrite /on_values big_ord_recr /= eqxx mulmxDr.
  have -> : \sum_(s < t) (if val s == t then K else M *m B s) *m v s = M *m \sum_(s < t) B s *m v s.
  { rewrite mulmx_sumr. apply: eq_bigr => s _. by rewrite (ltn_eqF (ltn_ord s)) mulmxA. }
  by zmod.
Qed.
Lemma on_values_map k q (M : 'M[R]_(q, k)) b B (v : nat -> 'cV[R]_p) (e : 'cV[R]_q) t :
  M *m on_values b t B v + e = on_values (M *m b + e) t (fun s => M *m B s) v.
Proof.
  rewrite /on_values mulmxDr mulmx_sumr. have -> : \sum_(s < t) M *m (B s *m v s) = \sum_(s < t) M *m B s *m v s by apply: eq_bigr => s _; rewrite mulmxA. by zmod.
Qed.
Lemma bef0 (A C Ob OC L Y : Type) (st : Y -> A -> C -> @KalmanScan_Model.step_out A C Ob OC L) us a0 P0 : KalmanScan_Spec.before st us a0 P0 0%N = (a0, P0).
Proof. by case: us. Qed.
End Values.

Section Std.
Context (R : realFieldType) (N n p r : nat) (log : R -> R) (cst : R)
  (solve : forall m n, 'M[R]_m -> 'M[R]_(m, n) -> 'M[R]_(m, n)) (j fill : R).
Hypothesis j0 : 0 <= j.
Local Notation st := (@std_step R log cst solve j fill n p r).
Definition W0 (u : inputs R n p r) : 'M[R]_p := diag_mx (\row_i (if in_y u i is None then 0 else 1)).
Definition Kof (u : inputs R n p r) (P : 'M[R]_n) : 'M[R]_(n, p) :=
  let Z := W0 u *m in_Z u in let PZT := P *m Z^T in let F := Z *m PZT + stabilize (W0 u *m in_H u) j in (solve F^T PZT^T)^T.
Lemma mask_with u (w : 'cV[R]_p) : (forall i, in_y u i <> None -> w i 0 != fill) ->
  [/\ nan_mask fill (in_y (with_row u w)) =1 (fun i => if in_y u i is None then true else false), maskW fill (in_y (with_row u w)) = W0 u & y_masked fill (in_y (with_row u w)) = W0 u *m w].
Proof.
  move=> ok. have nm : nan_mask fill (in_y (with_row u w)) =1 (fun i => if in_y u i is None then true else false).
  { move=> i. rewrite /nan_mask /=. have := ok i. case: (in_y u i) => [z|] //= /(_ ltac:(by [])) /negbTE. by []. }
  split=> //.
  - rewrite /maskW /W0. congr (diag_mx _). apply/matrixP => a i. rewrite !mxE nm. by case: (in_y u i).
  - rewrite /W0. apply/matrixP => i a. rewrite mul_diag_mx !mxE nm /= ord1. case: (in_y u i) => [z|] /=; by rewrite ?mul1r ?mul0r.
Qed.
Lemma std_with u (w : 'cV[R]_p) (a : 'cV[R]_n) P : (forall i, in_y u i <> None -> w i 0 != fill) -> psd P -> psd (in_H u) -> psd (in_Q u) -> Kof u P *m W0 u = Kof u P ->
  let K := Kof u P in let A := 1%:M - K *m in_Z u in let o := st (with_row u w) a P in
  let P_f := A *m P *m A^T + K *m in_H u *m K^T + j *: 1%:M in
  [/\ KalmanScan_Model.o_af o = A *m a - K *m in_d u + K *m w, KalmanScan_Model.o_Pf o = P_f,
      KalmanScan_Model.o_ahat o = in_T u *m KalmanScan_Model.o_af o + in_c u & KalmanScan_Model.o_Phat o = in_T u *m P_f *m (in_T u)^T + in_R u *m in_Q u *m (in_R u)^T].
Proof.
  move=> ok pP pH pQ KW K A o P_f. have [_ EW EY] := mask_with ok.
  have E1 : KalmanScan_Model.o_af o = A *m a - K *m in_d u + K *m w.
  { rewrite /o /std_step /std_update /Z_masked /H_masked /= EW EY -/(Kof u P) -/K. rewrite /A mulmxBl !mulmxBr !mulmxDr mul1mx !mulmxA KW -/K. by zmod. }
  have E2 : KalmanScan_Model.o_Pf o = P_f.
  { rewrite /o /std_step /std_update /Z_masked /H_masked /= EW -/(Kof u P) -/K. rewrite mulmxA KW -/K -/A quad_symE ?(psd_sym pP) // /stabilize /P_f. congr (_ + _ + _).
    have KWK : forall G : 'M[R]_(n, p), G *m W0 u = G -> quad_form_sym G (W0 u *m in_H u) = G *m in_H u *m G^T.
    { move=> G EG. by rewrite /quad_form_sym mulmxA EG !trmx_mul trmxK (psd_sym pH) mulmxA half_dbl. } exact: KWK. }
  have pPf : psd P_f. { apply: psd_add; last exact: psd_scal1. apply: psd_add; exact: psd_congr. }
  split=> //. have -> : KalmanScan_Model.o_Phat o = quad_form_sym (in_T u) (KalmanScan_Model.o_Pf o) + quad_form_sym (in_R u) (in_Q u) by []. by rewrite E2 !quad_symE ?(psd_sym pPf) ?(psd_sym pQ).
Qed.
(** the gain ignores missing entries *)
Lemma KW_full u P : (forall i, in_y u i <> None) -> Kof u P *m W0 u = Kof u P.
Proof. move=> H. have -> : W0 u = 1%:M. { apply/matrixP => i k. rewrite !mxE. have := H i. by case: (in_y u i). } exact: mulmx1. Qed.
Definition miss (u : inputs R n p r) (i : 'I_p) : bool := if in_y u i is None then true else false.
Lemma KW_miss u P : solve_ok solve -> 0 < j -> psd P -> psd (in_H u) -> decoupled (miss u) (in_H u) -> Kof u P *m W0 u = Kof u P.
Proof.
  move=> sok jp pP pH dH. pose Z := W0 u *m in_Z u. pose PZT := P *m Z^T. pose F := Z *m PZT + stabilize (W0 u *m in_H u) j.
  have ml m (A : 'M[R]_(p, m)) i k : (W0 u *m A) i k = if miss u i then 0 else A i k by rewrite /W0 /miss mul_diag_mx !mxE; case: (in_y u i) => [z|]; rewrite ?mul1r ?mul0r.
  have mr m (A : 'M[R]_(m, p)) i k : (A *m W0 u) i k = if miss u k then 0 else A i k by rewrite /W0 /miss mul_mx_diag !mxE; case: (in_y u k) => [z|]; rewrite ?mulr1 ?mulr0.
  have Wt : (W0 u)^T = W0 u by rewrite /W0 tr_diag_mx.
  have EH : W0 u *m in_H u = W0 u *m in_H u *m (W0 u)^T.
  { apply/matrixP => i k. rewrite Wt mr !ml. case Ei: (miss u i); case Ek: (miss u k) => //. by rewrite dH // Ei Ek. }
  have EF : F = stabilize (W0 u *m innov_cov P (in_Z u) (in_H u) *m (W0 u)^T) j.
  { rewrite /F /PZT /Z /stabilize EH /innov_cov mulmxDr mulmxDl trmx_mul !mulmxA. by zmod. }
  have pI := innov_psd (in_Z u) pP pH. have uF : F \in unitmx by rewrite EF; exact: pd_stab.
  have pF : psd F. { rewrite EF. apply: psd_stabilize => //. exact: psd_congr. }
  have sF : F^T = F := psd_sym pF.
  have KF : Kof u P *m F = PZT. { rewrite /Kof -/Z -/PZT -/F sF. have := sok _ _ F PZT^T pF uF => /(congr1 trmx). by rewrite trmx_mul sF trmxK. }
  have cF i k : miss u k -> F i k = if i == k then j else 0.
  { move=> mk. rewrite EF /stabilize mxE Wt mr mk add0r mxE [1%:M _ _]mxE. by case: (i == k); rewrite ?mulr1 ?mulr0. }
  have cP i k : miss u k -> PZT i k = 0. { move=> mk. by rewrite /PZT /Z trmx_mul mulmxA Wt mr mk. }
  apply/matrixP => i k. rewrite mr. case: ifP => // mk. have := cP i k mk. rewrite -KF mxE (bigD1 k) //= big1; last by move=> q /negbTE nq; rewrite cF // nq mulr0.
  rewrite addr0 cF // eqxx => /eqP. rewrite mulf_eq0 (gt_eqF jp) orbF => /eqP. by [].
Qed.
Context (us : seq (inputs R n p r)) (a0 : 'cV[R]_n) (P0 : 'M[R]_n).
Context (x : nat -> rv R N n) (y : nat -> rv R N p).
Hypothesis M : model us a0 P0 x y.
Hypothesis KW : forall t u P, List.nth_error us t = Some u -> psd P -> Kof u P *m W0 u = Kof u P.
Lemma std_cov_step t u b B P : List.nth_error us t = Some u -> covers us y t (x t) b B P ->
  exists b1 B1 P1, [/\ covers us y t.+1 (x t) b1 B1 P1, covers us y t.+1 (x t.+1) (in_T u *m b1 + in_c u) (fun s => in_T u *m B1 s) (in_T u *m P1 *m (in_T u)^T + in_R u *m in_Q u *m (in_R u)^T) &
   forall v, avoids fill us v -> let o := st (with_row u (v t)) (on_values b t B v) P in
     [/\ KalmanScan_Model.o_af o = on_values b1 t.+1 B1 v, KalmanScan_Model.o_Pf o = P1,
         KalmanScan_Model.o_ahat o = on_values (in_T u *m b1 + in_c u) t.+1 (fun s => in_T u *m B1 s) v &
         KalmanScan_Model.o_Phat o = in_T u *m P1 *m (in_T u)^T + in_R u *m in_Q u *m (in_R u)^T]].
Proof.
  move=> Eu C. have [eps [eta [H0 Hu Hx He Hs]]] := M. have [_ _ [_ EH] [_ EQ]] := Hu _ _ Eu.
  have pH : psd (in_H u) by rewrite -EH; exact: cov_psd. have pQ : psd (in_Q u) by rewrite -EQ; exact: cov_psd. have pP := covers_psd C.
  have kw := KW Eu pP. have OK : forall i, in_y u i = None -> col i (Kof u P) = 0.
  { move=> i Ei. rewrite -kw. apply/matrixP => a c. rewrite mxE /W0 mul_mx_diag !mxE Ei mulr0. by []. }
  have C1 := covers_more (psd_scal1 n j0) (cov_upd Hu Hx He Hs Eu C OK). have C2 := cov_pred Hu Hx He Hs Eu C1.
  do 3 eexists. split; [exact: C1 | exact: C2 |]. move=> v av o. have ok : forall i, in_y u i <> None -> v t i 0 != fill by move=> i; exact: (av t u i Eu).
  have [E1 E2 E3 E4] := std_with (on_values b t B v) ok pP pH pQ kw. rewrite on_values_upd in E1. split=> //. by rewrite E3 E1 on_values_map.
Qed.
Lemma std_cov_bef t : (t <= size us)%N -> exists b B P, covers us y t (x t) b B P /\ forall v, avoids fill us v -> KalmanScan_Spec.before st (with_values us v) a0 P0 t = (on_values b t B v, P).
Proof.
  elim: t => [|t IH] lt.
  - have [eps [eta [H0 Hu Hx He Hs]]] := M. exists a0, (fun _ => 0), P0. split; first exact: cov0. move=> v _. by rewrite bef0 /on_values big_ord0 addr0.
  - have [u Eu] := nth_lt lt. have [b [B [P [C H]]]] := IH (ltnW lt). have [b1 [B1 [P1 [C1 C2 H2]]]] := std_cov_step Eu C.
    do 3 eexists. split; first exact: C2. move=> v av. rewrite (KalmanScan_Proofs.before_S st (with_values us v) a0 P0 t _ (nth_with v Eu)) (H v av) [(_, _).1]/= [(_, _).2]/=. have [_ _ E3 E4] := H2 v av. congr pair; [exact: E3 | exact: E4].
Qed.
Lemma std_cov_run t : (t < size us)%N ->
  (exists b B P, covers us y t (x t) b B P /\ forall v f, avoids fill us v -> std_filter log cst solve j fill (with_values us v) a0 P0 = Common.Ok f ->
     List.nth_error (KalmanScan_Model.predicted_states f) t = Some (on_values b t B v) /\ List.nth_error (KalmanScan_Model.predicted_covs f) t = Some P) /\
  (exists b B P, covers us y t.+1 (x t) b B P /\ forall v f, avoids fill us v -> std_filter log cst solve j fill (with_values us v) a0 P0 = Common.Ok f ->
     List.nth_error (KalmanScan_Model.filtered_states f) t = Some (on_values b t.+1 B v) /\ List.nth_error (KalmanScan_Model.filtered_covs f) t = Some P).
Proof.
  move=> lt. have [u Eu] := nth_lt lt. have [b [B [P [C H]]]] := std_cov_bef (ltnW lt). have [b1 [B1 [P1 [C1 C2 H2]]]] := std_cov_step Eu C.
  have K v f : avoids fill us v -> std_filter log cst solve j fill (with_values us v) a0 P0 = Common.Ok f ->
    [/\ List.nth_error (KalmanScan_Model.predicted_states f) t = Some (on_values b t B v) /\ List.nth_error (KalmanScan_Model.predicted_covs f) t = Some P &
        List.nth_error (KalmanScan_Model.filtered_states f) t = Some (on_values b1 t.+1 B1 v) /\ List.nth_error (KalmanScan_Model.filtered_covs f) t = Some P1].
  { move=> av E. have Ew := nth_with v Eu. have ne : with_values us v <> nil by move=> e; move: Ew; rewrite e; case: (t).
    have [g [Eg [_ [_ [_ [_ [_ [_ [_ Hg]]]]]]]]] := KalmanScan_Proofs.build_ok st (with_values us v) a0 P0 ne.
    move: Eg; rewrite -/(std_filter log cst solve j fill (with_values us v) a0 P0) E => -[eg]; subst g.
    have [-> [-> [-> [-> [_ [_ _]]]]]] := Hg t _ Ew. rewrite (H v av). have [-> -> _ _] := H2 v av. by []. }
  split; [exists b, B, P | exists b1, B1, P1]; (split; first by []); move=> v f av E; by have [] := K v f av E.
Qed.
(** the forecast of a complete row *)
Lemma std_cov_obs t u : List.nth_error us t = Some u -> (forall i, in_y u i <> None) ->
  exists b B F, covers us y t (y t) b B F /\ forall v f, avoids fill us v -> std_filter log cst solve j fill (with_values us v) a0 P0 = Common.Ok f ->
     List.nth_error (KalmanScan_Model.observed_states f) t = Some (on_values b t B v) /\ List.nth_error (KalmanScan_Model.observed_covs f) t = Some F.
Proof.
  move=> Eu full. have [b [B [P [C H]]]] := std_cov_bef (ltnW (lt_nth Eu)). have [eps [eta [H0 Hu Hx He Hs]]] := M. have [_ _ [_ EH] _] := Hu _ _ Eu. have [Ly My] := load_y Hu Eu.
  exists (in_Z u *m b + in_d u), (fun s => in_Z u *m B s), (in_Z u *m P *m (in_Z u)^T + in_H u + j *: 1%:M). split.
  - apply: covers_more; first exact: psd_scal1. move/covers_E: C => [O Em pP]. apply/covers_E. split.
    + move=> s w i lt Ew Ei. by rewrite !colE -mulmxA -colE (O s w i lt Ew Ei) mulmx0.
    + rewrite (sum_app (in_Z u) B (fun s => mean (y s))) addrAC -mulmxDr Em My. by rewrite addrC.
    + have [Oe _] := err_orth Hu Hx He Hs 1%:M B (ltnW (lt_nth Eu)). rewrite mul1mx -/(eload y (x t) t B) in Oe.
      have := pred_step (in_Z u) 1%:M pP Oe. have -> : gram (load (eps t)) = in_H u := EH. rewrite mul1mx trmx1 mulmx1. apply: psd_eq. congr (_ - gram _). rewrite mul1mx /eload (sum_app (in_Z u) B (fun s => load (y s))) mulmxBr Ly. by zmod.
  - move=> v f av E. have Ew := nth_with v Eu. have ne : with_values us v <> nil by move=> e; move: Ew; rewrite e; case: (t).
    have [g [Eg [_ [_ [_ [_ [_ [_ [_ Hg]]]]]]]]] := KalmanScan_Proofs.build_ok st (with_values us v) a0 P0 ne.
    move: Eg; rewrite -/(std_filter log cst solve j fill (with_values us v) a0 P0) E => -[eg]; subst g.
    have [_ [_ [_ [_ [-> [-> _]]]]]] := Hg t _ Ew. rewrite (H v av) /=. have [_ EW EY] := mask_with (u := u) (w := v t) (fun i => av t u i Eu). rewrite /Z_masked /H_masked EW.
    have -> : W0 u = 1%:M. { apply/matrixP => i k. rewrite !mxE. have := full i. by case: (in_y u i). } rewrite !mul1mx. split; congr Some; last by rewrite /stabilize mulmxA addrA. by rewrite -on_values_map addrC.
Qed.
End Std.
