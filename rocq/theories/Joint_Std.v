(** The standard filter over a whole series. *)
From Coq Require Import Ring Field.
From mathcomp Require Import all_ssreflect all_algebra.
From Verif Require Common KalmanScan_Model KalmanScan_Spec KalmanScan_Proofs.
From Verif Require Import McTac Kalman_Model Kalman_Spec Kalman_Proofs Kalman_Seq Kalman_LL Kalman_Run Joint_Spec Joint_Proofs Joint_Stack Joint_Run.
Set Implicit Arguments.
Unset Strict Implicit.
Unset Printing Implicit Defensive.
Import Order.Theory GRing.Theory Num.Theory.
Local Open Scope ring_scope.

Section Std.
Context (R : realFieldType) (N n p r : nat) (log : R -> R) (cst : R)
  (solve : forall m n, 'M[R]_m -> 'M[R]_(m, n) -> 'M[R]_(m, n)) (fill : R).
Add Field ff_jstd : (@f_field R).
Local Notation st := (@std_step R log cst solve 0 fill n p r).
Hypothesis sok : solve_ok solve.
Hypothesis p0 : (0 < p)%N.
Definition full_row (u : inputs R n p r) (v : 'cV[R]_p) : Prop := forall i, in_y u i = Some (v i 0) /\ v i 0 != fill.
Lemma std_step_full u v a P : full_row u v -> psd P -> psd (in_H u) -> psd (in_Q u) -> innov_cov P (in_Z u) (in_H u) \in unitmx ->
  psd (cond_cov P (in_Z u) (in_H u)) ->
  let e := v - in_d u - in_Z u *m a in
  let a_f := cond_mean a P (in_Z u) (in_H u) v (in_d u) in let P_f := cond_cov P (in_Z u) (in_H u) in
  st u a P = {| KalmanScan_Model.o_af := a_f; KalmanScan_Model.o_ahat := in_T u *m a_f + in_c u;
   KalmanScan_Model.o_mu := in_d u + in_Z u *m a; KalmanScan_Model.o_Pf := P_f;
   KalmanScan_Model.o_Phat := in_T u *m P_f *m (in_T u)^T + in_R u *m in_Q u *m (in_R u)^T;
   KalmanScan_Model.o_cov := innov_cov P (in_Z u) (in_H u);
   KalmanScan_Model.o_ll := - 2%:R^-1 * (cst + log (\det (innov_cov P (in_Z u) (in_H u))) + (e^T *m invmx (innov_cov P (in_Z u) (in_H u)) *m e) 0 0) |}.
Proof.
  move=> fr pP pH pQ uF pPf e a_f P_f.
  have nm : forall i, nan_mask fill (in_y u) i = false. { move=> i. rewrite /nan_mask. have [-> /negbTE] := fr i. by []. }
  have W1 : maskW fill (in_y u) = 1%:M by apply/matrixP => i k; rewrite !mxE nm.
  have EA : all_nan fill (in_y u) = false by apply/negbTE/forallPn; exists (Ordinal p0); rewrite nm.
  have EY : y_masked fill (in_y u) = v. { apply/matrixP => i k. rewrite mxE nm. have [-> _] := fr i. by rewrite ord1. }
  rewrite /std_step /Z_masked /H_masked W1 !mul1mx EA EY.
  have uF' : innov_cov P (in_Z u) (stabilize (in_H u) 0) \in unitmx by rewrite stab00.
  rewrite (std_updateE log cst sok a _ (in_d u) false pP pH (lexx 0) uF') !stab00 !scale0r !subr0.
  by rewrite /predict /= !quad_symE ?(psd_sym pPf) ?(psd_sym pQ).
Qed.
Context (us : seq (inputs R n p r)) (a0 : 'cV[R]_n) (P0 : 'M[R]_n).
Context (x : nat -> rv R N n) (y : nat -> rv R N p).
Hypothesis M : model us a0 P0 x y.
Hypothesis full : forall t u, List.nth_error us t = Some u -> exists v, full_row u v.
Local Notation D := (data us y).
Lemma nonsing_pre t u : List.nth_error us t = Some u -> nonsingular (D t.+1) -> nonsingular (D t).
Proof. move=> E. rewrite (data_S y E). exact: nonsingular_cat. Qed.
Lemma nonsing_all t k : (t + k <= size us)%N -> nonsingular (D (t + k)) -> nonsingular (D t).
Proof.
  elim: k => [|k IH] lt U; first by rewrite addn0 in U. rewrite addnS in lt U. apply: IH; first exact: ltnW.
  have [u Eu] := nth_lt lt. exact: nonsing_pre Eu U.
Qed.
Local Notation bef := (KalmanScan_Spec.before st us a0 P0).
(** one step of the run *)
Lemma std_one t u v a P : List.nth_error us t = Some u -> full_row u v -> condL (x t) (D t) a P -> nonsingular (D t.+1) -> let o := st u a P in
  [/\ condL (y t) (D t) (KalmanScan_Model.o_mu o) (KalmanScan_Model.o_cov o),
      condL (x t) (D t.+1) (KalmanScan_Model.o_af o) (KalmanScan_Model.o_Pf o),
      condL (x t.+1) (D t.+1) (KalmanScan_Model.o_ahat o) (KalmanScan_Model.o_Phat o),
      \det (cov (stack (D t.+1)) (stack (D t.+1))) = \det (cov (stack (D t)) (stack (D t))) * \det (innov_cov P (in_Z u) (in_H u)) &
      KalmanScan_Model.o_ll o = - 2%:R^-1 * (cst + log (\det (innov_cov P (in_Z u) (in_H u))) +
        (((values (D t.+1) - mean (stack (D t.+1)))^T *m invmx (cov (stack (D t.+1)) (stack (D t.+1))) *m (values (D t.+1) - mean (stack (D t.+1)))) 0 0 -
         ((values (D t) - mean (stack (D t)))^T *m invmx (cov (stack (D t)) (stack (D t))) *m (values (D t) - mean (stack (D t)))) 0 0))].
Proof.
  move=> Eu fr C U o. have [eps [eta [H0 Hu Hx He Hs]]] := M. have Ev : forall i, in_y u i = Some (v i 0) by move=> i; have [] := fr i.
  have [U0 UF] := full_unit Hu Hx He Hs Eu Ev C U. have C1 := full_update Hu Hx He Hs Eu Ev C U. have Q := full_quad Hu Hx He Hs Eu Ev C U.
  have [_ _ [_ EH] [_ EQ]] := Hu _ _ Eu. have pH : psd (in_H u) by rewrite -EH; exact: cov_psd. have pQ : psd (in_Q u) by rewrite -EQ; exact: cov_psd.
  have pP := isCond_psd C. have pPf := isCond_psd C1. have E := std_step_full a fr pP pH pQ UF pPf. rewrite /o {}E /=.
  split=> //.
  - exact: (obs_cond Hu Hx He Hs Eu C).
  - exact: (next_cond Hu Hx He Hs Eu C1).
  - exact: (full_det Hu Hx He Hs Eu Ev C).
  - rewrite Q. congr (_ * (_ + _)). have Madd : forall (A B : 'M[R]_1), (A + B) 0 0 - A 0 0 = B 0 0 by move=> A B; rewrite mxE; zmod. by rewrite Madd.
Qed.
Lemma std_bef t : (t <= size us)%N -> nonsingular (D t) -> condL (x t) (D t) (bef t).1 (bef t).2.
Proof.
  elim: t => [|t IH] lt U. { have [eps [eta [H0 _ _ _ _]]] := M. by case: us a0 P0 H0 => [|? ?] ? ? H0 /=; exact: cond0. }
  have [u Eu] := nth_lt lt. have [v fr] := full Eu. have C := IH (ltnW lt) (nonsing_pre Eu U).
  rewrite (KalmanScan_Proofs.before_S st us a0 P0 t u Eu) /=. by have [_ _ Cn _ _] := std_one Eu fr C U.
Qed.
End Std.
