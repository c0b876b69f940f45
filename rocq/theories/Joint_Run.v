(** The filters, run on data of a state space model, condition on everything observed so far. *)
From mathcomp Require Import all_ssreflect all_algebra.
From Verif Require Common KalmanScan_Model KalmanScan_Spec KalmanScan_Proofs.
From Verif Require Import McTac Kalman_Model Kalman_Spec Kalman_Proofs Kalman_Seq Kalman_LL Kalman_Run Joint_Spec Joint_Proofs Joint_Stack.
Set Implicit Arguments.
Unset Strict Implicit.
Unset Printing Implicit Defensive.
Import Order.Theory GRing.Theory Num.Theory.
Local Open Scope ring_scope.

Section Model.
Context (R : realFieldType) (N n p r : nat) (us : seq (inputs R n p r)) (a0 : 'cV[R]_n) (P0 : 'M[R]_n).
Context (x : nat -> rv R N n) (y : nat -> rv R N p) (eps : nat -> rv R N p) (eta : nat -> rv R N r).
Hypothesis H0 : mean (x 0%N) = a0 /\ cov (x 0%N) (x 0%N) = P0.
Hypothesis Hu : forall t u, List.nth_error us t = Some u ->
        [/\ y t = affine (in_d u) (in_Z u) (x t) 1%:M (eps t), x t.+1 = affine (in_c u) (in_T u) (x t) (in_R u) (eta t),
            mean (eps t) = 0 /\ cov (eps t) (eps t) = in_H u & mean (eta t) = 0 /\ cov (eta t) (eta t) = in_Q u].
Hypothesis Hx : forall t, cov (x 0%N) (eps t) = 0 /\ cov (x 0%N) (eta t) = 0.
Hypothesis He : forall s t, cov (eps s) (eta t) = 0.
Hypothesis Hs : forall s t, s != t -> cov (eps s) (eps t) = 0 /\ cov (eta s) (eta t) = 0.
Local Notation D := (data us y).

Lemma data_S t u : List.nth_error us t = Some u -> D t.+1 = D t ++ observed (y t) (in_y u).
Proof. move=> E. by rewrite /data -addn1 iotaD map_cat flatten_cat /= add0n E cats0. Qed.
Lemma cov_sym k l (X : rv R N k) (Y : rv R N l) : cov X Y = 0 -> load Y *m (load X)^T = 0.
Proof. rewrite /cov => E. by rewrite -[load Y]trmxK -trmx_mul E trmx0. Qed.
Lemma load_y t u : List.nth_error us t = Some u -> load (y t) = in_Z u *m load (x t) + load (eps t) /\ mean (y t) = in_d u + in_Z u *m mean (x t).
Proof. move=> E. have [-> _ [m0 _] _] := Hu E. by rewrite /affine /= m0 mul1mx mulmx0 addr0. Qed.
Lemma load_x t u : List.nth_error us t = Some u -> load (x t.+1) = in_T u *m load (x t) + in_R u *m load (eta t) /\ mean (x t.+1) = in_T u *m mean (x t) + in_c u.
Proof. move=> E. have [_ -> _ [m0 _]] := Hu E. rewrite /affine /= m0 mulmx0 addr0. by split=> //; rewrite addrC. Qed.
Lemma nth_lt t : (t < size us)%N -> exists u, List.nth_error us t = Some u.
Proof. move=> lt. case e: (List.nth_error us t) => [u|]; first by exists u. by move/List.nth_error_None: e => /ssrnat.leP; rewrite leqNgt lt. Qed.
Lemma lt_nth t u : List.nth_error us t = Some u -> (t < size us)%N.
Proof. move=> e. apply/ssrnat.ltP. by apply/List.nth_error_Some; rewrite e. Qed.
(** the past is uncorrelated with present and future shocks *)
Lemma past t : (t <= size us)%N -> forall s, (t <= s)%N ->
  [/\ load (x t) *m (load (eps s))^T = 0, load (x t) *m (load (eta s))^T = 0, orth (load (eps s)) (D t) & orth (load (eta s)) (D t)].
Proof.
  elim: t => [|t IH] lt s ts. { have [A B] := Hx s. by split=> //; constructor. }
  have [u Eu] := nth_lt lt. have nst : t != s by rewrite neq_ltn ts. have [Hee Hnn] := Hs nst. rewrite /cov in Hee Hnn. have [B1 B2 B3 B4] := IH (ltnW lt) s (ltnW ts).
  have [Lx _] := load_x Eu. have [Ly _] := load_y Eu. rewrite (data_S Eu).
  have X1 : load (x t.+1) *m (load (eps s))^T = 0 by rewrite Lx mulmxDl -!mulmxA B1 (cov_sym (He s t)) !mulmx0 addr0.
  have X2 : load (x t.+1) *m (load (eta s))^T = 0 by rewrite Lx mulmxDl -!mulmxA B2 Hnn !mulmx0 addr0.
  split=> //; apply/orth_cat; split=> //; apply: orth_observed; rewrite Ly mulmxDl -mulmxA ?B1 ?B2 mulmx0 add0r //. exact: He.
Qed.
Lemma cond0 : condL (x 0%N) (D 0) a0 P0.
Proof.
  have [<- <-] := H0. exists 0. rewrite /data /=. split; [by rewrite mul0mx subr0; apply/matrixP => i [] | by rewrite mul0mx addr0 | by rewrite mul0mx subr0].
Qed.
Lemma cov_psd k (X : rv R N k) : psd (cov X X). Proof. exact: gram_psd. Qed.
(** one time step, everything observed *)
Section Full.
Context (t : nat) (u : inputs R n p r) (v : 'cV[R]_p) (a : 'cV[R]_n) (P : 'M[R]_n).
Hypothesis Eu : List.nth_error us t = Some u.
Hypothesis Ev : forall i, in_y u i = Some (v i 0).
Hypothesis C : condL (x t) (D t) a P.
Let F := innov_cov P (in_Z u) (in_H u).
Lemma full_dat : dat (D t.+1) (col_mx (mean (stack (D t))) (in_d u + in_Z u *m mean (x t))) (col_mx (load (stack (D t))) (in_Z u *m load (x t) + load (eps t))) (col_mx (values (D t)) v).
Proof. rewrite (data_S Eu). have [<- <-] := load_y Eu. apply: dat_cat; [exact: dat_self | exact: dat_full]. Qed.
Lemma full_det : \det (cov (stack (D t.+1)) (stack (D t.+1))) = \det (cov (stack (D t)) (stack (D t))) * \det F.
Proof.
  have [-> _] := dat_gram full_dat. have [B1 _ B3 _] := past (ltnW (lt_nth Eu)) (leqnn t). have [_ _ [_ EH] _] := Hu Eu.
  have [-> _] := core_det (in_Z u) (in_d u) v C B1 (orth_stack B3). by rewrite -/(cov (eps t) (eps t)) /F -EH.
Qed.
Lemma full_unit : nonsingular (D t.+1) -> nonsingular (D t) /\ F \in unitmx.
Proof. rewrite /nonsingular !unitmxE full_det unitrM => /andP [-> ->]. by []. Qed.
Lemma full_quad : nonsingular (D t.+1) -> let e := v - in_d u - in_Z u *m a in
  (values (D t.+1) - mean (stack (D t.+1)))^T *m invmx (cov (stack (D t.+1)) (stack (D t.+1))) *m (values (D t.+1) - mean (stack (D t.+1))) =
  (values (D t) - mean (stack (D t)))^T *m invmx (cov (stack (D t)) (stack (D t))) *m (values (D t) - mean (stack (D t))) + e^T *m invmx F *m e.
Proof.
  move=> U e. have [U0 UF] := full_unit U. have [_ ->] := dat_gram full_dat. have [B1 _ B3 _] := past (ltnW (lt_nth Eu)) (leqnn t). have [_ _ [_ EH] _] := Hu Eu.
  have [_ Q] := core_det (in_Z u) (in_d u) v C B1 (orth_stack B3). move: Q. have -> : gram (load (eps t)) = in_H u := EH. move=> Q. exact: Q.
Qed.
Lemma full_update : nonsingular (D t.+1) -> condL (x t) (D t.+1) (cond_mean a P (in_Z u) (in_H u) v (in_d u)) (cond_cov P (in_Z u) (in_H u)).
Proof.
  move=> U. have [U0 UF] := full_unit U. have [B1 _ B3 _] := past (ltnW (lt_nth Eu)) (leqnn t). have [_ _ [_ EH] _] := Hu Eu.
  apply: (condL_dat full_dat). have := core_update (in_d u) v C B1 (orth_stack B3). have -> : gram (load (eps t)) = in_H u := EH. move=> K. exact: K.
Qed.
Lemma obs_cond : condL (y t) (D t) (in_d u + in_Z u *m a) F.
Proof.
  have [B1 _ B3 _] := past (ltnW (lt_nth Eu)) (leqnn t). have [_ _ [_ EH] _] := Hu Eu. have [Ly My] := load_y Eu.
  have := core_predict (in_Z u) 1%:M (in_d u) C B1 (orth_stack B3). have -> : gram (load (eps t)) = in_H u := EH. rewrite !mul1mx trmx1 mulmx1 [_ + in_d u]addrC [_ + in_d u]addrC. by rewrite /condL Ly My.
Qed.
End Full.
Lemma next_cond t u a P : List.nth_error us t = Some u -> condL (x t) (D t.+1) a P ->
  condL (x t.+1) (D t.+1) (in_T u *m a + in_c u) (in_T u *m P *m (in_T u)^T + in_R u *m in_Q u *m (in_R u)^T).
Proof.
  move=> Eu C. have [_ _ _ [_ EQ]] := Hu Eu. have [Lx Mx] := load_x Eu. have [_ _ _ O] := past (ltnW (lt_nth Eu)) (leqnn t).
  have [_ B2 _ _] := past (ltnW (lt_nth Eu)) (leqnn t). have [Ly _] := load_y Eu.
  have O1 : orth (load (eta t)) (D t.+1). { rewrite (data_S Eu). apply/orth_cat; split=> //. apply: orth_observed. rewrite Ly mulmxDl -mulmxA B2 mulmx0 add0r. exact: He. }
  have := core_predict (in_T u) (in_R u) (in_c u) C B2 (orth_stack O1). have -> : gram (load (eta t)) = in_Q u := EQ. by rewrite /condL Lx Mx.
Qed.
End Model.
