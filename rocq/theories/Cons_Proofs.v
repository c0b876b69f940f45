(** The Joseph form never understates the error, whatever the gain. *)
From Coq Require Import Ring Field.
From mathcomp Require Import all_ssreflect all_algebra.
From Verif Require Common KalmanScan_Model KalmanScan_Spec KalmanScan_Proofs.
From Verif Require Import McTac Kalman_Model Kalman_Spec Kalman_Proofs Kalman_Seq Kalman_LL Kalman_Run KalmanUni_Model Joint_Spec Joint_Proofs Joint_Stack Joint_Run Cons_Spec.
Set Implicit Arguments.
Unset Strict Implicit.
Unset Printing Implicit Defensive.
Import Order.Theory GRing.Theory Num.Theory.
Local Open Scope ring_scope.

Section Gen.
Context (R : realFieldType) (N : nat).
Lemma trB m n (A B : 'M[R]_(m, n)) : (A - B)^T = A^T - B^T. Proof. by rewrite linearB. Qed.
Lemma trD m n (A B : 'M[R]_(m, n)) : (A + B)^T = A^T + B^T. Proof. by rewrite linearD. Qed.
Lemma psd_eq n (A B : 'M[R]_n) : A = B -> psd A -> psd B. Proof. by move=> ->. Qed.
Lemma psd_ge n (P A : 'M[R]_n) : psd (P - A) -> psd A -> psd P.
Proof. move=> p1 p2. have := psd_add p1 p2. by rewrite subrK. Qed.
Lemma err_step n q (e : 'M[R]_(n, N)) (z : 'M[R]_(q, n)) (E : 'M[R]_(q, N)) (k : 'M[R]_(n, q)) P :
  psd (P - gram e) -> e *m E^T = 0 ->
  psd ((1%:M - k *m z) *m P *m (1%:M - k *m z)^T + k *m gram E *m k^T - gram ((1%:M - k *m z) *m e - k *m E)).
Proof.
  move=> pP O. have O2 : E *m e^T = 0 by rewrite -[E]trmxK -trmx_mul O trmx0.
  apply: (psd_eq _ (psd_congr (1%:M - k *m z) pP)). move: (1%:M - k *m z) => A.
  rewrite /gram trB !trmx_mul. rewrite mulmxBl !mulmxBr !mulmxBl -!mulmxA. rewrite ![e *m (E^T *m _)]mulmxA ![E *m (e^T *m _)]mulmxA O O2 !mul0mx !mulmx0. by zmod.
Qed.
Lemma pred_step n m q (e : 'M[R]_(n, N)) (T : 'M[R]_(m, n)) (Rm : 'M[R]_(m, q)) (E : 'M[R]_(q, N)) P :
  psd (P - gram e) -> e *m E^T = 0 -> psd (T *m P *m T^T + Rm *m gram E *m Rm^T - gram (T *m e + Rm *m E)).
Proof.
  move=> pP O. have O2 : E *m e^T = 0 by rewrite -[E]trmxK -trmx_mul O trmx0.
  apply: (psd_eq _ (psd_congr T pP)).
  rewrite /gram trD !trmx_mul. rewrite mulmxBr mulmxBl !mulmxDl !mulmxDr -!mulmxA. rewrite ![e *m (E^T *m _)]mulmxA ![E *m (e^T *m _)]mulmxA O O2 !mul0mx !mulmx0. by zmod.
Qed.
End Gen.

Section Run.
Context (R : realFieldType) (N n p r : nat) (us : seq (inputs R n p r)) (a0 : 'cV[R]_n) (P0 : 'M[R]_n).
Context (x : nat -> rv R N n) (y : nat -> rv R N p) (eps : nat -> rv R N p) (eta : nat -> rv R N r).
Hypothesis H0 : mean (x 0%N) = a0 /\ cov (x 0%N) (x 0%N) = P0.
Hypothesis Hu : forall t u, List.nth_error us t = Some u ->
        [/\ y t = affine (in_d u) (in_Z u) (x t) 1%:M (eps t), x t.+1 = affine (in_c u) (in_T u) (x t) (in_R u) (eta t),
            mean (eps t) = 0 /\ cov (eps t) (eps t) = in_H u & mean (eta t) = 0 /\ cov (eta t) (eta t) = in_Q u].
Hypothesis Hx : forall t, cov (x 0%N) (eps t) = 0 /\ cov (x 0%N) (eta t) = 0.
Hypothesis He : forall s t, cov (eps s) (eta t) = 0.
Hypothesis Hs : forall s t, s != t -> cov (eps s) (eps t) = 0 /\ cov (eta s) (eta t) = 0.

Lemma y_orth s t u : List.nth_error us s = Some u -> (s < t)%N -> load (y s) *m (load (eps t))^T = 0 /\ load (y s) *m (load (eta t))^T = 0.
Proof.
  move=> Eu st. have [Ly _] := load_y Hu Eu. have [B1 B2 _ _] := past Hu Hx He Hs (ltnW (lt_nth Eu)) (ltnW st). have ne : s != t by rewrite neq_ltn st. have [E1 _] := Hs ne.
  rewrite Ly !mulmxDl -!mulmxA B1 B2 !mulmx0 !add0r. split; [exact: E1 | exact: He].
Qed.
(** the error of an estimate *)
Definition eload k (X : rv R N k) m (B : nat -> 'M[R]_(k, p)) := load X - \sum_(s < m) B s *m load (y s).
Lemma covers_E k m (X : rv R N k) b B P : covers us y m X b B P <->
  [/\ observed_only us m B, b + \sum_(s < m) B s *m mean (y s) = mean X & psd (P - gram (eload X m B))].
Proof.
  have K : b + \sum_(s < m) B s *m mean (y s) = mean X -> mse_of X (estimator b m B y) = gram (eload X m B).
  { move=> E. by rewrite /mse_of /= E subrr mul0mx addr0. }
  by split=> -[A1 A2 A3]; split=> //; move: A3; rewrite K.
Qed.
Lemma err_orth t k (A : 'M[R]_(k, n)) B : (t <= size us)%N ->
  (A *m load (x t) - \sum_(s < t) B s *m load (y s)) *m (load (eps t))^T = 0 /\ (A *m load (x t) - \sum_(s < t) B s *m load (y s)) *m (load (eta t))^T = 0.
Proof.
  move=> lt. have [B1 B2 _ _] := past Hu Hx He Hs lt (leqnn t). rewrite !mulmxBl -!mulmxA B1 B2 !mulmx0 !sub0r.
  split; apply/eqP; rewrite oppr_eq0; apply/eqP; rewrite mulmx_suml big1 // => s _; have [u Eu] := nth_lt (leq_trans (ltn_ord s) lt); have [E1 E2] := y_orth Eu (ltn_ord s); by rewrite -mulmxA ?E1 ?E2 mulmx0.
Qed.
Lemma sum_app k q (A : 'M[R]_(q, k)) (B : nat -> 'M[R]_(k, p)) l (f : nat -> 'M[R]_(p, l)) m : \sum_(s < m) (A *m B s) *m f s = A *m \sum_(s < m) B s *m f s.
Proof. rewrite mulmx_sumr. by apply: eq_bigr => s _; rewrite mulmxA. Qed.
Lemma cov0 : covers us y 0 (x 0%N) a0 (fun _ => 0) P0.
Proof. apply/covers_E. have [<- <-] := H0. split=> //; rewrite ?big_ord0 ?addr0 //. rewrite /eload big_ord0 subr0 /cov /gram subrr. exact: psd0. Qed.
Lemma cov_pred t u b B P : List.nth_error us t = Some u -> covers us y t.+1 (x t) b B P ->
  covers us y t.+1 (x t.+1) (in_T u *m b + in_c u) (fun s => in_T u *m B s) (in_T u *m P *m (in_T u)^T + in_R u *m in_Q u *m (in_R u)^T).
Proof.
  move=> Eu /covers_E [O Em pP]. apply/covers_E. have [Lx Mx] := load_x Hu Eu. have [_ _ _ [_ EQ]] := Hu Eu. split.
  - move=> s w i lt Ew Ei. by rewrite !colE -mulmxA -colE (O s w i lt Ew Ei) mulmx0.
  - rewrite (sum_app (in_T u) B (fun s => mean (y s))) addrAC -mulmxDr Em Mx. by [].
  - have [B1 B2 _ _] := past Hu Hx He Hs (ltnW (lt_nth Eu)) (leqnn t).
    have Oe : eload (x t) t.+1 B *m (load (eta t))^T = 0.
    { rewrite /eload big_ord_recr /= opprD addrA mulmxDl. have := (err_orth 1%:M B (ltnW (lt_nth Eu))).2. rewrite mul1mx => ->. rewrite add0r mulNmx -mulmxA.
      have [Ly _] := load_y Hu Eu. have := He t t. rewrite /cov => E. by rewrite Ly mulmxDl -mulmxA B2 mulmx0 add0r E mulmx0 oppr0. }
    have := pred_step (in_T u) (in_R u) pP Oe. have -> : gram (load (eta t)) = in_Q u := EQ. apply: psd_eq. congr (_ - gram _). by rewrite /eload (sum_app (in_T u) B (fun s => load (y s))) mulmxBr Lx; zmod.
Qed.
Lemma cov_upd t u b B P (K : 'M[R]_(n, p)) : List.nth_error us t = Some u -> covers us y t (x t) b B P ->
  (forall i, in_y u i = None -> col i K = 0) ->
  covers us y t.+1 (x t) ((1%:M - K *m in_Z u) *m b - K *m in_d u) (fun s => if s == t then K else (1%:M - K *m in_Z u) *m B s)
    ((1%:M - K *m in_Z u) *m P *m (1%:M - K *m in_Z u)^T + K *m in_H u *m K^T).
Proof.
  move=> Eu /covers_E [O Em pP] OK. apply/covers_E. have [Ly My] := load_y Hu Eu. have [_ _ [_ EH] _] := Hu Eu.
  have S l (f : nat -> 'M[R]_(p, l)) : \sum_(s < t.+1) (if val s == t then K else (1%:M - K *m in_Z u) *m B s) *m f s = (1%:M - K *m in_Z u) *m (\sum_(s < t) B s *m f s) + K *m f t.
  { rewrite big_ord_recr /= eqxx. congr (_ + _). rewrite -sum_app. apply: eq_bigr => s _. by rewrite (ltn_eqF (ltn_ord s)). }
  split.
  - move=> s w i lt Ew Ei. case: eqP => [E | ne]; first by subst s; move: Ew; rewrite Eu => -[Ew]; subst w; exact: OK.
    have lt' : (s < t)%N by rewrite ltn_neqAle; apply/andP; split; [apply/eqP | rewrite -ltnS]. by rewrite !colE -mulmxA -colE (O s w i lt' Ew Ei) mulmx0.
  - rewrite (S _ (fun s => mean (y s))). rewrite My -Em !mulmxDr !mulmxBl !mul1mx !mulmxA. by zmod.
  - have Oe : eload (x t) t B *m (load (eps t))^T = 0. { have := (err_orth 1%:M B (ltnW (lt_nth Eu))).1. by rewrite mul1mx. }
    have := err_step (in_Z u) K pP Oe. have -> : gram (load (eps t)) = in_H u := EH. apply: psd_eq. congr (_ - gram _). rewrite /eload (S _ (fun s => load (y s))) Ly.
    rewrite !mulmxDr !mulmxBl !mul1mx !mulmxN !mulmxA.
 by zmod.
Qed.
End Run.
