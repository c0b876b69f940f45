(** The univariate filter with any jitter: its covariances cover the errors. *)
From Coq Require Import Ring Field.
From mathcomp Require Import all_ssreflect all_algebra.
From Verif Require Common KalmanScan_Model KalmanScan_Spec KalmanScan_Proofs.
From Verif Require Import McTac Kalman_Model Kalman_Spec Kalman_Proofs Kalman_Seq Kalman_LL Kalman_Run KalmanUni_Model Joint_Spec Joint_Proofs Joint_Stack Joint_Run Joint_Uni Cons_Spec Cons_Proofs Cons_Std.
Set Implicit Arguments.
Unset Strict Implicit.
Unset Printing Implicit Defensive.
Import Order.Theory GRing.Theory Num.Theory.
Local Open Scope ring_scope.

Section Row.
Context (R : realFieldType) (N n p r : nat) (us : seq (inputs R n p r)).
Context (x : nat -> rv R N n) (y : nat -> rv R N p) (eps : nat -> rv R N p) (eta : nat -> rv R N r).
Hypothesis Hu : forall t u, List.nth_error us t = Some u ->
        [/\ y t = affine (in_d u) (in_Z u) (x t) 1%:M (eps t), x t.+1 = affine (in_c u) (in_T u) (x t) (in_R u) (eta t),
            mean (eps t) = 0 /\ cov (eps t) (eps t) = in_H u & mean (eta t) = 0 /\ cov (eta t) (eta t) = in_Q u].
Hypothesis Hx : forall t, cov (x 0%N) (eps t) = 0 /\ cov (x 0%N) (eta t) = 0.
Hypothesis He : forall s t, cov (eps s) (eta t) = 0.
Hypothesis Hs : forall s t, s != t -> cov (eps s) (eps t) = 0 /\ cov (eta s) (eta t) = 0.
Context (t : nat) (u : inputs R n p r).
Hypothesis Eu : List.nth_error us t = Some u.
Hypothesis Hd : forall i k, i != k -> in_H u i k = 0.
Local Notation ex i := (delta_mx 0 i : 'rV[R]_p).
Lemma rowD i q (A B : 'M[R]_(p, q)) : row i (A + B) = row i A + row i B. Proof. by rewrite linearD. Qed.
Definition Bnew (k : 'cV[R]_n) (i : 'I_p) (B : nat -> 'M[R]_(n, p)) (s : nat) : 'M[R]_(n, p) :=
  (1%:M - k *m row i (in_Z u)) *m B s + (if s == t then k *m ex i else 0).
Lemma Bnew_sum k i B l (f : nat -> 'M[R]_(p, l)) : \sum_(s < t.+1) Bnew k i B s *m f s = (1%:M - k *m row i (in_Z u)) *m (\sum_(s < t.+1) B s *m f s) + k *m row i (f t).
Proof.
  rewrite /Bnew. have -> : \sum_(s < t.+1) ((1%:M - k *m row i (in_Z u)) *m B s + (if val s == t then k *m ex i else 0)) *m f s =
    \sum_(s < t.+1) ((1%:M - k *m row i (in_Z u)) *m B s) *m f s + \sum_(s < t.+1) (if val s == t then k *m ex i else 0) *m f s by rewrite -big_split; apply: eq_bigr => s _; rewrite mulmxDl.
  rewrite (sum_app _ B f). congr (_ + _). rewrite big_ord_recr /= eqxx big1 ?add0r; first by rewrite rowE mulmxA. move=> s _. by rewrite (ltn_eqF (ltn_ord s)) mul0mx.
Qed.
Lemma cov_row i k b B P : covers us y t.+1 (x t) b B P -> col i (B t) = 0 -> in_y u i <> None ->
  covers us y t.+1 (x t) ((1%:M - k *m row i (in_Z u)) *m b - in_d u i 0 *: k) (Bnew k i B)
    ((1%:M - k *m row i (in_Z u)) *m P *m (1%:M - k *m row i (in_Z u))^T + k *m (in_H u i i)%:M *m k^T).
Proof.
  move=> /covers_E [O Em pP] ci yi. apply/covers_E. have [Ly My] := load_y Hu Eu. have [_ _ [_ EH] _] := Hu Eu. have lt := lt_nth Eu.
  have Edi : (in_d u i 0) *: k = k *m row i (in_d u) by rewrite [row i (in_d u)]mx11_scalar [row i (in_d u) 0 0]mxE mul_mx_scalar.
  split.
  - move=> s w q ls Ew Eq. rewrite /Bnew. rewrite !colE mulmxDl -!colE. rewrite [col q (_ *m _)]colE -mulmxA -colE (O s w q ls Ew Eq) mulmx0 add0r.
    case: eqP => [E | _]; last by apply/matrixP => ? ?; rewrite !mxE. subst s. move: Ew; rewrite Eu => -[Ew]; subst w. rewrite colE -mulmxA mul_delta_mx_cond. case: eqP => [E | _]; last by rewrite mulr0n mulmx0. by subst q.
  - rewrite (Bnew_sum k i B (fun s => mean (y s))). rewrite My rowD row_mul -Em Edi. rewrite !mulmxDr !mulmxBl !mul1mx !mulmxA. by zmod.
  - have Oe : eload y (x t) t.+1 B *m (row i (load (eps t)))^T = 0.
    { rewrite /eload big_ord_recr /= opprD addrA mulmxDl. have [O1 _] := err_orth Hu Hx He Hs 1%:M B (ltnW lt). rewrite mul1mx in O1. rewrite (row_orth i O1) add0r.
      have [B1 _ _ _] := past Hu Hx He Hs (ltnW lt) (leqnn t). rewrite mulNmx -mulmxA Ly mulmxDl -mulmxA (row_orth i B1) mulmx0 add0r rowE trmx_mul (mulmxA (load (eps t))).
      have -> : load (eps t) *m (load (eps t))^T = in_H u := EH. rewrite trmx_delta -colE.
      have -> : col i (in_H u) = (in_H u i i) *: delta_mx i 0. { apply/matrixP => a c. rewrite !mxE ord1 eqxx andbT. case: eqP => [-> | ne]; first by rewrite mulr1. rewrite mulr0. apply: Hd. exact/eqP. }
      by rewrite -scalemxAr -colE ci scaler0 oppr0. }
    have := err_step (row i (in_Z u)) k pP Oe. have -> : gram (row i (load (eps t))) = (in_H u i i)%:M. { exact: gram_row. }
    apply: psd_eq. congr (_ - gram _). rewrite /eload (Bnew_sum k i B (fun s => load (y s))) Ly rowD row_mul. rewrite !mulmxDr !mulmxBl !mul1mx !mulmxN !mulmxA. by zmod.
Qed.
Lemma Bnew_col k i q B : i != q -> col q (B t) = 0 -> col q (Bnew k i B t) = 0.
Proof. move=> ne c0. rewrite /Bnew eqxx !colE mulmxDl -!mulmxA mul_delta_mx_cond (negbTE ne) mulr0n mulmx0 -colE c0 mulmx0 addr0. by []. Qed.
Lemma Bnew_values k i B b (v : nat -> 'cV[R]_p) : (1%:M - k *m row i (in_Z u)) *m on_values b t.+1 B v - in_d u i 0 *: k + v t i 0 *: k =
  on_values ((1%:M - k *m row i (in_Z u)) *m b - in_d u i 0 *: k) t.+1 (Bnew k i B) v.
Proof. rewrite /on_values Bnew_sum mulmxDr. have -> : v t i 0 *: k = k *m row i (v t) by rewrite [row i (v t)]mx11_scalar [row i (v t) 0 0]mxE mul_mx_scalar. by zmod. Qed.
Lemma cov_start b B P : covers us y t (x t) b B P -> let B' := fun s => if s == t then 0 else B s in
  covers us y t.+1 (x t) b B' P /\ (forall v, on_values b t.+1 B' v = on_values b t B v).
Proof.
  move=> /covers_E [O Em pP] B'.
  have S l (f : nat -> 'M[R]_(p, l)) : \sum_(s < t.+1) B' s *m f s = \sum_(s < t) B s *m f s.
  { rewrite big_ord_recr /= /B' eqxx mul0mx addr0. apply: eq_bigr => s _. by rewrite (ltn_eqF (ltn_ord s)). }
  split; last by move=> v; rewrite /on_values S. apply/covers_E. split.
  - move=> s w i lt Ew Ei. rewrite /B'. case: eqP => [_ | ne]; first by apply/matrixP => ? ?; rewrite !mxE. apply: (O s w i _ Ew Ei). by rewrite ltn_neqAle; apply/andP; split; [apply/eqP | rewrite -ltnS].
  - by rewrite (S _ (fun s => mean (y s))).
  - by rewrite /eload (S _ (fun s => load (y s))).
Qed.

Context (log : R -> R) (cst j : R).
Hypothesis j0 : 0 <= j.
Definition krow (i : 'I_p) (P : 'M[R]_n) : 'cV[R]_n :=
  let z := row i (in_Z u) in let F0 := (z *m (P *m z^T)) 0 0 + in_H u i i in (if F0 == 0 then 0 else 1) *: ((F0 + j)^-1 *: (P *m z^T)).
Lemma inner_cov (o : obs R p) i a P w : psd P -> o i = Some w ->
  let k := krow i P in let A := 1%:M - k *m row i (in_Z u) in
  exists yh F ll, uni_inner log j (row_on (in_Z u) (in_H u) (in_d u) o i) a P =
    (A *m a - in_d u i 0 *: k + w *: k, A *m P *m A^T + k *m (in_H u i i)%:M *m k^T + j *: (k *m k^T), yh, F, ll).
Proof.
  move=> pP Ei k A. rewrite /uni_inner /row_on /isnan_mask Ei /= orbF. do 3 eexists. rewrite -/(krow i P) -/k.
  have [_ _ [_ EH] _] := Hu Eu. have pH : psd (in_H u) by rewrite -EH; exact: cov_psd. have h0 : 0 <= in_H u i i.
  { have [_ H] := pH. have := H (delta_mx i 0). by rewrite trmx_delta -rowE -colE !mxE. }
  congr (_, _, _, _, _).
  - rewrite /A mulmxBl mul1mx -!mulmxA. have -> : forall M : 'M[R]_1, k *m M = M 0 0 *: k by move=> M; rewrite {1}[M]mx11_scalar mul_mx_scalar. rewrite scalerBl scalerDl. by zmod.
  - set z := row i (in_Z u) in k A *. pose F0 := (z *m (P *m z^T)) 0 0 + in_H u i i. rewrite -/F0.
    have kk : forall c : R, k *m c%:M *m k^T = c *: (k *m k^T) by move=> c; rewrite mul_mx_scalar -scalemxAl.
    rewrite kk. have F00 : 0 <= F0. { apply: addr_ge0 => //. have [_ H] := pP. have := H z^T. by rewrite trmxK mulmxA. }
    have E : k = 0 \/ P *m z^T = (F0 + j) *: k.
    { rewrite /k /krow -/z -/F0. case: eqP => [_ | /eqP ne]; first by left; rewrite scale0r. right. rewrite scale1r scalerA mulfV ?scale1r //. by rewrite gt_eqF // ltr_paddr // lt_neqAle eq_sym ne. }
    rewrite /A -/z. case: E => [-> | E]; first by rewrite !mul0mx !scaler0 !subr0 mul1mx trmx1 mulmx1 !addr0.
    have E2 : z *m P = (F0 + j) *: k^T by rewrite -[z]trmxK -{1}(psd_sym pP) -trmx_mul E linearZ.
    have E3 : k *m z *m P *m z^T *m k^T = (F0 - in_H u i i) *: (k *m k^T).
    { have -> : F0 - in_H u i i = (z *m (P *m z^T)) 0 0 by rewrite /F0 addrK. rewrite -kk -mx11_scalar !mulmxA. by []. }
    rewrite trB trmx1 trmx_mul !mulmxBl !mulmxBr !mul1mx !mulmx1 !mulmxA E3.
    have -> : P *m z^T *m k^T = (F0 + j) *: (k *m k^T) by rewrite E -scalemxAl. have -> : k *m z *m P = (F0 + j) *: (k *m k^T) by rewrite -mulmxA E2 -scalemxAr.
    rewrite !scalerDl scaleNr. by zmod.
Qed.
Lemma psd_kk (k : 'cV[R]_n) : psd (j *: (k *m k^T)).
Proof. have := psd_congr k (psd_scal1 1 j0). by rewrite -scalemxAr mulmx1 -scalemxAl. Qed.
(** all the series of one time, for every choice of numbers at once *)
Lemma scan_cov s : forall b B P, covers us y t.+1 (x t) b B P -> (forall i, i \in s -> col i (B t) = 0) -> uniq s ->
  exists b1 B1 P1, covers us y t.+1 (x t) b1 B1 P1 /\ forall v : nat -> 'cV[R]_p,
    exists ls, uni_scan log j [seq row_on (in_Z u) (in_H u) (in_d u) (in_y (with_row u (v t))) i | i <- s] (on_values b t.+1 B v) P = (on_values b1 t.+1 B1 v, P1, ls).
Proof.
  elim: s => [|i s IH] b B P C c0 un; first by exists b, B, P; split=> // v; exists [::].
  move: un; rewrite cons_uniq => /andP [nis us']. case Ei: (in_y u i) => [z|].
  - have yi : in_y u i <> None by rewrite Ei. have C1 := covers_more (psd_kk (krow i P)) (cov_row (krow i P) C (c0 i (mem_head _ _)) yi).
    have c1 : forall q, q \in s -> col q (Bnew (krow i P) i B t) = 0. { move=> q qs. apply: Bnew_col; last by apply: c0; rewrite inE qs orbT. by apply: contraNneq nis => ->. }
    have [b1 [B1 [P1 [C2 H]]]] := IH _ _ _ C1 c1 us'. exists b1, B1, P1. split=> // v.
    have -> : [seq row_on (in_Z u) (in_H u) (in_d u) (in_y (with_row u (v t))) q | q <- i :: s] = row_on (in_Z u) (in_H u) (in_d u) (in_y (with_row u (v t))) i :: [seq row_on (in_Z u) (in_H u) (in_d u) (in_y (with_row u (v t))) q | q <- s] by []. rewrite uni_scan_cons.
    have Eo : in_y (with_row u (v t)) i = Some (v t i 0) by rewrite /= Ei. have [yh [F [ll ->]]] := inner_cov (on_values b t.+1 B v) (covers_psd C) Eo. rewrite Bnew_values. have [ls ->] := H v. by exists (ll :: ls).
  - have c1 : forall q, q \in s -> col q (B t) = 0 by move=> q qs; apply: c0; rewrite inE qs orbT. have [b1 [B1 [P1 [C2 H]]]] := IH _ _ _ C c1 us'. exists b1, B1, P1. split=> // v.
    have -> : [seq row_on (in_Z u) (in_H u) (in_d u) (in_y (with_row u (v t))) q | q <- i :: s] = row_on (in_Z u) (in_H u) (in_d u) (in_y (with_row u (v t))) i :: [seq row_on (in_Z u) (in_H u) (in_d u) (in_y (with_row u (v t))) q | q <- s] by []. rewrite uni_scan_cons.
    have Er : r_nan (row_on (in_Z u) (in_H u) (in_d u) (in_y (with_row u (v t))) i) by rewrite /row_on /isnan_mask /= Ei. have [m [F ->]] := uni_inner_nan log j (on_values b t.+1 B v) P Er. have [ls ->] := H v. by exists (0 :: ls).
Qed.
End Row.

Section Run.
Context (R : realFieldType) (N n p r : nat) (log : R -> R) (cst j : R).
Hypothesis j0 : 0 <= j.
Context (m : KalmanUni_Model.mats R n p r) (ys : seq (obs R p)) (a0 : 'cV[R]_n) (P0 : 'M[R]_n) (x : nat -> rv R N n) (y : nat -> rv R N p).
Hypothesis Hd : forall i k, i != k -> m_H m i k = 0.
Local Notation us := (with_mats m ys).
Hypothesis M : model us a0 P0 x y.
Local Notation st := (@uni_step R log cst j n p r).
Lemma with_numbersE v : with_mats m (with_numbers ys v) = with_values us v.
Proof. elim: ys v => [|o os IH] v //=. by rewrite IH. Qed.
Lemma uni_cov_step t u b B P : List.nth_error us t = Some u -> covers us y t (x t) b B P ->
  exists b1 B1 P1, [/\ covers us y t.+1 (x t) b1 B1 P1, covers us y t.+1 (x t.+1) (in_T u *m b1 + in_c u) (fun s => in_T u *m B1 s) (in_T u *m P1 *m (in_T u)^T + in_R u *m in_Q u *m (in_R u)^T) &
   forall v : nat -> 'cV[R]_p, let o := st (with_row u (v t)) (on_values b t B v) P in
     [/\ KalmanScan_Model.o_af o = on_values b1 t.+1 B1 v, KalmanScan_Model.o_Pf o = P1,
         KalmanScan_Model.o_ahat o = on_values (in_T u *m b1 + in_c u) t.+1 (fun s => in_T u *m B1 s) v &
         KalmanScan_Model.o_Phat o = in_T u *m P1 *m (in_T u)^T + in_R u *m in_Q u *m (in_R u)^T]].
Proof.
  move=> Eu C. have [eps [eta [H0 Hu Hx He Hs]]] := M. have [_ _ _ [_ EQ]] := Hu _ _ Eu. have pQ : psd (in_Q u) by rewrite -EQ; exact: cov_psd.
  have Ed : forall i k, i != k -> in_H u i k = 0 by rewrite (with_H Eu).
  have [C0 V0] := cov_start C. set B0 := (fun s => _) in C0 V0.
  have c0 : forall i : 'I_p, i \in enum 'I_p -> col i (B0 t) = 0 by move=> i _; rewrite /B0 eqxx; apply/matrixP => ? ?; rewrite !mxE.
  have [b1 [B1 [P1 [C1 H]]]] := scan_cov Hu Hx He Hs Eu Ed log j0 C0 c0 (enum_uniq _).
  have C1' := covers_more (psd_scal1 n j0) C1. have C2 := cov_pred Hu Hx He Hs Eu C1'. exists b1, B1, (P1 + j *: 1%:M). split=> // v o.
  have [ls E] := H v. rewrite V0 in E. have pP1 := covers_psd C1. have pP1' := covers_psd C1'.
  rewrite /o /uni_step /uni_update -[uni_rows _ _ _ _]/[seq row_on (in_Z u) (in_H u) (in_d u) (in_y (with_row u (v t))) i | i <- enum 'I_p] E.
  generalize (uni_obs log j [seq row_on (in_Z u) (in_H u) (in_d u) (in_y (with_row u (v t))) i | i <- enum 'I_p] (on_values b t B v) P (0, 0)) => -[mu F].
  rewrite (psd_sym pP1) half_dbl /predict /stabilize /=. split=> //; first by rewrite on_values_map. by rewrite !quad_symE ?(psd_sym pP1') ?(psd_sym pQ).
Qed.
Lemma uni_cov_bef t : (t <= size us)%N -> exists b B P, covers us y t (x t) b B P /\ forall v, KalmanScan_Spec.before st (with_values us v) a0 P0 t = (on_values b t B v, P).
Proof.
  elim: t => [|t IH] lt.
  - have [eps [eta [H0 Hu Hx He Hs]]] := M. exists a0, (fun _ => 0), P0. split; first exact: cov0. move=> v. by rewrite bef0 /on_values big_ord0 addr0.
  - have [u Eu] := nth_lt lt. have [b [B [P [C H]]]] := IH (ltnW lt). have [b1 [B1 [P1 [C1 C2 H2]]]] := uni_cov_step Eu C.
    do 3 eexists. split; first exact: C2. move=> v. rewrite (KalmanScan_Proofs.before_S st (with_values us v) a0 P0 t _ (nth_with v Eu)) (H v) [(_, _).1]/= [(_, _).2]/=. have [_ _ E3 E4] := H2 v. congr pair; [exact: E3 | exact: E4].
Qed.
Lemma uni_cov_run t : (t < size us)%N ->
  (exists b B P, covers us y t (x t) b B P /\ forall v f, uni_filter log cst j m (with_numbers ys v) a0 P0 = Common.Ok f ->
     List.nth_error (KalmanScan_Model.predicted_states f) t = Some (on_values b t B v) /\ List.nth_error (KalmanScan_Model.predicted_covs f) t = Some P) /\
  (exists b B P, covers us y t.+1 (x t) b B P /\ forall v f, uni_filter log cst j m (with_numbers ys v) a0 P0 = Common.Ok f ->
     List.nth_error (KalmanScan_Model.filtered_states f) t = Some (on_values b t.+1 B v) /\ List.nth_error (KalmanScan_Model.filtered_covs f) t = Some P).
Proof.
  move=> lt. have [u Eu] := nth_lt lt. have [b [B [P [C H]]]] := uni_cov_bef (ltnW lt). have [b1 [B1 [P1 [C1 C2 H2]]]] := uni_cov_step Eu C.
  have K v f : uni_filter log cst j m (with_numbers ys v) a0 P0 = Common.Ok f ->
    [/\ List.nth_error (KalmanScan_Model.predicted_states f) t = Some (on_values b t B v) /\ List.nth_error (KalmanScan_Model.predicted_covs f) t = Some P &
        List.nth_error (KalmanScan_Model.filtered_states f) t = Some (on_values b1 t.+1 B1 v) /\ List.nth_error (KalmanScan_Model.filtered_covs f) t = Some P1].
  { rewrite /uni_filter with_numbersE => E. have Ew := nth_with v Eu. have ne : with_values us v <> nil by move=> e; move: Ew; rewrite e; case: (t).
    have [g [Eg [_ [_ [_ [_ [_ [_ [_ Hg]]]]]]]]] := KalmanScan_Proofs.build_ok st (with_values us v) a0 P0 ne. move: Eg; rewrite E => -[eg]; subst g.
    have [-> [-> [-> [-> [_ [_ _]]]]]] := Hg t _ Ew. rewrite (H v). have [-> -> _ _] := H2 v. by []. }
  split; [exists b, B, P | exists b1, B1, P1]; (split; first by []); move=> v f E; by have [] := K v f E.
Qed.
End Run.
