(** C85: the covariance of the Laplace approximation. *)
From mathcomp Require Import all_ssreflect all_algebra.
From Verif Require Import McTac M22 Kalman_Spec Kalman_Proofs LapCov_Model.
Set Implicit Arguments. Unset Strict Implicit. Unset Printing Implicit Defensive.
Import Order.Theory GRing.Theory Num.Theory.
Local Open Scope ring_scope.

(** ** Specification *)
Section Spec.
Context (R : realFieldType).
(** symmetric positive definite *)
Definition pd n (A : 'M[R]_n) : Prop := A^T = A /\ forall x : 'cV[R]_n, x != 0 -> 0 < (x^T *m A *m x) 0 0.
(** the Moore-Penrose conditions *)
Definition penrose n (A P : 'M[R]_n) : Prop :=
  [/\ A *m P *m A = A, P *m A *m P = P, (A *m P)^T = A *m P & (P *m A)^T = P *m A].
(** numpy's eig: unit-length eigenvectors in the columns *)
Definition eigen_of n (A : 'M[R]_n) (d : 'rV[R]_n) (V : 'M[R]_n) : Prop :=
  A *m V = V *m diag_mx d /\ forall i, ((col i V)^T *m col i V) 0 0 = 1.
(** squared Frobenius norm *)
Definition frob m n (A : 'M[R]_(m, n)) : R := \sum_i \sum_j A i j ^+ 2.
(** entrywise L1 norm, and the induced one (largest column sum) compared with a bound *)
Definition l1 m n (A : 'M[R]_(m, n)) : R := \sum_i \sum_j `|A i j|.
Definition l1_induced_le m n (A : 'M[R]_(m, n)) (b : R) : Prop := forall j, \sum_i `|A i j| <= b.
(** Cholesky reads the lower triangle *)
Definition from_lower n (A : 'M[R]_n) : 'M[R]_n := \matrix_(i, j) if (j <= i)%N then A i j else A j i.
End Spec.

Section Props.
Context (R : realFieldType) (n : nat).
Variables (pinv : 'M[R]_n -> 'M[R]_n) (eig : 'M[R]_n -> 'rV[R]_n * 'M[R]_n) (chol_ok : 'M[R]_n -> bool).
(** The contracts of the numpy routines (exact arithmetic) *)
Definition pinv_contract := forall A : 'M[R]_n, penrose A (pinv A).
Definition chol_contract := forall A : 'M[R]_n, chol_ok A <-> pd (from_lower A).
Definition eig_contract (A : 'M[R]_n) := eigen_of A (eig A).1 (eig A).2.
Let fit := fit_cov pinv eig chol_ok.

(** *** Pseudo-inverses *)
Lemma penrose_unique (A P Q : 'M[R]_n) : penrose A P -> penrose A Q -> P = Q.
Proof.
move=> [p1 p2 p3 p4] [q1 q2 q3 q4].
have e1 : A *m P = A *m Q.
  have h1 : A *m Q *m (A *m P) = A *m P by rewrite mulmxA q1.
  have h2 : A *m P *m (A *m Q) = A *m Q by rewrite mulmxA p1.
  by rewrite -h1 -{1}q3 -{1}p3 -trmx_mul h2 q3.
have e2 : P *m A = Q *m A.
  have h1 : P *m A *m (Q *m A) = P *m A by rewrite -!mulmxA (mulmxA A) q1.
  have h2 : Q *m A *m (P *m A) = Q *m A by rewrite -!mulmxA (mulmxA A) p1.
  by rewrite -h1 -{1}q4 -{1}p4 -trmx_mul h2 q4.
by rewrite -p2 -mulmxA e1 mulmxA e2 q2.
Qed.
Lemma penrose_sym (A P : 'M[R]_n) : A^T = A -> penrose A P -> P^T = P.
Proof.
move=> sA pP; have [p1 p2 p3 p4] := pP; apply: (@penrose_unique A) => //; split.
- by rewrite -[RHS]sA -{3}p1 !trmx_mul sA mulmxA.
- by rewrite -{3}p2 !trmx_mul sA mulmxA.
- by rewrite trmx_mul trmxK sA -p4 trmx_mul sA.
- by rewrite trmx_mul trmxK sA -p3 trmx_mul sA.
Qed.
Lemma penrose_unit (A P : 'M[R]_n) : A \in unitmx -> penrose A P -> P = invmx A.
Proof. by move=> uA [p1 _ _ _]; apply: (can_inj (mulmxK uA)); apply: (can_inj (mulKmx uA)); rewrite mulmxA p1 mulVmx // mulmx1. Qed.

Lemma pd_unit (A : 'M[R]_n) : pd A -> A \in unitmx.
Proof.
move=> [_ pA]; apply/negPn/negP => nu.
have : exists x : 'rV[R]_n, x != 0 /\ x *m A = 0.
  have /rowV0Pn[x /sub_kermxP xA x0] : kermx A != 0 by rewrite kermx_eq0 row_free_unit.
  by exists x.
case=> x [x0 xA]; have := pA x^T; rewrite trmxK xA mul0mx mxE ltxx => h.
by have := h (eq_trans (f_equal negb (can2_eq (@trmxK _ _ _) (@trmxK _ _ _) _ _)) _); rewrite trmx0 => /(_ x0).
Qed.
Lemma pd_inv (A : 'M[R]_n) : pd A -> pd (invmx A).
Proof.
move=> pA; have uA := pd_unit pA; have [sA qA] := pA; split; first by rewrite trmx_inv sA.
move=> x x0; have := qA (invmx A *m x) _.
rewrite trmx_mul trmx_inv sA -!mulmxA mulKVmx // !mulmxA; apply.
by apply: contraNneq x0 => h; rewrite -(mulKVmx uA x) h mulmx0.
Qed.
Lemma pd_psd (A : 'M[R]_n) : pd A -> psd A.
Proof.
move=> [sA qA]; split=> // x; case: (eqVneq x 0) => [->|x0]; last by apply/ltW/qA.
by rewrite mulmx0 mxE.
Qed.
Lemma norm2_ge0 (x : 'cV[R]_n) : 0 <= (x^T *m x) 0 0.
Proof. by rewrite mxE; apply: sumr_ge0 => i _; rewrite mxE -expr2 sqr_ge0. Qed.
Lemma norm2_gt0 (x : 'cV[R]_n) : x != 0 -> 0 < (x^T *m x) 0 0.
Proof.
move=> x0; rewrite lt_def norm2_ge0 andbT; apply: contraNneq x0 => h; apply/eqP/matrixP => i j.
rewrite (ord1 j) mxE; apply/eqP; move/eqP: h; rewrite mxE psumr_eq0; last by move=> k _; rewrite mxE -expr2 sqr_ge0.
by move/allP/(_ i); rewrite mem_index_enum => /(_ isT); rewrite mxE -expr2 sqrf_eq0.
Qed.
Lemma pd_stabilize (A : 'M[R]_n) j : psd A -> 0 < j -> pd (stabilize A j).
Proof.
move=> [sA qA] j0; split; first by rewrite /stabilize linearD linearZ /= tr_scalar_mx sA.
move=> x x0; rewrite /stabilize mulmxDr mulmxDl mxE ltr_paddl //.
by rewrite -scalemxAr mulmx1 -scalemxAl mxE mulr_gt0 // norm2_gt0.
Qed.
Lemma pd_stabilize0 (A : 'M[R]_n) j : pd A -> 0 <= j -> pd (stabilize A j).
Proof.
rewrite le_eqVlt => pA /orP[/eqP<-|j0]; first by rewrite /stabilize scale0r addr0.
by apply: pd_stabilize => //; apply: pd_psd.
Qed.
Lemma from_lower_sym (A : 'M[R]_n) : A^T = A -> from_lower A = A.
Proof.
move=> sA; apply/matrixP => i j; rewrite mxE; case: ifP => // _.
by rewrite -{1}sA mxE.
Qed.
Lemma thresholded_sym tol (A : 'M[R]_n) : A^T = A -> (thresholded tol A)^T = thresholded tol A.
Proof.
move=> sA; apply/matrixP => i j; rewrite !mxE.
by have -> : A j i = A i j by rewrite -{1}sA mxE.
Qed.
(** no entry of the Hessian falls under the tolerance without being zero *)
Definition above_tol tol (A : 'M[R]_n) := forall i j, A i j = 0 \/ tol <= `|A i j|.
Lemma thresholded_id tol (A : 'M[R]_n) : above_tol tol A -> thresholded tol A = A.
Proof.
move=> h; apply/matrixP => i j; rewrite !mxE opprK normrN; case: ifP => // lt.
by case: (h i j) => [->//|le]; move: (lt_le_trans lt le); rewrite ltxx.
Qed.

(** *** Where the posterior is strictly log-concave the covariance is the inverse negative Hessian (plus the jitter), whatever on_bad_cov is. *)
Theorem C85_inverse_hessian_partial on_bad_cov tol jitter (hess : 'M[R]_n) :
  pinv_contract -> chol_contract -> pd hess -> above_tol tol hess -> (if jitter is Some j then 0 <= j else true) ->
  let V := invmx hess + (if jitter is Some j then j else 0) *: 1%:M in
  fit on_bad_cov tol jitter hess = Done V false /\ pd V.
Proof.
move=> cp cc pH ab j0 V; have uH := pd_unit pH.
have e : pinv (thresholded tol hess) = invmx hess by rewrite thresholded_id //; apply: penrose_unit.
have pV : pd V.
  rewrite /V; case: jitter j0 {V} => [j j0|_]; first exact: pd_stabilize0 (pd_inv pH) j0.
  by rewrite scale0r addr0; apply: pd_inv.
split=> //; rewrite /fit /fit_cov e.
have -> : (if jitter is Some j then stabilize (invmx hess) j else invmx hess) = V.
  by rewrite /V; case: jitter {j0 V pV} => // ; rewrite scale0r addr0.
have -> : chol_ok V by apply/cc; rewrite from_lower_sym //; case: pV.
by [].
Qed.

(** *** Whatever the Hessian: what is returned is a covariance matrix *)
Lemma psd_diag (d : 'rV[R]_n) : (forall i, 0 <= d 0 i) -> psd (diag_mx d).
Proof.
move=> d0; split; first by rewrite tr_diag_mx.
move=> x; rewrite mul_mx_diag mxE; apply: sumr_ge0 => i _; rewrite !mxE.
by rewrite mulrAC -expr2 mulr_ge0 ?sqr_ge0.
Qed.
Lemma nearest_psd (A : 'M[R]_n) : psd (get_nearest_psd eig A).
Proof.
rewrite /get_nearest_psd; case: (eig _) => d V; apply: psd_congr; apply: psd_diag => i; rewrite mxE.
by case: ltP.
Qed.
Theorem C85_always_covariance on_bad_cov tol jitter (hess : 'M[R]_n) V warned :
  pinv_contract -> chol_contract -> hess^T = hess -> fit on_bad_cov tol jitter hess = Done V warned -> psd V.
Proof.
move=> cp cc sH; rewrite /fit /fit_cov.
set W := if jitter is Some j then _ else _.
have sW : W^T = W.
  have sP : (pinv (thresholded tol hess))^T = pinv (thresholded tol hess) by apply: penrose_sym (cp _); apply: thresholded_sym.
  by rewrite /W; case: jitter {W} => // j; rewrite /stabilize linearD linearZ /= tr_scalar_mx sP.
case: ifP => [ok [<- _]|_].
  by apply: pd_psd; rewrite -(from_lower_sym sW); apply/cc.
by case: on_bad_cov => // [] [<- _]; apply: nearest_psd.
Qed.
(** The error is raised exactly when asked for and the (pseudo-)inverse plus jitter is not positive definite; a warning exactly when asked for in that case. *)
Theorem C85_error tol jitter (hess : 'M[R]_n) on_bad_cov :
  pinv_contract -> chol_contract -> hess^T = hess ->
  let W := pinv (thresholded tol hess) + (if jitter is Some j then j else 0) *: 1%:M in
  (fit on_bad_cov tol jitter hess = LinAlgError <-> on_bad_cov = BadError /\ ~ pd W) /\
  ((exists V, fit on_bad_cov tol jitter hess = Done V true) <-> on_bad_cov = BadWarn /\ ~ pd W).
Proof.
move=> cp cc sH W; rewrite /fit /fit_cov.
have sP : (pinv (thresholded tol hess))^T = pinv (thresholded tol hess) by apply: penrose_sym (cp _); apply: thresholded_sym.
have sW : W^T = W by rewrite /W linearD linearZ /= tr_scalar_mx sP.
have -> : (if jitter is Some j then stabilize (pinv (thresholded tol hess)) j else pinv (thresholded tol hess)) = W.
  by rewrite /W; case: jitter {W sW} => //; rewrite scale0r addr0.
case: ifP => ok.
  have pW : pd W by rewrite -(from_lower_sym sW); apply/cc.
  by split; split=> //; case=> // _ /(_ pW).
have npW : ~ pd W by rewrite -(from_lower_sym sW) => /cc; rewrite ok.
case: on_bad_cov; split; split=> //; try by [case]; try by [case=> ?].
by move=> _; exists (get_nearest_psd eig W).
Qed.
(** ... and otherwise the returned matrix is get_nearest_psd of it *)
Theorem C85_otherwise tol jitter (hess : 'M[R]_n) on_bad_cov V warned :
  pinv_contract -> chol_contract -> hess^T = hess ->
  let W := pinv (thresholded tol hess) + (if jitter is Some j then j else 0) *: 1%:M in
  fit on_bad_cov tol jitter hess = Done V warned -> (pd W /\ V = W) \/ (~ pd W /\ V = get_nearest_psd eig W).
Proof.
move=> cp cc sH W; rewrite /fit /fit_cov.
have sP : (pinv (thresholded tol hess))^T = pinv (thresholded tol hess) by apply: penrose_sym (cp _); apply: thresholded_sym.
have sW : W^T = W by rewrite /W linearD linearZ /= tr_scalar_mx sP.
have -> : (if jitter is Some j then stabilize (pinv (thresholded tol hess)) j else pinv (thresholded tol hess)) = W.
  by rewrite /W; case: jitter {W sW} => //; rewrite scale0r addr0.
case: ifP => ok.
  by move=> [<- _]; left; split=> //; rewrite -(from_lower_sym sW); apply/cc.
have npW : ~ pd W by rewrite -(from_lower_sym sW) => /cc; rewrite ok.
by case: on_bad_cov => // [] [<- _]; right.
Qed.

(** *** get_nearest_psd is the nearest positive semidefinite matrix in the Frobenius norm, when the eigenvectors are orthogonal *)
Lemma frob_tr (A : 'M[R]_n) : frob A = \tr (A^T *m A).
Proof.
rewrite /frob exchange_big /mxtrace; apply: eq_bigr => j _; rewrite mxE; apply: eq_bigr => i _.
by rewrite mxE expr2.
Qed.
Lemma frob_orth (V A : 'M[R]_n) : V^T *m V = 1%:M -> frob (V^T *m A *m V) = frob A.
Proof.
move=> o; have o' : V *m V^T = 1%:M by apply: mulmx1C.
rewrite !frob_tr !trmx_mul trmxK -!mulmxA (mulmxA V V^T) o' mul1mx.
by rewrite mxtrace_mulC !mulmxA -(mulmxA _ V) o' mulmx1.
Qed.
Lemma frob_sym_split (A X : 'M[R]_n) : X^T = X ->
  frob (A - X) = frob (2%:R^-1 *: (A + A^T) - X) + frob (2%:R^-1 *: (A - A^T)).
Proof.
move=> sX; set C := 2%:R^-1 *: (A + A^T); set K := 2%:R^-1 *: (A - A^T).
have AE : A - X = (C - X) + K.
  have -> : A = C + K.
    by rewrite /C /K -scalerDr addrACA subrr addr0 -mulr2n -scaler_nat scalerA mulVf ?scale1r // pnatr_eq0.
  by rewrite addrAC.
have sC : (C - X)^T = C - X.
  by rewrite /C linearB linearZ linearD /= trmxK sX [A^T + A]addrC.
have sK : K^T = - K.
  by rewrite /K linearZ linearB /= trmxK -scalerN opprB.
rewrite AE !frob_tr; move: (C - X) sC => D sD; move: (K : 'M_n) sK => J sJ.
have e1 : \tr (- J *m D) = - \tr (D *m J) by rewrite mulNmx linearN /= mxtrace_mulC.
rewrite [(D + J)^T]linearD /= sD sJ mulmxDl !mulmxDr !mxtraceD e1.
by rewrite -addrA; congr (_ + _); rewrite addrA subrr add0r.
Qed.
Lemma psd_diag_entry (Y : 'M[R]_n) i : psd Y -> 0 <= Y i i.
Proof.
move=> [_ /(_ (delta_mx i 0))].
by rewrite trmx_delta -rowE -colE !mxE.
Qed.
Theorem C85_nearest_frobenius (A X : 'M[R]_n) :
  eig_contract (2%:R^-1 *: (A + A^T)) -> (let V := (eig (2%:R^-1 *: (A + A^T))).2 in V^T *m V = 1%:M) ->
  psd (get_nearest_psd eig A) /\ (psd X -> frob (A - get_nearest_psd eig A) <= frob (A - X)).
Proof.
move=> ce /=; set C := 2%:R^-1 *: (A + A^T) in ce * => o; split; first exact: nearest_psd.
have sC : C^T = C by rewrite /C linearZ linearD /= trmxK addrC.
move=> pX; rewrite (frob_sym_split A (psd_sym (nearest_psd A))) (frob_sym_split A (psd_sym pX)) ler_add2r -/C.
have [eV _] := ce; move: o eV; rewrite /get_nearest_psd -/C; case: (eig C) => d V /= o eV.
have o' : V *m V^T = 1%:M by apply: mulmx1C.
have dC : V^T *m C *m V = diag_mx d by rewrite -mulmxA eV mulmxA o mul1mx.
rewrite -(frob_orth (C - _) o) -(frob_orth (C - X) o) !mulmxBr !mulmxBl dC.
set Y := V^T *m X *m V; have pY : psd Y by rewrite /Y -{2}(trmxK V); apply: psd_congr.
set dp := (\row_i _ : 'rV[R]_n).
have -> : V^T *m (V *m diag_mx dp *m V^T) *m V = diag_mx dp by rewrite -!mulmxA o mulmx1 mulmxA o mul1mx.
apply: ler_sum => i _; apply: ler_sum => j _; rewrite !mxE.
case: (eqVneq i j) => [<-|ne].
  rewrite mulr1n; case: ltP => di; last by rewrite mulr1n subrr expr0n /= sqr_ge0.
  rewrite mul0rn subr0; have y0 := psd_diag_entry i pY.
  rewrite -[d 0 i ^+ 2]sqrrN -[(_ - _) ^+ 2]sqrrN.
  have -> : \sum_j0 (V^T *m X) i j0 * V j0 i = Y i i by rewrite /Y mxE.
  have nd : 0 <= - d 0 i by rewrite oppr_ge0 ltW.
  by rewrite opprB ler_sqr ?nnegrE ?addr_ge0 // ler_addr.
by rewrite !mulr0n subrr expr0n /= sqr_ge0.
Qed.
(** which is so when the eigenvalues differ *)
Theorem C85_nearest_distinct (A X : 'M[R]_n) :
  eig_contract (2%:R^-1 *: (A + A^T)) -> (let d := (eig (2%:R^-1 *: (A + A^T))).1 in forall i j, i != j -> d 0 i != d 0 j) ->
  psd (get_nearest_psd eig A) /\ (psd X -> frob (A - get_nearest_psd eig A) <= frob (A - X)).
Proof.
move=> ce /=; set C := 2%:R^-1 *: (A + A^T) in ce * => dd; apply: C85_nearest_frobenius => //=; rewrite -/C.
have sC : C^T = C by rewrite /C linearZ linearD /= trmxK addrC.
have [eV uV] := ce; move: dd eV uV; case: (eig C) => d V /= dd eV uV.
apply/matrixP => i j; rewrite [RHS]mxE.
case: (eqVneq i j) => [<-|ne].
  by rewrite mulr1n -(uV i) !mxE; apply: eq_bigr => k _; rewrite !mxE.
have h : (V^T *m (C *m V)) i j = (V^T *m V) i j * d 0 j by rewrite eV mulmxA mul_mx_diag mxE.
have h2 : (V^T *m (C *m V)) i j = d 0 i * (V^T *m V) i j.
  by rewrite mulmxA -{1}sC -trmx_mul eV trmx_mul tr_diag_mx -mulmxA mul_diag_mx mxE.
move/eqP: (etrans (esym h) h2); rewrite mulrC -subr_eq0 -mulrBl mulf_eq0 subr_eq0 => /orP[/eqP e|/eqP->//].
by move: (dd i j ne); rewrite e eqxx.
Qed.
End Props.

(** ** Where the claim fails *)
(** A parameter whose curvature is below zero_tol (a very diffuse one) gets the variance diag_jitter instead of the inverse curvature. *)
Theorem C85_small_curvature_refuted (R : realFieldType) (pinv : 'M[R]_1 -> 'M[R]_1) eig chol_ok on_bad_cov (tol h j : R) :
  pinv_contract pinv -> chol_contract chol_ok -> 0 < j -> 0 < h -> h < tol ->
  fit_cov pinv eig chol_ok on_bad_cov tol (Some j) h%:M = Done j%:M false /\ tol^-1 < (invmx (h%:M : 'M[R]_1)) 0 0.
Proof.
move=> cp cc j0 h0 ht.
have e0 : thresholded tol (h%:M : 'M[R]_1) = 0.
  by apply/matrixP => i k; rewrite !ord1 !mxE /= mulr1n normrN gtr0_norm // ht.
have p0 : pinv 0 = 0 by have [_ <- _ _] := cp 0; rewrite mulmx0 mul0mx.
have pj : pd (j%:M : 'M[R]_1).
  split; first by rewrite tr_scalar_mx.
  by move=> x x0; rewrite mul_mx_scalar -scalemxAl mxE mulr_gt0 // norm2_gt0.
split.
  rewrite /fit_cov e0 p0 /stabilize add0r scalemx1.
  have -> // : chol_ok (j%:M : 'M[R]_1) by apply/cc; rewrite from_lower_sym ?tr_scalar_mx.
have -> : invmx (h%:M : 'M[R]_1) = h^-1%:M by rewrite invmx_scalar.
by rewrite mxE mulr1n ltf_pinv ?posrE // (lt_trans h0).
Qed.
(** on_bad_cov = 'error' also raises for a matrix that is positive semidefinite *)
Theorem C85_singular_error_refuted (R : realFieldType) n (pinv : 'M[R]_n.+1 -> 'M[R]_n.+1) eig chol_ok (tol : R) :
  pinv_contract pinv -> chol_contract chol_ok ->
  fit_cov pinv eig chol_ok BadError tol None 0 = LinAlgError /\ psd (pinv (thresholded tol (0 : 'M[R]_n.+1))).
Proof.
move=> cp cc.
have e0 : thresholded tol (0 : 'M[R]_n.+1) = 0 by apply/matrixP => i k; rewrite !mxE !oppr0; case: ifP.
have p0 : pinv 0 = 0 by have [_ <- _ _] := cp 0; rewrite mulmx0 mul0mx.
rewrite /fit_cov e0 p0; split; last exact: psd0.
have -> // : chol_ok (0 : 'M[R]_n.+1) = false.
apply/negP => /cc; rewrite from_lower_sym ?trmx0 // => [] [_ /(_ (delta_mx 0 0))].
rewrite mulmx0 mul0mx mxE ltxx => h; suff : false by []. apply: h.
by apply/negP => /eqP /matrixP /(_ 0 0); rewrite !mxE => /eqP; rewrite oner_eq0.
Qed.

Ltac m2 := apply/matrixP; do 2! apply: I2; rewrite ?(mxE, sum2) //=.
Section Psd22.
Context (R : realFieldType).
Add Field ff22 : (@f_field R).
Lemma psd22 (a b d : R) : 0 < a -> b ^+ 2 <= a * d -> psd (m22 a b b d).
Proof.
move=> a0 h; split; first by m2.
move=> x; rewrite mxE sum2 !mxE !sum2 !mxE /=.
set u := x 0 0; set v := x 1 0.
rewrite -(pmulr_rge0 _ a0).
have -> : a * ((u * a + v * b) * u + (u * b + v * d) * v) = (a * u + b * v) ^+ 2 + (a * d - b ^+ 2) * v ^+ 2 by fchange; ring.
by rewrite addr_ge0 ?sqr_ge0 // mulr_ge0 ?sqr_ge0 // subr_ge0.
Qed.
End Psd22.

Section Witness.
Notation Q := rat.
Definition A0 : 'M[Q]_2 := m22 (- 7%:R) 24%:R 24%:R 7%:R.
Definition V0 : 'M[Q]_2 := m22 (3%:R / 5%:R) (- (4%:R / 5%:R)) (4%:R / 5%:R) (3%:R / 5%:R).
Definition eig0 (_ : 'M[Q]_2) : 'rV[Q]_2 * 'M[Q]_2 := (r2 25%:R (- 25%:R), V0).
Lemma C0 : 2%:R^-1 *: (A0 + A0^T) = A0.
Proof. by m2. Qed.
Lemma eig0_ok : eig_contract eig0 (2%:R^-1 *: (A0 + A0^T)) /\ V0^T *m V0 = 1%:M.
Proof.
split; last by m2.
rewrite C0; split; first by m2.
by apply: I2; rewrite !mxE !sum2 !mxE.
Qed.
Lemma near0 : get_nearest_psd eig0 A0 = m22 9%:R 12%:R 12%:R 16%:R.
Proof.
rewrite /get_nearest_psd C0 /eig0.
have -> : (\row_i (if (r2 25%:R (- 25%:R) : 'rV[Q]_2) 0 i < 0 then 0 else (r2 25%:R (- 25%:R) : 'rV[Q]_2) 0 i)) = r2 25%:R 0 :> 'rV[Q]_2.
  apply/matrixP => i; rewrite (ord1 i); apply: I2; rewrite !mxE.
    by rewrite eqxx ltrn0.
  by rewrite -[1 == 0]/false oppr_lt0 ltr0n.
have -> : V0 *m diag_mx (r2 25%:R 0) = m22 15%:R 0 20%:R 0 by apply/matrixP; do 2! apply: I2; rewrite ?(mxE, sum2) /=; apply/eqP; vm_compute.
by apply/matrixP; do 2! apply: I2; rewrite ?(mxE, sum2) /=; apply/eqP; vm_compute.
Qed.
(** The matrix returned is not the nearest one in L1 norm, as fit_mvn_to_MAP documents: neither entrywise nor in the induced norm. *)
Theorem C85_l1_refuted : exists (A : 'M[Q]_2) eig (X Y : 'M[Q]_2),
  [/\ eig_contract eig (2%:R^-1 *: (A + A^T)), psd X & psd Y] /\
  [/\ l1 (A - X) < l1 (A - get_nearest_psd eig A),
     l1_induced_le (A - Y) 25%:R & ~ l1_induced_le (A - get_nearest_psd eig A) 27%:R].
Proof.
exists A0, eig0, (m22 24%:R 24%:R 24%:R 24%:R), (m22 18%:R 24%:R 24%:R 32%:R).
rewrite near0; split.
  by split; [case: eig0_ok|apply: psd22; vm_compute|apply: psd22; vm_compute].
split.
- by rewrite /l1 !sum2 !mxE; vm_compute.
- by apply: I2; rewrite !sum2 !mxE; vm_compute.
- by move/(_ 0); rewrite !sum2 !mxE; vm_compute.
Qed.
(** numpy's eig promises eigenvectors, not orthogonal ones: with a repeated eigenvalue its contract allows a result that is not the nearest matrix, even for an input that is
    positive semidefinite already *)
Theorem C85_repeated_refuted : exists (A : 'M[Q]_2) eig, psd A /\ eig_contract eig (2%:R^-1 *: (A + A^T)) /\ get_nearest_psd eig A <> A.
Proof.
exists (m22 1 0 0 1), (fun _ => (r2 1 1, m22 1 (3%:R / 5%:R) 0 (4%:R / 5%:R))); split; first exact: psd22.
have e : 2%:R^-1 *: (m22 1 0 0 1 + (m22 1 0 0 1)^T) = m22 1 0 0 1 :> 'M[Q]_2 by m2.
rewrite /get_nearest_psd e; split.
  split; first by m2.
  by apply: I2; rewrite !mxE !sum2 !mxE.
by move/matrixP/(_ 0 0); rewrite !(mxE, sum2).
Qed.
(** Concrete cases: the two-parameter matrix above for the nearest matrix ... *)
Example C85_nearest_case : eig_contract eig0 (2%:R^-1 *: (A0 + A0^T)) /\ V0^T *m V0 = 1%:M /\ ~ psd A0 /\ get_nearest_psd eig0 A0 = m22 9%:R 12%:R 12%:R 16%:R.
Proof.
have [h1 h2] := eig0_ok; split=> //; split=> //; split; last exact: near0.
by case=> _ /(_ (c2 1 0)); rewrite !(mxE, sum2).
Qed.
End Witness.

(** ... and routines that meet the contracts: a pseudo-inverse (for every size and field), and the Cholesky test for two parameters *)
Section Exist.
Context (R : realFieldType).
Lemma gram_unit m n (A : 'M[R]_(m, n)) : row_free A -> A *m A^T \in unitmx.
Proof.
move=> fA; rewrite -row_free_unit -kermx_eq0; apply/negPn/negP => /rowV0Pn[x /sub_kermxP xA x0].
have : ((x *m A) *m (x *m A)^T) 0 0 = 0 by rewrite trmx_mul mulmxA -(mulmxA x) xA mul0mx mxE.
rewrite mxE; move/eqP; rewrite psumr_eq0; last by move=> k _; rewrite [X in _ * X]mxE -expr2 sqr_ge0.
move/allP => h; have : x *m A = 0.
  apply/rowP => k; rewrite [RHS]mxE; apply/eqP.
  by have := h k; rewrite mem_index_enum => /(_ isT); rewrite [X in _ * X]mxE -expr2 sqrf_eq0.
by move/eqP; rewrite mulmx_free_eq0 // (negPf x0).
Qed.
Definition mp n (A : 'M[R]_n) : 'M[R]_n :=
  let L := col_base A in let U := row_base A in
  U^T *m invmx (U *m U^T) *m (invmx (L^T *m L) *m L^T).
Lemma mp_factor n k (L : 'M[R]_(n, k)) (U : 'M[R]_(k, n)) : U *m U^T \in unitmx -> L^T *m L \in unitmx ->
  penrose (L *m U) (U^T *m invmx (U *m U^T) *m (invmx (L^T *m L) *m L^T)).
Proof.
move=> uU uL; set P := _ *m (_ *m L^T); set A := L *m U.
have AP : A *m P = L *m invmx (L^T *m L) *m L^T.
  by rewrite /A /P -!mulmxA (mulmxA U) (mulmxA (U *m U^T)) mulmxV // mul1mx.
have PA : P *m A = U^T *m invmx (U *m U^T) *m U.
  by rewrite /A /P -!mulmxA (mulmxA L^T L) (mulmxA (invmx (L^T *m L))) mulVmx // mul1mx.
have sy l (X : 'M[R]_l) : X^T = X -> (invmx X)^T = invmx X by move=> e; rewrite trmx_inv e.
split.
- by rewrite AP /A -!mulmxA (mulmxA L^T L) (mulmxA (invmx (L^T *m L))) mulVmx // mul1mx.
- rewrite PA /P -!mulmxA (mulmxA U U^T) (mulmxA (U *m U^T)) mulmxV // mul1mx.
  by [].
- by rewrite AP !trmx_mul trmxK sy ?mulmxA // trmx_mul trmxK.
- by rewrite PA !trmx_mul trmxK sy ?mulmxA // trmx_mul trmxK.
Qed.
Lemma mp_ok n : pinv_contract (@mp n).
Proof.
move=> A; rewrite /mp.
have uU : row_base A *m (row_base A)^T \in unitmx by apply: gram_unit; apply: row_base_free.
have uL : (col_base A)^T *m col_base A \in unitmx.
  have := gram_unit (A := (col_base A)^T); rewrite trmxK; apply.
  by rewrite /row_free mxrank_tr; apply: col_base_full.
by have := mp_factor uU uL; rewrite mulmx_base.
Qed.
Add Field ffe : (@f_field R).
Definition chol2 (A : 'M[R]_2) : bool := (0 < A 0 0) && (A 1 0 ^+ 2 < A 0 0 * A 1 1).
Lemma quad22 (A : 'M[R]_2) (x : 'cV[R]_2) : A^T = A -> A 0 0 * (x^T *m A *m x) 0 0 =
  (A 0 0 * x 0 0 + A 1 0 * x 1 0) ^+ 2 + (A 0 0 * A 1 1 - A 1 0 ^+ 2) * x 1 0 ^+ 2.
Proof.
move=> sA; rewrite !(mxE, sum2).
have -> : A 0 1 = A 1 0 by rewrite -{1}sA mxE.
by fchange; ring.
Qed.
Lemma chol2_ok : chol_contract chol2.
Proof.
move=> A; set B := from_lower A.
have sB : B^T = B.
  by apply/matrixP => i j; rewrite !mxE; case: (ltngtP i j) => // e; rewrite (val_inj e).
have -> : chol2 A = (0 < B 0 0) && (B 1 0 ^+ 2 < B 0 0 * B 1 1) by rewrite /chol2 /B !mxE.
split.
  case/andP=> b0 bd; split=> // x x0; rewrite -(pmulr_rgt0 _ b0) quad22 //.
  case: (eqVneq (x 1 0) 0) => [e1|n1].
    have x00 : x 0 0 != 0.
      by apply: contra x0 => /eqP e0; apply/eqP/matrixP => i j; rewrite (ord1 j) mxE; move: i; apply: I2.
    by rewrite e1 mulr0 addr0 expr0n /= mulr0 addr0 exprn_even_gt0 //= mulf_neq0 // gt_eqF.
  by rewrite ltr_paddl ?sqr_ge0 // mulr_gt0 ?subr_gt0 // lt_def sqr_ge0 sqrf_eq0 n1.
case=> _ h.
have b0 : 0 < B 0 0.
  have := h (c2 1 0); rewrite !(mxE, sum2) /= !(mulr0, mul0r, addr0, mulr1, mul1r); apply.
  by apply/eqP => /matrixP/(_ 0 0); rewrite !mxE /= => /eqP; rewrite oner_eq0.
rewrite b0 /=; have := h (c2 (- B 1 0) (B 0 0)); rewrite -(pmulr_rgt0 _ b0) quad22 //.
have -> : c2 (- B 1 0) (B 0 0) 0 0 = - B 1 0 by rewrite mxE.
have -> : c2 (- B 1 0) (B 0 0) 1 0 = B 0 0 by rewrite mxE.
rewrite mulrN [B 1 0 * _]mulrC addNr expr0n /= add0r pmulr_lgt0 ?subr_gt0; last by rewrite exprn_gt0.
apply; apply/eqP => h1; have : (c2 (- B 1 0) (B 0 0)) 1 0 = 0 by rewrite h1 mxE.
by rewrite mxE => e; move: b0; rewrite [B 0 0]e ltxx.
Qed.
End Exist.
(** A correlated two-parameter posterior: negative Hessian [[2,1],[1,1]], covariance [[1,-1],[-1,2]] + jitter *)
Example C85_case : pinv_contract (@mp [realFieldType of rat] 2) /\ chol_contract (@chol2 [realFieldType of rat]) /\ pd (m22 2%:R 1 1 1 : 'M[rat]_2) /\ above_tol (1 / 100%:R) (m22 2%:R 1 1 1 : 'M[rat]_2) /\
  fit_cov (@mp _ 2) eig0 (@chol2 _) BadIgnore (1 / 100%:R) (Some (1 / 10%:R)) (m22 2%:R 1 1 1) = Done (m22 (11%:R / 10%:R) (- 1) (- 1) (21%:R / 10%:R)) false.
Proof.
have p : pd (m22 2%:R 1 1 1 : 'M[rat]_2).
  have e : from_lower (m22 2%:R 1 1 1 : 'M[rat]_2) = m22 2%:R 1 1 1.
    by apply: from_lower_sym; apply/matrixP; do 2! apply: I2; rewrite !mxE.
  by rewrite -e; apply/chol2_ok; rewrite /chol2 !mxE; vm_compute.
have ab : above_tol (1 / 100%:R) (m22 2%:R 1 1 1 : 'M[rat]_2) by do 2! apply: I2; right; rewrite !mxE; vm_compute.
split; first exact: mp_ok. split; first exact: chol2_ok. split=> //; split=> //.
have [-> _] := @C85_inverse_hessian_partial _ 2 (@mp _ 2) eig0 (@chol2 _) BadIgnore (1 / 100%:R) (Some (1 / 10%:R)) (m22 2%:R 1 1 1) (@mp_ok _ 2) (@chol2_ok _) p ab isT.
have -> : invmx (m22 2%:R 1 1 1 : 'M[rat]_2) = m22 1 (- 1) (- 1) 2%:R.
  have e : m22 2%:R 1 1 1 *m m22 1 (- 1) (- 1) 2%:R = 1%:M :> 'M[rat]_2.
    by apply/matrixP; do 2! apply: I2; rewrite !(mxE, sum2); apply/eqP; vm_compute.
  by have := mulKmx (pd_unit p) (m22 1 (- 1) (- 1) 2%:R); rewrite e mulmx1.
by congr (Done _ _); apply/matrixP; do 2! apply: I2; rewrite !mxE; apply/eqP; vm_compute.
Qed.
