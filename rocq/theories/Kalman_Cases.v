(** The hypotheses of the Kalman theorems are satisfiable: routines meeting [solve_ok], [pinv_ok], [chol_spec],
    [qr_spec], [tri_ok] exist over every real closed field, and a concrete two-series run meets [full_data]. *)
From mathcomp Require Import all_ssreflect all_algebra.
From Verif Require Common KalmanScan_Model.
From Verif Require Import McTac Kalman_Model Kalman_Spec Kalman_Proofs Kalman_Seq Kalman_Missing Kalman_Sqrt Kalman_Run M22.
Set Implicit Arguments.
Unset Strict Implicit.
Unset Printing Implicit Defensive.
Import Order.Theory GRing.Theory Num.Theory.
Local Open Scope ring_scope.

Section C.
Context (R : rcfType).

Definition solve_x m n (A : 'M[R]_m) (B : 'M[R]_(m, n)) := invmx A *m B.
Lemma solve_x_ok : solve_ok solve_x.
Proof. by move=> m n A B _ uA; rewrite /solve_x mulKVmx. Qed.
Lemma solve_x_tri : tri_ok solve_x.
Proof. by move=> m n A B _ uA; rewrite /solve_x mulKVmx. Qed.
Lemma pinv_x_ok : pinv_ok (fun m (A : 'M[R]_m) => invmx A).
Proof. by []. Qed.

Fixpoint chol m : 'M[R]_m -> 'M[R]_m :=
  match m with
  | 0 => fun A => A
  | m'.+1 => fun A : 'M[R]_(1 + m') =>
      let a := A 0 0 in let b := dlsubmx A in
      block_mx (Num.sqrt a)%:M 0 ((Num.sqrt a)^-1 *: b) (chol (drsubmx A - a^-1 *: (b *m b^T)))
  end.

Lemma chol_ok m (A : 'M[R]_m) : psd A -> chol_spec A (chol A).
Proof.
elim: m A => [|m IH] A pA.
  by split; [apply/is_trig_mxP => -[] | apply/matrixP => -[]].
rewrite -(add1n m) in A pA *.
set a := A 0 0. set b := dlsubmx A. set D := drsubmx A.
have sA := psd_sym pA.
have eb : ursubmx A = b^T by rewrite /b trmx_dlsub sA.
have ea : ulsubmx A = a%:M.
  have e0 : lshift m (0 : 'I_1) = 0 :> 'I_(1 + m) by apply: val_inj.
  by rewrite [LHS]mx11_scalar !mxE /a e0.
have EA : A = block_mx a%:M b^T b D by rewrite -eb -ea submxK.
pose e : 'cV[R]_(1 + m) := col_mx 1%:M 0.
have Ee : (e^T *m A *m e) 0 0 = a.
  rewrite EA /e tr_col_mx mul_row_block mul_row_col !trmx0 !mulmx0 !mul0mx !addr0 trmx1 mul1mx mulmx1.
  by rewrite mxE eqxx mulr1n.
have a0 : 0 <= a by rewrite -Ee; exact: (proj2 pA).
have b0 : a = 0 -> b = 0.
  move=> az; have := psd_ker pA (x := e); rewrite Ee => /(_ az).
  rewrite EA /e mul_block_col !mulmx0 !addr0 !mulmx1 => h.
  have := congr1 dsubmx h; by rewrite col_mxKd => ->; apply/matrixP => i k; rewrite !mxE.
pose X := a^-1 *: b.
have pD : psd (D - a^-1 *: (b *m b^T)).
  have -> : D - a^-1 *: (b *m b^T) = row_mx (- X) 1%:M *m A *m (row_mx (- X) 1%:M)^T.
    rewrite EA mul_row_block tr_row_mx mul_row_col !trmx1 !mul1mx mulmx1.
    rewrite mulNmx mul_mx_scalar.
    have -> : - (a *: X) + b = 0.
      case: (a =P 0) => [az|/eqP az]; first by rewrite /X (b0 az) !scaler0 addr0 oppr0.
      by rewrite /X scalerA mulfV // scale1r addNr.
    by rewrite mul0mx add0r mulNmx /X -scalemxAl addrC.
  exact: psd_congr.
have [tL EL] := IH _ pD.
set s := Num.sqrt a. have ss : s * s = a by rewrite -expr2 sqr_sqrtr.
have sb : s *: (s^-1 *: b) = b.
  case: (s =P 0) => [sz|/eqP sz]; last by rewrite scalerA mulfV // scale1r.
  by rewrite b0 ?scaler0 // -ss sz mulr0.
set C := chol (D - _) in tL EL.
have EC : @chol (1 + m) A = block_mx s%:M 0 (s^-1 *: b) C by [].
rewrite EC; clear EC; split.
- apply/is_trig_mxP => i k; rewrite -(splitK i) -(splitK k) /=.
  case: (split i) => i'; case: (split k) => k' /= lt; rewrite ?block_mxEul ?block_mxEur ?block_mxEdl ?block_mxEdr.
  + by move: lt; rewrite !ord1.
  + by rewrite mxE.
  + by move: lt; rewrite ord1 ltn0.
  + by move/is_trig_mxP: tL; apply; rewrite ltn_add2l in lt.
- rewrite tr_block_mx mulmx_block trmx0 !mul0mx !addr0 EL [RHS]EA.
  rewrite tr_scalar_mx linearZ /= -scalar_mxM ss mul_scalar_mx mulmx0 addr0 mul_mx_scalar.
  have -> : s *: (s^-1 *: b^T) = b^T by rewrite -[in RHS]sb; apply/matrixP => i k; rewrite !mxE.
  rewrite sb -scalemxAl -scalemxAr scalerA.
  have -> : s^-1 * s^-1 = a^-1 by rewrite -invfM ss.
  by congr block_mx; rewrite addrC subrK.
Qed.

Definition qr_x m n (M : 'M[R]_(m, n)) : 'M[R]_n := (chol (M^T *m M))^T.
Lemma qr_x_ok m n (M : 'M[R]_(m, n)) : qr_spec M (qr_x M).
Proof.
have pM : psd (M^T *m M).
  split; first by rewrite trmx_mul trmxK.
  by move=> x; have := sq_ge0 (M *m x); rewrite trmx_mul !mulmxA.
by have [t E] := chol_ok pM; split; rewrite /qr_x trmxK.
Qed.

(** two series observing one state with correlated noise [[1,1],[1,2]], full data *)
Example full_case (fill : R) :
  full_data fill (Inputs (fun _ : 'I_2 => Some (fill + 1)) 1%:M 0 1%:M (const_mx 1) 1%:M (m22 1 1 1 2%:R) (1%:M : 'M[R]_1)).
Proof.
split; first by move=> i; rewrite /nan_mask /= -subr_eq0 addrAC subrr add0r oner_eq0.
split; last split.
- split; first by apply/matrixP; apply: I2; apply: I2; rewrite !mxE.
  move=> x. have -> : (x^T *m m22 1 1 1 2%:R *m x) 0 0 = (x 0 0 + x 1 0) ^+ 2 + x 1 0 ^+ 2.
    rewrite !mxE sum2 !mxE !sum2 !mxE /= sqrrD !mulr1 expr2 [x 1 0 ^+ 2]expr2 mulrDl.
    rewrite mulrDl -[x 1 0 * 2%:R]/(x 1 0 * (1 + 1)) mulrDr mulr1 mulrDl mulr2n.
    rewrite [x 1 0 * x 0 0]mulrC. zmod.
  by rewrite addr_ge0 ?sqr_ge0.
- have h : m22 2%:R (- 1) (- 1) 1 *m m22 1 1 1 2%:R = 1%:M :> 'M[R]_2.
    apply/matrixP; apply: I2; apply: I2; rewrite !mxE sum2 !mxE /= ?mulr1 ?mul1r ?mulN1r ?mulr1n ?mulr0n.
    - by rewrite -[2%:R]/(1 + 1); zmod.
    - by rewrite -[2%:R]/(1 + 1); zmod.
    - by zmod.
    - by rewrite -[2%:R]/(1 + 1); zmod.
  by have [] := mulmx1_unit h.
- by rewrite /= -[1%:M]scale1r; apply: psd_scal1; exact: ler01.
Qed.
End C.
