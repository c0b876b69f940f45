(** C107 is false for the standard filter with correlated measurement noise and a missing entry: the order of the series changes the result. *)
From Coq Require Import Ring Field.
From mathcomp Require Import all_ssreflect all_algebra fingroup perm.
From Verif Require Common KalmanScan_Model KalmanScan_Proofs.
From Verif Require Import McTac Kalman_Model Kalman_Spec Kalman_Proofs Kalman_Props Equiv_Props M22.
Set Implicit Arguments.
Unset Strict Implicit.
Unset Printing Implicit Defensive.
Import Order.Theory GRing.Theory Num.Theory.
Local Open Scope ring_scope.

Section Off.
Context (R : realFieldType).
Add Field ff_off : (@f_field R).
Context (log : R -> R) (cst fill : R).
(** The two-series step of C14 (state variance 4, noise covariance [[4,2],[2,1]], jitter 1, first series missing) with its series swapped. *)
Definition swapped : inputs R 1 2 1 := reorder_series (tperm 0 1) (bad_in fill).
Lemma swapped_y0 : nan_mask fill (in_y swapped) 0 = false. Proof. by rewrite /nan_mask /= tpermL; exact: (bad_mask1 fill). Qed.
Lemma swapped_y1 : nan_mask fill (in_y swapped) 1 = true. Proof. by rewrite /nan_mask /= tpermR. Qed.
Lemma swapped_H : in_H swapped = m22 1 2%:R 2%:R 4%:R.
Proof. by apply/matrixP; apply: I2; apply: I2; rewrite !mxE ?tpermL ?tpermR. Qed.
Lemma swapped_Z : in_Z swapped = const_mx 1.
Proof. by apply/matrixP => i k; rewrite !mxE. Qed.
Lemma swapped_cov : KalmanScan_Model.o_Pf (std_step log cst (@posv R) 1 fill swapped 0 4%:R%:M) = (17%:R / 9%:R)%:M.
Proof.
rewrite /std_step /std_update.
set Zm := Z_masked _ _ _. set Hm := H_masked _ _ _.
have EZ : Zm = c2 1 0.
  apply/matrixP; apply: I2 => k; rewrite /Zm /Z_masked W_mul_l swapped_Z ?swapped_y0 ?swapped_y1 ?mxE /= //; try by case: ifP.
have EH : Hm = m22 1 2%:R 0 0.
  apply/matrixP; apply: I2 => k; rewrite /Hm /H_masked W_mul_l swapped_H ?swapped_y0 ?swapped_y1 ?mxE /= //; try by case: ifP.
set F : 'M[R]_2 := Zm *m (4%:R%:M *m Zm^T) + stabilize Hm 1.
have EF : F = m22 6%:R 2%:R 0 1.
  rewrite /F EZ EH /stabilize; apply/matrixP; apply: I2; apply: I2; rewrite !mxE ?sum2 ?big_ord1 !mxE ?big_ord1 !mxE /=;
  fchange; ring.
have EU : upper_sym F^T = m22 6%:R 0 0 1.
  by rewrite EF; apply/matrixP; apply: I2; apply: I2; rewrite !mxE.
have uU : upper_sym F^T \in unitmx.
  have h : (m22 (6%:R^-1) 0 0 1) *m upper_sym F^T = 1%:M.
    rewrite EU; apply/matrixP; apply: I2; apply: I2; rewrite !mxE sum2 !mxE /= ?mulVf ?mulr0 ?mul0r ?addr0 ?add0r ?mulr1 ?(pnatr_eq0 R 6) //.
  by have [] := mulmx1_unit h.
have EB : (4%:R%:M *m Zm^T : 'rV[R]_2)^T = c2 4%:R 0.
  rewrite EZ; apply/matrixP; apply: I2 => k; rewrite !mxE big_ord1 !mxE /= ord1 /=; fchange; ring.
have EK : posv F^T (4%:R%:M *m Zm^T)^T = c2 (2%:R / 3%:R) 0.
  rewrite EB /posv -[RHS](mulKmx uU); congr (_ *m _).
  rewrite EU; apply/matrixP; apply: I2 => k; rewrite !mxE sum2 !mxE /= ?mulr0 ?mul0r ?addr0 ?add0r //.
  have /eqP n3 : (3%:R : R) != 0 by rewrite pnatr_eq0.
  have -> : (6%:R : R) = 3%:R * 2%:R by rewrite -natrM.
  rewrite -[3%:R * _ * _]mulrA [2%:R * (_ / _)]mulrA -natrM mulrC mulfVK //. by apply/eqP.
rewrite /= EK EZ EH /quad_form_sym /stabilize [LHS]mx11_scalar; congr (_%:M).
rewrite !(mxE, sum2, big_ord1) /=.
have n3 : (3%:R : R) != 0 by rewrite pnatr_eq0. have n9 : (9%:R : R) != 0 by rewrite pnatr_eq0.
set a : R := 2%:R / 3%:R. have E3 : a * 3%:R = 2%:R by rewrite /a mulfVK.
have -> : 17%:R / 9%:R = (1 - a) ^+ 2 * 4%:R + a ^+ 2 + 1 :> R.
  apply: (mulIf n9). rewrite mulfVK //. have -> : (9%:R : R) = 3%:R * 3%:R by rewrite -natrM.
  have -> : ((1 - a) ^+ 2 * 4%:R + a ^+ 2 + 1) * (3%:R * 3%:R) = (3%:R - a * 3%:R) ^+ 2 * 4%:R + (a * 3%:R) ^+ 2 + 3%:R ^+ 2.
    move: a {E3} => b. fchange. ring.
  rewrite E3. fchange. ring.
clearbody a. clear E3 n3 n9.
have half : forall x : R, 2%:R^-1 * (x + x) = x by move=> x; rewrite -mulr2n -[x *+ 2]mulr_natl mulKf // pnatr_eq0.
rewrite !half. fchange. ring.
Qed.
(** Same data, same model, the two series in the other order: another covariance (and only one of the two is a covariance). *)
Theorem C107_series_order_refuted :
  psd (in_H (bad_in fill)) /\ psd (in_Q (bad_in fill)) /\ psd (4%:R%:M : 'M[R]_1) /\
  exists f g, std_filter log cst (@posv R) 1 fill [:: bad_in fill] 0 4%:R%:M = Common.Ok f /\
              std_filter log cst (@posv R) 1 fill [:: reorder_series (tperm 0 1) (bad_in fill)] 0 4%:R%:M = Common.Ok g /\
              KalmanScan_Model.filtered_covs f <> KalmanScan_Model.filtered_covs g.
Proof.
have [h1 [h2 [h3 [E _]]]] := C14_correlated_noise_refuted log cst fill.
split; [exact: h1|split; [exact: h2|split; [exact: h3|]]].
have [f [Ef Hf]] := @KalmanScan_Proofs.build_ok _ _ _ _ _ _ (@std_step R log cst (@posv R) 1 fill 1 2 1) [:: bad_in fill] 0 4%:R%:M ltac:(discriminate).
have [g [Eg Hg]] := @KalmanScan_Proofs.build_ok _ _ _ _ _ _ (@std_step R log cst (@posv R) 1 fill 1 2 1) [:: swapped] 0 4%:R%:M ltac:(discriminate).
exists f, g. split; [exact: Ef|split; [exact: Eg|]].
case: Hf => _ [_ [_ [_ [_ [_ [_ /(_ 0%N _ erefl) [_ [_ [_ [Cf _]]]]]]]]]].
case: Hg => _ [_ [_ [_ [_ [_ [_ /(_ 0%N _ erefl) [_ [_ [_ [Cg _]]]]]]]]]].
move=> C. move: Cf Cg. rewrite C => -> -[].
change (KalmanScan_Model.o_Pf (std_step log cst (@posv R) 1 fill (bad_in fill) 0 4%:R%:M) = KalmanScan_Model.o_Pf (std_step log cst (@posv R) 1 fill swapped 0 4%:R%:M) -> False).
rewrite E swapped_cov => /(congr1 (fun M : 'M[R]_1 => M 0 0)). rewrite !mxE eqxx !mulr1n => D.
have : 0 < 17%:R / 9%:R :> R by rewrite divr_gt0 ?ltr0n.
by rewrite -D oppr_gt0 ltrn0.
Qed.
End Off.
