(** Conditioning, one measurement or one transition at a time. *)
From mathcomp Require Import all_ssreflect all_algebra.
From Verif Require Import McTac Kalman_Model Kalman_Spec Kalman_Proofs Joint_Spec.
Set Implicit Arguments.
Unset Strict Implicit.
Unset Printing Implicit Defensive.
Import Order.Theory GRing.Theory Num.Theory.
Local Open Scope ring_scope.

Section Core.
Context (R : realFieldType) (N : nat).
Implicit Types (n m q r : nat).
Definition gram m (Y : 'M[R]_(m, N)) : 'M[R]_m := Y *m Y^T.
(** a, P are the mean and covariance of (mX, X) given that (mY, Y) took the values yd *)
Definition isCond n m (mX : 'cV[R]_n) (X : 'M[R]_(n, N)) (mY : 'cV[R]_m) (Y : 'M[R]_(m, N)) (yd : 'cV[R]_m) (a : 'cV[R]_n) (P : 'M[R]_n) : Prop :=
  exists A : 'M[R]_(n, m), [/\ (X - A *m Y) *m Y^T = 0, a = mX + A *m (yd - mY) & P = gram (X - A *m Y)].
Lemma gram_psd m (Y : 'M[R]_(m, N)) : psd (gram Y).
Proof. split; first by rewrite /gram trmx_mul trmxK. move=> x. have -> : x^T *m gram Y *m x = (Y^T *m x)^T *m (Y^T *m x) by rewrite /gram trmx_mul trmxK !mulmxA. exact: sq_ge0. Qed.
Lemma isCond_psd n m mX (X : 'M[R]_(n, N)) mY (Y : 'M[R]_(m, N)) yd a P : isCond mX X mY Y yd a P -> psd P.
Proof. by move=> [A [_ _ ->]]; exact: gram_psd. Qed.
Lemma core_update n m q mX (X : 'M[R]_(n, N)) mY (Y : 'M[R]_(m, N)) yd a P (eps : 'M[R]_(q, N)) Z (d y : 'cV[R]_q) :
  isCond mX X mY Y yd a P -> X *m eps^T = 0 -> Y *m eps^T = 0 -> innov_cov P Z (gram eps) \in unitmx ->
  isCond mX X (col_mx mY (d + Z *m mX)) (col_mx Y (Z *m X + eps)) (col_mx yd y) (cond_mean a P Z (gram eps) y d) (cond_cov P Z (gram eps)).
Proof.
  move=> [A [O Ea EP]] Xe Ye U. set H := gram eps in U *. set K := gain P Z H. set E := X - A *m Y in O EP.
  pose V := Z *m E + eps. exists (row_mx (A - K *m Z *m A) K).
  have EP' : P = E *m E^T by [].
  have eE : E *m eps^T = 0 by rewrite mulmxBl Xe -mulmxA Ye mulmx0 subrr.
  have eY : eps *m Y^T = 0 by rewrite -[eps]trmxK -trmx_mul Ye trmx0.
  have eE' : eps *m E^T = 0 by rewrite -[eps]trmxK -trmx_mul eE trmx0.
  have R1 : X - row_mx (A - K *m Z *m A) K *m col_mx Y (Z *m X + eps) = E - K *m V.
  { rewrite mul_row_col /V /E !mulmxDl !mulmxDr !mulNmx !mulmxN !mulmxA. by zmod. }
  have VY : V *m Y^T = 0 by rewrite mulmxDl -mulmxA O mulmx0 eY addr0.
  have F1 : V *m V^T = innov_cov P Z H. { rewrite {2}/V linearD /= trmx_mul mulmxDr mulmxA. rewrite /V !mulmxDl -!(mulmxA Z) eE eE' mulmx0 mul0mx addr0 add0r /innov_cov EP /gram. by rewrite !mulmxA. }
  have EV : E *m V^T = P *m Z^T by rewrite linearD /= trmx_mul mulmxDr eE addr0 mulmxA -/(gram E) -EP.
  have O2 : (E - K *m V) *m V^T = 0 by rewrite mulmxBl EV -mulmxA F1 gain_F // subrr.
  have O1 : (E - K *m V) *m Y^T = 0 by rewrite mulmxBl O -mulmxA VY mulmx0 subrr.
  split.
  - rewrite R1 tr_col_mx mul_mx_row O1. have -> : Z *m X + eps = V + Z *m A *m Y by rewrite /V /E mulmxBr mulmxA; zmod.
    have -> : (V + Z *m A *m Y)^T = V^T + Y^T *m (Z *m A)^T by rewrite -trmx_mul -linearD. by rewrite mulmxDr O2 mulmxA O1 mul0mx addr0 row_mx0.
  - rewrite opp_col_mx add_col_mx mul_row_col /cond_mean -/K Ea. move: (yd - mY) => z. rewrite mulmxBl !mulmxDr !mulmxN !mulmxDr !mulmxA. by zmod.
  - rewrite R1 /cond_cov -/K /gram. have -> : (E - K *m V)^T = E^T - V^T *m K^T by rewrite -trmx_mul -linearB.
    have VE : V *m E^T = Z *m P by rewrite mulmxDl eE' addr0 -mulmxA -EP'. by rewrite mulmxBr [(E - _) *m (_ *m _)]mulmxA O2 mul0mx subr0 mulmxBl -EP' -(mulmxA K V) VE mulmxA.
Qed.
Lemma core_predict n k m r mX (X : 'M[R]_(n, N)) mY (Y : 'M[R]_(m, N)) yd a P (eta : 'M[R]_(r, N)) (T : 'M[R]_(k, n)) Rm (c : 'cV[R]_k) :
  isCond mX X mY Y yd a P -> X *m eta^T = 0 -> Y *m eta^T = 0 ->
  isCond (T *m mX + c) (T *m X + Rm *m eta) mY Y yd (T *m a + c) (T *m P *m T^T + Rm *m gram eta *m Rm^T).
Proof.
  move=> [A [O Ea EP]] Xe Ye. set E := X - A *m Y in O EP. exists (T *m A).
  have eE : E *m eta^T = 0 by rewrite mulmxBl Xe -mulmxA Ye mulmx0 subrr.
  have eY : eta *m Y^T = 0 by rewrite -[eta]trmxK -trmx_mul Ye trmx0.
  have eE' : eta *m E^T = 0 by rewrite -[eta]trmxK -trmx_mul eE trmx0.
  have R1 : T *m X + Rm *m eta - T *m A *m Y = T *m E + Rm *m eta by rewrite /E mulmxBr mulmxA; zmod.
  split.
  - by rewrite R1 mulmxDl -!mulmxA O eY !mulmx0 addr0.
  - rewrite Ea mulmxDr !mulmxA. by zmod.
  - rewrite R1 EP /gram. have -> : (T *m E + Rm *m eta)^T = E^T *m T^T + eta^T *m Rm^T by rewrite -!trmx_mul -linearD.
    have X1 : T *m E *m (E^T *m T^T + eta^T *m Rm^T) = T *m (E *m E^T) *m T^T by rewrite mulmxDr [T *m E *m (eta^T *m _)]mulmxA -(mulmxA T E eta^T) eE mulmx0 mul0mx addr0 !mulmxA.
    have X2 : Rm *m eta *m (E^T *m T^T + eta^T *m Rm^T) = Rm *m (eta *m eta^T) *m Rm^T by rewrite mulmxDr [Rm *m eta *m (E^T *m _)]mulmxA -(mulmxA Rm eta E^T) eE' mulmx0 mul0mx add0r !mulmxA.
    by rewrite mulmxDl X1 X2.
Qed.
(** the joint covariance and the quadratic form, one measurement at a time *)
Lemma core_det n m q mX (X : 'M[R]_(n, N)) mY (Y : 'M[R]_(m, N)) yd a P (eps : 'M[R]_(q, N)) Z (d y : 'cV[R]_q) :
  isCond mX X mY Y yd a P -> X *m eps^T = 0 -> Y *m eps^T = 0 -> let F := innov_cov P Z (gram eps) in let S := gram (col_mx Y (Z *m X + eps)) in
  \det S = \det (gram Y) * \det F /\
  (gram Y \in unitmx -> F \in unitmx -> let z := col_mx yd y - col_mx mY (d + Z *m mX) in let v := y - d - Z *m a in
   z^T *m invmx S *m z = (yd - mY)^T *m invmx (gram Y) *m (yd - mY) + v^T *m invmx F *m v).
Proof.
  move=> [A [O Ea EP]] Xe Ye F S. set E := X - A *m Y in O EP. pose V := Z *m E + eps. pose G := Z *m A.
  have eE : E *m eps^T = 0 by rewrite mulmxBl Xe -mulmxA Ye mulmx0 subrr.
  have eY : eps *m Y^T = 0 by rewrite -[eps]trmxK -trmx_mul Ye trmx0.
  have eE' : eps *m E^T = 0 by rewrite -[eps]trmxK -trmx_mul eE trmx0.
  have VY : V *m Y^T = 0 by rewrite mulmxDl -mulmxA O mulmx0 eY addr0.
  have YV : Y *m V^T = 0 by rewrite -[Y]trmxK -trmx_mul VY trmx0.
  have F1 : V *m V^T = F. { rewrite {2}/V linearD /= trmx_mul mulmxDr mulmxA. rewrite /V !mulmxDl -!(mulmxA Z) eE eE' mulmx0 mul0mx addr0 add0r /F /innov_cov EP /gram. by rewrite !mulmxA. }
  pose U := block_mx (1%:M : 'M[R]_m) 0 G (1%:M : 'M[R]_q). pose D := block_mx (gram Y) 0 0 F.
  have EU : col_mx Y (Z *m X + eps) = U *m col_mx Y V. { rewrite /U mul_block_col !mul1mx mul0mx addr0. congr col_mx. rewrite /V /E /G mulmxBr mulmxA. by zmod. }
  have ES : S = U *m D *m U^T. { rewrite /S /gram EU trmx_mul !mulmxA -(mulmxA U (col_mx Y V)) tr_col_mx mul_col_row -/(gram Y) VY YV F1. by []. }
  have dU : \det U = 1 by rewrite /U det_lblock !det1 mulr1.
  have dS : \det S = \det (gram Y) * \det F by rewrite ES !det_mulmx det_tr dU mul1r mulr1 /D det_ublock.
  split=> // uY uF z v. have uS : S \in unitmx by rewrite unitmxE dS unitfE mulf_neq0 // -unitfE -unitmxE.
  pose w := yd - mY.
  have Ez : z = U *m col_mx w v. { rewrite /z opp_col_mx add_col_mx /U mul_block_col !mul1mx mul0mx addr0 -/w. congr col_mx. rewrite /v Ea /G -/w. move: w => w'. rewrite !mulmxDr mulmxA. by zmod. }
  pose Ui := block_mx (1%:M : 'M[R]_m) 0 (- G) (1%:M : 'M[R]_q).
  have UiU : Ui *m U = 1%:M. { rewrite /Ui /U mulmx_block !mul1mx !mulmx1 !mul0mx !mulmx0 !addr0 !add0r addNr. by rewrite -scalar_mx_block. }
  pose x := Ui^T *m col_mx (invmx (gram Y) *m w) (invmx F *m v).
  have Ux : U^T *m x = col_mx (invmx (gram Y) *m w) (invmx F *m v) by rewrite /x mulmxA -trmx_mul UiU trmx1 mul1mx.
  have Sx : S *m x = z. { rewrite ES -mulmxA Ux -mulmxA /D mul_block_col !mul0mx addr0 add0r !mulmxA !mulmxV // !mul1mx -Ez. by []. }
  have -> : z^T *m invmx S *m z = z^T *m x by rewrite -{2}Sx -mulmxA mulKmx.
  have -> : z^T *m x = (col_mx w v)^T *m (U^T *m x) by rewrite Ez trmx_mul mulmxA.
  by rewrite Ux tr_col_mx mul_row_col !mulmxA.
Qed.
(** a subset of nonsingular data is nonsingular *)
Lemma gram_null m (x : 'rV[R]_m) (Y : 'M[R]_(m, N)) : x *m gram Y = 0 -> x *m Y = 0.
Proof.
  move=> E. have : ((x *m Y) *m (x *m Y)^T) 0 0 = 0 by rewrite trmx_mul mulmxA -(mulmxA x) E mul0mx mxE.
  rewrite mxE => /eqP. rewrite psumr_eq0 => [/allP H|i _]; last by rewrite [_^T _ _]mxE -expr2 sqr_ge0.
  apply/matrixP => i j. rewrite ord1 [RHS]mxE. have /implyP /(_ isT) := H j (mem_index_enum _). by rewrite [_^T _ _]mxE -expr2 sqrf_eq0 => /eqP.
Qed.
Lemma gram_sub m q (Y : 'M[R]_(m, N)) (W : 'M[R]_(q, N)) : gram (col_mx Y W) \in unitmx -> gram Y \in unitmx.
Proof.
  move=> U. rewrite unitmxE unitfE. apply/negP => /det0P [x Nx /gram_null E]. case/negP: Nx.
  have : row_mx x 0 *m gram (col_mx Y W) = 0 by rewrite /gram mulmxA mul_row_col mul0mx addr0 E mul0mx.
  move/(congr1 (mulmx^~ (invmx (gram (col_mx Y W))))). rewrite mulmxK // mul0mx => /eqP. by rewrite row_mx_eq0 => /andP [].
Qed.
Lemma isCond_given n m mX (X : 'M[R]_(n, N)) mY (Y : 'M[R]_(m, N)) yd a P : gram Y \in unitmx -> isCond mX X mY Y yd a P ->
  a = mX + X *m Y^T *m invmx (gram Y) *m (yd - mY) /\ P = X *m X^T - X *m Y^T *m invmx (gram Y) *m (Y *m X^T).
Proof.
  move=> U [A [O -> ->]]. have EA : A = X *m Y^T *m invmx (gram Y). { move: O. rewrite mulmxBl => /eqP. rewrite subr_eq0 => /eqP ->. by rewrite -(mulmxA A Y) -/(gram Y) mulmxK. }
  rewrite -EA. split=> //. rewrite /gram. have -> : (X - A *m Y)^T = X^T - Y^T *m A^T by rewrite -trmx_mul -linearB. by rewrite mulmxBr [(_ *m (Y^T *m _))]mulmxA O mul0mx subr0 mulmxBl !mulmxA.
Qed.
End Core.
