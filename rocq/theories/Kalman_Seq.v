(** Processing observations in two batches equals processing them jointly; consequences for the univariate filter. *)
From Coq Require Import Ring Field.
From mathcomp Require Import all_ssreflect all_algebra.
From Verif Require Common KalmanScan_Model.
From Verif Require Import McTac Kalman_Model Kalman_Spec Kalman_Proofs.
Set Implicit Arguments.
Unset Strict Implicit.
Unset Printing Implicit Defensive.
Import Order.Theory GRing.Theory Num.Theory.
Local Open Scope ring_scope.

Section S.
Context (R : realFieldType).
Add Field ff_seq : (@f_field R).

Section Two.
Context (n m1 m2 : nat) (P : 'M[R]_n) (Z1 : 'M[R]_(m1, n)) (Z2 : 'M[R]_(m2, n)) (H1 : 'M[R]_m1) (H2 : 'M[R]_m2).
Let Z := col_mx Z1 Z2.
Let H := block_mx H1 0 0 H2.
Let F1 := innov_cov P Z1 H1.
Let K1 := gain P Z1 H1.
Let P1 := cond_cov P Z1 H1.
Let F2 := innov_cov P1 Z2 H2.
Let K2 := gain P1 Z2 H2.
Let F := innov_cov P Z H.
Hypothesis uF1 : F1 \in unitmx.

Lemma two_F : F = block_mx F1 (Z1 *m P *m Z2^T) (Z2 *m P *m Z1^T) (Z2 *m P *m Z2^T + H2).
Proof.
rewrite /F /innov_cov /Z /H tr_col_mx mul_col_mx mul_col_row add_block_mx !addr0.
by [].
Qed.

Lemma two_F2 : F2 = Z2 *m P *m Z2^T + H2 - Z2 *m K1 *m Z1 *m P *m Z2^T.
Proof. rewrite /F2 /innov_cov /P1 /cond_cov -/K1 mulmxBr mulmxBl !mulmxA. zmod. Qed.

Lemma K1F1 : K1 *m F1 = P *m Z1^T. Proof. exact: gain_F. Qed.

Lemma two_det : \det F = \det F1 * \det F2.
Proof.
have -> : F = block_mx 1%:M 0 (Z2 *m K1) 1%:M *m block_mx F1 (Z1 *m P *m Z2^T) 0 F2.
  rewrite mulmx_block !mul1mx !mul0mx ?mulmx0 !addr0 two_F -(mulmxA Z2 K1 F1) K1F1 two_F2 !mulmxA.
  by congr block_mx; zmod.
by rewrite det_mulmx det_lblock det_ublock !det1 !mul1r.
Qed.

Lemma two_unit : F2 \in unitmx -> F \in unitmx.
Proof. by rewrite !unitmxE two_det unitrM => ->; rewrite -unitmxE uF1. Qed.

Lemma two_unit_inv : F \in unitmx -> F2 \in unitmx.
Proof. by rewrite !unitmxE two_det unitrM => /andP[]. Qed.

Hypothesis uF2 : F2 \in unitmx.

Lemma two_K : gain P Z H = row_mx (K1 - K2 *m Z2 *m K1) K2.
Proof.
have uF := two_unit uF2.
have e : row_mx (K1 - K2 *m Z2 *m K1) K2 *m F = P *m Z^T.
  rewrite two_F mul_row_block tr_col_mx mul_mx_row; congr row_mx.
  - rewrite mulmxBl K1F1 -[K2 *m Z2 *m K1 *m F1]mulmxA K1F1 !mulmxA. zmod.
  - have -> : Z2 *m P *m Z2^T + H2 = F2 + Z2 *m K1 *m Z1 *m P *m Z2^T by rewrite two_F2; zmod.
    rewrite mulmxDr /K2 gain_F // -/K2 /P1 /cond_cov -/K1 !mulmxBl !mulmxA. zmod.
by rewrite /gain -e mulmxK.
Qed.

Lemma two_mean a (y1 d1 : 'cV[R]_m1) (y2 d2 : 'cV[R]_m2) :
  cond_mean a P Z H (col_mx y1 y2) (col_mx d1 d2) = cond_mean (cond_mean a P Z1 H1 y1 d1) P1 Z2 H2 y2 d2.
Proof.
rewrite {1}/cond_mean two_K /Z mul_col_mx opp_col_mx add_col_mx opp_col_mx add_col_mx mul_row_col.
rewrite /cond_mean -/K1 -/K2. set v1 := _ - Z1 *m a.
rewrite !(mulmxDr, mulmxDl, mulmxN, mulNmx, mulmxA). zmod.
Qed.

Lemma two_cov : cond_cov P Z H = cond_cov P1 Z2 H2.
Proof.
rewrite /cond_cov two_K /Z mul_row_col -/K2 /P1 /cond_cov -/K1.
rewrite !(mulmxDr, mulmxDl, mulmxN, mulNmx, mulmxA). zmod.
Qed.

Lemma two_quad (v1 : 'cV[R]_m1) (v2 : 'cV[R]_m2) : P^T = P -> H1^T = H1 -> H2^T = H2 ->
  let e := v2 - Z2 *m K1 *m v1 in
  (col_mx v1 v2)^T *m invmx F *m col_mx v1 v2 = v1^T *m invmx F1 *m v1 + e^T *m invmx F2 *m e.
Proof.
move=> sP sH1 sH2 e. have uF := two_unit uF2.
set Lo := block_mx 1%:M 0 (Z2 *m K1) 1%:M. set D := block_mx F1 0 0 F2.
have F1K1 : F1 *m K1^T = Z1 *m P.
  by rewrite -[F1]trmxK (innov_sym _ sP sH1) -trmx_mul K1F1 trmx_mul trmxK sP.
have EF : F = Lo *m D *m Lo^T.
  rewrite two_F /Lo /D tr_block_mx !trmx1 !trmx0 !mulmx_block !mul1mx !mul0mx ?mulmx0 !mulmx1 ?addr0 ?add0r.
  rewrite ?mulmx0 ?addr0 ?add0r trmx_mul -(mulmxA Z2 K1 F1) K1F1 [F1 *m (K1^T *m _)]mulmxA F1K1.
  congr block_mx; first by rewrite mulmxA.
  have -> : Z2 *m (P *m Z1^T) *m (K1^T *m Z2^T) = Z2 *m K1 *m Z1 *m P *m Z2^T.
    by rewrite -K1F1 -!mulmxA (mulmxA F1) F1K1 !mulmxA.
  rewrite two_F2. zmod.
have uLo : Lo \in unitmx by rewrite unitmxE det_lblock !det1 mul1r unitr1.
have uD : D \in unitmx by rewrite unitmxE det_lblock unitrM -!unitmxE uF1 uF2.
have Ex : col_mx v1 v2 = Lo *m col_mx v1 e.
  rewrite /Lo mul_block_col !mul1mx mul0mx addr0 /e. congr col_mx. zmod.
have ED : invmx D = block_mx (invmx F1) 0 0 (invmx F2).
  have -> : invmx D = invmx D *m (D *m block_mx (invmx F1) 0 0 (invmx F2)); last by rewrite mulKmx.
  by rewrite mulmx_block !mulmx0 !mul0mx !mulmxV // !addr0 !add0r -scalar_mx_block mulmx1.
have EI : Lo^T *m invmx F *m Lo = invmx D.
  have h : D *m (Lo^T *m invmx F *m Lo) = 1%:M.
    have -> : D *m (Lo^T *m invmx F *m Lo) = invmx Lo *m (Lo *m D *m Lo^T) *m invmx F *m Lo.
      by rewrite -[Lo *m D *m _]mulmxA mulKmx // !mulmxA.
    by rewrite -EF mulmxK // mulVmx.
  by rewrite -[LHS](mulKmx uD) h mulmx1.
rewrite Ex. set x := col_mx v1 e.
have -> : (Lo *m x)^T *m invmx F *m (Lo *m x) = x^T *m (Lo^T *m invmx F *m Lo) *m x.
  by rewrite trmx_mul !mulmxA.
by rewrite EI ED /x tr_col_mx mul_row_block mul_row_col !mulmx0 addr0 add0r.
Qed.
End Two.

(** ** Positive definiteness *)
Lemma sumsq0 n (x : 'cV[R]_n) : (x^T *m x) 0 0 = 0 -> x = 0.
Proof.
rewrite mxE => /eqP; rewrite psumr_eq0 => [/allP h|i _]; last by rewrite mxE -expr2 sqr_ge0.
apply/matrixP => i k; rewrite ord1 [RHS]mxE.
by have := h i; rewrite mem_index_enum => /(_ isT) /=; rewrite !mxE -expr2 sqrf_eq0 => /eqP.
Qed.

Lemma psd_ker n (A : 'M[R]_n) (x : 'cV[R]_n) : psd A -> (x^T *m A *m x) 0 0 = 0 -> A *m x = 0.
Proof.
move=> [sA pA] x0. apply: sumsq0. set y := A *m x.
set b := (y^T *m y) 0 0. set c := (y^T *m A *m y) 0 0.
have c0 : 0 <= c by exact: pA. have b0 : 0 <= b by exact: sq_ge0.
have q t : 0 <= t * b *+ 2 + t ^+ 2 * c.
  have := pA (x + t *: y).
  have -> : ((x + t *: y)^T *m A *m (x + t *: y)) 0 0 = t * b *+ 2 + t ^+ 2 * c; last by [].
  have e1 : x^T *m A *m y = y^T *m y by rewrite {3}/y trmx_mul sA.
  have e2 : y^T *m A *m x = y^T *m y by rewrite -mulmxA.
  have -> : (x + t *: y)^T = x^T + t *: y^T by rewrite linearD linearZ.
  rewrite !(mulmxDl, mulmxDr) -!scalemxAl -!scalemxAr e1 e2.
  rewrite /b /c; move: (y^T *m y) (y^T *m A *m y) (x^T *m A *m x) x0 => My Mc Mx x0.
  rewrite !mxE x0 mulr2n. fchange. ring.
have := q (- (b / (c + 1))).
have cp : 0 < c + 1 by rewrite ltr_paddl ?ltr01.
have -> : - (b / (c + 1)) * b *+ 2 + (- (b / (c + 1))) ^+ 2 * c = - (b ^+ 2 * (c + 2%:R) / (c + 1) ^+ 2).
  have /eqP e : c + 1 != 0 by rewrite gt_eqF.
  rewrite mulr2n. fchange. field. exact: e.
rewrite oppr_ge0 => h.
have c2 : 0 < c + 2%:R by rewrite ltr_paddl ?ltr0n.
have : b ^+ 2 * (c + 2%:R) / (c + 1) ^+ 2 <= 0 by [].
rewrite pmulr_lle0 ?invr_gt0 ?exprn_gt0 // pmulr_lle0 // => h3.
apply/eqP; rewrite -[b == 0](@expf_eq0 _ b 2) /=.
by rewrite eq_le h3 sqr_ge0.
Qed.

Lemma psd_pd n (A : 'M[R]_n) (x : 'cV[R]_n) : psd A -> A \in unitmx -> x != 0 -> 0 < (x^T *m A *m x) 0 0.
Proof.
move=> pA uA x0; rewrite lt_def (proj2 pA) andbT; apply: contraNneq x0 => e.
by apply/eqP; rewrite -[x](mulKmx uA) (psd_ker pA e) mulmx0.
Qed.

Lemma cond_cov_psd n p (P : 'M[R]_n) (Z : 'M[R]_(p, n)) H : psd P -> psd H -> innov_cov P Z H \in unitmx ->
  psd (cond_cov P Z H).
Proof.
move=> pP pH uF.
have := joseph_expand (gain P Z H) (psd_sym pP) (psd_sym pH) uF.
rewrite subrr mul0mx mul0mx addr0 => <-.
by apply: psd_add; apply: psd_congr.
Qed.

(** ** The inner scan of the univariate filter *)
Section Uni.
Context (log : R -> R) (j : R) (n : nat).
Hypothesis j0 : 0 <= j.
Notation uni_inner := (uni_inner log j).
Notation uni_scan := (uni_scan log j).

Lemma psd_diag m (h : 'rV[R]_m) : (forall k, 0 <= h 0 k) -> psd (diag_mx h).
Proof.
move=> h0; split; first by rewrite tr_diag_mx.
move=> x; rewrite -mulmxA mul_diag_mx mxE sumr_ge0 // => i _.
by rewrite !mxE mulrCA mulr_ge0 // -expr2 sqr_ge0.
Qed.

Lemma stabilize_block m1 m2 (A : 'M[R]_m1) (B : 'M[R]_m2) :
  stabilize (block_mx A 0 0 B) j = block_mx (stabilize A j) 0 0 (stabilize B j).
Proof. by rewrite /stabilize (scalar_mx_block m1 m2) scale_block_mx add_block_mx !scaler0 !addr0. Qed.

Lemma uni_inner_nan (u : uni_row R n) a P : r_nan u -> exists m F, uni_inner u a P = (a, P, m, F, 0).
Proof.
move=> e; rewrite /Kalman_Model.uni_inner e orbT scale0r scaler0 addr0 mul0mx scaler0 subr0.
by do 2 eexists.
Qed.

(** one series: exact conditional with noise variance h + j *)
Lemma uni_inner_one (u : uni_row R n) a P :
  let F0 := (r_Z u *m P *m (r_Z u)^T) 0 0 + r_h u in
  let Hj := (r_h u + j)%:M : 'M[R]_1 in
  r_nan u = false -> F0 != 0 -> F0 + j != 0 -> P^T = P ->
  exists m F, uni_inner u a P =
    (cond_mean a P (r_Z u) Hj (r_y u)%:M (r_d u)%:M, cond_cov P (r_Z u) Hj, m, F,
     let v := r_y u - r_d u - (r_Z u *m a) 0 0 in log (F0 + j) + v ^+ 2 / (F0 + j)).
Proof.
move=> F0 Hj nn nz nzj sP.
have EF : innov_cov P (r_Z u) Hj = (F0 + j)%:M.
  rewrite [LHS]mx11_scalar /innov_cov mxE /Hj [_%:M 0 0]mxE eqxx mulr1n addrA //.
have EK : gain P (r_Z u) Hj = (F0 + j)^-1 *: (P *m (r_Z u)^T).
  by rewrite /gain EF invmx_scalar mul_mx_scalar.
rewrite /Kalman_Model.uni_inner mulmxA -/F0 (negbTE nz) nn /= scale1r.
have Ev : r_y u - ((r_Z u *m a) 0 0 + r_d u) = r_y u - r_d u - (r_Z u *m a) 0 0 by zmod.
rewrite Ev.
do 2 eexists. congr (_, _, _, _, _).
- rewrite /cond_mean EK; congr (_ + _).
  rewrite (_ : _ - _ - _ = (r_y u - r_d u - (r_Z u *m a) 0 0)%:M) ?mul_mx_scalar //.
  by rewrite [r_Z u *m a]mx11_scalar !raddfB /= [_%:M 0 0]mxE eqxx mulr1n.
- rewrite /cond_cov EK; congr (_ - _).
  rewrite -!scalemxAl [(_ *: _)^T]linearZ /= -scalemxAr !scalerA trmx_mul trmxK sP mulmxA.
  by rewrite mulfV // mul1r.
Qed.

Definition rows_of m (y d : 'cV[R]_m) (Z : 'M[R]_(m, n)) (h : 'rV[R]_m) : seq (uni_row R n) :=
  [seq Row (y k 0) (row k Z) (d k 0) (h 0 k) false | k <- enum 'I_m].

Lemma uni_scan_cons u us (a : 'cV[R]_n) P : uni_scan (u :: us) a P =
  let '(a1, P1, _, _, l) := uni_inner u a P in let '(a2, P2, ls) := uni_scan us a1 P1 in (a2, P2, l :: ls).
Proof. by []. Qed.

Lemma rows_of_S m (y1 d1 : 'cV[R]_1) (y2 d2 : 'cV[R]_m) (z : 'rV[R]_n) (Z2 : 'M[R]_(m, n)) (h1 : 'rV[R]_1) (h2 : 'rV[R]_m) :
  rows_of (col_mx y1 y2) (col_mx d1 d2) (col_mx z Z2) (row_mx h1 h2) =
  Row (y1 0 0) z (d1 0 0) (h1 0 0) false :: rows_of y2 d2 Z2 h2.
Proof.
have e0 : ord0 = lshift m (0 : 'I_1) :> 'I_(1 + m) by apply: val_inj.
rewrite /rows_of (enum_ordSl m) /= -map_comp; congr (_ :: _).
- rewrite e0 !col_mxEu row_mxEl; congr Row.
  by apply/rowP => k; rewrite mxE col_mxEu.
- apply: eq_map => k /=. have -> : lift ord0 k = rshift 1 k by apply: val_inj.
  rewrite !col_mxEd row_mxEr; congr Row.
  by apply/rowP => i; rewrite [LHS]mxE col_mxEd [RHS]mxE.
Qed.

Hypothesis Hlog : forall x y, 0 < x -> 0 < y -> log (x * y) = log x + log y.

Lemma log1 : log 1 = 0.
Proof. have := Hlog ltr01 ltr01; rewrite mulr1 => /eqP; by rewrite eq_sym -subr_eq0 addrK => /eqP. Qed.

Lemma uni_scan_joint m : forall (y d : 'cV[R]_m) (Z : 'M[R]_(m, n)) (h : 'rV[R]_m) a P,
  psd P -> (forall k, 0 <= h 0 k) -> (forall k, 0 < h 0 k \/ j = 0) ->
  let Hj := stabilize (diag_mx h) j in let F := innov_cov P Z Hj in let v := y - d - Z *m a in
  F \in unitmx ->
  exists ls, uni_scan (rows_of y d Z h) a P = (cond_mean a P Z Hj y d, cond_cov P Z Hj, ls) /\
    size ls = m /\ 0 < \det F /\ \sum_(l <- ls) l = log (\det F) + (v^T *m invmx F *m v) 0 0.
Proof.
elim: m => [|m IH] y d Z h a P pP h0 hz Hj F v uF.
  exists [::]; rewrite /rows_of enum_ord0 /=; split; [|split; [|split]] => //.
  - congr (_, _, _).
    + by rewrite /cond_mean [gain _ _ _]thinmx0 mul0mx addr0.
    + by rewrite /cond_cov [gain _ _ _]thinmx0 mul0mx mul0mx subr0.
  - by rewrite det_mx00 ltr01.
  - by rewrite big_nil det_mx00 log1 add0r [v]flatmx0 mulmx0 mxE.
move: y d Z h h0 hz @Hj @F @v uF; rewrite -[m.+1]/(1 + m)%N => y d Z h.
rewrite -(vsubmxK y) -(vsubmxK d) -(vsubmxK Z) -(hsubmxK h).
move: (usubmx y) (dsubmx y) (usubmx d) (dsubmx d) (usubmx Z) (dsubmx Z) (lsubmx h) (rsubmx h)
  => y1 y2 d1 d2 z Z2 h1 h2 {y d Z h} h0 hz.
have h10 : 0 <= h1 0 0 by have := h0 (lshift m 0); rewrite row_mxEl.
have h20 k : 0 <= h2 0 k by have := h0 (rshift 1 k); rewrite row_mxEr.
have h1z : 0 < h1 0 0 \/ j = 0 by have := hz (lshift m 0); rewrite row_mxEl.
have h2z k : 0 < h2 0 k \/ j = 0 by have := hz (rshift 1 k); rewrite row_mxEr.
rewrite diag_mx_row stabilize_block.
have EH1 : stabilize (diag_mx h1) j = (h1 0 0 + j)%:M.
  rewrite /stabilize scalemx1 [diag_mx h1]mx11_scalar mxE eqxx mulr1n -raddfD //.
rewrite EH1. set H1 := (_ + j)%:M. set H2 := stabilize (diag_mx h2) j.
set Z := col_mx z Z2. set H := block_mx H1 0 0 H2.
cbv zeta. set F := innov_cov P Z H. set v := col_mx y1 y2 - col_mx d1 d2 - Z *m a. move=> uF.
have pd1 : psd (diag_mx h1) by apply: psd_diag => k; rewrite ord1.
have pH1 : psd H1 by rewrite /H1 -EH1; apply: psd_stabilize.
have pH2 : psd H2 by apply: psd_stabilize => //; apply: psd_diag.
have pH : psd H.
  rewrite /H /H1 -EH1 -stabilize_block -diag_mx_row. apply: psd_stabilize => //; exact: psd_diag.
have pF : psd F by exact: (innov_psd Z pP pH).
have sP := psd_sym pP.
set F1 := innov_cov P z H1.
set F0 := (z *m P *m z^T) 0 0 + h1 0 0.
have F10 : F1 0 0 = F0 + j by rewrite /F1 /innov_cov mxE /H1 [_%:M 0 0]mxE eqxx mulr1n addrA.
have F1pos : 0 < F0 + j.
  pose x : 'cV[R]_(1 + m) := col_mx 1%:M 0.
  have x0 : x != 0.
    apply/eqP => /(congr1 (fun M : 'cV_(1 + m) => usubmx M 0 0)); rewrite col_mxKu !mxE /= => /eqP.
    by rewrite oner_eq0.
  have := psd_pd pF uF x0.
  rewrite /F two_F /x tr_col_mx mul_row_block mul_row_col !trmx0 !mul0mx !mulmx0 !addr0 trmx1 mul1mx mulmx1.
  by rewrite -/F1 F10.
have F1E : F1 = (F0 + j)%:M by rewrite [LHS]mx11_scalar F10.
have uF1 : F1 \in unitmx by rewrite F1E unitmxE det_scalar1 unitfE gt_eqF.
have F0nz : F0 != 0.
  case: h1z => [hp|jz]; last by move: F1pos; rewrite jz addr0 => /gt_eqF ->.
  rewrite gt_eqF // ltr_paddl //.
  by have := proj2 pP z^T; rewrite trmxK.
have uF2 := two_unit_inv uF1 uF.
set u := Row (y1 0 0) z (d1 0 0) (h1 0 0) false.
have [mm [FF E1]] : exists m F, uni_inner u a P =
    (cond_mean a P z H1 y1 d1, cond_cov P z H1, m, F,
     let v := y1 0 0 - d1 0 0 - (z *m a) 0 0 in log (F0 + j) + v ^+ 2 / (F0 + j)).
  have [|||mm [FF E]] := @uni_inner_one u a P _ _ _ sP => //; first by rewrite gt_eqF.
  exists mm, FF; rewrite E /u /=.
  by rewrite -[(y1 0 0)%:M]mx11_scalar -[(d1 0 0)%:M]mx11_scalar.
have [|ls [E2 [sz [dp sm]]]] := IH y2 d2 Z2 h2 (cond_mean a P z H1 y1 d1) (cond_cov P z H1) _ h20 h2z uF2.
  exact: cond_cov_psd.
set l1 := log (F0 + j) + (y1 0 0 - d1 0 0 - (z *m a) 0 0) ^+ 2 / (F0 + j) in E1.
exists (l1 :: ls).
have dF1 : \det F1 = F0 + j by rewrite F1E det_scalar1.
have dF : \det F = (F0 + j) * \det (innov_cov (cond_cov P z H1) Z2 H2).
  by rewrite /F two_det // -/F1 dF1.
split; [|split; [|split]].
- by rewrite rows_of_S uni_scan_cons -/u E1 E2 two_mean // two_cov.
- by rewrite /= sz.
- by rewrite dF mulr_gt0.
- rewrite big_cons sm dF (Hlog F1pos dp).
  have -> : v = col_mx (y1 - d1 - z *m a) (y2 - d2 - Z2 *m a).
    by rewrite /v /Z mul_col_mx opp_col_mx add_col_mx opp_col_mx add_col_mx.
  rewrite /F (two_quad uF1 uF2 _ _ sP (psd_sym pH1) (psd_sym pH2)) [RHS]/= -/F1.
  have Ee : y2 - d2 - Z2 *m cond_mean a P z H1 y1 d1 =
            y2 - d2 - Z2 *m a - Z2 *m gain P z H1 *m (y1 - d1 - z *m a).
    rewrite /cond_mean mulmxDr !mulmxA. zmod.
  rewrite Ee. set e := y2 - d2 - Z2 *m a - _.
  have sumE (A B : 'M[R]_1) : (A + B) 0 0 = A 0 0 + B 0 0 by rewrite mxE.
  rewrite sumE.
  have -> : ((y1 - d1 - z *m a)^T *m invmx F1 *m (y1 - d1 - z *m a)) 0 0 =
            (y1 0 0 - d1 0 0 - (z *m a) 0 0) ^+ 2 / (F0 + j).
    rewrite F1E invmx_scalar mul_mx_scalar -scalemxAl mxE mxE big_ord1.
    by rewrite !mxE -/(_ ^+ 2) mulrC -expr2.
  rewrite /l1. zmod.
Qed.
End Uni.
End S.
