(** Lemmas behind C18-C20: log-likelihoods, missing entries, agreement of the filters. *)
From Coq Require Import Ring Field.
From mathcomp Require Import all_ssreflect all_algebra.
From Verif Require Common KalmanScan_Model.
From Verif Require Import McTac Kalman_Model Kalman_Spec Kalman_Proofs Kalman_Seq Kalman_Missing Kalman_Sqrt Kalman_Run M22.
Set Implicit Arguments.
Unset Strict Implicit.
Unset Printing Implicit Defensive.
Import Order.Theory GRing.Theory Num.Theory.
Local Open Scope ring_scope.

Section L.
Context (R : realFieldType) (log : R -> R) (cst : R).
Add Field ffl : (@f_field R).

Section Std.
Context (solve : forall m n, 'M[R]_m -> 'M[R]_(m, n) -> 'M[R]_(m, n)).

Lemma std_ll (j : R) (n p : nat) (a : 'cV[R]_n) (P : 'M[R]_n) (y d : 'cV[R]_p) (Z : 'M[R]_(p, n)) (H : 'M[R]_p) :
  solve_ok solve -> psd P -> psd H -> 0 <= j -> innov_cov P Z (stabilize H j) \in unitmx ->
  let '(_, _, y_hat, F, ll) := std_update log cst solve j a P y d Z H false in
  ll = gauss_ll log cst F (y - y_hat) + 2%:R^-1 * (p%:R - 1) * cst.
Proof.
move=> sok pP pH j0 uF. rewrite (std_updateE log cst sok a y d false pP pH j0 uF) /gauss_ll.
have -> : y - (d + Z *m a) = y - d - Z *m a by zmod.
set q := (_ *m _ *m _) 0 0. set l := log _. move: (p%:R : R) => pr.
fchange. ring.
Qed.
End Std.

Section Sq.
Context (cholesky : forall m, 'M[R]_m -> 'M[R]_m)
    (qr_r : forall m n, 'M[R]_(m, n) -> 'M[R]_n) (solve_tri : forall m n, 'M[R]_m -> 'M[R]_(m, n) -> 'M[R]_(m, n)).
Hypothesis Hlog : forall x y, 0 < x -> 0 < y -> log (x * y) = log x + log y.
Hypothesis cok : forall m (A : 'M[R]_m), psd A -> chol_spec A (cholesky A).
Hypothesis qok : forall m k (M : 'M[R]_(m, k)), (k <= m)%N -> qr_spec M (qr_r M).
Hypothesis tok : tri_ok solve_tri.

Lemma log_prod_sq p (x : 'I_p -> R) : (forall i, x i != 0) ->
  2%:R * (\sum_i log `|x i|) = log (\prod_i (x i * x i)).
Proof.
move=> nz. elim: p x nz => [|p IH] x nz.
  by rewrite !big_ord0 mulr0 (log1 Hlog).
rewrite !big_ord_recl mulrDr IH => [|i]; last exact: nz.
rewrite Hlog; last 2 first.
- by rewrite -expr2 lt_def sqr_ge0 expf_neq0 // nz.
- apply: prodr_gt0 => i _; by rewrite -expr2 lt_def sqr_ge0 expf_neq0 // nz.
congr (_ + _). have n0 := normr_gt0 (x ord0).
rewrite -expr2 -[in RHS]real_normK ?num_real // expr2 Hlog ?normr_gt0 ?nz //.
by rewrite mulr2n mulrDl mul1r.
Qed.

Context (n p : nat) (a : 'cV[R]_n) (Pc : 'M[R]_n) (Z : 'M[R]_(p, n)) (H : 'M[R]_p).
Hypothesis pH : psd H.
Hypothesis uF : innov_cov (Pc *m Pc^T) Z H \in unitmx.

Lemma sqrt_ll_gen (y d : 'cV[R]_p) :
  let '(_, _, y_hat, F_chol, ll) := sqrt_update log cst cholesky qr_r solve_tri a Pc y d Z H false in
  [/\ F_chol *m F_chol^T = innov_cov (Pc *m Pc^T) Z H, F_chol \in unitmx, is_trig_mx F_chol,
      y_hat = d + Z *m a &
      ll = - 2%:R^-1 * (p%:R * (cst + log (\det (innov_cov (Pc *m Pc^T) Z H))) +
        ((y - d - Z *m a)^T *m (invmx F_chol *m (invmx F_chol *m (y - d - Z *m a)))) 0 0)].
Proof.
set Hc := if H == 0 then H else cholesky H.
have cH : chol_spec H Hc.
  rewrite /Hc; case: (H =P 0) => [->|_]; last exact: cok.
  split; first by apply/is_trig_mxP => i k _; rewrite mxE.
  by rewrite mul0mx.
have qA := @qok _ _ (block_mx Hc (Z *m Pc) (0 : 'M[R]_(n, p)) Pc)^T (leqnn _).
have [m1 [m2 [m3 m4]]] := sqrt_update_moments log cst a y d cH qA tok uF.
have l := sqrt_update_ll log cst a y d cH qA tok uF.
have tF := Fc_trig qA. have uFc := Fc_unit cH qA uF.
move: m1 m2 m3 m4 l.
rewrite /sqrt_update -/Hc.
set Fc := ulsubmx _ in tF uFc *.
move=> _ _ m3 m4 l. rewrite ![(_, _).1]/= ![(_, _).2]/= in m3 m4 l.
split=> //.
rewrite l; congr (_ * (_ * (_ + _) + _)).
rewrite log_prod_sq => [|i]; last first.
  move: uFc; rewrite unitmxE unitfE (det_trig tF) => /prodf_neq0; exact.
by rewrite big_split /= -!(det_trig tF) -{2}[\det Fc]det_tr -det_mulmx m4.
Qed.
End Sq.

Lemma inv11 (x : 'M[R]_1) : x \in unitmx -> invmx x = (x 0 0)^-1%:M.
Proof. by move=> u; rewrite {1}[x]mx11_scalar invmx_scalar. Qed.

Lemma mul11 m n (A : 'M[R]_(m, 1)) (B : 'M[R]_(1, n)) i k : (A *m B) i k = A i 0 * B 0 k.
Proof. by rewrite mxE big_ord1. Qed.

Lemma sqrt_ll1 (cholesky : forall m, 'M[R]_m -> 'M[R]_m)
    (qr_r : forall m n, 'M[R]_(m, n) -> 'M[R]_n) (solve_tri : forall m n, 'M[R]_m -> 'M[R]_(m, n) -> 'M[R]_(m, n))
    (n : nat) (a : 'cV[R]_n) (Pc : 'M[R]_n) (y d : 'cV[R]_1) (Z : 'M[R]_(1, n)) (H : 'M[R]_1) :
  (forall x y, 0 < x -> 0 < y -> log (x * y) = log x + log y) ->
  (forall m (A : 'M[R]_m), psd A -> chol_spec A (cholesky m A)) ->
  (forall m k (M : 'M[R]_(m, k)), (k <= m)%N -> qr_spec M (qr_r m k M)) -> tri_ok solve_tri ->
  psd H -> innov_cov (Pc *m Pc^T) Z H \in unitmx ->
  let '(_, _, y_hat, F_chol, ll) := sqrt_update log cst cholesky qr_r solve_tri a Pc y d Z H false in
  ll = gauss_ll log cst (F_chol *m F_chol^T) (y - y_hat).
Proof.
move=> Hl cok qok tok pH uF.
move: (sqrt_ll_gen Hl cok qok tok a pH uF y d).
move: (sqrt_update _ _ _ _ _ _ _ _ _ _ _ _) => -[[[[? ?] yh] F] ll] [EF uFc _ -> ->].
rewrite EF /gauss_ll.
have -> : y - (d + Z *m a) = y - d - Z *m a by zmod.
set v := y - d - _. rewrite !mul1r; congr (_ * (_ + _)).
rewrite -EF !inv11 //; last by rewrite EF.
rewrite !mul11 !mxE eqxx !mulr1n.
have nz : F 0 0 != 0 by move: uFc; rewrite unitmxE unitfE det_mx11.
move/eqP: nz => nz. move: (v 0 0) (F 0 0) nz => x f nz. fchange. by field.
Qed.

Lemma sqrt_ll_wrong (cholesky : forall m, 'M[R]_m -> 'M[R]_m)
    (qr_r : forall m n, 'M[R]_(m, n) -> 'M[R]_n) (solve_tri : forall m n, 'M[R]_m -> 'M[R]_(m, n) -> 'M[R]_(m, n))
    (n p : nat) (a : 'cV[R]_n) (Pc : 'M[R]_n) (d : 'cV[R]_p) (Z : 'M[R]_(p, n)) (H : 'M[R]_p) :
  (forall x y, 0 < x -> 0 < y -> log (x * y) = log x + log y) ->
  (forall m (A : 'M[R]_m), psd A -> chol_spec A (cholesky m A)) ->
  (forall m k (M : 'M[R]_(m, k)), (k <= m)%N -> qr_spec M (qr_r m k M)) -> tri_ok solve_tri ->
  psd H -> innov_cov (Pc *m Pc^T) Z H \in unitmx ->
  (1 < p)%N -> log (\det (innov_cov (Pc *m Pc^T) Z H)) != 0 ->
  let '(_, _, y_hat, F_chol, ll) := sqrt_update log cst cholesky qr_r solve_tri a Pc (d + Z *m a) d Z H false in
  ll != gauss_ll log cst (F_chol *m F_chol^T) (d + Z *m a - y_hat).
Proof.
move=> Hl cok qok tok pH uF p1 nl.
move: (sqrt_ll_gen Hl cok qok tok a pH uF (d + Z *m a) d).
move: (sqrt_update _ _ _ _ _ _ _ _ _ _ _ _) => -[[[[? ?] yh] F] ll] [EF uFc _ -> ->].
rewrite EF /gauss_ll subrr.
have -> : d + Z *m a - d - Z *m a = 0 by zmod.
rewrite !mulmx0 ![(0 : 'M_(_, _)) 0 0]mxE !addr0.
set l := log _ in nl *.
rewrite -subr_eq0 -mulrBr mulf_neq0 ?oppr_eq0 ?invr_eq0 ?two_neq0 // mulrDr.
have -> : p%:R * cst + p%:R * l - (p%:R * cst + l) = (p%:R - 1) * l.
  move: (p%:R : R) => q. fchange. ring.
by rewrite mulf_neq0 // subr_eq0 (eqr_nat R p 1) gtn_eqF.
Qed.

Lemma sqrt_quad_wrong (L : 'M[R]_2) : is_trig_mx L -> L *m L^T = m22 1 1 1 2%:R ->
  let v := c2 1 0 in
  (v^T *m (invmx L *m (invmx L *m v))) 0 0 = 1 /\ (v^T *m invmx (L *m L^T) *m v) 0 0 = 2%:R.
Proof.
move=> /is_trig_mxP tL E v.
have L01 : L 0 1 = 0 by apply: tL.
have e00 := congr1 (fun M : 'M_2 => M 0 0) E.
have e10 := congr1 (fun M : 'M_2 => M 1 0) E.
have e11 := congr1 (fun M : 'M_2 => M 1 1) E.
move: e00 e10 e11; rewrite !mxE !sum2 !mxE /= L01 !mulr0 !addr0 => e00 e10 e11.
set s := L 0 0 in e00 e10. set t := L 1 1 in e11. set u := L 1 0 in e10 e11.
have us : u = s by rewrite -[u]mulr1 -e00 mulrA e10 mul1r.
rewrite us e00 in e11. have tt : t * t = 1.
  by move/eqP: e11; rewrite -[X in _ == X]/(1 + 1) (inj_eq (addrI 1)) => /eqP.
have EL : L = m22 s 0 s t.
  by apply/matrixP; apply: I2; apply: I2; rewrite [RHS]mxE //= -us.
have EI : m22 s 0 (- t) t *m L = 1%:M.
  rewrite EL; apply/matrixP; apply: I2; apply: I2; rewrite !mxE sum2 !mxE /= ?mulr0 ?mul0r ?addr0 ?add0r ?mulr1n //.
  by rewrite mulNr [t * s]mulrC addrC mulrC subrr.
have [_ uL] := mulmx1_unit EI.
have iL : invmx L = m22 s 0 (- t) t by rewrite -[LHS]mul1mx -EI mulmxK.
have uM : L *m L^T \in unitmx by rewrite unitmx_mul unitmx_tr uL.
have iM : invmx (L *m L^T) = m22 2%:R (- 1) (- 1) 1.
  have h : m22 2%:R (- 1) (- 1) 1 *m (L *m L^T) = 1%:M.
    by rewrite E; apply/matrixP; apply: I2; apply: I2; rewrite !mxE sum2 !mxE /=; fchange; ring.
  by rewrite -[LHS]mul1mx -h mulmxK.
split.
- by rewrite iL !(mxE, sum2) /= !mulr0 !mulr1 !mul0r !addr0 mul1r e00.
- rewrite iM !(mxE, sum2) /=. fchange. ring.
Qed.

(** univariate *)
Section Uni.
Hypothesis Hlog : forall x y, 0 < x -> 0 < y -> log (x * y) = log x + log y.
Context (n p : nat).

Lemma uni_rows_full (y d : 'cV[R]_p) (Z : 'M[R]_(p, n)) (h : 'rV[R]_p) :
  uni_rows (fun i => Some (y i 0)) d Z (diag_mx h) = rows_of y d Z h.
Proof. by apply: eq_map => k; rewrite /isnan_mask /= mxE eqxx mulr1n. Qed.

Lemma uni_update_full j (y d : 'cV[R]_p) (Z : 'M[R]_(p, n)) (h : 'rV[R]_p) (a : 'cV[R]_n) (P : 'M[R]_n) :
  0 <= j -> psd P -> (forall k, 0 <= h 0 k) -> (forall k, 0 < h 0 k \/ j = 0) ->
  let H := diag_mx h in let Hj := stabilize H j in let F := innov_cov P Z Hj in F \in unitmx ->
  let u := uni_update log cst j (fun i => Some (y i 0)) d Z H a P in
  let ls := (uni_scan log j (uni_rows (fun i => Some (y i 0)) d Z H) a P).2 in
  [/\ u.1.1 = cond_mean a P Z Hj y d, u.1.2 = stabilize (cond_cov P Z Hj) j, size ls = p &
      u.2 = - 2%:R^-1 * ((count (fun l => l != 0) ls)%:R * cst + log (\det F) +
                         ((y - d - Z *m a)^T *m invmx F *m (y - d - Z *m a)) 0 0)].
Proof.
move=> j0 pP h0 hz H Hj F uF u ls.
have [l [E [sz [dp sm]]]] := uni_scan_joint j0 Hlog y d a pP h0 hz uF.
have pC : psd (cond_cov P Z Hj).
  by apply: cond_cov_psd => //; apply: psd_stabilize => //; apply: psd_diag.
rewrite /u /ls /uni_update uni_rows_full E /=.
by rewrite /uni_ll sm (psd_sym pC) half_dbl -!addrA.
Qed.

Lemma uni_ll_exact j (y d : 'cV[R]_p) (Z : 'M[R]_(p, n)) (h : 'rV[R]_p) (a : 'cV[R]_n) (P : 'M[R]_n) :
  0 <= j -> psd P -> (forall k, 0 <= h 0 k) -> (forall k, 0 < h 0 k \/ j = 0) ->
  let H := diag_mx h in let F := innov_cov P Z (stabilize H j) in F \in unitmx ->
  all (fun l => l != 0) (uni_scan log j (uni_rows (fun i => Some (y i 0)) d Z H) a P).2 ->
  (uni_update log cst j (fun i => Some (y i 0)) d Z H a P).2 = gauss_ll log cst F (y - d - Z *m a).
Proof.
move=> j0 pP h0 hz H F uF al.
have [_ _ sz ->] := uni_update_full y d a j0 pP h0 hz uF.
by move: al; rewrite all_count => /eqP ->; rewrite sz.
Qed.

Lemma uni_eq_std (solve : forall m n, 'M[R]_m -> 'M[R]_(m, n) -> 'M[R]_(m, n))
    (y d : 'cV[R]_p) (Z : 'M[R]_(p, n)) (h : 'rV[R]_p) (a : 'cV[R]_n) (P : 'M[R]_n) flag :
  solve_ok solve -> psd P -> (forall k, 0 <= h 0 k) -> innov_cov P Z (diag_mx h) \in unitmx ->
  let u := uni_update log cst 0 (fun i => Some (y i 0)) d Z (diag_mx h) a P in
  let s := std_update log cst solve 0 a P y d Z (diag_mx h) flag in
  u.1.1 = s.1.1.1.1 /\ u.1.2 = s.1.1.1.2.
Proof.
move=> sok pP h0 uF u s.
have uF' : innov_cov P Z (stabilize (diag_mx h) 0) \in unitmx by rewrite stab00.
have [E1 E2 _ _] := uni_update_full y d a (lexx 0) pP h0 (fun _ => or_intror (erefl 0)) uF'.
rewrite /u E1 E2 /s (std_updateE log cst sok a y d flag pP (psd_diag h0) (lexx 0) uF') /=.
by rewrite !stab00 scale0r subr0.
Qed.

Lemma uni_std_jitter j (solve : forall m n, 'M[R]_m -> 'M[R]_(m, n) -> 'M[R]_(m, n))
    (y d : 'cV[R]_p) (Z : 'M[R]_(p, n)) (h : 'rV[R]_p) (a : 'cV[R]_n) (P : 'M[R]_n) flag :
  solve_ok solve -> 0 <= j -> psd P -> (forall k, 0 < h 0 k) ->
  let K := gain P Z (stabilize (diag_mx h) j) in
  let u := uni_update log cst j (fun i => Some (y i 0)) d Z (diag_mx h) a P in
  let s := std_update log cst solve j a P y d Z (diag_mx h) flag in
  u.1.1 = s.1.1.1.1 /\ u.1.2 = stabilize s.1.1.1.2 j + j *: (K *m K^T).
Proof.
move=> sok j0 pP hp K u s.
have h0 : forall k, 0 <= h 0 k by move=> k; apply: ltW.
have pD := psd_diag h0.
have uD : stabilize (diag_mx h) j \in unitmx.
  have -> : stabilize (diag_mx h) j = diag_mx (\row_k (h 0 k + j)).
    by apply/matrixP => i k; rewrite !mxE; case: (i == k); rewrite ?mulr1 ?mulr1n ?mulr0 ?mulr0n ?addr0.
  rewrite unitmxE unitfE det_diag; apply/prodf_neq0 => i _; by rewrite mxE gt_eqF // ltr_paddr.
have uF := innov_pd Z pP (psd_stabilize j0 pD) uD.
have [E1 E2 _ _] := uni_update_full y d a j0 pP h0 (fun k => or_introl (hp k)) uF.
rewrite /u E1 E2 /s (std_updateE log cst sok a y d flag pP pD j0 uF) /=.
split=> //. rewrite /stabilize -/K. set X := j *: (K *m _). zmod.
Qed.

Lemma uni_std_ll (solve : forall m n, 'M[R]_m -> 'M[R]_(m, n) -> 'M[R]_(m, n))
    (y d : 'cV[R]_p) (Z : 'M[R]_(p, n)) (h : 'rV[R]_p) (a : 'cV[R]_n) (P : 'M[R]_n) :
  solve_ok solve -> psd P -> (forall k, 0 <= h 0 k) -> innov_cov P Z (diag_mx h) \in unitmx ->
  (1 < p)%N -> cst != 0 ->
  all (fun l => l != 0) (uni_scan log 0 (uni_rows (fun i => Some (y i 0)) d Z (diag_mx h)) a P).2 ->
  (uni_update log cst 0 (fun i => Some (y i 0)) d Z (diag_mx h) a P).2 !=
  (std_update log cst solve 0 a P y d Z (diag_mx h) false).2.
Proof.
move=> sok pP h0 uF p1 nc al.
have uF' : innov_cov P Z (stabilize (diag_mx h) 0) \in unitmx by rewrite stab00.
rewrite (uni_ll_exact (lexx 0) pP h0 (fun _ => or_intror (erefl 0)) uF' al).
move: (std_ll a y d sok pP (psd_diag h0) (lexx 0) uF').
rewrite (std_updateE log cst sok a y d false pP (psd_diag h0) (lexx 0) uF') => E.
rewrite [X in _ != X]/= in E *. rewrite E.
have -> : y - (d + Z *m a) = y - d - Z *m a by zmod.
rewrite eq_sym -subr_eq0 addrC addKr !mulf_neq0 ?invr_eq0 ?two_neq0 //.
by rewrite subr_eq0 (eqr_nat R p 1) gtn_eqF.
Qed.
End Uni.

Lemma uni_obs_only (j : R) (n p : nat) (y : obs R p) (d : 'cV[R]_p) (Z : 'M[R]_(p, n))
    (H : 'M[R]_p) (a : 'cV[R]_n) (P : 'M[R]_n) :
  uni_update log cst j y d Z H a P =
  let f := @obs_index R p y in
  uni_update log cst j (fun k => y (f k)) (rowsub f d) (rowsub f Z) (mxsub f f H) a P.
Proof.
move=> /=. have [E [S C]] := uni_scan_skip log j (uni_rows y d Z H) a P.
have ER : uni_rows (fun k => y (obs_index k)) (rowsub (@obs_index R p y) d) (rowsub (@obs_index R p y) Z)
     (mxsub (@obs_index R p y) (@obs_index R p y) H) = [seq u <- uni_rows y d Z H | ~~ r_nan u].
  rewrite uni_rows_obs; apply: eq_map => k.
  have -> : isnan_mask (fun k => y (obs_index k)) k = false.
    by apply: negbTE; apply/(proj2 (obs_index_lists y)); exists k.
  by rewrite !mxE.
rewrite /uni_update ER.
move: E S C. case: (uni_scan log j (uni_rows y d Z H) a P) => [[a1 P1] l1].
case: (uni_scan log j _ a P) => [[a2 P2] l2] /= [-> ->] S C.
by rewrite /uni_ll S C.
Qed.

Lemma uni_ll_wrong : log 1 = 0 -> cst != 0 ->
  let y : obs R 1 := fun _ => Some 0 in
  (uni_update log cst 0 y 0 (0 : 'rV[R]_1) (1%:M : 'M[R]_1) 0 1%:M).2 = 0 /\
  gauss_ll log cst (innov_cov (1%:M : 'M[R]_1) (0 : 'rV[R]_1) 1%:M) 0 = - 2%:R^-1 * cst /\
  - 2%:R^-1 * cst != 0.
Proof.
move=> l1 nc y. split.
- rewrite /uni_update /uni_rows (enum_ordSl 0) enum_ord0 /= /uni_inner /=.
  have -> : row ord0 (0 : 'rV[R]_1) = 0 by apply/rowP => k; rewrite !mxE.
  rewrite !mulmx0 !mul0mx ![(0 : 'M_(_, _)) _ _]mxE [1%:M _ _]mxE /= mulr1n !add0r oner_eq0 /= addr0 oppr0 l1 expr2 !mul0r addr0.
  by rewrite /uni_ll /= eqxx mul0r big_cons big_nil !addr0 mulr0.
- split; last by rewrite mulf_neq0 // oppr_eq0 invr_eq0 two_neq0.
  by rewrite /gauss_ll /innov_cov !mul0mx add0r det1 l1 mulmx0 !mxE mul1r !addr0.
Qed.

Lemma uni_fill_wrong (fill : R) : fill != 0 ->
  let y : obs R 1 := fun _ => Some fill in
  (uni_update log cst 0 y 0 1%:M (1%:M : 'M[R]_1) (0 : 'cV[R]_1) 1%:M).1.1 = (2%:R^-1 * fill)%:M /\
  ((2%:R^-1 * fill)%:M : 'cV[R]_1) != 0.
Proof.
move=> nf y; split; last first.
  apply/eqP => /(congr1 (fun M : 'M[R]_1 => M 0 0)) /eqP.
  by rewrite !mxE eqxx mulr1n mulf_eq0 invr_eq0 (negbTE (two_neq0 R)) (negbTE nf).
rewrite /uni_update /uni_rows (enum_ordSl 0) enum_ord0 /= /uni_inner /=.
rewrite mulmx0 [LHS]mx11_scalar; congr (_%:M).
rewrite !(mxE, big_ord1) /= !mulr1n !mulr1 !addr0.
rewrite (_ : (1 + 1 == 0 :> R) = false); last by apply/negbTE; exact: two_neq0.
by rewrite /= subr0 add0r mul1r mulrC.
Qed.

(** partly missing rows *)
Section Partial.
Context (solve : forall m n, 'M[R]_m -> 'M[R]_(m, n) -> 'M[R]_(m, n)) (j fill : R).
Hypothesis Hlog : forall x y, 0 < x -> 0 < y -> log (x * y) = log x + log y.

Lemma log_pow m : 0 < j -> log (j ^+ m) = m%:R * log j.
Proof.
move=> jp; elim: m => [|m IH]; first by rewrite expr0 mul0r (log1 Hlog).
by rewrite exprS Hlog ?exprn_gt0 // IH -addn1 natrD mulrDl mul1r addrC.
Qed.

Lemma pd_det_pos m (A : 'M[R]_m) : psd A -> A \in unitmx -> 0 < \det A.
Proof.
elim: m A => [|m IH] A pA uA; first by rewrite det_mx00 ltr01.
(* leading entry positive, Schur complement *)
rewrite -(add1n m) in A pA uA *.
set a := ulsubmx A. set b := dlsubmx A. set D := drsubmx A.
have sA := psd_sym pA.
have eb : ursubmx A = b^T.
  by rewrite /b trmx_dlsub sA.
have EA : A = block_mx a b^T b D by rewrite -eb submxK.
pose e : 'cV[R]_(1 + m) := col_mx 1%:M 0.
have ne : e != 0.
  apply/eqP => /(congr1 (fun M : 'cV[R]_(1 + m) => M (lshift m 0) 0)).
  by rewrite col_mxEu !mxE /= => /eqP; rewrite oner_eq0.
have a0 : 0 < a 0 0.
  have := psd_pd pA uA ne; rewrite EA /e tr_col_mx mul_row_block mul_row_col !trmx0 !mulmx0 !mul0mx !addr0.
  by rewrite trmx1 mul1mx mulmx1.
have ua : a \in unitmx by rewrite unitmxE unitfE det_mx11 gt_eqF.
have sa : a^T = a by rewrite -[in LHS]/a trmx_ulsub sA.
pose X := b *m invmx a.
have fac : block_mx 1%:M 0 (- X) 1%:M *m A *m (block_mx 1%:M 0 (- X) 1%:M)^T = block_mx a 0 0 (D - X *m b^T).
  rewrite {1}EA mulmx_block tr_block_mx mulmx_block !mul1mx !mul0mx !trmx1 !trmx0 !addr0 !mulmx0 !mulmx1 !addr0.
  have e1 : - X *m a + b = 0 by rewrite mulNmx /X mulmxKV // addNr.
  rewrite e1 !mul0mx !add0r mulNmx [- _ + _]addrC.
  have -> : a *m (- X)^T + b^T = 0.
    by rewrite linearN /= mulmxN /X trmx_mul trmx_inv sa mulKVmx // addNr.
  by [].
have pS : psd (block_mx a 0 0 (D - X *m b^T)) by rewrite -fac; apply: psd_congr.
have dE : \det A = \det a * \det (D - X *m b^T).
  have := congr1 determinant fac.
  by rewrite !det_mulmx det_tr det_lblock !det1 !mul1r mulr1 det_ublock.
have pD : psd (D - X *m b^T).
  split.
    have := psd_sym pS; rewrite tr_block_mx => /eq_block_mx [_ _ _ ->] //.
  move=> x; have := proj2 pS (col_mx 0 x).
  by rewrite tr_col_mx mul_row_block mul_row_col !trmx0 !mul0mx !mulmx0 !add0r.
rewrite dE mulr_gt0 ?det_mx11 //; apply: IH => //.
by move: uA; rewrite !unitmxE dE !unitfE mulf_eq0 negb_or => /andP[].
Qed.

Lemma partial_missing_ll (n m1 m2 : nat) (y1 d1 : 'cV[R]_m1) (d2 : 'cV[R]_m2) (P : 'M[R]_n) (Z : 'M[R]_(m1 + m2, n))
    (H1 : 'M[R]_m1) (H2 : 'M[R]_m2) (a : 'cV[R]_n) :
  solve_ok solve -> 0 < j -> psd P -> psd H1 -> psd H2 -> (0 < m1)%N -> (forall i, y1 i 0 != fill) ->
  let y : obs R (m1 + m2) := fun i => if split i is inl k then Some (y1 k 0) else None in
  let H := block_mx H1 0 0 H2 in
  let full := std_update log cst solve j a P (y_masked fill y) (col_mx d1 d2) (Z_masked fill y Z) (H_masked fill y H) (all_nan fill y) in
  let obs := std_update log cst solve j a P y1 d1 (usubmx Z) H1 false in
  full.2 = obs.2 - 2%:R^-1 * (m2%:R * log j + (d2^T *m d2) 0 0 / j).
Proof.
move=> sok jp pP pH1 pH2 m10 ny y H full obs.
have yl k : y (lshift m2 k) = Some (y1 k 0) by rewrite /y; rewrite (unsplitK (inl k)).
have yr k : y (rshift m1 k) = None by rewrite /y; rewrite (unsplitK (inr k)).
have ml k : nan_mask fill y (lshift m2 k) = false by rewrite /nan_mask yl; apply: negbTE.
have mr k : nan_mask fill y (rshift m1 k) = true by rewrite /nan_mask yr.
have EW : maskW fill y = block_mx 1%:M 0 0 0.
  apply/matrixP => i k; rewrite -(splitK i) -(splitK k).
  case: (split i) => i'; case: (split k) => k'; rewrite /= ?block_mxEul ?block_mxEur ?block_mxEdl ?block_mxEdr !mxE ?ml ?mr.
  - by rewrite (inj_eq (@lshift_inj _ _)).
  - by rewrite eq_lrshift mulr0n.
  - by rewrite eq_rlshift mulr0n.
  - by rewrite mul0rn.
have EZ : Z_masked fill y Z = col_mx (usubmx Z) 0.
  by rewrite /Z_masked EW -[Z in LHS]vsubmxK mul_block_col !mul1mx !mul0mx !addr0.
have EH : H_masked fill y H = block_mx H1 0 0 0.
  by rewrite /H_masked EW /H mulmx_block !mul1mx !mul0mx ?mulmx0 !addr0.
have EY : y_masked fill y = col_mx y1 0.
  apply/colP => i; rewrite -(splitK i) mxE.
  by case: (split i) => k; rewrite /= ?ml ?mr ?yl ?col_mxEu ?col_mxEd // mxE.
have EA : all_nan fill y = false.
  by apply/negbTE/forallPn; exists (lshift m2 (Ordinal m10)); rewrite ml.
have j0 := ltW jp.
have p0 : psd (0 : 'M[R]_m2) by exact: psd0.
have pH : psd (block_mx H1 0 0 (0 : 'M[R]_m2)).
  split; first by rewrite tr_block_mx !trmx0 (psd_sym pH1).
  move=> x; rewrite -[x]vsubmxK tr_col_mx mul_row_block mul_row_col ?mulmx0 ?mul0mx ?addr0 ?mul0mx ?addr0.
  exact: (proj2 pH1).
have u1 : stabilize H1 j \in unitmx.
  have := pd_stab 1%:M jp pH1; by rewrite trmx1 mulmx1 mul1mx.
have uF1 := innov_pd (usubmx Z) pP (psd_stabilize j0 pH1) u1.
set Zf := col_mx (usubmx Z) (0 : 'M[R]_(m2, n)).
have EF : innov_cov P Zf (stabilize (block_mx H1 0 0 0) j) = block_mx (innov_cov P (usubmx Z) (stabilize H1 j)) 0 0 (j *: 1%:M).
  rewrite stabilize_block /innov_cov mul_col_mx tr_col_mx trmx0 mul_col_row !mul0mx !mulmx0 add_block_mx !addr0 !add0r.
  by rewrite /stabilize add0r.
set F1 := innov_cov P (usubmx Z) (stabilize H1 j) in uF1 EF *.
have dF : \det (block_mx F1 0 0 (j *: 1%:M : 'M[R]_m2)) = \det F1 * j ^+ m2.
  by rewrite det_ublock detZ det1 mulr1.
have uF : innov_cov P Zf (stabilize (block_mx H1 0 0 0) j) \in unitmx.
  by rewrite EF unitmxE dF unitrM -unitmxE uF1 unitfE expf_neq0 // gt_eqF.
have iF : invmx (block_mx F1 0 0 (j *: 1%:M : 'M[R]_m2)) = block_mx (invmx F1) 0 0 (j^-1 *: 1%:M).
  have h : block_mx (invmx F1) 0 0 (j^-1 *: 1%:M : 'M[R]_m2) *m block_mx F1 0 0 (j *: 1%:M) = 1%:M.
    rewrite mulmx_block !mul0mx !mulmx0 !addr0 !add0r mulVmx // -scalemxAl mul1mx scalerA mulVf ?scale1r ?gt_eqF //.
    by rewrite -scalar_mx_block.
  by rewrite -[LHS]mul1mx -h mulmxK // -EF.
rewrite /full /obs EZ EH EY EA.
rewrite (std_updateE log cst sok a _ _ _ pP pH j0 uF) (std_updateE log cst sok a _ _ _ pP pH1 j0 uF1).
rewrite [LHS]/= [X in X - _]/= EF dF iF -/F1.
have dp : 0 < \det F1 by apply: pd_det_pos => //; apply: innov_psd => //; apply: psd_stabilize.
rewrite Hlog ?exprn_gt0 // log_pow //.
have -> : col_mx y1 0 - col_mx d1 d2 - Zf *m a = col_mx (y1 - d1 - usubmx Z *m a) (- d2).
  by rewrite /Zf mul_col_mx mul0mx !opp_col_mx !add_col_mx !add0r oppr0 addr0.
set v := y1 - d1 - _.
have -> : ((col_mx v (- d2))^T *m block_mx (invmx F1) 0 0 (j^-1 *: 1%:M) *m col_mx v (- d2)) 0 0 =
   (v^T *m invmx F1 *m v) 0 0 + (d2^T *m d2) 0 0 / j.
  rewrite tr_col_mx mul_row_block mul_row_col !mulmx0 !addr0 !add0r [LHS]mxE; congr (_ + _).
  rewrite (_ : (- d2)^T = - d2^T); last by rewrite raddfN.
  by rewrite !mulNmx mulmxN opprK -scalemxAr mulmx1 -scalemxAl mxE mulrC.
rewrite [(_, _).2]/=. set q := (_ *m _ *m _) 0 0. set q2 := (_ *m _) 0 0 / j. move: (m2%:R : R) (log j) (log (\det F1)) => m l l'.
clearbody q q2. fchange. ring.
Qed.
End Partial.
End L.
