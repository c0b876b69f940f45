(** Missing observations: masking equals dropping the missing rows. *)
From mathcomp Require Import all_ssreflect all_algebra.
From Verif Require Common KalmanScan_Model.
From Verif Require Import McTac Kalman_Model Kalman_Spec Kalman_Proofs Kalman_Seq.
Set Implicit Arguments.
Unset Strict Implicit.
Unset Printing Implicit Defensive.
Import Order.Theory GRing.Theory Num.Theory.
Local Open Scope ring_scope.

Section M.
Context (R : realFieldType).
Context (log : R -> R) (cst : R) (solve : forall m n, 'M[R]_m -> 'M[R]_(m, n) -> 'M[R]_(m, n)) (j fill : R).

Section Sel.
Context (p q : nat) (y : obs R p) (f : 'I_q -> 'I_p).
Hypothesis lf : lists_observed (nan_mask fill y) f.
Let S : 'M[R]_(q, p) := rowsub f 1%:M.
Let W := maskW fill y.

Lemma S_mul m (A : 'M[R]_(p, m)) : S *m A = rowsub f A.
Proof. by rewrite /S mul_rowsub_mx mul1mx. Qed.

Lemma S_obs k : nan_mask fill y (f k) = false.
Proof. by apply: negbTE; apply/(proj2 lf); exists k. Qed.

Lemma SSt : S *m S^T = 1%:M.
Proof.
rewrite S_mul; apply/matrixP => i k; rewrite !mxE; congr (_%:R).
by rewrite eq_sym (inj_eq (proj1 lf)).
Qed.

Lemma StS : S^T *m S = W.
Proof.
apply/matrixP => i k. rewrite [LHS]mxE /W /maskW mxE mxE.
case mi: (nan_mask fill y i).
- rewrite mul0rn big1 // => l _; rewrite !mxE.
  by case: (f l =P i) => [e|_]; [move: (S_obs l); rewrite e mi | rewrite mul0r].
- have [l fl] : exists l, f l = i by apply/(proj2 lf); rewrite mi.
  rewrite (bigD1 l) //= big1 ?addr0 => [|l' nl].
    by rewrite !mxE fl eqxx mul1r.
  rewrite !mxE; case: (f l' =P i) => [e|_]; last by rewrite mul0r.
  by move: nl; rewrite -(inj_eq (proj1 lf)) e fl eqxx.
Qed.

Lemma SW : S *m W = S. Proof. by rewrite -StS mulmxA SSt mul1mx. Qed.
Lemma WSt : W *m S^T = S^T. Proof. by rewrite -StS -mulmxA SSt mulmx1. Qed.

Context (n : nat) (P : 'M[R]_n) (Z : 'M[R]_(p, n)) (H : 'M[R]_p).
Hypotheses (pP : psd P) (pH : psd H) (dH : decoupled (nan_mask fill y) H) (jp : 0 < j).
Let Zm := Z_masked fill y Z.
Let Hm := stabilize (H_masked fill y H) j.
Let Zo := rowsub f Z.
Let Ho := stabilize (mxsub f f H) j.

Lemma mxsub_S : mxsub f f H = S *m H *m S^T.
Proof. by rewrite S_mul; apply/matrixP => i k; rewrite mxE [RHS]mxE (bigD1 (f k)) //= !mxE eqxx mulr1 big1 ?addr0 // => l nl; rewrite !mxE eq_sym (negbTE nl) mulr0. Qed.

Lemma obs_psd : psd (mxsub f f H).
Proof. by rewrite mxsub_S; apply: psd_congr. Qed.

Lemma sel_F : S *m innov_cov P Zm Hm = innov_cov P Zo Ho *m S.
Proof.
rewrite /innov_cov /Zm /Hm /Zo /Ho /Z_masked /H_masked -/W /stabilize mxsub_S -S_mul.
rewrite (decoupled_WH dH) -/W !mulmxDr !mulmxDl !mulmxA SW -!scalemxAr -!scalemxAl mul1mx mulmx1.
congr (_ + (_ + _)).
- by rewrite !trmx_mul W_tr -/W !mulmxA -[RHS]mulmxA StS -!mulmxA.
- by rewrite -[RHS]mulmxA StS.
Qed.

(** mask and its complement split the innovation covariance *)
Lemma full_unit : innov_cov P Zo Ho \in unitmx -> innov_cov P Zm Hm \in unitmx.
Proof.
move=> uo. apply/negPn/negP => nu.
have sF : (innov_cov P Zm Hm)^T = innov_cov P Zm Hm.
  apply: innov_sym; first exact: psd_sym.
  by apply/psd_sym/psd_stabilize; [exact: ltW | exact: psd_WH].
have : row_free (innov_cov P Zm Hm) = false by apply/negP; rewrite row_free_unit; apply/negP.
move=> /negbT/negP rf; apply: rf; rewrite -kermx_eq0; apply/eqP/row_matrixP => i; rewrite row0.
set x := row i _. have x0 : x *m innov_cov P Zm Hm = 0 by rewrite /x -row_mul mulmx_ker row0.
(* x = x W + x (1 - W) *)
have xW : x *m (1%:M - W) = 0.
  have e : innov_cov P Zm Hm *m (1%:M - W) = j *: (1%:M - W).
    have W0 : W *m (1%:M - W) = 0 by rewrite mulmxBr mulmx1 /W W_idem subrr.
    rewrite /innov_cov /Zm /Hm /Z_masked /H_masked /stabilize -/W (decoupled_WH dH) -/W trmx_mul W_tr -/W.
    by rewrite !mulmxDl -!mulmxA W0 !mulmx0 !add0r -scalemxAl mul1mx.
  have := congr1 (mulmx^~ (1%:M - W)) x0; rewrite -mulmxA e mul0mx -scalemxAr => /eqP.
  by rewrite scaler_eq0 gt_eqF //= => /eqP.
have xS : x = (x *m S^T) *m S.
  by rewrite -mulmxA StS; apply/eqP; rewrite -subr_eq0 -{1}[x]mulmx1 -mulmxBr xW.
have : (x *m S^T) *m innov_cov P Zo Ho *m S = 0 by rewrite -mulmxA -sel_F mulmxA -xS.
move=> h. have : x *m S^T *m innov_cov P Zo Ho = 0.
  by have := congr1 (mulmx^~ S^T) h; rewrite mul0mx -[_ *m S *m S^T]mulmxA SSt mulmx1.
move=> h2. by rewrite xS -[x *m S^T](mulmxK uo) h2 !mul0mx.
Qed.

Lemma gain_sel : innov_cov P Zo Ho \in unitmx -> gain P Zm Hm = gain P Zo Ho *m S.
Proof.
move=> uo; have u := full_unit uo.
have e : gain P Zo Ho *m S *m innov_cov P Zm Hm = P *m Zm^T.
  rewrite -mulmxA sel_F mulmxA gain_F // /Zo /Zm /Z_masked -/W -S_mul !trmx_mul W_tr -/W -StS !mulmxA //.
by rewrite -[RHS](mulmxK u) e.
Qed.

Lemma mean_sel (a : 'cV[R]_n) (d : 'cV[R]_p) : innov_cov P Zo Ho \in unitmx ->
  cond_mean a P Zm Hm (y_masked fill y) d =
  cond_mean a P Zo Ho (\col_k odflt 0 (y (f k))) (rowsub f d).
Proof.
move=> uo; rewrite /cond_mean gain_sel // -mulmxA; congr (_ + _ *m _).
rewrite !mulmxBr !S_mul /Zm /Z_masked /Zo; congr (_ - _ - _).
- by apply/matrixP => k i; rewrite !mxE S_obs.
- by rewrite -S_mul !mulmxA -/W SW S_mul mul_rowsub_mx.
Qed.

Lemma cov_sel : innov_cov P Zo Ho \in unitmx ->
  cond_cov P Zm Hm - j *: (gain P Zm Hm *m (gain P Zm Hm)^T) =
  cond_cov P Zo Ho - j *: (gain P Zo Ho *m (gain P Zo Ho)^T).
Proof.
move=> uo; rewrite /cond_cov gain_sel //; congr (_ - _ - _ *: _).
- by rewrite /Zm /Z_masked -/W /Zo -S_mul -!mulmxA [S *m (W *m _)]mulmxA SW.
- by rewrite trmx_mul -!mulmxA [S *m (_ *m _)]mulmxA SSt mul1mx.
Qed.

Hypothesis sok : solve_ok solve.
(** the masked update gives the same state moments as the update with the observed rows only *)
Lemma masked_update (a : 'cV[R]_n) (d : 'cV[R]_p) : innov_cov P Zo Ho \in unitmx ->
  let full := std_update log cst solve j a P (y_masked fill y) d Zm (H_masked fill y H) (all_nan fill y) in
  let obs := std_update log cst solve j a P (\col_k odflt 0 (y (f k))) (rowsub f d) Zo (mxsub f f H) false in
  full.1.1.1.1 = obs.1.1.1.1 /\ full.1.1.1.2 = obs.1.1.1.2.
Proof.
move=> uo full ob. have u := full_unit uo.
rewrite /full /ob !(std_updateE log cst sok) //; try exact: ltW; try exact: psd_WH; try exact: obs_psd.
by split; [exact: mean_sel | exact: cov_sel].
Qed.
End Sel.

(** ** every series missing *)
Lemma all_missing_update n p (y : obs R p) (a : 'cV[R]_n) (P : 'M[R]_n) (d : 'cV[R]_p) (Z : 'M[R]_(p, n)) (H : 'M[R]_p) :
  (forall i, nan_mask fill y i) -> psd P -> 0 < j -> solve_ok solve ->
  std_update log cst solve j a P (y_masked fill y) d (Z_masked fill y Z) (H_masked fill y H) (all_nan fill y) =
  (a, P, d, j *: 1%:M, 0).
Proof.
move=> miss pP jp sok.
have W0 : maskW fill y = 0.
  by apply/matrixP => i k; rewrite !mxE miss mul0rn.
have -> : all_nan fill y by apply/forallP.
have Z0 : Z_masked fill y Z = 0 by rewrite /Z_masked W0 mul0mx.
have H0 : H_masked fill y H = 0 by rewrite /H_masked W0 mul0mx.
rewrite Z0 H0.
have EF : innov_cov P (0 : 'M[R]_(p, n)) (stabilize 0 j) = j *: 1%:M.
  by rewrite /innov_cov mul0mx mul0mx add0r /stabilize add0r.
have uF : innov_cov P (0 : 'M[R]_(p, n)) (stabilize 0 j) \in unitmx.
  by rewrite EF scalemx1 unitmxE det_scalar unitfE expf_neq0 // gt_eqF.
rewrite (std_updateE log cst sok) //; try exact: ltW; try exact: psd0.
have g0 : gain P (0 : 'M[R]_(p, n)) (stabilize 0 j) = 0 by rewrite /gain trmx0 mulmx0 mul0mx.
rewrite EF /cond_mean /cond_cov g0 !mul0mx scaler0 !subr0 !addr0 //.
Qed.

(** ** Univariate filter *)
Section Uni.
Context (n : nat).
Hypotheses (j0 : 0 <= j) (Hlog : forall x y, 0 < x -> 0 < y -> log (x * y) = log x + log y).

Lemma uni_scan_skip (us : seq (uni_row R n)) : forall a P,
  let r := uni_scan log j us a P in
  let r' := uni_scan log j [seq u <- us | ~~ r_nan u] a P in
  r.1 = r'.1 /\ \sum_(l <- r.2) l = \sum_(l <- r'.2) l /\
  count (fun l => l != 0) r.2 = count (fun l => l != 0) r'.2.
Proof.
elim: us => [|u us IH] a P; first by [].
cbv zeta in IH |- *. rewrite [filter _ (_ :: _)]/=; case e: (r_nan u); rewrite /negb.
- have [m [F E]] := uni_inner_nan log j a P e; rewrite uni_scan_cons E.
  have := IH a P; case: (uni_scan log j us a P) => [[a2 P2] ls].
  case: (uni_scan log j _ a P) => [[a3 P3] ls'].
  rewrite ![(_, _).1]/= ![(_, _).2]/= => -[E' [S C]].
  by rewrite big_cons add0r S /= eqxx C; move: E' => [-> ->].
- rewrite !uni_scan_cons.
  case: (uni_inner log j u a P) => [[[[a1 P1] m] F] l].
  have := IH a1 P1; case: (uni_scan log j us a1 P1) => [[a2 P2] ls].
  case: (uni_scan log j _ a1 P1) => [[a3 P3] ls'].
  rewrite ![(_, _).1]/= ![(_, _).2]/= => -[E [S C]].
  by rewrite !big_cons S /= C; move: E => [-> ->].
Qed.

Definition obs_seq p (y : obs R p) : seq 'I_p := [seq i <- enum 'I_p | ~~ isnan_mask y i].
Definition obs_index p (y : obs R p) : 'I_(size (obs_seq y)) -> 'I_p := tnth (in_tuple (obs_seq y)).

Lemma obs_index_lists p (y : obs R p) : lists_observed (isnan_mask y) (@obs_index p y).
Proof.
split.
- apply/tuple_uniqP. by rewrite /= /obs_seq filter_uniq // enum_uniq.
- move=> i; split.
  + move=> oi. have : i \in in_tuple (obs_seq y) by rewrite mem_filter oi mem_enum.
    by move/tnthP => [k ->]; exists k.
  + move=> [k <-]. have := mem_tnth k (in_tuple (obs_seq y)).
    by rewrite mem_filter => /andP[].
Qed.

Lemma uni_rows_obs p (y : obs R p) (d : 'cV[R]_p) (Z : 'M[R]_(p, n)) (H : 'M[R]_p) :
  [seq u <- uni_rows y d Z H | ~~ r_nan u] =
  rows_of (\col_k odflt 0 (y (obs_index k))) (rowsub (@obs_index p y) d) (rowsub (@obs_index p y) Z)
          (\row_k H (obs_index k) (obs_index k)).
Proof.
rewrite /uni_rows filter_map /=.
rewrite (eq_filter (a2 := fun i => ~~ isnan_mask y i)) //.
rewrite -/(obs_seq y). rewrite -[X in map _ X](map_tnth_enum (in_tuple (obs_seq y))) -map_comp.
apply: eq_map => k /=. rewrite -/(obs_index k).
have -> : isnan_mask y (obs_index k) = false.
  by apply: negbTE; apply/(proj2 (obs_index_lists y)); exists k.
by rewrite !mxE row_rowsub.
Qed.

(** the filter's update equals the exact conditional on the series that are not NaN *)
Lemma uni_update_obs p (y : obs R p) (d : 'cV[R]_p) (Z : 'M[R]_(p, n)) (H : 'M[R]_p) (a : 'cV[R]_n) (P : 'M[R]_n) :
  let f := @obs_index p y in
  let Zo := rowsub f Z in let Ho := stabilize (diag_mx (\row_k H (f k) (f k))) j in
  let yo := \col_k odflt 0 (y (f k)) in let do_ := rowsub f d in
  let F := innov_cov P Zo Ho in let v := yo - do_ - Zo *m a in
  psd P -> (forall i, 0 <= H i i) -> (forall i, 0 < H i i \/ j = 0) -> F \in unitmx ->
  exists ls : seq R,
    uni_update log cst j y d Z H a P =
      (cond_mean a P Zo Ho yo do_, stabilize (cond_cov P Zo Ho) j,
       - 2%:R^-1 * ((count (fun l => l != 0) ls)%:R * cst + log (\det F) + (v^T *m invmx F *m v) 0 0)) /\
    size ls = size (obs_seq y) /\ 0 < \det F.
Proof.
move=> f Zo Ho yo do_ F v pP h0 hz uF.
have [| |ls [E [sz [dp sm]]]] := uni_scan_joint j0 Hlog yo do_ a (h := \row_k H (f k) (f k)) pP _ _ uF.
- by move=> k; rewrite mxE.
- by move=> k; rewrite mxE.
exists ls; split=> //.
rewrite /uni_update.
have := uni_scan_skip (uni_rows y d Z H) a P.
rewrite uni_rows_obs -/f -/yo -/do_ -/Zo E.
case: (uni_scan log j (uni_rows y d Z H) a P) => [[a1 P1] l1] /= [[-> ->] [S C]].
have pC : psd (cond_cov P Zo Ho).
  apply: cond_cov_psd => //. apply: psd_stabilize => //; apply: psd_diag => k; by rewrite mxE.
rewrite /uni_ll S C sm (psd_sym pC) half_dbl. by rewrite addrA.
Qed.
End Uni.
End M.
