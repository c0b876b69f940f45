(** Invertible measurement noise makes any data set nonsingular. *)
From mathcomp Require Import all_ssreflect all_algebra.
From Verif Require Import McTac Kalman_Model Kalman_Spec Kalman_Proofs Kalman_Missing Joint_Spec Joint_Proofs Joint_Stack Joint_Run.
Set Implicit Arguments.
Unset Strict Implicit.
Unset Printing Implicit Defensive.
Import Order.Theory GRing.Theory Num.Theory.
Local Open Scope ring_scope.

Section S.
Context (R : realFieldType) (N : nat).
Lemma dat_obs p (Y : rv R N p) (ob : obs R p) :
  dat (observed Y ob) (rowsub (@obs_index R p ob) (mean Y)) (rowsub (@obs_index R p ob) (load Y)) (\col_k odflt 0 (ob (obs_index k))).
Proof.
  pose g i := Datum (mean Y i 0) (\row_j load Y i j) (odflt 0 (ob i)).
  have -> : observed Y ob = [seq g i | i <- obs_seq ob].
  { rewrite /observed /obs_seq /isnan_mask. elim: (enum 'I_p) => //= i s ->. by case E: (ob i) => [v|] //=; rewrite /g E. }
  have e : size (obs_seq ob) = size [seq g i | i <- obs_seq ob] by rewrite size_map. exists e.
  have K : forall (i : 'I_(size [seq g i | i <- obs_seq ob])) d0, nth d0 [seq g i | i <- obs_seq ob] i = g (obs_index (cast_ord (esym e) i)).
  { move=> i d0. have ik : (i < size (obs_seq ob))%N by rewrite e. rewrite (nth_map (obs_index (cast_ord (esym e) i))) //. congr g.
    by rewrite {2}/obs_index (tnth_nth (obs_index (cast_ord (esym e) i))). }
  split; apply/matrixP => i j; rewrite castmxE !mxE K /g /= ?ord1 ?mxE ?cast_ord_id //.
Qed.
Lemma row_free_obs p (ob : obs R p) (H : 'M[R]_p) (x : 'rV[R]_(size (obs_seq ob))) : H \in unitmx -> x *m rowsub (@obs_index R p ob) H = 0 -> x = 0.
Proof.
  move=> U E. have [inj _] := obs_index_lists ob. pose S : 'M[R]_(size (obs_seq ob), p) := rowsub (@obs_index R p ob) 1%:M.
  have SH : rowsub (@obs_index R p ob) H = S *m H by apply/matrixP => i j; rewrite mxE /S mxE (bigD1 (obs_index i)) //= !mxE eqxx mul1r big1 ?addr0 // => k nk; rewrite !mxE eq_sym (negbTE nk) mul0r.
  have SS : S *m S^T = 1%:M by apply/matrixP => i j; rewrite mxE /S (bigD1 (obs_index i)) //= !mxE eqxx mul1r big1 ?addr0 ?(inj_eq inj) ?[j == i]eq_sym // => k nk; rewrite !mxE eq_sym (negbTE nk) mul0r.
  rewrite SH mulmxA in E. have : x *m S *m H *m invmx H *m S^T = 0 by rewrite E !mul0mx. rewrite mulmxK // -mulmxA SS mulmx1. by [].
Qed.
Lemma gram_unit m (Y : 'M[R]_(m, N)) : (forall x : 'rV[R]_m, x *m Y = 0 -> x = 0) -> gram Y \in unitmx.
Proof. move=> H. rewrite unitmxE unitfE. apply/negP => /det0P [x Nx /gram_null E]. by move: Nx; rewrite (H x E) eqxx. Qed.
Lemma nonsingular_step p (l : seq (datum R N)) (Y : rv R N p) (ob : obs R p) (E : 'M[R]_(p, N)) :
  nonsingular l -> load (stack l) *m E^T = 0 -> load Y *m E^T \in unitmx -> nonsingular (l ++ observed Y ob).
Proof.
  move=> U O UE. apply: (dat_unit (dat_cat (dat_self l) (dat_obs Y ob))).2. apply: gram_unit => x. rewrite -[x]hsubmxK mul_row_col.
  move: (lsubmx x) (rsubmx x) => x1 x2 Z. have x20 : x2 = 0.
  { apply: (row_free_obs UE). have := congr1 (mulmx^~ E^T) Z. rewrite mul0mx mulmxDl -!mulmxA O mulmx0 add0r. have -> : rowsub (@obs_index R p ob) (load Y) *m E^T = rowsub (@obs_index R p ob) (load Y *m E^T) by apply/matrixP => i j; rewrite !mxE; apply: eq_bigr => k _; rewrite !mxE. by []. }
  rewrite x20 mul0mx addr0 in Z. have : x1 *m gram (load (stack l)) = 0 by rewrite /gram mulmxA Z mul0mx.
  move/(congr1 (mulmx^~ (invmx (gram (load (stack l)))))). rewrite mulmxK // mul0mx => ->. by rewrite x20 row_mx0.
Qed.
Lemma nonsingular_data n p r (us : seq (inputs R n p r)) a0 P0 (x : nat -> rv R N n) (y : nat -> rv R N p) : model us a0 P0 x y ->
  (forall t u, List.nth_error us t = Some u -> in_H u \in unitmx) -> nonsingular (data us y (size us)).
Proof.
  move=> [eps [eta [H0 Hu Hx He Hs]]] UH. suff H : forall t, (t <= size us)%N -> nonsingular (data us y t) by exact: H.
  elim=> [|t IH] lt; first by rewrite /nonsingular unitmxE /data /= det_mx00 unitr1.
  have [u Eu] := nth_lt lt. rewrite (data_S y Eu). have [B1 _ B3 _] := past Hu Hx He Hs (ltnW lt) (leqnn t). have [_ _ [_ EH] _] := Hu _ _ Eu. have [Ly _] := load_y Hu Eu.
  apply: (@nonsingular_step p (data us y t) (y t) (in_y u) (load (eps t))); [exact: IH (ltnW lt) | exact: orth_stack |]. rewrite Ly mulmxDl -mulmxA B1 mulmx0 add0r -/(cov (eps t) (eps t)) EH. exact: UH Eu.
Qed.
(** no affine function of the data has a smaller mean square error *)
Lemma given_best k (X : rv R N k) (l : seq (datum R N)) (B : 'M[R]_(k, size l)) : nonsingular l ->
  psd (gram (load X - B *m load (stack l)) - given_cov X l).
Proof.
  move=> U. set Y := load (stack l). pose A := cov X (stack l) *m invmx (gram Y).
  have O : (load X - A *m Y) *m Y^T = 0 by rewrite mulmxBl /A -mulmxA -mulmxA -/(gram Y) mulVmx // mulmx1 subrr.
  have C : isCond (mean X) (load X) (mean (stack l)) Y (values l) (mean X + A *m (values l - mean (stack l))) (gram (load X - A *m Y)) by exists A.
  have [_ <-] := condL_given U C. have -> : load X - B *m Y = (load X - A *m Y) + (A - B) *m Y by rewrite mulmxBl; zmod.
  set E := load X - A *m Y in O *. set G := (A - B) *m Y. have EG : E *m G^T = 0 by rewrite /G trmx_mul mulmxA O mul0mx.
  have GE : G *m E^T = 0 by rewrite -[G]trmxK -trmx_mul EG trmx0.
  have -> : gram (E + G) - gram E = gram G by rewrite /gram linearD /= mulmxDl !mulmxDr EG GE addr0 add0r addrC addKr. exact: gram_psd.
Qed.
End S.
