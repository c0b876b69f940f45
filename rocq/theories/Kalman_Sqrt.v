(** The square-root filter: factors of the exact moments. *)
From mathcomp Require Import all_ssreflect all_algebra.
From Verif Require Common KalmanScan_Model.
From Verif Require Import McTac Kalman_Model Kalman_Spec Kalman_Proofs Kalman_Seq.
Set Implicit Arguments.
Unset Strict Implicit.
Unset Printing Implicit Defensive.
Import Order.Theory GRing.Theory Num.Theory.
Local Open Scope ring_scope.

Section Q.
Context (R : realFieldType).
Context (log : R -> R) (cst : R).
Context (cholesky : forall m, 'M[R]_m -> 'M[R]_m) (qr_r : forall m n, 'M[R]_(m, n) -> 'M[R]_n)
        (solve_tri : forall m n, 'M[R]_m -> 'M[R]_(m, n) -> 'M[R]_(m, n)).

(** what the numerical routines promise *)
Definition chol_spec m (A L : 'M[R]_m) : Prop := is_trig_mx L /\ L *m L^T = A.
Definition qr_spec m n (M : 'M[R]_(m, n)) (U : 'M[R]_n) : Prop := is_trig_mx U^T /\ U^T *m U = M^T *m M.
Definition tri_ok : Prop := forall m n (L : 'M[R]_m) (B : 'M[R]_(m, n)),
  is_trig_mx L -> L \in unitmx -> L *m solve_tri L B = B.

Lemma solve_triE (tok : tri_ok) m n (L : 'M[R]_m) (B : 'M[R]_(m, n)) :
  is_trig_mx L -> L \in unitmx -> solve_tri L B = invmx L *m B.
Proof. by move=> tL uL; rewrite -[in RHS](tok _ _ L B tL uL) mulKmx. Qed.

Lemma trig_blocks p n (B : 'M[R]_(p + n)) : is_trig_mx B ->
  [/\ is_trig_mx (ulsubmx B), ursubmx B = 0 & is_trig_mx (drsubmx B)].
Proof.
move=> /is_trig_mxP tB; split.
- by apply/is_trig_mxP => i k ik; rewrite !mxE; apply: tB.
- apply/matrixP => i k; rewrite !mxE; apply: tB => /=.
  by apply: (leq_trans (ltn_ord i)); exact: leq_addr.
- by apply/is_trig_mxP => i k ik; rewrite !mxE; apply: tB; rewrite /= ltn_add2l.
Qed.

Section Update.
Context (n p : nat) (a : 'cV[R]_n) (Pc : 'M[R]_n) (y d : 'cV[R]_p) (Z : 'M[R]_(p, n)) (H : 'M[R]_p).
Let P := Pc *m Pc^T.
Let Hc := if H == 0 then H else cholesky H.
Let A_T := block_mx Hc (Z *m Pc) (0 : 'M[R]_(n, p)) Pc.
Hypothesis cH : chol_spec H Hc.
Hypothesis qA : qr_spec A_T^T (qr_r A_T^T).
Hypothesis tok : tri_ok.
Hypothesis uF : innov_cov P Z H \in unitmx.

Let B := (qr_r A_T^T)^T.
Let Fc := ulsubmx B.
Let KF := dlsubmx B.
Let Pf := drsubmx B.

Lemma sq_blocks : [/\ Fc *m Fc^T = innov_cov P Z H, KF *m Fc^T = P *m Z^T & KF *m KF^T + Pf *m Pf^T = P].
Proof.
have [tB E] := qA. rewrite -/B trmxK in tB E.
have [tF ur tP] := trig_blocks tB.
have EB : B = block_mx Fc 0 KF Pf by rewrite -ur submxK.
have E' : B *m B^T = A_T *m A_T^T by rewrite /B trmxK E.
have EA : A_T *m A_T^T = block_mx (innov_cov P Z H) (Z *m P) (P *m Z^T) P.
  rewrite /A_T tr_block_mx mulmx_block trmx0 !mul0mx !mulmx0 !add0r (proj2 cH) trmx_mul /innov_cov /P !mulmxA.
  by rewrite addrC.
have EBB : B *m B^T = block_mx (Fc *m Fc^T) (Fc *m KF^T) (KF *m Fc^T) (KF *m KF^T + Pf *m Pf^T).
  by rewrite {1 2}EB tr_block_mx mulmx_block !trmx0 !mul0mx !mulmx0 !addr0.
by move: E'; rewrite EBB EA => /eq_block_mx [? _ ? ?].
Qed.

Lemma Fc_unit : Fc \in unitmx.
Proof. have [E _ _] := sq_blocks. by move: uF; rewrite -E unitmx_mul => /andP[]. Qed.

Lemma Fc_trig : is_trig_mx Fc.
Proof. have [tB _] := qA. by have [] := trig_blocks tB. Qed.

Lemma sq_gain : KF *m invmx Fc = gain P Z H.
Proof.
have [E1 E2 _] := sq_blocks. rewrite /gain -E2 -E1.
have uT : Fc^T \in unitmx by rewrite unitmx_tr Fc_unit.
have uFF : Fc *m Fc^T \in unitmx by rewrite E1.
by rewrite -[LHS](mulmxK uFF) [KF *m invmx Fc *m (_ *m _)]mulmxA mulmxKV ?Fc_unit.
Qed.

Lemma sqrt_update_moments :
  let u := sqrt_update log cst cholesky qr_r solve_tri a Pc y d Z H false in
  u.1.1.1.1 = cond_mean a P Z H y d /\
  u.1.1.1.2 *m (u.1.1.1.2)^T = cond_cov P Z H /\
  u.1.1.2 = d + Z *m a /\ u.1.2 *m u.1.2^T = innov_cov P Z H.
Proof.
have [E1 E2 E3] := sq_blocks. have sP : P^T = P by rewrite /P trmx_mul trmxK.
have sH : H^T = H by rewrite -(proj2 cH) trmx_mul trmxK.
rewrite /sqrt_update -/Hc -/A_T -/B -/Fc -/KF -/Pf /=; split; [|split; [|split]] => //.
- rewrite solve_triE ?Fc_trig ?Fc_unit // mulmxA sq_gain /cond_mean; congr (_ + _ *m _). zmod.
- rewrite (cond_cov_KFK sP sH uF) -sq_gain -E1 !trmx_mul -{1}E3.
  have -> : KF *m invmx Fc *m (Fc *m Fc^T) *m ((invmx Fc)^T *m KF^T) = KF *m KF^T; last by rewrite addrC addKr.
  rewrite -!mulmxA (mulmxA (invmx Fc)) mulVmx ?Fc_unit // mul1mx (mulmxA Fc^T).
  by rewrite -trmx_mul mulVmx ?Fc_unit // trmx1 mul1mx.
- by rewrite addrC.
Qed.

Lemma sqrt_update_ll :
  (sqrt_update log cst cholesky qr_r solve_tri a Pc y d Z H false).2 =
  - 2%:R^-1 * (p%:R * (cst + 2%:R * \sum_i log `|Fc i i|) +
     ((y - d - Z *m a)^T *m (invmx Fc *m (invmx Fc *m (y - d - Z *m a)))) 0 0).
Proof.
rewrite /sqrt_update -/Hc -/A_T -/B -/Fc -/KF -/Pf /=.
rewrite !solve_triE ?Fc_trig ?Fc_unit //.
have -> : y - (Z *m a + d) = y - d - Z *m a by zmod.
by [].
Qed.
End Update.

Lemma sqrt_predict_moments n r (a : 'cV[R]_n) (Pc : 'M[R]_n) c (T : 'M[R]_n) (Rm : 'M[R]_(n, r)) (Q : 'M[R]_r) :
  chol_spec Q (cholesky Q) ->
  qr_spec (row_mx (T *m Pc) (Rm *m cholesky Q))^T (qr_r (row_mx (T *m Pc) (Rm *m cholesky Q))^T) ->
  let u := sqrt_predict cholesky qr_r a Pc c T Rm Q in
  let w := predict a (Pc *m Pc^T) c T Rm Q in
  u.1 = w.1 /\ u.2 *m u.2^T = w.2.
Proof.
move=> [_ cQ] [_ E]; split=> //=.
have sP : (Pc *m Pc^T)^T = Pc *m Pc^T by rewrite trmx_mul trmxK.
have sQ : Q^T = Q by rewrite -cQ trmx_mul trmxK.
rewrite trmxK E trmxK tr_row_mx mul_row_col !quad_symE // !trmx_mul.
set L := cholesky Q in cQ *; clearbody L. by rewrite -cQ !mulmxA.
Qed.

(** ** Whole runs, no jitter, no missing values *)
Lemma unit_by_ker n (A : 'M[R]_n) : A^T = A -> (forall x : 'cV[R]_n, A *m x = 0 -> x = 0) -> A \in unitmx.
Proof.
move=> sA h; rewrite -row_free_unit -kermx_eq0; apply/eqP/row_matrixP => i; rewrite row0.
have : (row i (kermx A))^T = 0.
  by apply: h; rewrite -{1}sA -trmx_mul -row_mul mulmx_ker row0 trmx0.
by move=> e; rewrite -[row i _]trmxK e trmx0.
Qed.

Lemma innov_pd n p (P : 'M[R]_n) (Z : 'M[R]_(p, n)) (H : 'M[R]_p) : psd P -> psd H -> H \in unitmx ->
  innov_cov P Z H \in unitmx.
Proof.
move=> pP pH uH. apply: unit_by_ker; first by apply: innov_sym; exact: psd_sym.
move=> x x0. apply/eqP; apply/negPn/negP => nx.
have := psd_pd pH uH nx.
have e : (x^T *m (Z *m P *m Z^T) *m x) 0 0 + (x^T *m H *m x) 0 0 = 0.
  have <- : (x^T *m innov_cov P Z H *m x) 0 0 = 0 by rewrite -mulmxA x0 mulmx0 mxE.
  by rewrite /innov_cov mulmxDr mulmxDl [in RHS]mxE.
move: (proj2 (psd_congr Z pP) x) => h1 h2.
by move: (ltr_paddl h1 h2); rewrite e ltxx.
Qed.

Section Run.
Context (solve : forall m n, 'M[R]_m -> 'M[R]_(m, n) -> 'M[R]_(m, n)) (fill : R) (n p r : nat).
Hypothesis sok : solve_ok solve.
Hypothesis cok : forall m (A : 'M[R]_m), psd A -> chol_spec A (cholesky A).
Hypothesis qok : forall m k (M : 'M[R]_(m, k)), (k <= m)%N -> qr_spec M (qr_r M).
Hypothesis tok : tri_ok.
Hypothesis p0 : (0 < p)%N.

Definition full_data (u : inputs R n p r) : Prop :=
  (forall i, nan_mask fill (in_y u) i = false) /\ psd (in_H u) /\ in_H u \in unitmx /\ psd (in_Q u).

Lemma full_mask (u : inputs R n p r) : full_data u ->
  [/\ Z_masked fill (in_y u) (in_Z u) = in_Z u, H_masked fill (in_y u) (in_H u) = in_H u & all_nan fill (in_y u) = false].
Proof.
move=> [nm _]. have W1 : maskW fill (in_y u) = 1%:M.
  by apply/matrixP => i k; rewrite !mxE nm.
split; rewrite ?/Z_masked ?/H_masked ?W1 ?mul1mx //.
by apply/negbTE/forallPn; exists (Ordinal p0); rewrite nm.
Qed.

Definition same_moments (o : @KalmanScan_Model.step_out 'cV[R]_n 'M[R]_n 'cV[R]_p 'M[R]_p R)
                        (o' : @KalmanScan_Model.step_out 'cV[R]_n 'M[R]_n 'cV[R]_p 'M[R]_p R) : Prop :=
  KalmanScan_Model.o_af o = KalmanScan_Model.o_af o' /\
  KalmanScan_Model.o_ahat o = KalmanScan_Model.o_ahat o' /\
  KalmanScan_Model.o_mu o = KalmanScan_Model.o_mu o' /\
  KalmanScan_Model.o_Pf o *m (KalmanScan_Model.o_Pf o)^T = KalmanScan_Model.o_Pf o' /\
  KalmanScan_Model.o_Phat o *m (KalmanScan_Model.o_Phat o)^T = KalmanScan_Model.o_Phat o' /\
  KalmanScan_Model.o_cov o *m (KalmanScan_Model.o_cov o)^T = KalmanScan_Model.o_cov o'.

Notation sstep := (@sqrt_step R log cst 0 fill cholesky qr_r solve_tri n p r).
Notation tstep := (@std_step R log cst solve 0 fill n p r).

Lemma sq_psd (Pc : 'M[R]_n) : psd (Pc *m Pc^T).
Proof. by have := psd_congr Pc (psd_scal1 n (@ler01 R)); rewrite scale1r mulmx1. Qed.

Lemma stab0 m (A : 'M[R]_m) : stabilize A 0 = A.
Proof. by rewrite /stabilize scale0r addr0. Qed.

Lemma step_same (u : inputs R n p r) a (Pc : 'M[R]_n) : full_data u ->
  same_moments (sstep u a Pc) (tstep u a (Pc *m Pc^T)).
Proof.
move=> fu; have [ez eh en] := full_mask fu; have [nm [pH [uH pQ]]] := fu.
rewrite /sqrt_step /std_step ez eh en.
have uF := innov_pd (in_Z u) (sq_psd Pc) pH uH.
have H0 : chol_spec (in_H u) (if in_H u == 0 then in_H u else cholesky (in_H u)).
  case: eqP => [->|_]; last exact: cok.
  by split; [apply/is_trig_mxP => i k _; rewrite mxE | rewrite mul0mx].
have uF0 : innov_cov (Pc *m Pc^T) (in_Z u) (stabilize (in_H u) 0) \in unitmx by rewrite stab0.
rewrite (std_updateE log cst sok a (y_masked fill (in_y u)) (in_d u) false (sq_psd Pc) pH (lexx 0) uF0) stab0 scale0r subr0.
have := sqrt_update_moments a (y_masked fill (in_y u)) (in_d u) H0 (qok _ (leqnn _)) tok uF.
case: (sqrt_update _ _ _ _ _ _ _ _ _ _ _ _) => [[[[a_f Pf] mu] F] ll] /= [-> [E1 [-> E2]]].
rewrite !stab0.
have := @sqrt_predict_moments n r (cond_mean a (Pc *m Pc^T) (in_Z u) (in_H u) (y_masked fill (in_y u)) (in_d u)) Pf
  (in_c u) (in_T u) (in_R u) (in_Q u) (cok pQ) (qok _ (leq_addr _ _)).
rewrite E1 /sqrt_predict /predict /= => -[_ E3].
by rewrite /same_moments /=.
Qed.

Lemma scan_same us : List.Forall full_data us -> forall a (Pc : 'M[R]_n),
  List.Forall2 same_moments (KalmanScan_Model.scan sstep us a Pc) (KalmanScan_Model.scan tstep us a (Pc *m Pc^T)).
Proof.
elim: us => [|u us IH] Hus a Pc; first by constructor.
inversion Hus; subst. have [E1 [E2 [E3 [E4 [E5 E6]]]]] := step_same a Pc H1.
cbn [KalmanScan_Model.scan]. constructor; first by [].
rewrite -E2 -E5. exact: IH.
Qed.

Lemma F2_map (A B C : Type) (Q : A -> B -> Prop) (g : A -> C) (h : B -> C) l l' :
  (forall x y, Q x y -> g x = h y) -> List.Forall2 Q l l' -> List.map g l = List.map h l'.
Proof. by move=> H; elim=> //= x y {}l {}l' q _ ->; rewrite (H _ _ q). Qed.

Lemma map_drop_last (A B : Type) (g : A -> B) l :
  List.map g (KalmanScan_Model.drop_last l) = KalmanScan_Model.drop_last (List.map g l).
Proof. by rewrite /KalmanScan_Model.drop_last List.map_length List.firstn_map. Qed.

Lemma sqrt_run us a0 (P0 : 'M[R]_n) f g : List.Forall full_data us ->
  sqrt_filter log cst 0 fill cholesky qr_r solve_tri us a0 P0 = Common.Ok f ->
  std_filter log cst solve 0 fill us a0 (P0 *m P0^T) = Common.Ok g ->
  KalmanScan_Model.filtered_states f = KalmanScan_Model.filtered_states g /\
  KalmanScan_Model.predicted_states f = KalmanScan_Model.predicted_states g /\
  KalmanScan_Model.observed_states f = KalmanScan_Model.observed_states g /\
  KalmanScan_Model.filtered_covs f = KalmanScan_Model.filtered_covs g /\
  KalmanScan_Model.predicted_covs f = KalmanScan_Model.predicted_covs g /\
  KalmanScan_Model.observed_covs f = KalmanScan_Model.observed_covs g.
Proof.
move=> Hus; have HF := scan_same Hus a0 P0.
rewrite /sqrt_filter /std_filter /KalmanScan_Model.build_graph /KalmanScan_Model.postprocess.
case: ifP => // _ [<-] /=; case: ifP => // _ [<-] /=.
change (@square_seq R n) with (List.map (fun L : 'M[R]_n => L *m L^T)).
have sqE k (l : seq 'M[R]_k) : square_seq l = List.map (fun L => L *m L^T) l by [].
rewrite !sqE !map_drop_last !List.map_map.
rewrite (F2_map (h := KalmanScan_Model.o_af) _ HF); last by move=> x y [].
rewrite (F2_map (h := KalmanScan_Model.o_ahat) _ HF); last by move=> x y [_ []].
rewrite (F2_map (h := KalmanScan_Model.o_mu) _ HF); last by move=> x y [_ [_ []]].
rewrite (F2_map (h := KalmanScan_Model.o_Pf) _ HF); last by move=> x y [_ [_ [_ []]]].
rewrite (F2_map (h := KalmanScan_Model.o_Phat) _ HF); last by move=> x y [_ [_ [_ [_ []]]]].
by rewrite (F2_map (h := KalmanScan_Model.o_cov) _ HF); last by move=> x y [_ [_ [_ [_ [_]]]]].
Qed.
End Run.
End Q.
