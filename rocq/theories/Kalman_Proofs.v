From mathcomp Require Import all_ssreflect all_algebra.
From Verif Require Common KalmanScan_Model.
From Verif Require Import McTac Kalman_Model Kalman_Spec.
Set Implicit Arguments.
Unset Strict Implicit.
Unset Printing Implicit Defensive.
Import Order.Theory GRing.Theory Num.Theory.
Local Open Scope ring_scope.

Section P.
Context (R : realFieldType).

Lemma two_neq0 : (2%:R : R) != 0. Proof. by rewrite pnatr_eq0. Qed.

Lemma half_dbl (V : lmodType R) (x : V) : 2%:R^-1 *: (x + x) = x.
Proof. by rewrite -mulr2n -scaler_nat scalerA mulVf ?scale1r ?two_neq0. Qed.

(** ** PSD calculus *)
Lemma psd_sym n (A : 'M[R]_n) : psd A -> A^T = A. Proof. by case. Qed.

Lemma psd0 n : psd (0 : 'M[R]_n).
Proof. by split; [rewrite trmx0 | move=> x; rewrite mulmx0 mul0mx mxE]. Qed.

Lemma psd_add n (A B : 'M[R]_n) : psd A -> psd B -> psd (A + B).
Proof.
move=> [sA pA] [sB pB]; split; first by rewrite linearD /= sA sB.
by move=> x; rewrite mulmxDr mulmxDl mxE addr_ge0.
Qed.

Lemma sq_ge0 n (x : 'cV[R]_n) : 0 <= (x^T *m x) 0 0.
Proof. by rewrite mxE sumr_ge0 // => i _; rewrite mxE -expr2 sqr_ge0. Qed.

Lemma psd_scal1 n (j : R) : 0 <= j -> psd (j *: (1%:M : 'M[R]_n)).
Proof.
move=> j0; split; first by rewrite linearZ /= trmx1.
by move=> x; rewrite -scalemxAr mulmx1 -scalemxAl mxE mulr_ge0 ?sq_ge0.
Qed.

Lemma psd_congr m n (A : 'M[R]_(m, n)) (B : 'M[R]_n) : psd B -> psd (A *m B *m A^T).
Proof.
move=> [sB pB]; split; first by rewrite !trmx_mul trmxK sB mulmxA.
move=> x; have -> : x^T *m (A *m B *m A^T) *m x = (A^T *m x)^T *m B *m (A^T *m x).
  by rewrite trmx_mul trmxK !mulmxA.
exact: pB.
Qed.

Lemma quad_symE m n (A : 'M[R]_(m, n)) (B : 'M[R]_n) : B^T = B -> quad_form_sym A B = A *m B *m A^T.
Proof.
move=> sB; rewrite /quad_form_sym !trmx_mul trmxK sB mulmxA.
by rewrite half_dbl.
Qed.

Lemma quad_sym_gen m n (A : 'M[R]_(m, n)) (B : 'M[R]_n) :
  quad_form_sym A B = A *m (2%:R^-1 *: (B + B^T)) *m A^T.
Proof.
by rewrite /quad_form_sym !trmx_mul trmxK mulmxA -scalemxAr -scalemxAl mulmxDr mulmxDl.
Qed.

Lemma psd_quad m n (A : 'M[R]_(m, n)) (B : 'M[R]_n) : psd B -> psd (quad_form_sym A B).
Proof. by move=> pB; rewrite quad_symE ?(psd_sym pB) //; apply: psd_congr. Qed.

Lemma psd_stabilize n (A : 'M[R]_n) j : 0 <= j -> psd A -> psd (stabilize A j).
Proof. by move=> j0 pA; apply: psd_add => //; apply: psd_scal1. Qed.

(** ** Masks *)
Section Mask.
Context (fill : R) (p : nat).
Notation nan_mask := (nan_mask fill).
Notation maskW := (maskW fill).
Implicit Types y : obs R p.

Lemma W_mul_l m y (A : 'M[R]_(p, m)) i j : (maskW y *m A) i j = (if nan_mask y i then 0 else A i j).
Proof. by rewrite mul_diag_mx !mxE; case: ifP => _; rewrite ?mul0r ?mul1r. Qed.

Lemma W_tr y : (maskW y)^T = maskW y.
Proof. by rewrite /Kalman_Model.maskW tr_diag_mx. Qed.

Lemma W_mul_r m y (A : 'M[R]_(m, p)) i j : (A *m maskW y) i j = (if nan_mask y j then 0 else A i j).
Proof. by rewrite mul_mx_diag !mxE; case: ifP => _; rewrite ?mulr0 ?mulr1. Qed.

Lemma W_idem y : maskW y *m maskW y = maskW y.
Proof.
apply/matrixP => i j; rewrite W_mul_l; case E: (nan_mask y i) => //.
by rewrite !mxE E mul0rn.
Qed.

Lemma decoupled_WH y (H : 'M[R]_p) : decoupled (nan_mask y) H -> maskW y *m H = maskW y *m H *m maskW y.
Proof.
move=> dH; apply/matrixP => i j; rewrite W_mul_r !W_mul_l.
case Ei: (nan_mask y i); case Ej: (nan_mask y j) => //.
by apply: dH; rewrite Ei Ej.
Qed.

Lemma decoupled_sym y (H : 'M[R]_p) : H^T = H -> decoupled (nan_mask y) H -> (maskW y *m H)^T = maskW y *m H.
Proof. by move=> sH dH; rewrite (decoupled_WH dH) !trmx_mul sH W_tr mulmxA. Qed.

Lemma psd_WH y (H : 'M[R]_p) : psd H -> decoupled (nan_mask y) H -> psd (maskW y *m H).
Proof.
move=> pH dH; rewrite (decoupled_WH dH).
by have := psd_congr (maskW y) pH; rewrite W_tr.
Qed.

Lemma decoupled_diag y (h : 'rV[R]_p) : decoupled (nan_mask y) (diag_mx h).
Proof.
move=> i j; rewrite mxE; case: (i =P j) => [-> | ne]; first by rewrite eqxx.
by move=> _; rewrite mulr0n.
Qed.
End Mask.

(** ** C14 *)
Section C14.
Context (log : R -> R) (cst : R) (solve : forall m n, 'M[R]_m -> 'M[R]_(m, n) -> 'M[R]_(m, n)) (j fill : R).
Context (n p r : nat).
Definition ok_inputs (u : inputs R n p r) : Prop :=
  psd (in_H u) /\ psd (in_Q u) /\ decoupled (nan_mask fill (in_y u)) (in_H u).

Lemma std_step_psd (u : inputs R n p r) a P : 0 <= j -> ok_inputs u -> psd P ->
  psd (KalmanScan_Model.o_Pf (std_step log cst solve j fill u a P)) /\
  psd (KalmanScan_Model.o_Phat (std_step log cst solve j fill u a P)).
Proof.
move=> j0 [pH [pQ dH]] pP.
have pf : psd (KalmanScan_Model.o_Pf (std_step log cst solve j fill u a P)).
  rewrite /std_step /std_update /=.
  by apply: psd_stabilize => //; apply: psd_add; apply: psd_quad => //; apply: psd_WH.
split=> //.
rewrite /std_step /std_update /predict /= in pf *.
by apply: psd_add; apply: psd_quad.
Qed.

Lemma scan_psd us : 0 <= j -> List.Forall ok_inputs us -> forall a P, psd P ->
  List.Forall (fun o => psd (KalmanScan_Model.o_Pf o) /\ psd (KalmanScan_Model.o_Phat o))
    (KalmanScan_Model.scan (@std_step R log cst solve j fill n p r) us a P).
Proof.
move=> j0; elim: us => [|u us IH] Hus a P pP; first by constructor.
inversion Hus; subst. have [p1 p2] := std_step_psd a j0 H1 pP.
constructor; first by split. exact: IH.
Qed.

Lemma Forall_firstn (X : Type) (Q : X -> Prop) k (l : list X) : List.Forall Q l -> List.Forall Q (List.firstn k l).
Proof. by elim: k l => [|k IH] [|x l] H //=; inversion H; subst; constructor=> //; apply: IH. Qed.

Lemma std_filter_psd us a0 P0 f : 0 <= j -> List.Forall ok_inputs us -> psd P0 ->
  std_filter log cst solve j fill us a0 P0 = Common.Ok f ->
  List.Forall (@psd R n) (KalmanScan_Model.filtered_covs f) /\
  List.Forall (@psd R n) (KalmanScan_Model.predicted_covs f).
Proof.
move=> j0 Hus pP0; rewrite /std_filter /KalmanScan_Model.build_graph /KalmanScan_Model.postprocess.
case: ifP => // _ [<-] /=. have Hs := scan_psd j0 Hus a0 pP0.
split; last first.
- constructor=> //; apply: Forall_firstn; apply/List.Forall_map.
  by apply: List.Forall_impl Hs => o [].
- by apply/List.Forall_map; apply: List.Forall_impl Hs => o [].
Qed.
End C14.

(** ** C15: exact conditional moments *)
Section Cond.
Context (n p : nat).
Implicit Types (P : 'M[R]_n) (Z : 'M[R]_(p, n)) (H : 'M[R]_p).

Lemma innov_sym P Z H : P^T = P -> H^T = H -> (innov_cov P Z H)^T = innov_cov P Z H.
Proof. by move=> sP sH; rewrite /innov_cov linearD /= !trmx_mul trmxK sP sH mulmxA. Qed.

Lemma gain_F P Z H : innov_cov P Z H \in unitmx -> gain P Z H *m innov_cov P Z H = P *m Z^T.
Proof. by move=> uF; rewrite /gain mulmxKV. Qed.

Lemma cond_cov_KFK P Z H : P^T = P -> H^T = H -> innov_cov P Z H \in unitmx ->
  cond_cov P Z H = P - gain P Z H *m innov_cov P Z H *m (gain P Z H)^T.
Proof.
move=> sP sH uF; rewrite /cond_cov; congr (_ - _).
have -> : (gain P Z H)^T = invmx (innov_cov P Z H) *m Z *m P.
  by rewrite /gain !trmx_mul trmxK trmx_inv (innov_sym _ sP sH) sP mulmxA.
by rewrite !mulmxA mulmxK.
Qed.

(** Joseph form for an arbitrary gain G *)
Lemma joseph_expand P Z H (G : 'M[R]_(n, p)) : P^T = P -> H^T = H -> innov_cov P Z H \in unitmx ->
  (1%:M - G *m Z) *m P *m (1%:M - G *m Z)^T + G *m H *m G^T =
  cond_cov P Z H + (G - gain P Z H) *m innov_cov P Z H *m (G - gain P Z H)^T.
Proof.
move=> sP sH uF. rewrite (cond_cov_KFK sP sH uF).
set F := innov_cov P Z H. set K := gain P Z H.
have KF : K *m F = P *m Z^T by exact: gain_F.
have FK : F *m K^T = Z *m P.
  by rewrite -[F]trmxK (innov_sym _ sP sH) -trmx_mul KF trmx_mul trmxK sP.
have lhs : (1%:M - G *m Z) *m P *m (1%:M - G *m Z)^T + G *m H *m G^T =
   P - K *m F *m G^T - G *m F *m K^T + G *m F *m G^T.
  have -> : G *m F *m G^T = G *m Z *m P *m (G *m Z)^T + G *m H *m G^T.
    by rewrite /F /innov_cov mulmxDr mulmxDl trmx_mul !mulmxA.
  rewrite KF -(mulmxA G F) FK linearB /= trmx1 mulmxBr mulmx1 mulmxBl mul1mx mulmxBl trmx_mul !mulmxA.
  zmod.
rewrite lhs linearB /= !(mulmxBl, mulmxBr).
set A := K *m F *m K^T; set B := G *m F *m K^T; set C := K *m F *m G^T; set D := G *m F *m G^T.
zmod.
Qed.
End Cond.

(** ** Exact solves *)
Section Upd.
Context (log : R -> R) (cst : R) (solve : forall m n, 'M[R]_m -> 'M[R]_(m, n) -> 'M[R]_(m, n)) (j fill : R).
(** the solver solves positive semidefinite invertible systems *)
Definition solve_ok : Prop :=
  forall m n (A : 'M[R]_m) (B : 'M[R]_(m, n)), psd A -> A \in unitmx -> A *m solve A B = B.
Hypothesis sok : solve_ok.

Lemma solveE m n (A : 'M[R]_m) (B : 'M[R]_(m, n)) : psd A -> A \in unitmx -> solve A B = invmx A *m B.
Proof. by move=> pA uA; rewrite -[in RHS](sok B pA uA) mulKmx. Qed.

Lemma innov_psd n p (P : 'M[R]_n) (Z : 'M[R]_(p, n)) H : psd P -> psd H -> psd (innov_cov P Z H).
Proof. by move=> pP pH; apply: psd_add => //; apply: psd_congr. Qed.

Lemma sub_add3 (V : zmodType) (a b c : V) : a - (b + c) = a - b - c.
Proof. zmod. Qed.

(** the standard update is the exact conditional for noise H + jI, up to j K K' in the covariance *)
Lemma std_updateE n p (a : 'cV[R]_n) (P : 'M[R]_n) (y d : 'cV[R]_p) (Z : 'M[R]_(p, n)) (H : 'M[R]_p) flag :
  psd P -> psd H -> 0 <= j -> let Hj := stabilize H j in let F := innov_cov P Z Hj in F \in unitmx ->
  std_update log cst solve j a P y d Z H flag =
  (cond_mean a P Z Hj y d,
   cond_cov P Z Hj - j *: (gain P Z Hj *m (gain P Z Hj)^T),
   d + Z *m a, F,
   if flag then 0 else - 2%:R^-1 * (cst + log (\det F) + ((y - d - Z *m a)^T *m invmx F *m (y - d - Z *m a)) 0 0)).
Proof.
move=> pP pH j0 Hj F uF.
have pHj : psd Hj by apply: psd_stabilize.
have pF : psd F by apply: innov_psd.
have EF : Z *m (P *m Z^T) + stabilize H j = F by rewrite mulmxA.
rewrite /std_update EF. have EK : (solve F^T (P *m Z^T)^T)^T = gain P Z Hj.
  rewrite (psd_sym pF) solveE // trmx_mul trmxK trmx_inv (psd_sym pF) //.
rewrite EK sub_add3 solveE // [in (_^T *m _)]mulmxA.
rewrite !quad_symE ?(psd_sym pP) ?(psd_sym pH) //.
have -> : (1%:M - gain P Z Hj *m Z) *m P *m (1%:M - gain P Z Hj *m Z)^T + gain P Z Hj *m H *m (gain P Z Hj)^T
   = cond_cov P Z Hj - j *: (gain P Z Hj *m (gain P Z Hj)^T); last by [].
have := joseph_expand (gain P Z Hj) (psd_sym pP) (psd_sym pHj) uF.
rewrite subrr mul0mx mul0mx addr0 => <-.
have -> : gain P Z Hj *m Hj *m (gain P Z Hj)^T =
  gain P Z Hj *m H *m (gain P Z Hj)^T + j *: (gain P Z Hj *m (gain P Z Hj)^T).
  by rewrite /Hj /stabilize mulmxDr mulmxDl -scalemxAr mulmx1 -scalemxAl.
by rewrite addrA addrK.
Qed.
End Upd.

(** ** Information form and density factorisation *)
Section Info.
Context (n p : nat) (P : 'M[R]_n) (Z : 'M[R]_(p, n)) (H : 'M[R]_p).
Hypotheses (sP : P^T = P) (sH : H^T = H) (uP : P \in unitmx) (uH : H \in unitmx)
           (uF : innov_cov P Z H \in unitmx).
Let F := innov_cov P Z H.
Let K := gain P Z H.
Let C := cond_cov P Z H.
Let L := invmx P + Z^T *m invmx H *m Z.

Lemma info_LK : L *m K = Z^T *m invmx H.
Proof.
rewrite /K /gain mulmxA.
have -> : L *m (P *m Z^T) = Z^T *m invmx H *m F.
  rewrite /L /F /innov_cov mulmxDl mulmxDr mulKmx // -[Z^T *m invmx H *m H]mulmxA mulVmx // mulmx1 !mulmxA.
  by rewrite addrC.
by rewrite mulmxK.
Qed.

Lemma info_LC : L *m C = 1%:M.
Proof.
rewrite /C /cond_cov mulmxBr -/K -[K *m Z *m P]mulmxA [L *m (K *m _)]mulmxA info_LK /L mulmxDl mulVmx // !mulmxA.
by rewrite addrK.
Qed.

Lemma info_unit : C \in unitmx.
Proof. by have [] := mulmx1_unit info_LC. Qed.

Lemma info_inv : invmx C = L.
Proof. by rewrite -[LHS]mul1mx -info_LC mulmxK // info_unit. Qed.

Lemma info_KLK : K^T *m L *m K + invmx F = invmx H.
Proof.
rewrite -mulmxA info_LK /K /gain !trmx_mul trmx_inv (innov_sym _ sP sH) trmxK sP -/F.
have e : Z *m P *m Z^T = F - H by rewrite /F /innov_cov addrK.
rewrite -!mulmxA [P *m _]mulmxA [Z *m _]mulmxA [Z *m (P *m _)]mulmxA e mulmxBl mulmxBr mulKmx // mulmxV // mulmx1.
by rewrite subrK.
Qed.

Lemma complete_square (a x : 'cV[R]_n) (y d : 'cV[R]_p) :
  let m := cond_mean a P Z H y d in let v := y - d - Z *m a in
  (x - a)^T *m invmx P *m (x - a) + (y - d - Z *m x)^T *m invmx H *m (y - d - Z *m x) =
  (x - m)^T *m invmx C *m (x - m) + v^T *m invmx F *m v.
Proof.
move=> m v. rewrite info_inv. set u := x - a.
have -> : y - d - Z *m x = v - Z *m u by rewrite /v /u mulmxBr; zmod.
have -> : x - m = u - K *m v by rewrite /m /cond_mean -/K -/v /u; zmod.
clear m; clearbody u v.
have sHi : (invmx H)^T = invmx H by rewrite trmx_inv sH.
have sPi : (invmx P)^T = invmx P by rewrite trmx_inv sP.
have sL : L^T = L by rewrite /L linearD /= !trmx_mul trmxK sPi sHi mulmxA.
have KL : K^T *m L = invmx H *m Z by rewrite -{1}sL -trmx_mul info_LK trmx_mul trmxK sHi.
have e1 : (u - K *m v)^T *m L *m (u - K *m v) =
  u^T *m L *m u - u^T *m (Z^T *m invmx H) *m v - v^T *m (invmx H *m Z) *m u + v^T *m (K^T *m L *m K) *m v.
  rewrite [(u - _)^T]linearB /= trmx_mul !(mulmxBl, mulmxBr).
    have -> : u^T *m L *m (K *m v) = u^T *m (Z^T *m invmx H) *m v by rewrite -info_LK !mulmxA.
  have -> : v^T *m K^T *m L *m u = v^T *m (invmx H *m Z) *m u by rewrite -KL !mulmxA.
  rewrite !mulmxA. zmod.
have e2 : (v - Z *m u)^T *m invmx H *m (v - Z *m u) =
  v^T *m invmx H *m v - v^T *m (invmx H *m Z) *m u - u^T *m (Z^T *m invmx H) *m v + u^T *m (Z^T *m invmx H *m Z) *m u.
  by rewrite [(v - _)^T]linearB /= trmx_mul !(mulmxBl, mulmxBr) !mulmxA; zmod.
have e3 : u^T *m L *m u = u^T *m invmx P *m u + u^T *m (Z^T *m invmx H *m Z) *m u.
  by rewrite /L mulmxDr mulmxDl.
have e4 : v^T *m (K^T *m L *m K) *m v + v^T *m invmx F *m v = v^T *m invmx H *m v.
  by rewrite -mulmxDl -mulmxDr info_KLK.
rewrite e1 e2 e3 -e4. zmod.
Qed.
End Info.

(** Sylvester *)
Lemma det_swap m k (A : 'M[R]_(m, k)) (B : 'M[R]_(k, m)) : \det (1%:M + A *m B) = \det (1%:M + B *m A).
Proof.
have e1 : block_mx 1%:M (- A) B 1%:M *m block_mx 1%:M A 0 1%:M = block_mx 1%:M 0 B (1%:M + B *m A).
  by rewrite mulmx_block !mul1mx !mulmx0 !mulmx1 !addr0 subrr addrC.
have e2 : block_mx 1%:M A 0 1%:M *m block_mx 1%:M (- A) B 1%:M = block_mx (1%:M + A *m B) 0 B 1%:M.
  by rewrite mulmx_block !mul1mx !mul0mx !mulmx1 !add0r addNr.
have d1 : \det (block_mx 1%:M (- A) B 1%:M) = \det (1%:M + B *m A).
  have := congr1 determinant e1; rewrite det_mulmx det_ublock det_lblock !det1 !mul1r mulr1 //.
have := congr1 determinant e2; rewrite det_mulmx det_ublock det_lblock !det1 !mul1r mulr1 d1 //.
Qed.

Lemma det_factor n p (P : 'M[R]_n) (Z : 'M[R]_(p, n)) (H : 'M[R]_p) :
  P^T = P -> H^T = H -> P \in unitmx -> H \in unitmx -> innov_cov P Z H \in unitmx ->
  \det (cond_cov P Z H) * \det (innov_cov P Z H) = \det P * \det H.
Proof.
move=> sP sH uP uH uF.
have EF : innov_cov P Z H = H *m (1%:M + (invmx H *m Z) *m (P *m Z^T)).
  by rewrite mulmxDr mulmx1 !mulmxA mulmxV // mul1mx addrC.
have EL : invmx P + Z^T *m invmx H *m Z = invmx P *m (1%:M + (P *m Z^T) *m (invmx H *m Z)).
  by rewrite mulmxDr mulmx1 !mulmxA mulVmx // mul1mx.
have LC := info_LC uP uH uF.
have dl : \det (invmx P + Z^T *m invmx H *m Z) * \det (cond_cov P Z H) = 1.
  by rewrite -det_mulmx LC det1.
rewrite EL det_mulmx -det_swap in dl.
rewrite EF det_mulmx.
set D := \det (1%:M + _) in dl *.
have dP : \det P * \det (invmx P) = 1 by rewrite -det_mulmx mulmxV // det1.
have -> : \det P * \det H = \det P * (\det (invmx P) * D * \det (cond_cov P Z H)) * \det H.
  by rewrite dl mulr1.
rewrite -[\det (invmx P) * D * _]mulrA [\det P * _]mulrA dP mul1r.
by rewrite mulrCA [RHS]mulrC; congr (_ * _); rewrite mulrC.
Qed.
End P.
