(** C107: equivalent ways to write a model give the same inference. *)
From mathcomp Require Import all_ssreflect all_algebra fingroup perm.
From Verif Require Common KalmanScan_Model KalmanScan_Proofs LapCov_Props.
From Verif Require Import Kalman_Model Kalman_Proofs KalmanUni_Model.
Set Implicit Arguments.
Unset Strict Implicit.
Unset Printing Implicit Defensive.
Import Order.Theory GRing.Theory Num.Theory.
Import KalmanScan_Model.
Local Open Scope ring_scope.

Section Spec.
Context (R : realFieldType).
(** ** Specification *)
(** The same model with states multiplied by U and shocks by V: for U and V permutations, the states (shocks) in another order. *)
Definition rebase n n' p r r' (U : 'M[R]_(n', n)) (V : 'M[R]_(r', r)) (u : inputs R n p r) : inputs R n' p r' :=
  Inputs (in_y u) (U *m in_c u) (in_d u) (U *m in_T u *m U^T) (in_Z u *m U^T) (U *m in_R u *m V^T) (in_H u) (V *m in_Q u *m V^T).
(** The same model with its observed series in another order. *)
Definition reorder_series n p r (s : 'S_p) (u : inputs R n p r) : inputs R n p r :=
  Inputs (fun i => in_y u (s i)) (in_c u) (row_perm s (in_d u)) (in_T u) (row_perm s (in_Z u)) (in_R u) (row_perm s (col_perm s (in_H u))) (in_Q u).
(** Two models with the same observed series added: states and shocks side by side, observations summed. *)
Definition add_models n1 n2 p r1 r2 (u : inputs R n1 p r1) (w : inputs R n2 p r2) (y : obs R p) : inputs R (n1 + n2) p (r1 + r2) :=
  Inputs y (col_mx (in_c u) (in_c w)) (in_d u + in_d w) (block_mx (in_T u) 0 0 (in_T w)) (row_mx (in_Z u) (in_Z w))
         (block_mx (in_R u) 0 0 (in_R w)) (in_H u + in_H w) (block_mx (in_Q u) 0 0 (in_Q w)).
End Spec.

Lemma firstn_map_drop X Y (f : X -> Y) (l : list X) : drop_last (List.map f l) = List.map f (drop_last l).
Proof. by rewrite /drop_last List.map_length List.firstn_map. Qed.

(** ** Transport of whole scans *)
Section Transport.
Context {A C Ob OC L Y A' C' Ob' OC' Y' : Type} (st : Y -> A -> C -> @step_out A C Ob OC L) (st' : Y' -> A' -> C' -> @step_out A' C' Ob' OC' L).
Context (g : Y -> Y') (fa : A -> A') (fc : C -> C') (fo : Ob -> Ob') (fq : OC -> OC').
Definition lift_out (o : @step_out A C Ob OC L) : @step_out A' C' Ob' OC' L :=
  {| o_af := fa (o_af o); o_ahat := fa (o_ahat o); o_mu := fo (o_mu o); o_Pf := fc (o_Pf o); o_Phat := fc (o_Phat o); o_cov := fq (o_cov o); o_ll := o_ll o |}.
Definition lift_filter (f : @filter_out A C Ob OC L) : @filter_out A' C' Ob' OC' L :=
  {| filtered_states := List.map fa (filtered_states f); predicted_states := List.map fa (predicted_states f); observed_states := List.map fo (observed_states f);
     filtered_covs := List.map fc (filtered_covs f); predicted_covs := List.map fc (predicted_covs f); observed_covs := List.map fq (observed_covs f);
     loglike_obs := loglike_obs f |}.
Context (ok : A -> C -> Prop) (oky : Y -> Prop).
Hypothesis Hst : forall y a P, oky y -> ok a P -> st' (g y) (fa a) (fc P) = lift_out (st y a P) /\ ok (o_ahat (st y a P)) (o_Phat (st y a P)).
Lemma scan_lift ys : forall a P, List.Forall oky ys -> ok a P -> scan st' (List.map g ys) (fa a) (fc P) = List.map lift_out (scan st ys a P).
Proof.
  elim: ys => [|y ys IH] a P //= Hy Ho. inversion Hy; subst. have [-> O] := Hst H1 Ho. by rewrite /= IH.
Qed.
Lemma build_lift ys a P : List.Forall oky ys -> ok a P ->
  build_graph st' (List.map g ys) (fa a) (fc P) = match build_graph st ys a P with Common.Ok f => Common.Ok (lift_filter f) | Common.Err e => Common.Err e end.
Proof.
  move=> Hy Ho. rewrite /build_graph scan_lift // /postprocess List.map_length. move: (scan st ys a P) => os. cbn [filtered_states predicted_states observed_states filtered_covs predicted_covs observed_covs loglike_obs].
  cbn [List.forallb List.length]. rewrite /drop_last !List.firstn_length !List.map_length.
  case: (_ && _) => //. rewrite /lift_filter; cbn [filtered_states predicted_states observed_states filtered_covs predicted_covs observed_covs loglike_obs List.map].
  by rewrite -!List.firstn_map !List.map_map.
Qed.
End Transport.

Section Basis.
Context (R : realFieldType) (log : R -> R) (MVN_CONST jitter fill : R).
Context (n n' p r r' : nat) (U : 'M[R]_(n', n)) (V : 'M[R]_(r', r)).
Hypotheses (U1 : U^T *m U = 1%:M) (U2 : U *m U^T = 1%:M) (V1 : V^T *m V = 1%:M).
Local Notation conj P := (U *m P *m U^T).
Local Notation conjf := (fun P : 'M[R]_n => U *m P *m U^T).

Lemma quad_left m k l (A : 'M[R]_(k, l)) (B : 'M[R]_l) (W : 'M[R]_(m, k)) : quad_form_sym (W *m A) B = W *m quad_form_sym A B *m W^T.
Proof. rewrite /quad_form_sym -scalemxAr -scalemxAl mulmxDr mulmxDl !trmx_mul !trmxK !mulmxA. by []. Qed.
Lemma quad_right m k l (A : 'M[R]_(m, k)) (B : 'M[R]_k) (W : 'M[R]_(l, k)) : W^T *m W = 1%:M -> quad_form_sym (A *m W^T) (W *m B *m W^T) = quad_form_sym A B.
Proof.
  move=> W1. rewrite /quad_form_sym. have -> : A *m W^T *m (W *m B *m W^T) *m (A *m W^T)^T = A *m B *m A^T; last by [].
  rewrite trmx_mul trmxK !mulmxA -(mulmxA A) W1 mulmx1 -(mulmxA (A *m B)) W1 mulmx1. by [].
Qed.
Lemma stab_conj j P : stabilize (conj P) j = conj (stabilize P j).
Proof. by rewrite /stabilize mulmxDr mulmxDl -scalemxAr mulmx1 -scalemxAl U2. Qed.
Lemma predict_rebase a P (u : inputs R n p r) :
  predict (U *m a) (conj P) (in_c (rebase U V u)) (in_T (rebase U V u)) (in_R (rebase U V u)) (in_Q (rebase U V u))
  = (U *m (predict a P (in_c u) (in_T u) (in_R u) (in_Q u)).1, conj (predict a P (in_c u) (in_T u) (in_R u) (in_Q u)).2).
Proof.
  rewrite /predict /rebase /=. congr (_, _).
  - by rewrite mulmxDr !mulmxA -(mulmxA (U *m in_T u)) U1 mulmx1.
  - rewrite mulmxDr mulmxDl. rewrite -![U *m _ *m U^T]mulmxA -[U *m in_R u *m V^T]mulmxA.
    rewrite !(quad_left _ _ U) !mulmxA !quad_right //.
Qed.
Lemma std_rebase (u : inputs R n p r) a P :
  std_step log MVN_CONST (@posv R) jitter fill (rebase U V u) (U *m a) (conj P) =
  lift_out (mulmx U) conjf id id (std_step log MVN_CONST (@posv R) jitter fill u a P).
Proof.
  rewrite /std_step. rewrite [in_y _]/=. set y := in_y u.
  have -> : std_update log MVN_CONST (@posv R) jitter (U *m a) (conj P) (y_masked fill y) (in_d (rebase U V u)) (Z_masked fill y (in_Z (rebase U V u))) (H_masked fill y (in_H (rebase U V u))) (all_nan fill y)
    = let '(a_f, P_f, mu, F, ll) := std_update log MVN_CONST (@posv R) jitter a P (y_masked fill y) (in_d u) (Z_masked fill y (in_Z u)) (H_masked fill y (in_H u)) (all_nan fill y) in (U *m a_f, conj P_f, mu, F, ll).
  { rewrite /std_update /=. rewrite /Z_masked. set Z := maskW fill y *m in_Z u. set H := H_masked fill y (in_H u). set v0 := y_masked fill y.
    have -> : maskW fill y *m (in_Z u *m U^T) = Z *m U^T by rewrite mulmxA.
    have eh : Z *m U^T *m (U *m a) = Z *m a by rewrite !mulmxA -(mulmxA Z) U1 mulmx1.
    have eP : U *m P *m U^T *m (Z *m U^T)^T = U *m (P *m Z^T) by rewrite trmx_mul trmxK !mulmxA -(mulmxA (U *m P)) U1 mulmx1.
    have eF : Z *m U^T *m (U *m (P *m Z^T)) = Z *m (P *m Z^T) by rewrite !mulmxA -(mulmxA Z) U1 mulmx1.
    rewrite eh eP eF. set F := Z *m (P *m Z^T) + stabilize H jitter. set v := v0 - (in_d u + Z *m a).
    have eK : (posv F^T (U *m (P *m Z^T))^T)^T = U *m (posv F^T (P *m Z^T)^T)^T by rewrite /posv (trmx_mul U) mulmxA (trmx_mul _ U^T) trmxK.
    rewrite eK. set K := (posv F^T (P *m Z^T)^T)^T. congr (_, _, _, _, _).
    - by rewrite [RHS]mulmxDr mulmxA.
    - have -> : 1%:M - U *m K *m (Z *m U^T) = U *m ((1%:M - K *m Z) *m U^T) by rewrite mulmxBl mul1mx mulmxBr U2 !mulmxA.
      by rewrite !(quad_left _ _ U) quad_right // mulmxDr mulmxDl. }
  case: (std_update _ _ _ _ _ _ _ _ _ _ _) => [[[[af Pf] mu] F] ll]. rewrite stab_conj.
  rewrite predict_rebase. case: (predict _ _ _ _ _ _) => ah Ph. by [].
Qed.

(** Univariate filter *)
Lemma uni_inner_rebase (u : uni_row R n) a P :
  uni_inner log jitter (Row (r_y u) (r_Z u *m U^T) (r_d u) (r_h u) (r_nan u)) (U *m a) (conj P) =
  let '(af, Pf, yh, F, l) := uni_inner log jitter u a P in (U *m af, conj Pf, yh, F, l).
Proof.
  rewrite /uni_inner /=. set Z := r_Z u.
  have eh : Z *m U^T *m (U *m a) = Z *m a by rewrite !mulmxA -(mulmxA Z) U1 mulmx1.
  have eP : U *m P *m U^T *m (Z *m U^T)^T = U *m (P *m Z^T) by rewrite trmx_mul trmxK !mulmxA -(mulmxA (U *m P)) U1 mulmx1.
  have eF : Z *m U^T *m (U *m (P *m Z^T)) = Z *m (P *m Z^T) by rewrite !mulmxA -(mulmxA Z) U1 mulmx1.
  rewrite eh eP eF. congr (_, _, _, _, _).
  - by rewrite mulmxDr -!scalemxAr.
  - set F := _ + jitter. set z := (if _ then _ else _).
    have -> : z *: (F^-1 *: (U *m (P *m Z^T))) = U *m (z *: (F^-1 *: (P *m Z^T))) by rewrite -!scalemxAr.
    move: (z *: (F^-1 *: (P *m Z^T))) => K. by rewrite (mulmxBr U) mulmxBl -scalemxAr -scalemxAl trmx_mul !mulmxA.
Qed.
Definition row_rebase (u : uni_row R n) : uni_row R n' := Row (r_y u) (r_Z u *m U^T) (r_d u) (r_h u) (r_nan u).
Lemma uni_inner_rebase' (u : uni_row R n) a P :
  uni_inner log jitter (row_rebase u) (U *m a) (conj P) = let '(af, Pf, yh, F, l) := uni_inner log jitter u a P in (U *m af, conj Pf, yh, F, l).
Proof. exact: uni_inner_rebase. Qed.
Lemma uni_scan_rebase us : forall a P, uni_scan log jitter (map row_rebase us) (U *m a) (conj P) = let '(af, Pf, ls) := uni_scan log jitter us a P in (U *m af, conj Pf, ls).
Proof.
  elim: us => [|u us IH] a P; first by []. cbn [map uni_scan]. rewrite uni_inner_rebase'. case: (uni_inner _ _ _ _ _) => [[[[a1 P1] yh] F] l]. rewrite IH. by case: (uni_scan _ _ _ _ _) => [[a2 P2] ls].
Qed.
Lemma uni_obs_rebase us : forall a P l, uni_obs log jitter (map row_rebase us) (U *m a) (conj P) l = uni_obs log jitter us a P l.
Proof.
  elim: us => [|u us IH] a P l; first by []. cbn [map uni_obs]. rewrite uni_inner_rebase'. case: (uni_inner _ _ _ _ _) => [[[[a1 P1] yh] F] l']. by rewrite IH.
Qed.
Lemma uni_rows_rebase (y : obs R p) d (Z : 'M[R]_(p, n)) H : uni_rows y d (Z *m U^T) H = map row_rebase (uni_rows y d Z H).
Proof.
  rewrite /uni_rows -map_comp. apply: eq_map => i /=. rewrite /row_rebase /=. congr Row. case: ifP => _; first by rewrite mul0mx. by rewrite row_mul.
Qed.
Lemma uni_rebase (u : inputs R n p r) a P :
  uni_step log MVN_CONST jitter (rebase U V u) (U *m a) (conj P) = lift_out (mulmx U) conjf id id (uni_step log MVN_CONST jitter u a P).
Proof.
  rewrite /uni_step. rewrite [in_y _]/= [in_d _]/= [in_Z _]/= [in_H _]/= uni_rows_rebase.
  rewrite /uni_update uni_rows_rebase uni_scan_rebase uni_obs_rebase.
  case: (uni_scan _ _ _ _ _) => [[af Pf] ls]. case: (uni_obs _ _ _ _ _ _) => mu F.
  have -> : 2%:R^-1 *: (conj Pf + (conj Pf)^T) = conj (2%:R^-1 *: (Pf + Pf^T)).
  { rewrite -scalemxAr -scalemxAl mulmxDr mulmxDl !trmx_mul trmxK !mulmxA. by []. }
  rewrite stab_conj predict_rebase. case: (predict _ _ _ _ _ _) => ah Ph. by [].
Qed.

(** Smoother *)
Context (pinv : forall m, 'M[R]_m -> 'M[R]_m).
Hypothesis Hpinv : forall m (A : 'M[R]_m), LapCov_Props.penrose A (pinv A).
Lemma penrose_conj A : pinv (conj A) = conj (pinv A).
Proof.
  have [e1 e2 e3 e4] := Hpinv A. apply: (@LapCov_Props.penrose_unique _ _ (conj A)); first exact: Hpinv.
  have e5 : forall X Y : 'M[R]_n, conj X *m conj Y = conj (X *m Y).
  { move=> X Y. by rewrite !mulmxA -(mulmxA (U *m X)) U1 mulmx1. }
  split; rewrite ?e5 ?e1 ?e2 //; by rewrite trmx_mul trmxK trmx_mul mulmxA ?e3 ?e4.
Qed.
Lemma smoother_rebase jd (T : 'M[R]_n) (Rm : 'M[R]_(n, r)) Q a P a_s P_s :
  smoother_step jitter pinv jd (U *m a) (conj P) (U *m a_s) (conj P_s) (conj T) (U *m Rm *m V^T) (V *m Q *m V^T) =
  (U *m (smoother_step jitter pinv jd a P a_s P_s T Rm Q).1, conj (smoother_step jitter pinv jd a P a_s P_s T Rm Q).2).
Proof.
  rewrite /smoother_step. 
  have -> : smoother_predict jitter (U *m a) (conj P) (conj T) (U *m Rm *m V^T) (V *m Q *m V^T) = (U *m (smoother_predict jitter a P T Rm Q).1, conj (smoother_predict jitter a P T Rm Q).2).
  { rewrite /smoother_predict; cbn [fst snd]. congr (_, _); first by rewrite !mulmxA -(mulmxA (U *m T)) U1 mulmx1.
    rewrite -stab_conj. congr (stabilize _ _). rewrite mulmxDr mulmxDl. rewrite -![U *m _ *m U^T]mulmxA -[U *m Rm *m V^T]mulmxA.
    by rewrite !(quad_left _ _ U) !mulmxA !quad_right. }
  case: (smoother_predict _ _ _ _ _ _) => ah Ph. cbn [fst snd]. rewrite penrose_conj.
  have -> : (conj (pinv Ph) *m conj T *m conj P)^T = U *m (pinv Ph *m T *m P)^T *m U^T.
  { have -> : conj (pinv Ph) *m conj T *m conj P = conj (pinv Ph *m T *m P).
    { by rewrite !mulmxA -(mulmxA (U *m pinv Ph)) U1 mulmx1 -(mulmxA (U *m pinv Ph *m T)) U1 mulmx1. }
    by rewrite trmx_mul trmxK (trmx_mul U) mulmxA. }
  set G := (pinv Ph *m T *m P)^T. congr (_, _).
  - by rewrite (mulmxDr U a) -mulmxBr !mulmxA -(mulmxA (U *m G)) U1 mulmx1.
  - rewrite -!stab_conj. do 2 congr (stabilize _ _). rewrite (mulmxDr U P) mulmxDl. congr (_ + _).
    by rewrite -mulmxBl -mulmxBr -(mulmxA U G) (quad_left _ _ U) quad_right.
Qed.
End Basis.

Section Series.
Context (R : realFieldType) (log : R -> R) (MVN_CONST jitter fill : R).
Context (n p r : nat) (s : 'S_p).
Local Notation W := (perm_mx s : 'M[R]_p).
Definition complete (y : obs R p) : Prop := forall i, nan_mask fill y i = false.
Definition diagonal m (A : 'M[R]_m) : Prop := forall i j, i != j -> A i j = 0.
Lemma W1 : W *m W^T = 1%:M. Proof. by rewrite tr_perm_mx -perm_mxM mulgV perm_mx1. Qed.
Lemma W2 : W^T *m W = 1%:M. Proof. by rewrite tr_perm_mx -perm_mxM mulVg perm_mx1. Qed.
Lemma reorder_rows m (A : 'M[R]_(p, m)) : row_perm s A = W *m A. Proof. exact: row_permE. Qed.
Lemma reorder_both (A : 'M[R]_p) : row_perm s (col_perm s A) = W *m A *m W^T. Proof. by rewrite row_permE col_permE tr_perm_mx mulmxA. Qed.
Lemma maskW_reorder (y : obs R p) : maskW fill (fun i => y (s i)) = W *m maskW fill y *m W^T.
Proof.
  rewrite -reorder_both. apply/matrixP=> i j. rewrite !mxE /nan_mask. have -> : (s i == s j) = (i == j) by apply/eqP/eqP => [/perm_inj|->]. by [].
Qed.
Lemma y_reorder (y : obs R p) : y_masked fill (fun i => y (s i)) = W *m y_masked fill y.
Proof. rewrite -reorder_rows. apply/matrixP=> i j. by rewrite !mxE. Qed.
Lemma all_nan_reorder (y : obs R p) : all_nan fill (fun i => y (s i)) = all_nan fill y.
Proof.
  apply/forallP/forallP => H i; last exact: H. have := H ((s^-1)%g i). by rewrite /nan_mask permKV.
Qed.
Lemma invmx_conj (A : 'M[R]_p) : invmx (W *m A *m W^T) = W *m invmx A *m W^T.
Proof.
  have uW : W \in unitmx by exact: unitmx_perm. have uWT : W^T \in unitmx by rewrite unitmx_tr.
  case: (boolP (A \in unitmx)) => uA.
  - apply: (@row_free_inj _ _ _ _ (W *m A *m W^T)); first by rewrite row_free_unit !unitmx_mul uW uA uWT.
    rewrite mulVmx ?unitmx_mul ?uW ?uA ?uWT // !mulmxA -(mulmxA (W *m invmx A)) W2 mulmx1 -(mulmxA W (invmx A)) mulVmx // mulmx1. by rewrite W1.
  - have nA : W *m A *m W^T \notin unitmx by rewrite !unitmx_mul uW uWT (negbTE uA). by rewrite /invmx (negbTE uA) (negbTE nA).
Qed.
Lemma upper_sym_id m (A : 'M[R]_m) : A^T = A -> upper_sym A = A.
Proof. move=> sA. apply/matrixP=> i j. rewrite mxE. case: leqP => // _. by rewrite -[in RHS]sA mxE. Qed.
Lemma H_sym (u : inputs R n p r) : diagonal (in_H u) \/ complete (in_y u) /\ (in_H u)^T = in_H u -> (H_masked fill (in_y u) (in_H u))^T = H_masked fill (in_y u) (in_H u).
Proof.
  case=> [D|[C S]].
  - apply/matrixP=> i j. rewrite /H_masked /maskW mul_diag_mx !mxE. case: (eqVneq i j) => [->//|ne]. by rewrite (D i j) // (D j i) 1?eq_sym // !mulr0.
  - have -> : H_masked fill (in_y u) (in_H u) = in_H u; last exact: S. apply/matrixP=> i j. by rewrite /H_masked /maskW mul_diag_mx !mxE C mul1r.
Qed.
Lemma std_series (u : inputs R n p r) a P : P^T = P -> (diagonal (in_H u) \/ complete (in_y u) /\ (in_H u)^T = in_H u) ->
  std_step log MVN_CONST (@posv R) jitter fill (reorder_series s u) a P =
  lift_out id id (mulmx W) (fun F => W *m F *m W^T) (std_step log MVN_CONST (@posv R) jitter fill u a P).
Proof.
  move=> sP HH. have sH := H_sym HH. rewrite /std_step. set y := in_y u. rewrite [in_y (reorder_series s u)]/=. rewrite -/y all_nan_reorder y_reorder.
  rewrite /Z_masked /H_masked maskW_reorder [in_d (reorder_series s u)]/= [in_Z (reorder_series s u)]/= [in_H (reorder_series s u)]/= reorder_both !reorder_rows.
  rewrite -/(Z_masked fill y (in_Z u)) -/(H_masked fill y (in_H u)).
  have -> : W *m maskW fill y *m W^T *m (W *m in_Z u) = W *m Z_masked fill y (in_Z u) by rewrite !mulmxA -(mulmxA (W *m maskW fill y)) W2 mulmx1 /Z_masked ?mulmxA.
  have -> : W *m maskW fill y *m W^T *m (W *m in_H u *m W^T) = W *m H_masked fill y (in_H u) *m W^T by rewrite !mulmxA -(mulmxA (W *m maskW fill y)) W2 mulmx1 /H_masked ?mulmxA.
  have -> : std_update log MVN_CONST (@posv R) jitter a P (W *m y_masked fill y) (W *m in_d u) (W *m Z_masked fill y (in_Z u)) (W *m H_masked fill y (in_H u) *m W^T) (all_nan fill y)
    = let '(a_f, P_f, mu, F, ll) := std_update log MVN_CONST (@posv R) jitter a P (y_masked fill y) (in_d u) (Z_masked fill y (in_Z u)) (H_masked fill y (in_H u)) (all_nan fill y) in (a_f, P_f, W *m mu, W *m F *m W^T, ll).
  { move: (Z_masked fill y (in_Z u)) (H_masked fill y (in_H u)) sH (y_masked fill y) (in_d u) (all_nan fill y) => Z H sH v0 d b. rewrite /std_update. cbv zeta.
    have -> : W *m d + W *m Z *m a = W *m (d + Z *m a) by rewrite mulmxDr mulmxA.
    have -> : P *m (W *m Z)^T = P *m Z^T *m W^T by rewrite trmx_mul mulmxA.
    have -> : W *m Z *m (P *m Z^T *m W^T) + stabilize (W *m H *m W^T) jitter = W *m (Z *m (P *m Z^T) + stabilize H jitter) *m W^T.
    { by rewrite (stab_conj W1) mulmxDr mulmxDl !mulmxA. }
    set F := Z *m (P *m Z^T) + stabilize H jitter. have sF : F^T = F.
    { rewrite /F /stabilize !linearD /= !trmx_mul trmxK sP sH linearZ /= trmx1 mulmxA. by []. }
    have -> : W *m v0 - W *m (d + Z *m a) = W *m (v0 - (d + Z *m a)) by rewrite -mulmxBr.
    clearbody F. move: (d + Z *m a) => yh. move: (v0 - yh) => v.
    have sF' : (W *m F *m W^T)^T = W *m F *m W^T by rewrite trmx_mul trmxK (trmx_mul W) sF mulmxA.
    have eK : (posv (W *m F *m W^T)^T (P *m Z^T *m W^T)^T)^T = (posv F^T (P *m Z^T)^T)^T *m W^T.
    { rewrite sF' sF /posv !upper_sym_id // invmx_conj (trmx_mul _ W^T) trmxK -(mulmxA (W *m invmx F)) (mulmxA W^T) W2 mul1mx -mulmxA trmx_mul. by []. }
    rewrite eK. move: ((posv F^T (P *m Z^T)^T)^T) => K.
    have eKZ : K *m W^T *m (W *m Z) = K *m Z by rewrite !mulmxA -(mulmxA K) W2 mulmx1.
    have eKv : K *m W^T *m (W *m v) = K *m v by rewrite !mulmxA -(mulmxA K) W2 mulmx1.
    rewrite eKZ eKv (quad_right _ _ W2). congr (_, _, _, _, _).
    case: b => //. congr (- 2%:R^-1 * (MVN_CONST + _ + _)).
    - congr log. by rewrite !det_mulmx mulrC mulrA -det_mulmx W2 det1 mul1r.
    - rewrite /posv !upper_sym_id // invmx_conj trmx_mul !mulmxA. by rewrite -(mulmxA v^T W^T W) W2 mulmx1 -(mulmxA (v^T *m invmx F) W^T W) W2 mulmx1. }
  case: (std_update _ _ _ _ _ _ _ _ _ _ _) => [[[[af Pf] mu] F] ll]. by rewrite /reorder_series /predict /=.
Qed.
Lemma quad_tr m k (A : 'M[R]_(m, k)) B : (quad_form_sym A B)^T = quad_form_sym A B.
Proof. by rewrite /quad_form_sym linearZ /= linearD /= trmxK addrC. Qed.
Lemma std_out_sym (u : inputs R n p r) a P : (o_Phat (std_step log MVN_CONST (@posv R) jitter fill u a P))^T = o_Phat (std_step log MVN_CONST (@posv R) jitter fill u a P).
Proof.
  rewrite /std_step. case: (std_update _ _ _ _ _ _ _ _ _ _ _) => [[[[af Pf] mu] F] ll]. rewrite /predict /=. by rewrite linearD /= !quad_tr.
Qed.
End Series.

(** ** Theorems: another basis or order of states and shocks *)
Section Theorems.
Context (R : realFieldType) (log : R -> R) (MVN_CONST jitter fill : R).
(** For every model, time-varying or not, any data with any entries missing, any jitter: log-likelihood and observation forecasts
    do not change, filtered and predicted states are the same states in the new order (basis). *)
Theorem C107_state_basis n n' p r r' (U : 'M[R]_(n', n)) (V : 'M[R]_(r', r)) (us : seq (inputs R n p r)) a0 P0 :
  U^T *m U = 1%:M -> U *m U^T = 1%:M -> V^T *m V = 1%:M ->
  match std_filter log MVN_CONST (@posv R) jitter fill us a0 P0,
        std_filter log MVN_CONST (@posv R) jitter fill (List.map (rebase U V) us) (U *m a0) (U *m P0 *m U^T) with
  | Common.Ok f, Common.Ok g =>
      loglike_obs g = loglike_obs f /\ observed_states g = observed_states f /\ observed_covs g = observed_covs f /\
      filtered_states g = List.map (mulmx U) (filtered_states f) /\ predicted_states g = List.map (mulmx U) (predicted_states f) /\
      filtered_covs g = List.map (fun P => U *m P *m U^T) (filtered_covs f) /\ predicted_covs g = List.map (fun P => U *m P *m U^T) (predicted_covs f)
  | Common.Err e, Common.Err e' => e = e'
  | _, _ => False
  end.
Proof.
  move=> U1 U2 V1. rewrite /std_filter.
  rewrite (@build_lift _ _ _ _ _ _ _ _ _ _ _ (@std_step R log MVN_CONST (@posv R) jitter fill n p r) (@std_step R log MVN_CONST (@posv R) jitter fill n' p r') (rebase U V) (mulmx U) (fun P => U *m P *m U^T) id id (fun _ _ => True) (fun _ => True)) //.
  - case: (build_graph _ us a0 P0) => [f|e] //. by rewrite /= !List.map_id.
  - move=> u a P _ _. split=> //. exact: std_rebase.
  - by elim: us => [|u us IH]; constructor.
Qed.
Theorem C107_state_basis_univariate n n' p r r' (U : 'M[R]_(n', n)) (V : 'M[R]_(r', r)) (m : mats R n p r) (ys : seq (obs R p)) a0 P0 :
  U^T *m U = 1%:M -> U *m U^T = 1%:M -> V^T *m V = 1%:M ->
  match uni_filter log MVN_CONST jitter m ys a0 P0,
        uni_filter log MVN_CONST jitter (Mats (U *m m_c m) (m_d m) (U *m m_T m *m U^T) (m_Z m *m U^T) (U *m m_R m *m V^T) (m_H m) (V *m m_Q m *m V^T)) ys (U *m a0) (U *m P0 *m U^T) with
  | Common.Ok f, Common.Ok g =>
      loglike_obs g = loglike_obs f /\ observed_states g = observed_states f /\ observed_covs g = observed_covs f /\
      filtered_states g = List.map (mulmx U) (filtered_states f) /\ predicted_states g = List.map (mulmx U) (predicted_states f) /\
      filtered_covs g = List.map (fun P => U *m P *m U^T) (filtered_covs f) /\ predicted_covs g = List.map (fun P => U *m P *m U^T) (predicted_covs f)
  | Common.Err e, Common.Err e' => e = e'
  | _, _ => False
  end.
Proof.
  move=> U1 U2 V1. rewrite /uni_filter.
  have -> : with_mats (Mats (U *m m_c m) (m_d m) (U *m m_T m *m U^T) (m_Z m *m U^T) (U *m m_R m *m V^T) (m_H m) (V *m m_Q m *m V^T)) ys = List.map (rebase U V) (with_mats m ys).
  { by rewrite /with_mats; elim: ys => [|y ys IH] //=; rewrite IH. }
  rewrite (@build_lift _ _ _ _ _ _ _ _ _ _ _ (@uni_step R log MVN_CONST jitter n p r) (@uni_step R log MVN_CONST jitter n' p r') (rebase U V) (mulmx U) (fun P => U *m P *m U^T) id id (fun _ _ => True) (fun _ => True)) //.
  - case: (build_graph _ (with_mats m ys) a0 P0) => [f|e] //. by rewrite /= !List.map_id.
  - move=> u a P _ _. split=> //. exact: uni_rebase.
  - by elim: (with_mats m ys) => [|u us IH]; constructor.
Qed.
(** Smoothed states as well; pinv is any function that satisfies the Moore-Penrose conditions. *)
Definition sm_step n r (pinv : forall m, 'M[R]_m -> 'M[R]_m) (jd : R) (f s : 'cV[R]_n * 'M[R]_n) (M : 'M[R]_n * 'M[R]_(n, r) * 'M[R]_r) : 'cV[R]_n * 'M[R]_n :=
  smoother_step jitter pinv jd f.1 f.2 s.1 s.2 M.1.1 M.1.2 M.2.
Theorem C107_state_basis_smoother n n' r r' (pinv : forall m, 'M[R]_m -> 'M[R]_m) jd (U : 'M[R]_(n', n)) (V : 'M[R]_(r', r)) filtered Ms :
  (forall m (A : 'M[R]_m), LapCov_Props.penrose A (pinv m A)) ->
  U^T *m U = 1%:M -> U *m U^T = 1%:M -> V^T *m V = 1%:M ->
  match smooth (@sm_step n r pinv jd) filtered Ms,
        smooth (@sm_step n' r' pinv jd) (List.map (fun s => (U *m s.1, U *m s.2 *m U^T)) filtered)
               (List.map (fun M => (U *m M.1.1 *m U^T, U *m M.1.2 *m V^T, V *m M.2 *m V^T)) Ms) with
  | Common.Ok l, Common.Ok l' => l' = List.map (fun s => (U *m s.1, U *m s.2 *m U^T)) l
  | Common.Err e, Common.Err e' => e = e'
  | _, _ => False
  end.
Proof.
  move=> Hp U1 U2 V1. set mv := fun s : 'cV[R]_n * 'M[R]_n => (U *m s.1, U *m s.2 *m U^T). set mm := (fun M : 'M[R]_n * 'M[R]_(n, r) * 'M[R]_r => _).
  have step : forall f s M, sm_step pinv jd (mv f) (mv s) (mm M) = mv (sm_step pinv jd f s M).
  { move=> [a P] [a_s P_s] [[T Rm] Q]. rewrite /sm_step /mv /mm /=. exact: smoother_rebase. }
  have scan : forall fs ms s, scan2 (sm_step pinv jd) (List.map mv fs) (List.map mm ms) (mv s) = List.map mv (scan2 (sm_step pinv jd) fs ms s).
  { elim=> [|f fs IH] [|M ms] s //=. by rewrite step IH. }
  rewrite /smooth firstn_map_drop -!List.map_rev. case: (List.rev filtered) => [|last l] //=. 
  by rewrite scan -List.map_rev List.map_app.
Qed.
(** The observed series in another order: same log-likelihood, same states, observation forecasts in the new order.  For every
    model and data; rows that are partly missing need uncorrelated measurement noise (C14: otherwise the masked covariance is not
    symmetric). *)
Theorem C107_series_order n p r (s : 'S_p) (us : seq (inputs R n p r)) a0 P0 : P0^T = P0 ->
  List.Forall (fun u => diagonal (in_H u) \/ complete fill (in_y u) /\ (in_H u)^T = in_H u) us ->
  match std_filter log MVN_CONST (@posv R) jitter fill us a0 P0,
        std_filter log MVN_CONST (@posv R) jitter fill (List.map (reorder_series s) us) a0 P0 with
  | Common.Ok f, Common.Ok g =>
      loglike_obs g = loglike_obs f /\ filtered_states g = filtered_states f /\ predicted_states g = predicted_states f /\
      filtered_covs g = filtered_covs f /\ predicted_covs g = predicted_covs f /\
      observed_states g = List.map (row_perm s) (observed_states f) /\ observed_covs g = List.map (fun F => row_perm s (col_perm s F)) (observed_covs f)
  | Common.Err e, Common.Err e' => e = e'
  | _, _ => False
  end.
Proof.
  move=> sP HH. rewrite /std_filter.
  have := (@build_lift _ _ _ _ _ _ _ _ _ _ _ (@std_step R log MVN_CONST (@posv R) jitter fill n p r) (@std_step R log MVN_CONST (@posv R) jitter fill n p r) (reorder_series s) id id (mulmx (perm_mx s)) (fun F => perm_mx s *m F *m (perm_mx s)^T) (fun _ P => P^T = P) (fun u => diagonal (in_H u) \/ complete fill (in_y u) /\ (in_H u)^T = in_H u) _ us a0 P0 HH sP). 
  move=> ->.
  - case: (build_graph _ us a0 P0) => [f|e] //. rewrite /= !List.map_id. do 5 (split=> //). split.
    + apply: List.map_ext => x. by rewrite row_permE.
    + apply: List.map_ext => x. by rewrite reorder_both.
  - move=> u a P Hu sP'. split; first exact: std_series. exact: std_out_sym.
Qed.
(** The order in which components are added does not matter. *)
Definition swap_states n1 n2 : 'M[R]_(n2 + n1, n1 + n2) := block_mx 0 1%:M 1%:M 0.
Lemma swap_trV n1 n2 : (swap_states n1 n2)^T = swap_states n2 n1.
Proof. by rewrite /swap_states tr_block_mx !trmx0 !trmx1. Qed.
Lemma swap_K n1 n2 : swap_states n2 n1 *m swap_states n1 n2 = 1%:M.
Proof. by rewrite /swap_states mulmx_block ?mul0mx ?mul1mx ?mulmx0 ?addr0 ?add0r -scalar_mx_block. Qed.
Lemma swap_col n1 n2 m (A : 'M[R]_(n1, m)) (B : 'M[R]_(n2, m)) : swap_states n1 n2 *m col_mx A B = col_mx B A.
Proof. by rewrite /swap_states mul_block_col ?mul0mx ?mul1mx ?addr0 ?add0r. Qed.
Lemma swap_block n1 n2 m1 m2 (A : 'M[R]_(n1, m1)) (B : 'M[R]_(n2, m2)) : swap_states n1 n2 *m block_mx A 0 0 B *m (swap_states m1 m2)^T = block_mx B 0 0 A.
Proof. by rewrite swap_trV /swap_states !mulmx_block ?mul0mx ?mul1mx ?mulmx0 ?mulmx1 ?addr0 ?add0r. Qed.
Lemma add_swap n1 n2 p r1 r2 (u : inputs R n1 p r1) (w : inputs R n2 p r2) y :
  rebase (swap_states n1 n2) (swap_states r1 r2) (add_models u w y) = add_models w u y.
Proof.
  rewrite /rebase /add_models /=. congr Inputs.
  - by rewrite swap_col. - by rewrite addrC. - by rewrite swap_block.
  - by rewrite swap_trV /swap_states mul_row_block ?mulmx0 ?mulmx1 ?addr0 ?add0r.
  - by rewrite swap_block. - by rewrite addrC. - by rewrite swap_block.
Qed.
Theorem C107_component_order n1 n2 p r1 r2 (l : seq (inputs R n1 p r1 * inputs R n2 p r2 * obs R p)) a1 a2 P1 P2 :
  match std_filter log MVN_CONST (@posv R) jitter fill (List.map (fun x => add_models x.1.1 x.1.2 x.2) l) (col_mx a1 a2) (block_mx P1 0 0 P2),
        std_filter log MVN_CONST (@posv R) jitter fill (List.map (fun x => add_models x.1.2 x.1.1 x.2) l) (col_mx a2 a1) (block_mx P2 0 0 P1) with
  | Common.Ok f, Common.Ok g =>
      loglike_obs g = loglike_obs f /\ observed_states g = observed_states f /\ observed_covs g = observed_covs f /\
      (forall i, List.nth i (filtered_states g) 0 = col_mx (dsubmx (List.nth i (filtered_states f) 0)) (usubmx (List.nth i (filtered_states f) 0))) /\
      (forall i, List.nth i (predicted_states g) 0 = col_mx (dsubmx (List.nth i (predicted_states f) 0)) (usubmx (List.nth i (predicted_states f) 0)))
  | Common.Err e, Common.Err e' => e = e'
  | _, _ => False
  end.
Proof.
  have K1 m1 m2 : (swap_states m1 m2)^T *m swap_states m1 m2 = 1%:M by rewrite swap_trV swap_K.
  have K2 m1 m2 : swap_states m1 m2 *m (swap_states m1 m2)^T = 1%:M by rewrite swap_trV swap_K.
  have := @C107_state_basis (n1 + n2) (n2 + n1) p (r1 + r2) (r2 + r1) (swap_states n1 n2) (swap_states r1 r2) (List.map (fun x => add_models x.1.1 x.1.2 x.2) l) (col_mx a1 a2) (block_mx P1 0 0 P2) (K1 _ _) (K2 _ _) (K1 _ _).
  rewrite swap_col swap_block List.map_map.
  have -> : List.map (fun x : inputs R n1 p r1 * inputs R n2 p r2 * obs R p => rebase (swap_states n1 n2) (swap_states r1 r2) (add_models x.1.1 x.1.2 x.2)) l = List.map (fun x => add_models x.1.2 x.1.1 x.2) l.
  { apply: List.map_ext => x. exact: add_swap. }
  have sw : forall v : 'cV[R]_(n1 + n2), swap_states n1 n2 *m v = col_mx (dsubmx v) (usubmx v) by move=> v; rewrite -{1}(vsubmxK v) swap_col.
  have nt : forall i (m : seq 'cV[R]_(n1 + n2)), List.nth i (List.map (mulmx (swap_states n1 n2)) m) 0 = col_mx (dsubmx (List.nth i m 0)) (usubmx (List.nth i m 0)).
  { move=> i m. rewrite -sw. elim: m i => [|v m IH] [|i] //=; by rewrite mulmx0. }
  case: (std_filter _ _ _ _ _ _ _ _) => [f|e]; case: (std_filter _ _ _ _ _ _ _ _) => [g|e'] //.
  move=> [-> [-> [-> [-> [-> _]]]]]. by do 3 (split=> //).
Qed.
End Theorems.
Lemma build_ok {A C Ob OC L Y : Type} (st : Y -> A -> C -> @step_out A C Ob OC L) u us a P : exists f, build_graph st (u :: us) a P = Common.Ok f.
Proof. have [f [E _]] := @KalmanScan_Proofs.build_ok _ _ _ _ _ _ st (u :: us) a P ltac:(discriminate). by exists f. Qed.
Local Notation QF := [realFieldType of rat].
(** Two series, two states with a shock each, the second entry of the second observation missing; swapped states, swapped series. *)
Definition two_series (y : obs QF 2) : inputs QF 2 2 2 :=
  Inputs y (const_mx 1) (\col_i (i%:R : QF)) (block_mx 1%:M (2%:R)%:M 0 (3%:R^-1)%:M : 'M_(1 + 1)) (\matrix_(i, j) (i%:R + j%:R + 1)) 1%:M (diag_mx (\row_i (i%:R + 1))) 1%:M.
Definition two_obs : seq (inputs QF 2 2 2) :=
  [:: two_series (fun i => Some (i%:R : QF)); two_series (fun i => if i == 0 then Some (5%:R : QF) else None)].
Example C107_example :
  (perm_mx (tperm 0 1) : 'M[QF]_2)^T *m perm_mx (tperm 0 1) = 1%:M /\ (perm_mx (tperm 0 1) : 'M[QF]_2) != 1%:M /\
  List.Forall (fun u => diagonal (in_H u) \/ complete 9%:R (in_y u) /\ (in_H u)^T = in_H u) two_obs /\
  exists f g : filter_out, std_filter id 1 (@posv _) (1 : QF) 9%:R two_obs (0 : 'cV[QF]_2) 1%:M = Common.Ok f /\
    std_filter id 1 (@posv _) (1 : QF) 9%:R (List.map (reorder_series (tperm 0 1)) two_obs) (0 : 'cV[QF]_2) 1%:M = Common.Ok g /\
    loglike_obs g = loglike_obs f.
Proof.
  have D : List.Forall (fun u => diagonal (in_H u) \/ complete 9%:R (in_y u) /\ (in_H u)^T = in_H u) two_obs.
  { by constructor; [|constructor; [|constructor]]; left => i j ne; rewrite /= mxE (negbTE ne) mulr0n. }
  split.
  { by rewrite tr_perm_mx -perm_mxM mulVg perm_mx1. }
  split.
  { apply/eqP => /matrixP /(_ 0 0). by rewrite !mxE tpermL. }
  split; first exact: D.
  have [f ef] := @build_ok _ _ _ _ _ _ (@std_step QF id 1 (@posv QF) 1 9%:R 2 2 2) (two_series (fun i => Some (i%:R : QF))) [:: two_series (fun i => if i == 0 then Some (5%:R : QF) else None)] 0 1%:M.
  have [g eg] := @build_ok _ _ _ _ _ _ (@std_step QF id 1 (@posv QF) 1 9%:R 2 2 2) (reorder_series (tperm 0 1) (two_series (fun i => Some (i%:R : QF)))) (List.map (reorder_series (tperm 0 1)) [:: two_series (fun i => if i == 0 then Some (5%:R : QF) else None)]) 0 1%:M.
  move: (@C107_series_order QF id 1 (1 : QF) 9%:R 2 2 2 (tperm 0 1) two_obs 0 1%:M (trmx1 _ _) D).
  rewrite /std_filter /two_obs [List.map _ (_ :: _)]/= ef.
  change (List.map (reorder_series (tperm 0 1)) [:: two_series (fun i => if i == 0 then Some (5%:R : QF) else None)]) with [:: reorder_series (tperm 0 1) (two_series (fun i => if i == 0 then Some (5%:R : QF) else None))] in eg.
  rewrite eg => -[E _]. by exists f, g.
Qed.
