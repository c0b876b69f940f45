(** C107, series order of the univariate filter: the series of one step may be processed in any order. *)
From Coq Require Import Ring Field Permutation.
From mathcomp Require Import all_ssreflect all_algebra fingroup perm.
From Verif Require Common KalmanScan_Model KalmanScan_Proofs.
From Verif Require Import McTac Kalman_Model Kalman_Spec Kalman_Proofs Kalman_Seq KalmanUni_Model Equiv_Props.
Set Implicit Arguments.
Unset Strict Implicit.
Unset Printing Implicit Defensive.
Import Order.Theory GRing.Theory Num.Theory.
Import KalmanScan_Model.
Local Open Scope ring_scope.

Section Swap.
Context (R : realFieldType) (log : R -> R) (j : R) (n : nat).
Hypothesis Hlog : forall x y, 0 < x -> 0 < y -> log (x * y) = log x + log y.
Add Field ff_eu : (@f_field R).
Notation uni_inner := (uni_inner log j).
Notation uni_scan := (uni_scan log j).
(** a series that is not missing has a noise variance that is not negative, and positive unless there is a jitter *)
Definition fine (u : uni_row R n) := r_nan u \/ 0 <= r_h u /\ 0 < r_h u + j.
Definition F0 (u : uni_row R n) (P : 'M[R]_n) := (r_Z u *m (P *m (r_Z u)^T)) 0 0 + r_h u.
Definition skips (u : uni_row R n) P := (F0 u P == 0) || r_nan u.

Lemma inner_skip u a P : skips u P -> (uni_inner u a P).1.1.1.1 = a /\ (uni_inner u a P).1.1.1.2 = P /\ (uni_inner u a P).2 = 0.
Proof.
  rewrite /Kalman_Model.uni_inner /skips /F0 => ->. rewrite /= !scale0r scaler0 addr0 mul0mx scaler0 subr0. by [].
Qed.
Lemma inner_runs u a P : skips u P = false ->
  let v := r_y u - ((r_Z u *m a) 0 0 + r_d u) in let F := F0 u P + j in let X := P *m (r_Z u)^T in
  (uni_inner u a P).1.1.1.1 = a + (v / F) *: X /\ (F != 0 -> (uni_inner u a P).1.1.1.2 = P - F^-1 *: (X *m X^T)) /\ (uni_inner u a P).2 = log F + v ^+ 2 / F.
Proof.
  rewrite /Kalman_Model.uni_inner /skips /F0 => -> /=. rewrite !scale1r. split; [|split] => //.
  - by rewrite scalerA.
  - move=> nz. by rewrite -scalemxAl [(_ *: _)^T]linearZ /= -scalemxAr !scalerA mulfV // mul1r.
Qed.
Lemma nonneg_q (z : 'rV[R]_n) P : psd P -> 0 <= (z *m (P *m z^T)) 0 0.
Proof. move=> [_ pP]. have := pP z^T. by rewrite trmxK mulmxA. Qed.
Lemma F_pos u P : psd P -> fine u -> r_nan u = false -> 0 < F0 u P + j.
Proof. move=> pP [-> //|[h hj]] _. rewrite /F0 -addrA. by apply: ltr_paddl => //; apply: nonneg_q. Qed.
(** a fine series that is not missing has F = 0 only when it does not see the state at all *)
Lemma F0_zero u P : psd P -> fine u -> r_nan u = false -> F0 u P = 0 -> P *m (r_Z u)^T = 0 /\ r_h u = 0.
Proof.
  move=> pP [-> //|[h hj]] _ E. have q := nonneg_q (r_Z u) pP. rewrite /F0 in E.
  have e0 : (r_Z u *m (P *m (r_Z u)^T)) 0 0 = 0 by apply/eqP; rewrite eq_le q andbT -E ler_addl.
  split; last by move: E; rewrite e0 add0r.
  apply: psd_ker => //. by rewrite trmxK -mulmxA.
Qed.
Lemma inner_psd u a P : psd P -> fine u -> psd (uni_inner u a P).1.1.1.2.
Proof.
  move=> pP fu. case s: (skips u P); first by have [_ [-> _]] := inner_skip a s.
  have nn : r_nan u = false by move: s; rewrite /skips; case: (r_nan u) => //; rewrite orbT.
  have Fp := F_pos pP fu nn. have [_ [E _]] := inner_runs a s. rewrite E; last by rewrite gt_eqF.
  case: fu => [|[h hj]]; first by rewrite nn.
  have pH : psd ((r_h u + j)%:M : 'M[R]_1).
  { rewrite -scalemx1. apply: psd_scal1. exact: ltW. }
  have EF : innov_cov P (r_Z u) (r_h u + j)%:M = (F0 u P + j)%:M.
  { rewrite [LHS]mx11_scalar /innov_cov mxE [_%:M 0 0]mxE eqxx mulr1n addrA /F0 mulmxA. by []. }
  have uF : innov_cov P (r_Z u) (r_h u + j)%:M \in unitmx by rewrite EF unitmxE det_scalar1 unitfE gt_eqF.
  have := cond_cov_psd pP pH uF. rewrite /cond_cov /gain EF invmx_scalar mul_mx_scalar -!scalemxAl trmx_mul trmxK (psd_sym pP) !mulmxA. by [].
Qed.
Lemma skip_stays u w a P : psd P -> fine u -> fine w -> skips u P -> skips u (uni_inner w a P).1.1.1.2.
Proof.
  move=> pP fu fw su. case sw: (skips w P); first by have [_ [-> _]] := inner_skip a sw.
  case nu: (r_nan u); first by rewrite /skips nu orbT.
  have nw : r_nan w = false by move: sw; rewrite /skips; case: (r_nan w) => //; rewrite orbT.
  have Fw := F_pos pP fw nw. have [_ [E _]] := inner_runs a sw. rewrite E; last by rewrite gt_eqF.
  have /eqP E0 : F0 u P == 0 by move: su; rewrite /skips nu orbF.
  have [X0 h0] := F0_zero pP fu nu E0.
  have X1 : r_Z u *m P = 0 by rewrite -[P](psd_sym pP) -[r_Z u]trmxK -trmx_mul X0 trmx0.
  have -> : skips u (P - (F0 w P + j)^-1 *: (P *m (r_Z w)^T *m (P *m (r_Z w)^T)^T)) = true; last by [].
  move: (_^-1) => c. rewrite /skips /F0 h0 addr0 (mulmxA (r_Z u)) (mulmxBr (r_Z u)) X1 -scalemxAr !mulmxA X1 !mul0mx scaler0 subr0 mul0mx mxE eqxx. by [].
Qed.
Lemma run_stays u w a P : psd P -> fine u -> fine w -> skips u P = false -> skips u (uni_inner w a P).1.1.1.2 = false.
Proof.
  move=> pP fu fw su. case sw: (skips w P); first by have [_ [-> _]] := inner_skip a sw.
  have nu : r_nan u = false by move: su; rewrite /skips; case: (r_nan u) => //; rewrite orbT.
  have nw : r_nan w = false by move: sw; rewrite /skips; case: (r_nan w) => //; rewrite orbT.
  rewrite /skips nu orbF. apply/eqP => E.
  have p1 := inner_psd a pP fw. have [X1 h1] := F0_zero p1 fu nu E.
  have Fw := F_pos pP fw nw. have [_ [E1 _]] := inner_runs a sw. rewrite E1 in X1; last by rewrite gt_eqF.
  (* P u' is a multiple t of P w' *)
  set X := P *m (r_Z u)^T. set Y := P *m (r_Z w)^T in X1.
  have EX : X = ((F0 w P + j)^-1 * (Y^T *m (r_Z u)^T) 0 0) *: Y.
  { move: X1. rewrite mulmxBl -scalemxAl -mulmxA {1}[Y^T *m _]mx11_scalar mul_mx_scalar scalerA => /eqP. by rewrite subr_eq0 => /eqP. }
  set s := (Y^T *m (r_Z u)^T) 0 0 in EX.
  have Es : (r_Z w *m X) 0 0 = s.
  { rewrite /X /s /Y mulmxA trmx_mul trmxK (psd_sym pP). by []. }
  have Es2 : s = (F0 w P + j)^-1 * s * ((r_Z w *m Y) 0 0) by rewrite -{1}Es EX -scalemxAr mxE.
  have s0 : s = 0.
  { apply/eqP. apply/negPn/negP => ns.
    have : (F0 w P + j) = (r_Z w *m Y) 0 0.
    { apply: (mulfI ns). rewrite {1}Es2. move: Fw => /gt_eqF /negbT /eqP Fw. rewrite [LHS]mulrC. move: (F0 w P + j) Fw ((r_Z w *m Y) 0 0) => f nf q.
      rewrite !mulrA mulfV ?mul1r //. by apply/eqP. }
    rewrite /F0 -/Y -addrA => /eqP. rewrite eq_sym addrC -subr_eq subrr eq_sym => /eqP hj0.
    case: fw => [|[_ hj]]; first by rewrite nw. by rewrite hj0 ltxx in hj. }
  have X0 : X = 0 by rewrite EX s0 mulr0 scale0r.
  move: su. by rewrite /skips nu orbF /F0 -/X X0 mulmx0 mxE h1 addr0 eqxx.
Qed.
Lemma sc1 (A h s x : R) : x != 0 -> A - s / x * s + h + j = (x * (A + h + j) - s ^+ 2) / x.
Proof. move=> /eqP x0. fchange. field. exact: x0. Qed.
Lemma sc2 (A y d s p x : R) : x != 0 -> y - (A + p / x * s + d) = y - (A + d) - s * p / x.
Proof. move=> /eqP x0. fchange. field. exact: x0. Qed.
Lemma sc3 (A B s p q x y D : R) : x != 0 -> D != 0 -> D = x * y - s ^+ 2 ->
  p / x * A + (q - s * p / x) / (D / x) * (B - s / x * A) = (p * y - s * q) / D * A + (q * x - s * p) / D * B.
Proof.
  move=> /eqP x0 /eqP D0 ED. have -> : y = (D + s ^+ 2) / x. { rewrite ED subrK [x * y]mulrC mulfK //. by apply/eqP. }
  clear ED. fchange. field. by split; [exact: D0|exact: x0].
Qed.
Lemma sc4 (P A A' B B' s x y D : R) : x != 0 -> D != 0 -> D = x * y - s ^+ 2 ->
  P - x^-1 * (A * A') - (D / x)^-1 * ((B - s / x * A) * (B' - s / x * A')) = P - (y / D * (A * A') + x / D * (B * B')) + s / D * (A * B' + B * A').
Proof.
  move=> /eqP x0 /eqP D0 ED. have -> : y = (D + s ^+ 2) / x. { rewrite ED subrK [x * y]mulrC mulfK //. by apply/eqP. }
  clear ED. fchange. field. by split; [exact: D0|exact: x0].
Qed.
Lemma sc5 (s p q x y D : R) : x != 0 -> D != 0 -> D = x * y - s ^+ 2 ->
  p ^+ 2 / x + (q - s * p / x) ^+ 2 / (D / x) = (p ^+ 2 * y + q ^+ 2 * x - (s * p * q) *+ 2) / D.
Proof.
  move=> /eqP x0 /eqP D0 ED. have -> : y = (D + s ^+ 2) / x. { rewrite ED subrK [x * y]mulrC mulfK //. by apply/eqP. }
  clear ED. rewrite mulr2n. fchange. field. by split; [exact: D0|exact: x0].
Qed.
Lemma scm (A B : 'M[R]_1) c : (A - c *: B) 0 0 = A 0 0 - c * B 0 0. Proof. by rewrite !mxE. Qed.
Lemma scp (A B : 'M[R]_1) c : (A + c *: B) 0 0 = A 0 0 + c * B 0 0. Proof. by rewrite !mxE. Qed.
Lemma sc3v (X Y : 'cV[R]_n) s p q x y D : x != 0 -> D != 0 -> D = x * y - s ^+ 2 ->
  (p / x) *: X + ((q - s * p / x) / (D / x)) *: (Y - (s / x) *: X) = ((p * y - s * q) / D) *: X + ((q * x - s * p) / D) *: Y.
Proof. move=> x0 D0 ED. apply/matrixP => i k. rewrite !mxE. exact: sc3. Qed.
Lemma sc4v (P : 'M[R]_n) (X Y : 'cV[R]_n) s x y D : x != 0 -> D != 0 -> D = x * y - s ^+ 2 ->
  P - x^-1 *: (X *m X^T) - (D / x)^-1 *: ((Y - (s / x) *: X) *m (Y - (s / x) *: X)^T) =
  P - ((y / D) *: (X *m X^T) + (x / D) *: (Y *m Y^T)) + (s / D) *: (X *m Y^T + Y *m X^T).
Proof. move=> x0 D0 ED. apply/matrixP => i k. rewrite !mxE !big_ord1 !mxE. exact: sc4. Qed.
Lemma two_runs u w a P : psd P -> fine u -> fine w -> skips u P = false -> skips w P = false ->
  let X := P *m (r_Z u)^T in let Y := P *m (r_Z w)^T in let x := F0 u P + j in let y := F0 w P + j in let s := (r_Z w *m X) 0 0 in
  let p := r_y u - ((r_Z u *m a) 0 0 + r_d u) in let q := r_y w - ((r_Z w *m a) 0 0 + r_d w) in let D := x * y - s ^+ 2 in
  let o1 := uni_inner u a P in let o2 := uni_inner w o1.1.1.1.1 o1.1.1.1.2 in
  0 < D /\ o2.1.1.1.1 = a + (((p * y - s * q) / D) *: X + ((q * x - s * p) / D) *: Y) /\
  o2.1.1.1.2 = P - ((y / D) *: (X *m X^T) + (x / D) *: (Y *m Y^T)) + (s / D) *: (X *m Y^T + Y *m X^T) /\
  o1.2 + o2.2 = log D + (p ^+ 2 * y + q ^+ 2 * x - (s * p * q) *+ 2) / D.
Proof.
  move=> pP fu fw su sw X Y x y s p q D o1 o2.
  have nu : r_nan u = false by move: su; rewrite /skips; case: (r_nan u) => //; rewrite orbT.
  have nw : r_nan w = false by move: sw; rewrite /skips; case: (r_nan w) => //; rewrite orbT.
  have xp : 0 < x := F_pos pP fu nu. have x0 : x != 0 by rewrite gt_eqF.
  have [Ea [EP El]] := inner_runs a su. move: (EP x0) => {}EP. rewrite -/X -/x -/p in Ea EP El.
  have sw1 := run_stays a pP fw fu sw. have p1 := inner_psd a pP fu.
  have Fp := F_pos p1 fw nw. rewrite EP in sw1 Fp.
  have [Ea2 [EP2 El2]] := inner_runs (uni_inner u a P).1.1.1.1 sw1. rewrite Ea in Ea2 EP2 El2.
  set P1 := P - _ in sw1 Fp Ea2 EP2 El2.
  have Xw : X^T *m (r_Z w)^T = s%:M by rewrite -trmx_mul [r_Z w *m X]mx11_scalar tr_scalar_mx.
  have EX1 : P1 *m (r_Z w)^T = Y - (s / x) *: X.
  { rewrite /P1 mulmxBl -scalemxAl -mulmxA Xw mul_mx_scalar scalerA [x^-1 * s]mulrC. by []. }
  have EF1 : F0 w P1 + j = D / x.
  { rewrite /F0 EX1 mulmxBr -scalemxAr. rewrite /D /y /F0 -/Y. move: (r_Z w *m Y) => A.
    have -> : (A - (s / x) *: (r_Z w *m X)) 0 0 = A 0 0 - s / x * s by rewrite scm.
    exact: sc1. }
  have Ev : r_y w - ((r_Z w *m (a + (p / x) *: X)) 0 0 + r_d w) = q - s * p / x.
  { rewrite mulmxDr -scalemxAr. have -> : (r_Z w *m a + (p / x) *: (r_Z w *m X)) 0 0 = (r_Z w *m a) 0 0 + p / x * s by rewrite scp.
    exact: sc2. }
  rewrite EF1 in Fp EP2 Ea2 El2. rewrite EX1 Ev in Ea2. rewrite Ev in El2. rewrite EX1 in EP2.
  have Dp : 0 < D by move: Fp; rewrite pmulr_lgt0 ?invr_gt0.
  have D0 : D != 0 by rewrite gt_eqF.
  rewrite /o2 /o1 Ea EP -/P1. split; [exact: Dp|split; [|split]].
  - rewrite Ea2 -addrA. congr (_ + _). exact: sc3v.
  - rewrite EP2; last by rewrite gt_eqF. rewrite /P1. exact: sc4v.
  - rewrite El El2 addrACA -Hlog // [x * _]mulrC divfK // (sc5 p q x0 D0 (erefl D)) //.
Qed.
(** two series of one step in the other order *)
Lemma swap_two u w a P : psd P -> fine u -> fine w ->
  let o1 := uni_inner u a P in let o2 := uni_inner w o1.1.1.1.1 o1.1.1.1.2 in
  let o1' := uni_inner w a P in let o2' := uni_inner u o1'.1.1.1.1 o1'.1.1.1.2 in
  o2.1.1.1.1 = o2'.1.1.1.1 /\ o2.1.1.1.2 = o2'.1.1.1.2 /\ o1.2 + o2.2 = o1'.2 + o2'.2.
Proof.
  move=> pP fu fw o1 o2 o1' o2'. case su: (skips u P).
  - have [E1 [E2 E3]] := inner_skip a su. rewrite /o2 /o1 E1 E2 E3 -/o1'.
    have [-> [-> ->]] := inner_skip o1'.1.1.1.1 (skip_stays a pP fu fw su). by rewrite addrC.
  - case sw: (skips w P).
    + have [E1 [E2 E3]] := inner_skip a sw. rewrite /o2' /o1' E1 E2 E3 -/o1.
      have [-> [-> ->]] := inner_skip o1.1.1.1.1 (skip_stays a pP fw fu sw). by rewrite addrC.
    + have [_ [A1 [A2 A3]]] := two_runs a pP fu fw su sw. have [_ [B1 [B2 B3]]] := two_runs a pP fw fu sw su.
      rewrite /o2 /o1 /o2' /o1'. rewrite A1 A2 A3 B1 B2 B3.
      have Es : (r_Z w *m (P *m (r_Z u)^T)) 0 0 = (r_Z u *m (P *m (r_Z w)^T)) 0 0.
      { rewrite -[r_Z w *m _]trmxK [_^T 0 0]mxE. congr (fun_of_matrix _ 0 0). by rewrite !trmx_mul trmxK (psd_sym pP) mulmxA. }
      rewrite Es. set s := (_ *m _) 0 0. set x := F0 u P + j. set y := F0 w P + j. rewrite [y * x]mulrC.
      split; [|split].
      * by congr (_ + _); rewrite addrC.
      * congr (_ - _ + _ *: _); by rewrite addrC.
      * congr (_ + (_ - _ *+ 2) / _); first by rewrite addrC. by rewrite -!mulrA; congr (_ * _); rewrite mulrC.
Qed.
(** all series of one step in any order *)
Lemma scan_perm us us' : Permutation us us' -> List.Forall fine us -> forall a P, psd P ->
  (uni_scan us a P).1.1 = (uni_scan us' a P).1.1 /\ (uni_scan us a P).1.2 = (uni_scan us' a P).1.2 /\
  \sum_(l <- (uni_scan us a P).2) l = \sum_(l <- (uni_scan us' a P).2) l.
Proof.
  have S : forall (u : uni_row R n) us (a : 'cV[R]_n) (P : 'M[R]_n), uni_scan (u :: us) a P = let o := uni_inner u a P in let o' := uni_scan us o.1.1.1.1 o.1.1.1.2 in (o'.1.1, o'.1.2, o.2 :: o'.2).
  { move=> u l a P. rewrite uni_scan_cons. case: (uni_inner u a P) => [[[[a1 P1] ?] ?] l1]. cbv zeta. cbn [fst snd]. by case: (uni_scan l a1 P1) => [[a2 P2] ls]. }
  elim=> {us us'} [|u us us' _ IH|u w us|us1 us2 us3 H1 IH1 H2 IH2] // Hf a P pP.
  - inversion Hf; subst. rewrite !S. cbv zeta. cbn [fst snd]. have [-> [-> E]] := IH H2 (uni_inner u a P).1.1.1.1 _ (inner_psd a pP H1).
    by rewrite !big_cons E.
  - inversion Hf as [|? ? fw Hf']; subst. inversion Hf' as [|? ? fu _]; subst. rewrite !S. cbv zeta. cbn [fst snd].
    have [E1 [E2 E3]] := swap_two a pP fw fu. rewrite !(S u) !(S w). cbv zeta. cbn [fst snd]. rewrite E1 E2. split; [|split] => //.
    by rewrite !big_cons !addrA -E3.
  - have [-> [-> ->]] := IH1 Hf a P pP. apply: IH2 => //. by apply: Permutation_Forall Hf.
Qed.
End Swap.

Section Order.
Context (R : realFieldType) (log : R -> R) (MVN_CONST jitter : R).
Hypothesis j0 : 0 <= jitter.
Hypothesis Hlog : forall x y, 0 < x -> 0 < y -> log (x * y) = log x + log y.
(** The noise variances are not negative, and positive unless there is a jitter. *)
Definition good_noise p (H : 'M[R]_p) := forall i, 0 <= H i i /\ 0 < H i i + jitter.

Lemma perm_eq_Permutation (T : eqType) (s t : seq T) : perm_eq s t -> Permutation s t.
Proof.
  move=> H. apply: (catCA_perm_ind (P := fun x => Permutation s x) _ H); last exact: Permutation_refl.
  move=> s1 s2 s3 E. apply: (Permutation_trans E). rewrite !catA. apply: Permutation_app_tail. exact: Permutation_app_comm.
Qed.
Lemma rows_perm n p (s : 'S_p) (y : obs R p) (d : 'cV[R]_p) (Z : 'M[R]_(p, n)) (H : 'M[R]_p) :
  Permutation (uni_rows y d Z H) (uni_rows (fun i => y (s i)) (row_perm s d) (row_perm s Z) (row_perm s (col_perm s H))).
Proof.
  set g := fun i => Row (if isnan_mask y i then 0 else odflt 0 (y i)) (if isnan_mask y i then 0 else row i Z) (d i 0) (if isnan_mask y i then 0 else H i i) (isnan_mask y i).
  have mE : forall (l : seq 'I_p), [seq g i | i <- l] = List.map g l by elim=> [|i l IH] //=; rewrite IH.
  have -> : uni_rows y d Z H = List.map g (enum 'I_p) by rewrite -mE.
  have -> : uni_rows (fun i => y (s i)) (row_perm s d) (row_perm s Z) (row_perm s (col_perm s H)) = List.map g (map s (enum 'I_p)).
  { rewrite -mE -map_comp. apply: eq_map => i. rewrite /= /g /isnan_mask !mxE.
    case: (y (s i)) => [v|]; congr Row. by apply/rowP => k; rewrite !mxE. }
  apply: Permutation_map. apply: perm_eq_Permutation. apply: uniq_perm.
  - exact: enum_uniq.
  - rewrite map_inj_uniq; [exact: enum_uniq|exact: perm_inj].
  - move=> i. rewrite mem_enum inE. symmetry. apply/mapP. exists ((s^-1)%g i); first by rewrite mem_enum. by rewrite permKV.
Qed.
Lemma rows_fine n p (y : obs R p) (d : 'cV[R]_p) (Z : 'M[R]_(p, n)) (H : 'M[R]_p) : good_noise H -> List.Forall (@fine R jitter n) (uni_rows y d Z H).
Proof.
  move=> gH. rewrite /uni_rows. elim: (enum 'I_p) => [|i l IH] /=; first by constructor. constructor; last exact: IH.
  rewrite /fine /=. case: (isnan_mask y i); [by left|by right].
Qed.
(** One step: the filtered mean and covariance do not depend on the order of the series, and neither does the log-likelihood, as long
    as no series' contribution log F + v^2/F happens to be exactly zero: such a contribution is taken for a missing entry. *)
Theorem C107_series_order_univariate_step n p (s : 'S_p) (y : obs R p) (d : 'cV[R]_p) (Z : 'M[R]_(p, n)) (H : 'M[R]_p) (a : 'cV[R]_n) (P : 'M[R]_n) :
  psd P -> good_noise H ->
  let terms y d Z H := (uni_scan log jitter (@uni_rows R n p y d Z H) a P).2 in
  let y' := (fun i => y (s i)) in let d' := row_perm s d in let Z' := row_perm s Z in let H' := row_perm s (col_perm s H) in
  let o := uni_update log MVN_CONST jitter y d Z H a P in let o' := uni_update log MVN_CONST jitter y' d' Z' H' a P in
  o'.1 = o.1 /\ (count (fun l => l != 0) (terms y' d' Z' H') = count (fun l => l != 0) (terms y d Z H) -> o'.2 = o.2).
Proof.
  move=> pP gH terms y' d' Z' H' o o'.
  have [E1 [E2 E3]] := scan_perm Hlog (rows_perm s y d Z H) (rows_fine y d Z gH) a pP.
  rewrite -/y' -/d' -/Z' -/H' in E1 E2 E3.
  rewrite /o /o' /uni_update /terms. move: E1 E2 E3.
  case: (uni_scan _ _ (uni_rows y d Z H) a P) => [[a1 P1] l1]. case: (uni_scan _ _ (uni_rows y' d' Z' H') a P) => [[a2 P2] l2] /= -> -> E. split=> //.
  move=> C. by rewrite /uni_ll C E.
Qed.
Lemma uni_scan_psd n us : List.Forall (@fine R jitter n) us -> forall a P, psd P -> psd (uni_scan log jitter us a P).1.2.
Proof.
  elim: us => [|u us IH] Hf a P pP //. inversion Hf; subst. have := IH H2 (uni_inner log jitter u a P).1.1.1.1 _ (inner_psd log a pP H1).
  rewrite uni_scan_cons. case: (uni_inner log jitter u a P) => [[[[a1 P1] ?] ?] l1]. cbn [fst snd]. by case: (uni_scan log jitter us a1 P1) => [[a2 P2] ls].
Qed.
(** Whole runs, any data with missing entries: the filtered and the predicted states and covariances do not depend on the order of the series. *)
Theorem C107_series_order_univariate n p r (s : 'S_p) (m : mats R n p r) (ys : seq (obs R p)) a0 P0 : psd P0 -> psd (m_Q m) -> good_noise (m_H m) ->
  match uni_filter log MVN_CONST jitter m ys a0 P0,
        uni_filter log MVN_CONST jitter (Mats (m_c m) (row_perm s (m_d m)) (m_T m) (row_perm s (m_Z m)) (m_R m) (row_perm s (col_perm s (m_H m))) (m_Q m))
                   (List.map (fun y i => y (s i)) ys) a0 P0 with
  | Common.Ok f, Common.Ok g =>
      filtered_states g = filtered_states f /\ predicted_states g = predicted_states f /\
      filtered_covs g = filtered_covs f /\ predicted_covs g = predicted_covs f
  | Common.Err e, Common.Err e' => e = e'
  | _, _ => False
  end.
Proof.
  move=> pP pQ gH. set m' := Mats _ _ _ _ _ _ _.
  have st : forall (y : obs R p) a P, psd P ->
    let o := uni_step log MVN_CONST jitter (Inputs y (m_c m) (m_d m) (m_T m) (m_Z m) (m_R m) (m_H m) (m_Q m)) a P in
    let o' := uni_step log MVN_CONST jitter (Inputs (fun i => y (s i)) (m_c m') (m_d m') (m_T m') (m_Z m') (m_R m') (m_H m') (m_Q m')) a P in
    [/\ o_af o' = o_af o, o_ahat o' = o_ahat o, o_Pf o' = o_Pf o, o_Phat o' = o_Phat o & psd (o_Phat o)].
  { move=> y a P pP1. have [E _] := C107_series_order_univariate_step s y (m_d m) (m_Z m) a pP1 gH.
    have pf : psd (uni_update log MVN_CONST jitter y (m_d m) (m_Z m) (m_H m) a P).1.2.
    { rewrite /uni_update. have := uni_scan_psd (rows_fine y (m_d m) (m_Z m) gH) a pP1. case: (uni_scan _ _ _ a P) => [[a1 P1] l1] /= p1.
      apply: psd_stabilize => //. rewrite (psd_sym p1) -mulr2n -scaler_nat scalerA mulVf ?scale1r // pnatr_eq0 //. }
    rewrite /uni_step /=. move: E pf.
    case: (uni_update _ _ _ y _ _ _ a P) => [[a1 P1] l1]. case: (uni_update _ _ _ _ _ _ _ a P) => [[a2 P2] l2] /= [-> ->] pf.
    case: (uni_obs _ _ _ a P _) => [mu F]. case: (uni_obs _ _ _ a P _) => [mu' F'].
    split=> //=.
    apply: psd_add; exact: psd_quad. }
  have sc : forall ys a P, psd P ->
    let l := scan (@uni_step R log MVN_CONST jitter n p r) (with_mats m ys) a P in
    let l' := scan (@uni_step R log MVN_CONST jitter n p r) (with_mats m' (List.map (fun y i => y (s i)) ys)) a P in
    [/\ List.map (fun o => o_af o) l' = List.map (fun o => o_af o) l, List.map (fun o => o_ahat o) l' = List.map (fun o => o_ahat o) l,
        List.map (fun o => o_Pf o) l' = List.map (fun o => o_Pf o) l & List.map (fun o => o_Phat o) l' = List.map (fun o => o_Phat o) l].
  { elim=> [|y l IH] a P pP1 //=. have [E1 E2 E3 E4 p2] := st y a P pP1. rewrite E1 E2 E3 E4. have [-> -> -> ->] := IH (o_ahat (uni_step log MVN_CONST jitter (Inputs y (m_c m) (m_d m) (m_T m) (m_Z m) (m_R m) (m_H m) (m_Q m)) a P)) _ p2. by []. }
  rewrite /uni_filter. case: ys => [|y ys]; first by [].
  have [f [Ef _]] := @KalmanScan_Proofs.build_ok _ _ _ _ _ _ (@uni_step R log MVN_CONST jitter n p r) (with_mats m (y :: ys)) a0 P0 ltac:(discriminate).
  have [g [Eg _]] := @KalmanScan_Proofs.build_ok _ _ _ _ _ _ (@uni_step R log MVN_CONST jitter n p r) (with_mats m' (List.map (fun y i => y (s i)) (y :: ys))) a0 P0 ltac:(discriminate).
  rewrite Ef Eg. have [E1 E2 E3 E4] := sc (y :: ys) a0 P0 pP.
  move: Ef Eg. rewrite /build_graph /postprocess. move: E1 E2 E3 E4.
  move: (scan _ (with_mats m (y :: ys)) a0 P0) (scan _ (with_mats m' _) a0 P0) => l l' E1 E2 E3 E4.
  case: ifP => // _ [<-]. case: ifP => // _ [<-] /=. by rewrite E1 E2 E3 E4.
Qed.
End Order.

Local Notation QF := [realFieldType of rat].
(** Two series seen through different rows, one without noise, jitter one, an observation with a missing entry, the series swapped. *)
Example C107_series_order_univariate_example :
  let H : 'M[QF]_2 := diag_mx (\row_i (i%:R)) in let y : obs QF 2 := fun i => if i == 0 then Some 5%:R else None in
  psd (1%:M : 'M[QF]_2) /\ good_noise 1 H /\ (0 : QF) <= 1 /\ (forall u w : QF, 0 < u -> 0 < w -> (fun _ => 0) (u * w) = (fun _ => 0) u + (fun _ => 0) w :> QF) /\
  (fun i => y ((tperm 0 1 : 'S_2) i)) <> y.
Proof.
  move=> H y. split; [|split; [|split; [|split]]].
  - rewrite -[1%:M]scale1r. exact: psd_scal1.
  - move=> i. rewrite /H !mxE eqxx mulr1n. split; first exact: ler0n. by rewrite ltr_paddl ?ler0n ?ltr01.
  - exact: ler01.
  - by move=> u w _ _; rewrite addr0.
  - move=> E. have := congr1 (fun f => f 0) E. by rewrite /y /= tpermL.
Qed.
