(** The smoother conditions on the whole series. *)
From mathcomp Require Import all_ssreflect all_algebra.
From Verif Require Common KalmanScan_Model KalmanScan_Spec KalmanScan_Proofs.
From Verif Require Import McTac Kalman_Model Kalman_Spec Kalman_Proofs Kalman_Seq Kalman_LL Kalman_Run Joint_Spec Joint_Proofs Joint_Stack Joint_Run.
Set Implicit Arguments.
Unset Strict Implicit.
Unset Printing Implicit Defensive.
Import Order.Theory GRing.Theory Num.Theory.
Local Open Scope ring_scope.

Section Core.
Context (R : realFieldType) (N : nat).
Lemma gram_null_l q m (D : 'M[R]_(q, m)) (W : 'M[R]_(m, N)) : D *m gram W = 0 -> D *m W = 0.
Proof. move=> E. apply/row_matrixP => i. rewrite row_mul row0. apply: gram_null. by rewrite -row_mul E row0. Qed.
Lemma gram_sym m (W : 'M[R]_(m, N)) : (gram W)^T = gram W. Proof. by rewrite /gram trmx_mul trmxK. Qed.
Lemma core_smooth n m m2 r mX (X : 'M[R]_(n, N)) mY (Y : 'M[R]_(m, N)) yd a P (eta : 'M[R]_(r, N)) (T : 'M[R]_n) Rm
    (mY2 : 'cV[R]_m2) (Y2 : 'M[R]_(m2, N)) yd2 a_s Ps (pin : 'M[R]_n) :
  let X1 := T *m X + Rm *m eta in let Ph := T *m P *m T^T + Rm *m gram eta *m Rm^T in
  isCond mX X mY Y yd a P -> X *m eta^T = 0 -> Y *m eta^T = 0 ->
  isCond (T *m mX) X1 (col_mx mY mY2) (col_mx Y Y2) (col_mx yd yd2) a_s Ps ->
  Ph *m pin *m Ph = Ph ->
  (forall (B1 : 'M[R]_n) (B2 : 'M[R]_(n, m)) (B3 : 'M[R]_n), let U := B1 *m X + B2 *m Y + B3 *m X1 in U *m Y^T = 0 -> U *m X1^T = 0 -> U *m Y2^T = 0) ->
  let G := (pin *m T *m P)^T in
  isCond mX X (col_mx mY mY2) (col_mx Y Y2) (col_mx yd yd2) (a + G *m (a_s - T *m a)) (P + G *m (Ps - Ph) *m G^T).
Proof.
  move=> X1 Ph [A [O Ea EP]] Xe Ye [B [OB EaB EPB]] Pen Fut G.
  set E := X - A *m Y in O EP. set YN := col_mx Y Y2 in OB EaB EPB *. pose W := T *m E + Rm *m eta. pose V := X1 - B *m YN.
  have eE : E *m eta^T = 0 by rewrite mulmxBl Xe -mulmxA Ye mulmx0 subrr.
  have eY : eta *m Y^T = 0 by rewrite -[eta]trmxK -trmx_mul Ye trmx0.
  have eE' : eta *m E^T = 0 by rewrite -[eta]trmxK -trmx_mul eE trmx0.
  have sP : P^T = P by rewrite EP gram_sym.
  have EW : E *m W^T = P *m T^T. { rewrite /W linearD /= !trmx_mul mulmxDr [E *m (eta^T *m _)]mulmxA eE mul0mx addr0 mulmxA -/(gram E) -EP. by []. }
  have gW : gram W = Ph.
  { have tW : W^T = E^T *m T^T + eta^T *m Rm^T by rewrite /W -!trmx_mul -linearD.
    have G1 : T *m E *m W^T = T *m P *m T^T by rewrite -mulmxA EW mulmxA.
    have G2 : Rm *m eta *m W^T = Rm *m gram eta *m Rm^T by rewrite tW mulmxDr [Rm *m eta *m (E^T *m _)]mulmxA -(mulmxA Rm eta E^T) eE' mulmx0 mul0mx add0r !mulmxA.
    by rewrite /gram {1}/W mulmxDl G1 G2. }
  have WY : W *m Y^T = 0 by rewrite /W mulmxDl -!mulmxA O eY !mulmx0 addr0.
  have EX1 : X1 = W + T *m A *m Y by rewrite /X1 /W /E mulmxBr mulmxA; zmod.
  have EG : G = P *m T^T *m pin^T by rewrite /G !trmx_mul sP mulmxA.
  have sPh : Ph^T = Ph by rewrite -gW gram_sym.
  have GPh : G *m Ph = P *m T^T.
  { have D0 : (Ph *m pin - 1%:M) *m W = 0. { apply: gram_null_l. by rewrite gW mulmxBl Pen mul1mx subrr. }
    have D1 : W^T *m (pin^T *m Ph - 1%:M) = 0. { rewrite -[LHS]trmxK trmx_mul trmxK. have -> : (pin^T *m Ph - 1%:M)^T = Ph *m pin - 1%:M by rewrite linearB /= trmx_mul trmxK trmx1 sPh. by rewrite D0 trmx0. }
    rewrite EG -EW. have -> : E *m W^T *m pin^T *m Ph = E *m (W^T *m (pin^T *m Ph - 1%:M)) + E *m W^T by rewrite mulmxBr mulmx1 mulmxBr !mulmxA; zmod.
    by rewrite D1 mulmx0 add0r. }
  pose U := E - G *m W.
  have UW : U *m W^T = 0 by rewrite /U mulmxBl EW -mulmxA -/(gram W) gW GPh subrr.
  have UY : U *m Y^T = 0 by rewrite /U mulmxBl O -mulmxA WY mulmx0 subrr.
  have UX1 : U *m X1^T = 0. { have -> : X1^T = W^T + Y^T *m (T *m A)^T by rewrite EX1 -trmx_mul -linearD. by rewrite mulmxDr UW [U *m (Y^T *m _)]mulmxA UY mul0mx addr0. }
  have EU : U = 1%:M *m X + (G *m T *m A - A) *m Y + (- G) *m X1. { rewrite /U EX1 /E mul1mx mulmxDr mulmxBl !mulNmx !mulmxA. by zmod. }
  have UY2 : U *m Y2^T = 0 by move: (Fut 1%:M (G *m T *m A - A) (- G)); rewrite /= -EU; exact.
  have UYN : U *m YN^T = 0 by rewrite /YN tr_col_mx mul_mx_row UY UY2 row_mx0.
  pose A' := row_mx A (0 : 'M[R]_(n, m2)). have EA' : A' *m YN = A *m Y by rewrite /A' /YN mul_row_col mul0mx addr0.
  exists (A' + G *m (B - T *m A')).
  have R1 : X - (A' + G *m (B - T *m A')) *m YN = U + G *m V.
  { rewrite mulmxDl -(mulmxA G) mulmxBl -(mulmxA T) EA' /V /U EX1 -(mulmxA T A Y) !(mulmxBr G) (mulmxDr G). have -> : X = E + A *m Y by rewrite /E subrK. move: (A *m Y) (G *m (B *m YN)) (G *m (T *m _)) (G *m W) => *. by zmod. }
  have VYN : V *m YN^T = 0 by [].
  have UV : U *m V^T = 0. { have -> : V^T = X1^T - YN^T *m B^T by rewrite /V -trmx_mul -linearB. by rewrite mulmxBr UX1 mulmxA UYN mul0mx subrr. }
  have VU : V *m U^T = 0 by rewrite -[V]trmxK -trmx_mul UV trmx0.
  split.
  - by rewrite R1 mulmxDl UYN -mulmxA VYN mulmx0 addr0.
  - have EA2 : forall z1 z2, A' *m (col_mx yd z1 - col_mx mY z2) = A *m (yd - mY) by move=> z1 z2; rewrite opp_col_mx add_col_mx /A' mul_row_col mul0mx addr0.
    rewrite Ea -(EA2 yd2 mY2) EaB. move: (col_mx yd yd2 - col_mx mY mY2) => z. rewrite mulmxDl -(mulmxA G) mulmxBl -(mulmxA T) (mulmxDr T). have -> : T *m mX + B *m z - (T *m mX + T *m (A' *m z)) = B *m z - T *m (A' *m z) by zmod. by rewrite addrA.
  - rewrite R1 /gram. have -> : (U + G *m V)^T = U^T + V^T *m G^T by rewrite -trmx_mul -linearD.
    have X2 : U *m (U^T + V^T *m G^T) = U *m U^T by rewrite mulmxDr mulmxA UV mul0mx addr0.
    have X3 : G *m V *m (U^T + V^T *m G^T) = G *m Ps *m G^T by rewrite mulmxDr -!(mulmxA G) VU mulmx0 add0r EPB /gram !mulmxA.
    rewrite mulmxDl X2 X3. have UU : U *m U^T = P - G *m Ph *m G^T.
    { have -> : U^T = E^T - W^T *m G^T by rewrite /U -trmx_mul -linearB. rewrite mulmxBr mulmxA UW mul0mx subr0 /U mulmxBl -/(gram E) -EP. congr (_ - _).
      have WE : W *m E^T = Ph *m G^T. { rewrite -[LHS]trmxK trmx_mul trmxK EW -GPh trmx_mul sPh. by []. } by rewrite -mulmxA WE mulmxA. }
    rewrite UU mulmxBr mulmxBl. by zmod.
Qed.
End Core.

Section Run.
Context (R : realFieldType) (N n p r : nat) (us : seq (inputs R n p r)).
Context (x : nat -> rv R N n) (y : nat -> rv R N p) (eps : nat -> rv R N p) (eta : nat -> rv R N r).
Hypothesis Hu : forall t u, List.nth_error us t = Some u ->
        [/\ y t = affine (in_d u) (in_Z u) (x t) 1%:M (eps t), x t.+1 = affine (in_c u) (in_T u) (x t) (in_R u) (eta t),
            mean (eps t) = 0 /\ cov (eps t) (eps t) = in_H u & mean (eta t) = 0 /\ cov (eta t) (eta t) = in_Q u].
Hypothesis Hx : forall t, cov (x 0%N) (eps t) = 0 /\ cov (x 0%N) (eta t) = 0.
Hypothesis He : forall s t, cov (eps s) (eta t) = 0.
Hypothesis Hs : forall s t, s != t -> cov (eps s) (eps t) = 0 /\ cov (eta s) (eta t) = 0.
Local Notation D := (data us y).
Lemma tr0 q m (A : 'M[R]_(q, N)) (B : 'M[R]_(m, N)) : A *m B^T = 0 -> B *m A^T = 0.
Proof. move=> E. by rewrite -[B]trmxK -trmx_mul E trmx0. Qed.
Lemma future t k : (t + k <= size us)%N -> exists l2, D (t + k) = D t ++ l2 /\
  forall q (U : 'M[R]_(q, N)), (forall s, (t <= s)%N -> U *m (load (eps s))^T = 0 /\ U *m (load (eta s))^T = 0) -> U *m (load (x t))^T = 0 ->
  U *m (load (x (t + k)))^T = 0 /\ orth U l2.
Proof.
  elim: k => [|k IH] lt. { exists nil. rewrite addn0 cats0. split=> // q U _ H. by split=> //; constructor. }
  rewrite addnS in lt *. have [l2 [E2 H2]] := IH (ltnW lt). have [u Eu] := nth_lt lt. have [Lx _] := load_x Hu Eu. have [Ly _] := load_y Hu Eu.
  exists (l2 ++ observed (y (t + k)) (in_y u)). split; first by rewrite (data_S y Eu) E2 catA.
  move=> q U HU HX. have [B1 B2] := H2 q U HU HX. have [B3 B4] := HU (t + k)%N (leq_addr _ _). split.
  - rewrite Lx linearD /= !trmx_mul mulmxDr !mulmxA B1 B4 !mul0mx addr0. by [].
  - apply/orth_cat; split=> //. apply: orth_observed. rewrite Ly mulmxDl -mulmxA (tr0 B1) (tr0 B3) mulmx0 addr0. by [].
Qed.
Context (pinv : forall m, 'M[R]_m -> 'M[R]_m).
Hypothesis pen : forall m (A : 'M[R]_m), psd A -> A *m pinv A *m A = A.
Lemma smooth_one j' t u a P a_s Pex Er : List.nth_error us t = Some u -> in_c u = 0 ->
  condL (x t) (D t.+1) a P -> condL (x t.+1) (D (size us)) a_s Pex -> psd Er ->
  let o := sm_step pinv 0 j' (a, P) (a_s, Pex + Er) (in_T u, in_R u, in_Q u) in
  exists Pex' Er' , [/\ condL (x t) (D (size us)) o.1 Pex', o.2 = Pex' + Er', 0 <= j' -> psd Er' & j' = 0 -> Er = 0 -> Er' = 0].
Proof.
  move=> Eu c0 C Cs pEr. have lt := lt_nth Eu. have [_ _ _ [_ EQ]] := Hu Eu. have pQ : psd (in_Q u) by rewrite -EQ; exact: cov_psd.
  have pP := isCond_psd C. have pPs := isCond_psd Cs. have [Lx Mx] := load_x Hu Eu. rewrite c0 addr0 in Mx.
  have [B1 B2 B3 B4] := past Hu Hx He Hs (ltnW lt) (leqnn t). have [Ly _] := load_y Hu Eu.
  have O1 : orth (load (eta t)) (D t.+1). { rewrite (data_S y Eu). apply/orth_cat; split=> //. apply: orth_observed. rewrite Ly mulmxDl -mulmxA B2 mulmx0 add0r. exact: He. }
  have [l2 [E2 H2]] := @future t.+1 (size us - t.+1) ltac:(by rewrite subnKC). rewrite subnKC // in E2 H2.
  have dN := dat_cat (dat_self (D t.+1)) (dat_self l2). rewrite -E2 in dN.
  set Ph := in_T u *m P *m (in_T u)^T + in_R u *m in_Q u *m (in_R u)^T.
  have pPh : psd Ph by apply: psd_add; apply: psd_congr.
  have EQ' : gram (load (eta t)) = in_Q u := EQ.
  have Cs' : isCond (in_T u *m mean (x t)) (in_T u *m load (x t) + in_R u *m load (eta t)) (col_mx (mean (stack (D t.+1))) (mean (stack l2)))
     (col_mx (load (stack (D t.+1))) (load (stack l2))) (col_mx (values (D t.+1)) (values l2)) a_s Pex.
  { move: Cs. rewrite /condL Mx Lx. case: dN => e [-> -> ->]. case: _ / e. by rewrite !castmx_id. }
  have Pen := pen pPh. rewrite /Ph -EQ' in Pen.
  have Fu : forall (C1 : 'M[R]_n) (C2 : 'M[R]_(n, size (D t.+1))) (C3 : 'M[R]_n),
    let X1 := in_T u *m load (x t) + in_R u *m load (eta t) in let U := C1 *m load (x t) + C2 *m load (stack (D t.+1)) + C3 *m X1 in
    U *m (load (stack (D t.+1)))^T = 0 -> U *m X1^T = 0 -> U *m (load (stack l2))^T = 0.
  { move=> C1 C2 C3 X1 U _ UX. rewrite /X1 -Lx in UX. apply/tr0. apply: orth_stack. have [] // := H2 n U _ UX.
    move=> s ts. have [P1 P2 P3 P4] := past Hu Hx He Hs lt ts. have [Q1 Q2 Q3 Q4] := past Hu Hx He Hs (ltnW lt) (ltnW ts).
    by split; rewrite /U /X1 -Lx !mulmxDl -!mulmxA ?P1 ?P2 ?Q1 ?Q2 ?(orth_stack P3) ?(orth_stack P4) !mulmx0 !addr0. }
  have K := core_smooth C B2 (orth_stack O1) Cs' Pen Fu. rewrite EQ' -/Ph in K.
  rewrite /sm_step /smoother_step /smoother_predict /=.
  have -> : stabilize (quad_form_sym (in_T u) P + quad_form_sym (in_R u) (in_Q u)) 0 = Ph by rewrite stab00 !quad_symE ?(psd_sym pP) ?(psd_sym pQ).
  set G := (pinv Ph *m in_T u *m P)^T in K *.
  exists (P + G *m (Pex - Ph) *m G^T), (G *m Er *m G^T + j' *: 1%:M). split.
  - exact: (condL_dat dN).
  - rewrite stab00 quad_symE; last by rewrite linearB linearD /= (psd_sym pPs) (psd_sym pEr) (psd_sym pPh).
    rewrite /stabilize !mulmxBr !mulmxBl mulmxDr mulmxDl. by zmod.
  - move=> j0. apply: psd_add; [exact: psd_congr | exact: psd_scal1].
  - move=> -> ->. by rewrite mulmx0 mul0mx scale0r addr0.
Qed.
Lemma smooth_run j' filtered out : 0 <= j' -> (forall t u, List.nth_error us t = Some u -> in_c u = 0) ->
  (forall s t u w, List.nth_error us s = Some u -> List.nth_error us t = Some w -> (in_T u, in_R u, in_Q u) = (in_T w, in_R w, in_Q w)) ->
  size filtered = size us -> (0 < size us)%N ->
  (forall t f, List.nth_error filtered t = Some f -> condL (x t) (D t.+1) f.1 f.2) ->
  KalmanScan_Model.smooth (sm_step pinv 0 j') filtered (List.map (fun u => (in_T u, in_R u, in_Q u)) us) = Common.Ok out ->
  size out = size us /\ forall t s, List.nth_error out t = Some s ->
  exists Pex Er, [/\ condL (x t) (D (size us)) s.1 Pex, s.2 = Pex + Er, psd Er & j' = 0 -> Er = 0].
Proof.
  move=> j0 c0 stat sz ne Hf Eo. have fne : filtered <> nil by move=> e; move: ne; rewrite -sz e.
  have [out' [Eo' [Lo [Hl Hn]]]] := KalmanScan_Proofs.smooth_spec (sm_step pinv 0 j') filtered (List.map (fun u => (in_T u, in_R u, in_Q u)) us) fne ltac:(by rewrite List.map_length).
  rewrite Eo in Eo'. case: Eo' => Eo'; subst out'. have so : size out = size us by rewrite -sz. split=> //.
  have Lf : length filtered = size us by []. 
  suff H : forall k, (k < size us)%N -> forall s, List.nth_error out (size us - 1 - k) = Some s -> 
    exists Pex Er, [/\ condL (x (size us - 1 - k)) (D (size us)) s.1 Pex, s.2 = Pex + Er, psd Er & j' = 0 -> Er = 0].
  { move=> t s Es. have lt : (t < size us)%N by rewrite -so; apply/ssrnat.ltP/List.nth_error_Some; rewrite Es.
    have := H (size us - 1 - t)%N. have -> : (size us - 1 - (size us - 1 - t) = t)%N by rewrite subKn // subn1 -ltnS prednK. apply=> //. by rewrite -subnDA ltn_subrL. }
  elim=> [|k IH] lt s Es.
  - rewrite subn0 in Es *. rewrite Lf in Hl. have Ef : List.nth_error filtered (size us - 1) = Some s by rewrite -Hl -Es.
    have C := Hf _ _ Ef. rewrite subn1 prednK // in C. rewrite subn1. exists s.2, 0. split=> //; [by rewrite addr0 | exact: psd0].
  - set t := (size us - 1 - k.+1)%N in Es *. have Et : (t + 1 = size us - 1 - k)%N by rewrite /t addn1 subnS prednK // subn_gt0 subn1 -ltnS prednK.
    have ltt : (t + 1 < size us)%N by rewrite Et -subnDA ltn_subrL ne.
    have [f Ef] : exists f, List.nth_error filtered t = Some f.
    { case e: (List.nth_error filtered t) => [f|]; first by exists f. move/List.nth_error_None: e => /ssrnat.leP. rewrite Lf leqNgt. by rewrite (leq_trans _ (ltnW ltt)) // addn1. }
    have [s1 Es1] : exists s1, List.nth_error out (t + 1) = Some s1.
    { case e: (List.nth_error out (t + 1)) => [f1|]; first by exists f1. move/List.nth_error_None: e => /ssrnat.leP. by rewrite leqNgt -[length out]/(size out) so ltt. }
    have [u1 Eu1] := nth_lt ltt. have lt0 : (t < size us)%N by move: (ltnW ltt); rewrite addn1. have [u Eu] := nth_lt lt0.
    have Em : List.nth_error (List.map (fun u => (in_T u, in_R u, in_Q u)) us) (t + 1) = Some (in_T u, in_R u, in_Q u).
    { rewrite (List.map_nth_error _ _ _ Eu1). by rewrite (stat _ _ _ _ Eu Eu1). }
    have := Hn t f _ s1 Ef Em Es1. rewrite Es => -[->].
    have [Pex [Er [Cs E2 pEr Z]]] := IH (ltnW lt) s1 ltac:(by rewrite -Et). rewrite -Et addn1 in Cs.
    have [Pex' [Er' [C1 C2 C3 C4]]] := smooth_one j' Eu (c0 _ _ Eu) (Hf _ _ Ef) Cs pEr. rewrite -E2 in C1 C2. rewrite -!surjective_pairing in C1 C2.
    exists Pex', Er'. split=> //; [exact: C3 | by move=> jz; apply: C4 => //; exact: Z].
Qed.
End Run.
