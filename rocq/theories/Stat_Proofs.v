(** Powers of a matrix whose eigenvalues lie inside the unit circle; the discrete Lyapunov equation. *)
From Coq Require Import Reals Lra.
From mathcomp Require Import all_ssreflect all_algebra.
From mathcomp Require Import mxtens complex.
From Verif Require Import RealMc McTac Stat_Model.
Set Implicit Arguments.
Unset Strict Implicit.
Unset Printing Implicit Defensive.
Import Order.TTheory GRing.Theory Num.Theory.
Local Open Scope ring_scope.

(** T^n A *)
Definition mpow (F : ringType) k m (T : 'M[F]_k) (n : nat) (A : 'M[F]_(k, m)) : 'M[F]_(k, m) := iter n (mulmx T) A.
Lemma mpowSr (F : ringType) k m (T : 'M[F]_k) n (A : 'M[F]_(k, m)) : mpow T n.+1 A = mpow T n (T *m A).
Proof. elim: n => // n IH. by rewrite /mpow iterS -/(mpow T n.+1 A) IH. Qed.
Lemma mpow_add (F : ringType) k m (T : 'M[F]_k) n (A B : 'M[F]_(k, m)) : mpow T n (A + B) = mpow T n A + mpow T n B.
Proof. elim: n => // n IH. by rewrite /mpow !iterS -!/(mpow _ _ _) IH mulmxDr. Qed.
Lemma mpow_mul (F : ringType) k m l (T : 'M[F]_k) n (A : 'M[F]_(k, m)) (B : 'M[F]_(m, l)) : mpow T n (A *m B) = mpow T n A *m B.
Proof. elim: n => // n IH. by rewrite /mpow !iterS -!/(mpow _ _ _) IH mulmxA. Qed.
Lemma mpow_scale (F : comRingType) k m (T : 'M[F]_k) n a (A : 'M[F]_(k, m)) : mpow T n (a *: A) = a *: mpow T n A.
Proof. elim: n => // n IH. by rewrite /mpow !iterS -!/(mpow _ _ _) IH scalemxAr. Qed.

Section Decay.
Context (C : numFieldType).
Definition decays (u : nat -> C) : Prop := exists B r : C, [/\ 0 <= B, 0 <= r, r < 1 & forall n, `|u n| <= B * r ^+ n].
Lemma decays_step (z : C) (u : nat -> C) : `|z| < 1 -> decays (fun n => u n.+1 - z * u n) -> decays u.
Proof.
  move=> Hz [B [r [HB Hr Hr1 H]]]. pose l := `|z|. have Hl : 0 <= l by exact: normr_ge0.
  pose h := (1 - r) * (1 - l) / 2%:R. have Hh : 0 < h by rewrite !mulr_gt0 ?subr_gt0 ?invr_gt0 ?ltr0n.
  pose s := 1 - h.
  have Hhl : h < 1 - l.
  { rewrite /h mulrAC gtr_pmull ?subr_gt0 // ltr_pdivr_mulr ?ltr0n // mul1r. apply: le_lt_trans (_ : 1 < 2%:R); last by rewrite ltr1n. by rewrite ler_subl_addr ler_addl. }
  have Hhr : h <= 1 - r.
  { rewrite /h -mulrA ger_pmulr ?subr_gt0 // ler_pdivr_mulr ?ltr0n // mul1r. apply: le_trans (_ : 1 <= 2%:R); last by rewrite ler1n. by rewrite ler_subl_addr ler_addl. }
  have Hls : l < s by rewrite /s ltr_subr_addl -ltr_subr_addr.
  have Hrs : r <= s by rewrite /s ler_subr_addl -ler_subr_addr.
  have Hs0 : 0 <= s by exact: le_trans Hrs.
  have Hs1 : s < 1 by rewrite /s ltr_subl_addr ltr_addl.
  pose B' := `|u 0%N| + B / (s - l). have Hsl : 0 < s - l by rewrite subr_gt0.
  have HB' : 0 <= B' by rewrite addr_ge0 ?normr_ge0 // divr_ge0 // ltW.
  have HBB : B <= (s - l) * B' by rewrite mulrDr mulrCA divff ?gt_eqF // mulr1 ler_addr mulr_ge0 ?normr_ge0 // ltW.
  exists B', s. split=> //. elim=> [|n IH].
  - by rewrite expr0 mulr1 /B' ler_addl divr_ge0 // ltW.
  - have -> : u n.+1 = (u n.+1 - z * u n) + z * u n by rewrite subrK.
    apply: le_trans (ler_norm_add _ _) _. rewrite normrM -/l.
    apply: le_trans (_ : B * s ^+ n + l * (B' * s ^+ n) <= _).
    + apply: ler_add; last by rewrite ler_wpmul2l. apply: le_trans (H n) _. by rewrite ler_wpmul2l // ler_expn2r // nnegrE.
    + rewrite mulrA -mulrDl exprS mulrA ler_wpmul2r ?exprn_ge0 //. apply: le_trans (_ : (s - l) * B' + l * B' <= _); first by rewrite ler_add2r. by rewrite -mulrDl subrK mulrC.
Qed.
Context (k : nat).
Lemma powers_decay_seq (T : 'M[C]_k.+1) (s : seq C) : (forall z, z \in s -> `|z| < 1) ->
  forall A : 'M[C]_k.+1, horner_mx T (\prod_(z <- s) ('X - z%:P)) *m A = 0 -> forall i j, decays (fun n => mpow T n A i j).
Proof.
  elim: s => [|z s IH] Hs A.
  - rewrite big_nil rmorph1 mul1mx => -> i j. exists 0, 0. split=> //; first exact: ltr01. move=> n. have -> : mpow T n (0 : 'M[C]_k.+1) = 0 by elim: n => // n En; rewrite /mpow iterS -/(mpow _ _ _) En mulmx0.
    by rewrite mxE normr0 mul0r.
  - rewrite big_cons mulrC rmorphM => E i j. apply: (@decays_step z); first by apply: Hs; rewrite inE eqxx.
    have D := IH (fun z' H => Hs z' (mem_behead (s := z :: s) H)) ((T - z%:M) *m A).
    have [|B [r [HB Hr Hr1 H]]] := D _ i j.
    + move: E. rewrite -mulmxA. rewrite (rmorphB [rmorphism of horner_mx T]) /= horner_mx_X horner_mx_C. by [].
    + exists B, r. split=> // n. apply: le_trans (H n). rewrite mulmxBl mul_scalar_mx mpow_add -scaleNr mpow_scale -mpowSr !mxE mulNr. by [].
Qed.
End Decay.

Section Eig.
(** every complex eigenvalue of the real matrix T lies inside the unit circle *)
Definition cplx m n (M : 'M[R]_(m, n)) : 'M[R[i]]_(m, n) := map_mx (real_complex R) M.
Definition eigenvalues_inside k (T : 'M[R]_k) : Prop := forall (lambda : R[i]) (v : 'cV[R[i]]_k), v != 0 -> cplx T *m v = lambda *: v -> `|lambda| < 1.

Lemma powers_decay k (T : 'M[R]_k) : eigenvalues_inside T -> forall i j, decays (fun n => (mpow T n 1%:M i j)%:C%C : R[i]).
Proof.
  case: k T => [T _ [[]]//|k] T HT i j. pose TC := (cplx T)^T.
  have [s Es] := closed_field_poly_normal (char_poly TC). rewrite (eqP (char_poly_monic TC)) scale1r in Es.
  have Hs : forall z, z \in s -> `|z| < 1.
  { move=> z Hz. have : root (char_poly TC) z by rewrite Es root_prod_XsubC. rewrite -eigenvalue_root_char. move/eigenvalueP => [v Hv Nv].
    apply: (HT z v^T). - by rewrite trmx_eq0. - by rewrite -[cplx T]trmxK -trmx_mul -/TC Hv linearZ. }
  have D := @powers_decay_seq _ k TC s Hs 1%:M _ j i. have [|B [r [HB Hr Hr1 H]]] := D.
  - rewrite mulmx1 -Es. exact: Cayley_Hamilton.
  - exists B, r. split=> // n. apply: le_trans (H n). 
    have -> : mpow TC n 1%:M = (cplx (mpow T n 1%:M))^T.
    { elim: {H} n => [|n IH]; first by rewrite /= /cplx map_mx1 trmx1. 
      rewrite mpowSr mulmx1 -{2}[TC]mul1mx mpow_mul IH /TC -trmx_mul /cplx -map_mxM. by []. }
    by rewrite !mxE.
Qed.
(** powers tend to zero *)
Definition powers_vanish k (T : 'M[R]_k) : Prop := forall eps : R, 0 < eps -> exists N, forall n, (N <= n)%N -> forall i j, `|mpow T n 1%:M i j| < eps.
Lemma powE (r : R) n : r ^+ n = pow r n.
Proof. elim: n => // n IH. by rewrite exprS IH. Qed.
Lemma eigenvalues_powers k (T : 'M[R]_k) : eigenvalues_inside T -> powers_vanish T.
Proof.
  move=> HT eps He. pose D := powers_decay HT.
  have K : forall ij : 'I_k * 'I_k, exists N, forall n, (N <= n)%N -> `|mpow T n 1%:M ij.1 ij.2| < eps.
  { move=> [i j]. have [B [r [HB Hr Hr1 H]]] := D i j. 
    have EB : B = ((complex.Re B)%:C)%C by rewrite RRe_real // ger0_real. have Er : r = ((complex.Re r)%:C)%C by rewrite RRe_real // ger0_real.
    have HB' : 0 <= complex.Re B by rewrite EB lecR in HB. have Hr' : 0 <= complex.Re r by rewrite Er lecR in Hr. have Hr1' : complex.Re r < 1 by rewrite Er ltcR in Hr1.
    have HH : forall n, `|mpow T n 1%:M i j| <= complex.Re B * complex.Re r ^+ n.
    { move=> n. move: (H n). rewrite EB Er normc_def /= expr0n /= addr0 sqrtr_sqr -rmorphX -rmorphM lecR. by []. }
    have Hb1 : 0 < complex.Re B + 1 by rewrite ltr_spaddr ?ltr01.
    have Hd : 0 < eps / (complex.Re B + 1) by rewrite divr_gt0.
    pose d := eps / (complex.Re B + 1). have [|N HN] := @pow_lt_1_zero (complex.Re r) _ d (elimT (RltE _ _) Hd).
    - rewrite Rabs_pos_eq; first exact: (elimT (RltE _ _) Hr1'). exact: (elimT (RleE _ _) Hr').
    - exists N => n Hn. apply: le_lt_trans (HH n) _. apply: le_lt_trans (_ : (complex.Re B + 1) * complex.Re r ^+ n < _); first by rewrite ler_wpmul2r ?exprn_ge0 // ler_addl ler01.
      rewrite -lter_pdivl_mull // mulrC. move: (HN n (elimT ssrnat.leP Hn)). rewrite -powE Rabs_pos_eq; first by move/(introT (RltE _ _)).
      apply: (elimT (RleE _ _)). exact: exprn_ge0. }
  have [f Hf] : exists f : 'I_k * 'I_k -> nat, forall ij n, (f ij <= n)%N -> `|mpow T n 1%:M ij.1 ij.2| < eps by exact: (fin_all_exists K).
  exists (\max_ij f ij)%N => n Hn i j. apply: (Hf (i, j)). apply: leq_trans Hn. exact: leq_bigmax.
Qed.
End Eig.

Section Lyap.
Context (F : fieldType).
Add Field ff : (@f_field F).
Lemma kron_ravel k (A X : 'M[F]_k) : kron A A *m ravel X = ravel (A *m X *m A^T).
Proof.
  apply/matrixP => a b. rewrite !mxE [RHS](eq_bigr (fun l => \sum_i A (mxtens_unindex a).1 i * X i l * A (mxtens_unindex a).2 l)); last by move=> l _; rewrite !mxE mulr_suml.
  rewrite exchange_big pair_big /= (reindex (@mxtens_index k k)) /=; last by exists (@mxtens_unindex k k) => i _; [apply: mxtens_indexK|apply: mxtens_unindexK].
  apply: eq_bigr => [[i j] _]. rewrite !mxE mxtens_indexK /=. by rewrite -mulrA (mulrC (A _ j)) mulrA.
Qed.
Lemma ravelK k (X : 'M[F]_k) : reshape (ravel X) = X.
Proof. apply/matrixP => i j. by rewrite !mxE mxtens_indexK. Qed.
Lemma reshapeK k (x : 'cV[F]_(k * k)) : ravel (reshape x) = x.
Proof. apply/matrixP => a b. by rewrite !mxE -surjective_pairing mxtens_unindexK ord1. Qed.
Lemma ravelB k (X Y : 'M[F]_k) : ravel (X - Y) = ravel X - ravel Y.
Proof. apply/matrixP => a b. by rewrite !mxE. Qed.
Lemma ravel_inj k : injective (@ravel F k).
Proof. exact: can_inj (@ravelK k). Qed.
Lemma solveP n m (A : 'M[F]_n) (b x : 'M[F]_(n, m)) : solve A b = Some x -> A *m x = b.
Proof. rewrite /solve. case: ifP => // U [<-]. by rewrite mulmxA mulmxV // mul1mx. Qed.
Lemma direct_sound k (A Q P : 'M[F]_k) : lyapunov_direct A Q = Some P -> P = A *m P *m A^T + Q.
Proof.
  rewrite /lyapunov_direct. case E: (solve _ _) => [x|] //= [<-]. move: (solveP E). rewrite -{1}(reshapeK x) mulmxBl mul1mx kron_ravel -ravelB => /ravel_inj H.
  by rewrite -H addrC subrK.
Qed.
(** the unknown is determined *)
Definition lyap_unique k (A : 'M[F]_k) : Prop := forall X : 'M[F]_k, X = A *m X *m A^T -> X = 0.
Lemma kron_unit k (A : 'M[F]_k) : (1%:M - kron A A) \in unitmx <-> lyap_unique A.
Proof.
  split=> [U X E|H].
  - have : (1%:M - kron A A) *m ravel X = 0 by rewrite mulmxBl mul1mx kron_ravel -E subrr.
    move/(congr1 (mulmx (invmx (1%:M - kron A A)))). rewrite mulmxA mulVmx // mul1mx mulmx0 => E0. apply: ravel_inj. rewrite E0. by apply/matrixP => a b; rewrite !mxE.
  - rewrite -unitmx_tr unitmxE unitfE. apply/negP => /det0P [v Nv]. rewrite -[v]trmxK -trmx_mul => /(congr1 trmx). rewrite trmxK trmx0 mulmxBl mul1mx -(reshapeK v^T) kron_ravel -ravelB => E.
    have : reshape v^T - A *m reshape v^T *m A^T = 0. { apply: ravel_inj. rewrite E. by apply/matrixP => a b; rewrite !mxE. }
    move/eqP. rewrite subr_eq0 => /eqP /H Z. case/negP: Nv. rewrite -trmx_eq0 -(reshapeK v^T) Z. apply/eqP. by apply/matrixP => a b; rewrite !mxE.
Qed.
Lemma direct_complete k (A Q : 'M[F]_k) : lyap_unique A -> exists P, lyapunov_direct A Q = Some P.
Proof. move=> /kron_unit U. rewrite /lyapunov_direct /solve U /=. by eexists. Qed.

(** the bilinear transformation *)
Lemma unit_tr1 k (A : 'M[F]_k) : ((A^T + 1%:M) \in unitmx) = ((A + 1%:M) \in unitmx).
Proof. by rewrite -unitmx_tr linearD /= trmxK trmx1. Qed.
Lemma bilinear_equation k (A Q X : 'M[F]_k) : (2%:R : F) != 0 -> (A + 1%:M) \in unitmx ->
  let B := ((A^T - 1%:M) *m invmx (A^T + 1%:M))^T in
  B *m X + X *m B^T = - (2%:R *: (invmx (A + 1%:M) *m Q *m invmx (A^T + 1%:M))) <-> X = A *m X *m A^T + Q.
Proof.
  move=> H2 U B. have U' : (A^T + 1%:M) \in unitmx by rewrite unit_tr1.
  have EB : B = invmx (A + 1%:M) *m (A - 1%:M) by rewrite /B trmx_mul trmx_inv !linearB !linearD /= trmxK !trmx1.
  have EBT : B^T = (A^T - 1%:M) *m invmx (A^T + 1%:M) by rewrite /B trmxK.
  rewrite EBT EB.
  have K : (A + 1%:M) *m (invmx (A + 1%:M) *m (A - 1%:M) *m X + X *m ((A^T - 1%:M) *m invmx (A^T + 1%:M)) + 2%:R *: (invmx (A + 1%:M) *m Q *m invmx (A^T + 1%:M))) *m (A^T + 1%:M)
           = 2%:R *: (A *m X *m A^T + Q - X).
  { have K1 : forall Ap Am Apt Amt : 'M[F]_k, Ap \in unitmx -> Apt \in unitmx ->
       Ap *m (invmx Ap *m Am *m X + X *m (Amt *m invmx Apt) + 2%:R *: (invmx Ap *m Q *m invmx Apt)) *m Apt = Am *m X *m Apt + Ap *m X *m Amt + 2%:R *: Q.
    { move=> Ap Am Apt Amt Hp Hpt. rewrite !mulmxDr !mulmxDl -!scalemxAr -!scalemxAl !mulmxA mulmxV // !mul1mx. congr (_ + _ + _ *: _).
      - by rewrite -!mulmxA mulVmx // mulmx1 !mulmxA.
      - by rewrite -!mulmxA mulVmx // mulmx1. }
    rewrite K1 // ?(mulmxBl, mulmxBr, mulmxDl, mulmxDr, mul1mx, mulmx1).
    set a := A *m X *m A^T. set b := A *m X. set c := X *m A^T. move: a b c => a b c. clear.
    apply/matrixP => i j. rewrite !mxE. move: (a i j) (b i j) (c i j) (X i j) (Q i j) => a' b' c' x q. fchange. ring. }
  split=> [E|E].
  - move: K. rewrite E addNr mulmx0 mul0mx => /esym/eqP. rewrite scaler_eq0 (negbTE H2) /= subr_eq0 => /eqP H0. exact: esym.
  - move: K. rewrite -E subrr scaler0 => K. apply/eqP. rewrite -addr_eq0. apply/eqP.
    move/(congr1 (fun M => invmx (A + 1%:M) *m M *m invmx (A^T + 1%:M))): K. rewrite mulmx0 mul0mx !mulmxA mulVmx // mul1mx -mulmxA mulmxV // mulmx1. by [].
Qed.
End Lyap.

Section Vanish.
Context (k : nat) (T : 'M[R]_k) (HT : powers_vanish T).
Lemma vanish_N : powers_vanish (- T).
Proof.
  move=> eps He. have [N HN] := HT He. exists N => n Hn i j.
  have -> : mpow (- T) n (1%:M : 'M[R]_k) = (-1) ^+ n *: mpow T n 1%:M.
  { elim: n {Hn} => [|n IH]; first by rewrite expr0 scale1r. rewrite /mpow !iterS -!/(mpow _ _ _) IH exprS -scalerA -scalemxAr mulNmx scalerN scaleN1r -scalerN. by []. }
  rewrite mxE normrM normrX normrN1 expr1n mul1r. exact: HN.
Qed.
(** a product of a vanishing sequence with a fixed matrix vanishes *)
Lemma vanish_mul m (A : 'M[R]_(k, m)) : forall eps : R, 0 < eps -> exists N, forall n, (N <= n)%N -> forall i j, `|mpow T n A i j| < eps.
Proof.
  move=> eps He. pose B := \sum_i \sum_j `|A i j|. have HB : 0 <= B by apply: sumr_ge0 => i _; apply: sumr_ge0 => j _; exact: normr_ge0.
  have HB1 : 0 < B + 1 by rewrite ltr_spaddr ?ltr01. have Hd : 0 < eps / (B + 1) by rewrite divr_gt0.
  have [N HN] := HT Hd. exists N => n Hn i j. rewrite -[A]mul1mx mpow_mul mxE.
  apply: le_lt_trans (_ : B * (eps / (B + 1)) < _).
  - apply: le_trans (ler_norm_sum _ _ _) _. rewrite /B mulr_suml. apply: ler_sum => l _. rewrite normrM mulrC. 
    apply: ler_pmul; rewrite ?normr_ge0 //; last by apply: ltW; exact: HN.
    rewrite (bigD1 j) //= ler_addl. apply: sumr_ge0 => j' _. exact: normr_ge0.
  - rewrite mulrCA gtr_pmulr // ltr_pdivr_mulr // mul1r ltr_addl. exact: ltr01.
Qed.
Lemma fixed_zero m (A : 'M[R]_(k, m)) : A = T *m A -> A = 0.
Proof.
  move=> E. apply/matrixP => i j. rewrite mxE. apply/eqP/negPn/negP => N0. have H : 0 < `|A i j| by rewrite normr_gt0.
  have [N HN] := vanish_mul A H. move: (HN N (leqnn N) i j). have -> : mpow T N A = A; last by rewrite ltxx.
  elim: N {HN} => // n IH. by rewrite mpowSr -E.
Qed.
Lemma unit_1mT : (1%:M - T) \in unitmx.
Proof.
  rewrite -unitmx_tr unitmxE unitfE. apply/negP => /det0P [v Nv]. rewrite -[v]trmxK -trmx_mul => /(congr1 trmx). rewrite trmxK trmx0 mulmxBl mul1mx => /eqP. rewrite subr_eq0 => /eqP /fixed_zero /(congr1 trmx). rewrite trmxK trmx0 => Z. by rewrite Z eqxx in Nv.
Qed.
(** a quadratic form with vanishing arguments *)
Lemma vanish_quad (X : 'M[R]_k) : forall eps : R, 0 < eps -> exists N, forall n, (N <= n)%N -> forall i j, `|(mpow T n X *m (mpow T n 1%:M)^T) i j| < eps.
Proof.
  move=> eps He. have Hk : 0 < (k%:R + 1 : R) by rewrite ltr_spaddr ?ltr01 ?ler0n.
  have He' : 0 < eps / (k%:R + 1) by rewrite divr_gt0. have [N1 H1] := vanish_mul X He'. have [N2 H2] := vanish_mul 1%:M ltr01.
  exists (maxn N1 N2) => n. rewrite geq_max => /andP [Hn1 Hn2] i j. rewrite mxE. apply: le_lt_trans (ler_norm_sum _ _ _) _.
  apply: le_lt_trans (_ : \sum_(l < k) eps / (k%:R + 1) < _).
  - apply: ler_sum => l _. rewrite normrM mxE -[X in _ <= X]mulr1. apply: ler_pmul; rewrite ?normr_ge0 //; apply: ltW; [exact: H1|exact: H2].
  - rewrite sumr_const card_ord -mulr_natl mulrCA gtr_pmulr // ltr_pdivr_mulr // mul1r ltr_addl. exact: ltr01.
Qed.
Lemma iterate_lyap (M P : 'M[R]_k) : P = T *m P *m T^T + M -> forall n, P = mpow T n P *m (mpow T n 1%:M)^T + \sum_(i < n) mpow T i M *m (mpow T i 1%:M)^T.
Proof.
  move=> E. elim=> [|n IH]; first by rewrite big_ord0 addr0 /= trmx1 mulmx1.
  rewrite {1}IH {1}E mpow_add mulmxDl -addrA. congr (_ + _).
  - have -> : mpow T n.+1 1%:M = mpow T n 1%:M *m T by rewrite mpowSr mulmx1 -mpow_mul mul1mx. by rewrite trmx_mul mpow_mul -mpowSr !mulmxA.
  - by rewrite big_ord_recr /= addrC.
Qed.
Lemma lyap_vanish_unique : lyap_unique T.
Proof.
  move=> X E. apply/matrixP => i j. rewrite mxE. apply/eqP/negPn/negP => N0. have H : 0 < `|X i j| by rewrite normr_gt0.
  have [N HN] := vanish_quad X H. move: (HN N (leqnn N) i j). have E' : X = T *m X *m T^T + 0 by rewrite addr0.
  move: (iterate_lyap E' N). rewrite big1 => [|l _]; first by rewrite addr0 => <-; rewrite ltxx.
  have -> : mpow T l (0 : 'M[R]_k) = 0; last by rewrite mul0mx. elim: (l : nat) => // n En. by rewrite /mpow iterS -/(mpow _ _ _) En mulmx0.
Qed.
Definition psd (P : 'M[R]_k) : Prop := forall x : 'rV[R]_k, 0 <= (x *m P *m x^T) 0 0.
Lemma lyap_psd (M P : 'M[R]_k) : P = T *m P *m T^T + M -> psd M -> psd P.
Proof.
  move=> E HM x. rewrite leNgt. apply/negP => Hneg. pose q := - (x *m P *m x^T) 0 0. have Hq : 0 < q by rewrite /q oppr_gt0.
  pose B := \sum_i \sum_j `|x 0 i| * `|x 0 j|. have HB : 0 <= B by apply: sumr_ge0 => i _; apply: sumr_ge0 => j _; rewrite mulr_ge0 ?normr_ge0.
  have HB1 : 0 < B + 1 by rewrite ltr_spaddr ?ltr01. have Hd : 0 < q / (B + 1) by rewrite divr_gt0.
  have [N HN] := vanish_quad P Hd. have EN := iterate_lyap E N. set W := mpow T N P *m _ in EN HN.
  have HS : 0 <= (x *m (\sum_(i < N) mpow T i M *m (mpow T i 1%:M)^T) *m x^T) 0 0.
  { rewrite mulmx_sumr mulmx_suml summxE. apply: sumr_ge0 => l _. have -> : x *m (mpow T l M *m (mpow T l 1%:M)^T) *m x^T = (x *m mpow T l 1%:M) *m M *m (x *m mpow T l 1%:M)^T; last exact: HM.
    rewrite trmx_mul -{1}[M]mul1mx mpow_mul !mulmxA. by []. }
  have HW : `|(x *m W *m x^T) 0 0| <= B * (q / (B + 1)).
  { rewrite mxE. apply: le_trans (ler_norm_sum _ _ _) _. rewrite {1}/B mulr_suml.
    apply: le_trans (_ : \sum_i \sum_j `|x 0 j| * `|x 0 i| * (q / (B + 1)) <= _).
    - apply: ler_sum => i _. rewrite normrM !mxE. apply: le_trans (_ : (\sum_j `|x 0 j * W j i|) * `|x 0 i| <= _); first by rewrite ler_wpmul2r ?normr_ge0 // ler_norm_sum.
      rewrite mulr_suml. apply: ler_sum => j _. rewrite normrM mulrAC ler_wpmul2l ?mulr_ge0 ?normr_ge0 //. apply: ltW. exact: (HN N (leqnn N)).
    - apply: ler_sum => i _. rewrite mulr_suml. apply: ler_sum => j _. by rewrite (mulrC `|x 0 j|). }
  have HW' : `|(x *m W *m x^T) 0 0| < q. { apply: le_lt_trans HW _. rewrite mulrCA gtr_pmulr // ltr_pdivr_mulr // mul1r ltr_addl. exact: ltr01. }
  have EQ : - q = (x *m W *m x^T) 0 0 + (x *m (\sum_(i < N) mpow T i M *m (mpow T i 1%:M)^T) *m x^T) 0 0.
  { rewrite /q opprK {1}EN mulmxDr mulmxDl mxE. by []. }
  move: HW'. rewrite ltr_norml => /andP [HW1 _]. move: (ltr_le_add HW1 HS). rewrite addr0 -EQ ltxx. by [].
Qed.
End Vanish.
