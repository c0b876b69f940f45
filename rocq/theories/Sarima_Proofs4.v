(** Interpretable state structure, and solvability of the stationary-initialization equation. *)
From Coq Require Import ZArith Lia.
From mathcomp Require Import all_ssreflect all_algebra.
From Verif Require Import McLia McTac Sarima_Model Sarima_Spec Sarima_Proofs Sarima_Proofs2 Sarima_Proofs3.
Set Implicit Arguments.
Unset Strict Implicit.
Unset Printing Implicit Defensive.
Import GRing.Theory.
Local Open Scope ring_scope.

Lemma interp_writes (R : comRingType) S (phi Phi theta Theta : seq R) :
  let p := size phi in let P := size Phi in let q := size theta in let Q := size Theta in
  (0 < P -> 0 < S)%N -> (0 < Q -> 0 < S)%N ->
  interp_T p q P Q S phi Phi theta Theta =
  writes (fun m => (0, p_max p P S + m - 1)%N) (fun a b => a * b) q Q S theta Theta
   (writes (fun m => (0, m - 1)%N) (fun a b => - a * b) p P S phi Phi
     (upd (fun r c => if (r == c.+1) then 1 else 0) [:: ((interp_k p q P Q S - q_max q Q S)%N, (p_max p P S - 1)%N)] 0)).
Proof.
move=> p P q Q SP SQ; rewrite /interp_T /writes.
set T0 := upd _ _ _.
have e1 : [seq (0%N, i) | i <- iota 0 (maxn 1 p)] = [seq (0%N, (i.+1 - 1)%N) | i <- iota 0 (maxn 1 p)].
  by apply: eq_map => i; congr (_, _); mlia.
rewrite e1.
have mx a : (0 < a)%N -> maxn 1 a = a by mlia.
set T1 := (if (0 < p)%N then updv T0 _ phi else T0).
set T1' := (if (0 < p)%N then updv T0 _ phi else T0).
have -> : T1 = T1' by rewrite /T1 /T1'; case: ltnP => // h; rewrite mx.
set T2 := (if (0 < P)%N then _ else T1').
set T2' := (if (0 < P)%N then _ else T1').
have -> : T2 = T2'.
  rewrite /T2 /T2'; case: (posnP P) => // A0.
  have e2 : [seq (0%N, c) | c <- [seq (i * S - 1)%N | i <- iota 1 P]] = [seq (0%N, (i.+1 * S - 1)%N) | i <- iota 0 P].
    by rewrite iota1_map -!map_comp; apply: eq_map => i.
  rewrite e2; case: ifP => // a0; congr updv.
    rewrite iota1_map -map_comp repeat_tile_iota -map_comp; apply: eq_map => -[i j] /=.
    by congr (_, _); have := SP A0; mnia.
  by rewrite repeat_tile_nth -map_comp; exact: eq_map.
set pm := p_max p P S.
have e3 : [seq (0%N, (pm + i)%N) | i <- iota 0 (maxn 1 q)] = [seq (0%N, (pm + i.+1 - 1)%N) | i <- iota 0 (maxn 1 q)].
  by apply: eq_map => i; congr (_, _); mlia.
rewrite e3.
set T3 := (if (0 < q)%N then updv T2' _ theta else T2').
set T3' := (if (0 < q)%N then updv T2' _ theta else T2').
have -> : T3 = T3' by rewrite /T3 /T3'; case: ltnP => // h; rewrite mx.
case: (posnP Q) => // A0.
have e4 : [seq (0%N, c) | c <- [seq (pm + i * S - 1)%N | i <- iota 1 Q]] = [seq (0%N, (pm + i.+1 * S - 1)%N) | i <- iota 0 Q].
  by rewrite iota1_map -!map_comp; apply: eq_map => i.
rewrite e4; case: ifP => // a0; congr updv.
  rewrite iota1_map -map_comp repeat_tile_iota -map_comp; apply: eq_map => -[i j] /=.
  by congr (_, _); have := SQ A0; mnia.
by rewrite repeat_tile_nth -map_comp; exact: eq_map.
Qed.

Section Interp.
Context (R : comRingType).
Variables (S : nat) (phi Phi theta Theta : seq R).
Let p := size phi. Let q := size theta. Let P := size Phi. Let Q := size Theta.
Hypothesis SP : (0 < P -> 0 < S)%N.
Hypothesis SQ : (0 < Q -> 0 < S)%N.
Hypothesis ok : verify_order p q P Q S.
Let pm := p_max p P S. Let qm := q_max q Q S.
Let k := interp_k p q P Q S.
Let T := interp_T p q P Q S phi Phi theta Theta.
Let Rm := @interp_R R p q P Q S.
Let AR := ar_poly phi 1 * ar_poly Phi S.
Let MA := ma_poly theta 1 * ma_poly Theta S.
Lemma pm0 : (0 < pm)%N. Proof. by rewrite /pm /p_max; mlia. Qed.
Lemma qm0 : (0 < qm)%N. Proof. by rewrite /qm /q_max; mlia. Qed.
Lemma ikE : k = (pm + qm)%N. Proof. by []. Qed.

Lemma row_sum (a N o : nat) (f : nat -> R) c : (forall i, (a <= i)%N -> f i.+1 = 0) ->
  \sum_(i <- iota 0 a) (if (0%N, c) == (0%N, (o + i.+1 - 1)%N) then f i.+1 else 0) =
  (if (o <= c)%N then f (c - o).+1 else 0).
Proof.
move=> f0; case: leqP => h; last first.
  by rewrite big1 // => i _; rewrite xpair_eqE (_ : (c == _) = false) ?andbF //; mlia.
case: (ltnP (c - o) a) => hlt.
  rewrite (bigD1_seq (c - o)%N) ?iota_uniq ?mem_iota //= big1 ?addr0 => [|i ne].
    by rewrite xpair_eqE eqxx (_ : c == _) //; mlia.
  by rewrite xpair_eqE (_ : (c == _) = false) ?andbF //; mlia.
rewrite big_seq big1 ?f0 // => i; rewrite mem_iota xpair_eqE => hi; rewrite (_ : (c == _) = false) ?andbF //; mlia.
Qed.
Lemma coef_out (f : {poly R}) a i : (size f <= a.+1)%N -> (a <= i)%N -> f`_i.+1 = 0.
Proof. by move=> h1 h2; rewrite nth_default //; apply: leq_trans h1 _; mlia. Qed.

Lemma iT_E r c : (r < k)%N -> (c < k)%N -> T r c =
  if r == 0%N then (if (c < pm)%N then (1 - AR)`_c.+1 else (MA - 1)`_(c - pm).+1)
  else if (r == pm)%N then 0 else (r == c.+1)%:R.
Proof.
move=> hr hc; have p0 := pm0; have q0 := qm0.
have sAR : (size (1 - AR)%R <= (p + P * S).+1)%N.
  apply: leq_trans (size_add _ _) _; rewrite size_opp size_poly1 geq_max /=.
  by have := size_prod (size_arp phi 1) (size_arp Phi S); rewrite muln1.
have sMA : (size (MA - 1)%R <= (q + Q * S).+1)%N.
  apply: leq_trans (size_add _ _) _; rewrite size_opp size_poly1 geq_max /= andbT.
  by have := size_prod (size_map_ theta 1) (size_map_ Theta S); rewrite muln1.
have pmE : (p + P * S <= pm)%N by rewrite /pm /p_max; mlia.
have qmE : (q + Q * S <= qm)%N by rewrite /qm /q_max; mlia.
rewrite /T /p /P /q /Q interp_writes // -/p -/P -/q -/Q -/pm.
set T0 := upd _ _ _.
have T0E r' c' : T0 r' c' = if (r' == pm) && (c' == pm - 1)%N then 0 else (r' == c'.+1)%:R.
  rewrite /T0 /upd inE xpair_eqE -/pm -/qm (_ : (interp_k p q P Q S - qm = pm)%N); last by rewrite -/k ikE; mlia.
  by case: ifP => // _; case: eqP.
have z0 m : T0 0%N m = 0 by rewrite T0E /= if_same.
set T1 := writes _ _ p P S phi Phi T0.
have T1E r' c' : T1 r' c' = T0 r' c' + if (r' == 0%N) then (1 - AR)`_c'.+1 else 0.
  rewrite /T1 writes_E //.
  - congr (_ + _); case: eqP => [->|ne]; last by rewrite big1 // => i _; rewrite xpair_eqE (introF eqP ne).
    rewrite (eq_bigr (fun i => (if (0%N, c') == (0%N, (0 + i.+1 - 1)%N) then (1 - AR)`_i.+1 else 0))) => [|i _]; last by rewrite ar_coef add0n.
    by rewrite (@row_sum _ 0 0 (fun i => (1 - AR)`_i)) ?subn0 // => i; exact: coef_out.
  - by case/andP: ok => h _; exact: overlap_E.
  - by move=> i j; rewrite !inE => hi hj [e]; mlia.
have T2E r' c' : writes (fun m => (0%N, (pm + m - 1)%N)) (fun a b => a * b) q Q S theta Theta T1 r' c' = 
     T1 r' c' + if (r' == 0%N) && (pm <= c')%N then (MA - 1)`_(c' - pm).+1 else 0.
  rewrite writes_E //.
  - congr (_ + _); case: eqP => [->|ne] /=; last by rewrite big1 // => i _; rewrite xpair_eqE (introF eqP ne).
    rewrite (eq_bigr (fun i => (if (0%N, c') == (0%N, (pm + i.+1 - 1)%N) then (MA - 1)`_i.+1 else 0))) => [|i _]; last by rewrite ma_coef.
    by rewrite (@row_sum _ 0 pm (fun i => (MA - 1)`_i)) // => i; exact: coef_out.
  - by case/andP: ok => _ h; exact: overlap_E.
  - by move=> i j; rewrite !inE => hi hj [e]; mlia.
  move=> m hm /=; rewrite T1E z0 /= add0r; apply: (coef_out sAR); mlia.
rewrite T2E T1E T0E; case: (r =P 0%N) => [->|r0] /=.
  rewrite if_same add0r; case: ltnP => h; first by rewrite addr0.
  by rewrite (coef_out sAR) ?add0r //; mlia.
rewrite !addr0; case: (r =P pm) => [->|_] //=; case: eqP => // h.
by rewrite (_ : (pm == c.+1) = false) //; mlia.
Qed.

Variables (s : nat -> nat -> R) (e : nat -> R).
Hypothesis run : ss_run k T Rm s e.
Let y t := s t 0%N.
Lemma iR_E r : Rm r 0%N = if (r == pm) || (r == 0%N) then 1 else 0.
Proof. by rewrite /Rm /interp_R -/qm -/pm -/k (_ : (k - qm = pm)%N) // ikE; mlia. Qed.
Lemma irun_roll t j : (0 < j < k)%N -> j != pm -> s t.+1 j = s t (j - 1)%N.
Proof.
move=> /andP[j0 jk] jp; rewrite run // iR_E (negbTE jp) (_ : (j == 0%N) = false) ?mul0r ?addr0; last by mlia.
rewrite (@sum_mem _ _ _ _ [:: (j - 1)%N]) ?big_seq1 //=; first by rewrite andbT; mlia.
move=> c hc; rewrite iT_E // (negbTE jp) (_ : (j == 0%N) = false); last by mlia.
by rewrite inE; congr (_%:R); case: eqP; case: eqP => //; mlia.
Qed.
Lemma irun_e t : s t.+1 pm = e t.+1.
Proof.
have p0 := pm0; have q0 := qm0; have pk : (pm < k)%N by rewrite ikE; mlia.
rewrite run // iR_E eqxx mul1r big1 ?add0r // => c _.
by rewrite iT_E // eqxx (_ : (pm == 0%N) = false) ?mul0r //; mlia.
Qed.
Lemma irun_y t : y t.+1 = \sum_(c < pm) (1 - AR)`_c.+1 * s t c + \sum_(c < qm) (MA - 1)`_c.+1 * s t (pm + c)%N + e t.+1.
Proof.
have p0 := pm0; have q0 := qm0; have pk : (0 < k)%N by rewrite ikE; mlia.
rewrite /y run // iR_E eqxx orbT mul1r; congr (_ + _).
rewrite -(big_mkord xpredT (fun c => T 0%N c * s t c)) ikE big_mkord big_split_ord /=.
congr (_ + _); apply: eq_bigr => c _; rewrite iT_E //=.
- by rewrite ltn_ord.
- by rewrite ikE; have := ltn_ord c; mlia.
- by rewrite ltnNge leq_addr /= addKn.
by rewrite ikE; have := ltn_ord c; mlia.
Qed.
Lemma istate_y t j : (j < pm)%N -> (j <= t)%N -> s t j = y (t - j)%N.
Proof.
elim: j t => [|j IH] t hj ht; first by rewrite subn0.
case: t ht => // t ht; have q0 := qm0; rewrite irun_roll ?subn1 /=; last by mlia.
  by rewrite IH //; mlia.
by rewrite ikE; mlia.
Qed.
Lemma istate_e t j : (j < qm)%N -> (j < t)%N -> s t (pm + j)%N = e (t - j)%N.
Proof.
have p0 := pm0; elim: j t => [|j IH] t hj ht; first by case: t ht => // t _; rewrite addn0 subn0 irun_e.
case: t ht => // t ht; rewrite irun_roll; last by mlia.
  by rewrite (_ : (pm + j.+1 - 1 = pm + j)%N) ?IH //; mlia.
by rewrite ikE; mlia.
Qed.
Lemma interp_equation t : (pm + qm <= t)%N -> lagpoly AR y t = lagpoly MA e t.
Proof.
have p0 := pm0; have q0 := qm0; case: t => [|t ht]; first by mlia.
have sAR : (size AR <= pm.+1)%N.
  apply: leq_trans (_ : (p + P * S).+1 <= _)%N; last by rewrite /pm /p_max; mlia.
  by have := size_prod (size_arp phi 1) (size_arp Phi S); rewrite muln1.
have sMA : (size MA <= qm.+1)%N.
  apply: leq_trans (_ : (q + Q * S).+1 <= _)%N; last by rewrite /qm /q_max; mlia.
  by have := size_prod (size_map_ theta 1) (size_map_ Theta S); rewrite muln1.
have AR0 : AR`_0 = 1.
  have := ar_coef phi Phi S 0; rewrite -/AR coefB coef1 /= => e0.
  by apply/esym/eqP; rewrite -subr_eq0 -e0 gcoef0.
have MA0 : MA`_0 = 1.
  have := ma_coef theta Theta S 0; rewrite -/MA coefB coef1 /= => e0.
  by apply/eqP; rewrite -subr_eq0 -e0 gcoef0.
rewrite (lagpoly_widen _ _ sAR) (lagpoly_widen _ _ sMA) !big_ord_recl /= !subn0 AR0 MA0 !mul1r irun_y.
rewrite (eq_bigr (fun i : 'I_pm => - AR`_(bump 0 i) * y (t.+1 - bump 0 i)%N)) => [|i _]; last first.
  rewrite coefB coef1 sub0r /bump /= add1n istate_y //; first by have := ltn_ord i; mlia.
rewrite [X in _ + X + _ + _](eq_bigr (fun i : 'I_qm => MA`_(bump 0 i) * e (t.+1 - bump 0 i)%N)) => [|i _]; last first.
  rewrite coefB coef1 subr0 /bump /= add1n istate_e //; first by have := ltn_ord i; mlia.
rewrite (eq_bigr _ (fun i _ => mulNr _ _)) sumrN.
by move: (\sum_(i < pm) _) (\sum_(i < qm) _) => a b; zmod.
Qed.
End Interp.

Section Stat.
Context (F : fieldType).
Variables (d D S : nat) (phi Phi theta Theta : seq F).
Let p := size phi. Let q := size theta. Let P := size Phi. Let Q := size Theta.
Hypothesis SD : (0 < D -> 0 < S)%N.
Hypothesis SP : (0 < P -> 0 < S)%N.
Hypothesis SQ : (0 < Q -> 0 < S)%N.
Hypothesis ok : verify_order p q P Q S.
Let n := n_diffs d D S.
Let K := k_lags p q P Q S.
Let k := k_states p d q P D Q S.
Let T := fast_T p d q P D Q S phi Phi.
Let AR := ar_poly phi 1 * ar_poly Phi S.

Lemma row_cases r : (r < k)%N ->
  [\/ (r < d)%N, exists2 i, (i < D)%N & r = (d + S * i)%N,
      exists i j, [/\ (i < D)%N, (0 < j < S)%N & r = (d + S * i + j)%N] | exists2 i, (i < K)%N & r = (n + i)%N].
Proof.
have kE : k = (n + K)%N by rewrite /k /k_states addnC.
rewrite kE => hr; case: (ltnP r d) => h1; first by constructor 1.
case: (ltnP r n) => h2; last by constructor 4; exists (r - n)%N; mlia.
have D0 : (0 < D)%N by case: (posnP D) => // D0; move: h2; rewrite /n /n_diffs D0; mlia.
have S0 := SD D0.
have m1 := divn_eq (r - d)%N S; have m2 : ((r - d) %% S < S)%N by rewrite ltn_mod.
have m3 : ((r - d) %/ S < D)%N by rewrite ltn_divLR // mulnC; move: h2; rewrite /n /n_diffs; mlia.
case: (posnP ((r - d) %% S)%N) => m4.
  by constructor 2; exists ((r - d) %/ S)%N => //; mlia.
by constructor 3; exists ((r - d) %/ S)%N, ((r - d) %% S)%N; split => //; mlia.
Qed.
Lemma sing_d : (0 < d)%N -> forall r, (r < k)%N -> T r 0%N = (r == 0%N)%:R.
Proof.
move=> d0 r hr; have k0 : (0 < k)%N by mlia.
have n0 : (0 < n)%N by rewrite /n /n_diffs; mlia.
rewrite /T fT_E // -/n (_ : (0%N == n) = false) ?andbF ?addr0; last by mlia.
have nb : 0%N \in base' d D S = false by apply/negP => /(base_bounds SD SD); mlia.
case: (row_cases hr) => [h|[i hi e]|[i [j [hi hj e]]]|[i hi e]].
- rewrite T_top // mem_cat nb orbF mem_iota; congr ((nat_of_bool _)%:R); mlia.
- rewrite e T_head // (_ : 0%N \in _ = false); first by rewrite (_ : (_ == 0%N) = false) //; mlia.
  by apply/negP => /mem_drop; rewrite nb.
- by rewrite e T_roll //; congr ((nat_of_bool _)%:R); mlia.
by rewrite e T_arma //; [congr ((nat_of_bool _)%:R)|..]; rewrite -?/n; mlia.
Qed.
Lemma sing_D : d = 0%N -> (0 < D)%N -> forall r, (r < k)%N -> \sum_(c < k) T r c * (if (c < S)%N then 1 else 0) = (if (r < S)%N then 1 else 0).
Proof.
move=> d0 D0 r hr; have S0 := SD D0.
have nS : (S <= n)%N by rewrite /n /n_diffs; mnia.
have Kp : (0 < K)%N by rewrite /K /k_lags; mlia.
have kE : k = (n + K)%N by rewrite /k /k_states addnC.
have Sk : (S <= k)%N by rewrite kE; mlia.
have -> : \sum_(c < k) T r c * (if (c < S)%N then 1 else 0) = \sum_(c < S) sarima_T F p d q P D Q S r c.
  rewrite (big_ord_widen k (fun c => sarima_T F p d q P D Q S r c) Sk) [RHS]big_mkcond /=; apply: eq_bigr => c _.
  case: ifP => h; rewrite ?mulr1 ?mulr0 // /T fT_E // -/n (_ : (c == n :> nat) = false) ?andbF ?addr0 //; mlia.
have one (f : nat -> F) c : (c < S)%N -> (forall c', (c' < S)%N -> f c' = (c' == c)%:R) -> \sum_(c' < S) f c' = 1.
  move=> hc hf; rewrite (bigD1 (Ordinal hc)) //= hf // eqxx big1 ?addr0 // => c' ne.
  by rewrite hf // (_ : (_ == _) = false) //; apply: contraNF ne => /eqP h; apply/eqP/val_inj.
case: (row_cases hr) => [h|[i hi e]|[i [j [hi hj e]]]|[i hi e]]; first by mlia.
- case: (posnP i) => i0.
    rewrite (_ : (r < S)%N); last by mlia.
    apply: (one _ (S - 1)%N); first by mlia.
    move=> c hc; rewrite e T_head //; congr ((nat_of_bool _)%:R); rewrite i0; apply/(mem_drop_base d SD _ (leq0n D))/eqP.
      by case=> j [_ hj]; case: ltnP => h1 h2; mnia.
    by move=> ->; exists 0%N; rewrite D0; split => //; mlia.
  rewrite (_ : (r < S)%N = false); last by mnia.
  rewrite big1 // => c _; rewrite e T_head // (_ : _ \in _ = false) //; apply/negP.
  case/(mem_drop_base d SD _ (ltnW hi)) => j [h1 h2]; have hc := ltn_ord c; case: ifP => h3 h4; mnia.
- case: (posnP i) => i0.
    rewrite (_ : (r < S)%N); last by mlia.
    apply: (one _ (j - 1)%N); first by mlia.
    by move=> c hc; rewrite e T_roll //; congr ((nat_of_bool _)%:R); mlia.
  rewrite (_ : (r < S)%N = false); last by mnia.
  rewrite big1 // => c _; rewrite e T_roll // (_ : (_ == _) = false) //; have := ltn_ord c; mnia.
rewrite (_ : (r < S)%N = false); last by mnia.
rewrite big1 // => c _; have hc := ltn_ord c.
by rewrite e T_arma // -/n -/K; [rewrite (_ : (_ == _) = false) //|..]; mlia.
Qed.
Definition ImT : 'M[F]_k := 1%:M - \matrix_(r, c) T r c.
Lemma fix_sing (u : nat -> F) : (exists2 r, (r < k)%N & u r != 0) ->
  (forall r, (r < k)%N -> u r = \sum_(c < k) T r c * u c) -> ImT \notin unitmx.
Proof.
case=> r0 hr0 nz h; apply/negP => un.
have z : ImT *m (\col_r u r) = 0.
  rewrite /ImT mulmxBl mul1mx; apply/matrixP => r c; rewrite !mxE h // ; apply/eqP; rewrite subr_eq0; apply/eqP.
  by apply: eq_bigr => j _; rewrite !mxE.
have := mulKmx un (\col_r u r); rewrite z mulmx0 => /matrixP /(_ (Ordinal hr0) ord0); rewrite !mxE => e.
by rewrite -e eqxx in nz.
Qed.
Lemma AR_row i c : (i < K)%N -> (c < k)%N -> T (n + i)%N c = (if c == n then (1 - AR)`_i.+1 else 0) + (c == n + i.+1)%N%:R.
Proof.
move=> hi hc; have kE : k = (n + K)%N by rewrite /k /k_states addnC.
rewrite /T fT_E //; last by rewrite -/k kE; mlia.
by rewrite T_arma // -/n -?/K -?kE // leq_addr addKn addrC.
Qed.
Lemma stationary_iff : (ImT \in unitmx) = [&& d == 0%N, D == 0%N & AR.[1] != 0].
Proof.
have kE : k = (n + K)%N by rewrite /k /k_states addnC.
have Kp : (0 < K)%N by rewrite /K /k_lags; mlia.
case: (posnP d) => d0 /=; last first.
  apply/negbTE; apply: (@fix_sing (fun r => (r == 0%N)%:R)).
    by exists 0%N; rewrite ?oner_eq0 // kE; mlia.
  move=> r hr; have k0 : (0 < k)%N by mlia.
  rewrite (bigD1 (Ordinal k0)) //= mulr1 sing_d // big1 ?addr0 // => c ne.
  by rewrite (_ : (c == 0 :> nat)%N = false) ?mulr0 //; apply: contraNF ne => /eqP h; apply/eqP/val_inj.
case: (posnP D) => D0 /=; last first.
  apply/negbTE; apply: (@fix_sing (fun r => if (r < S)%N then 1 else 0)).
    by exists 0%N; rewrite ?SD ?oner_eq0 // kE; mlia.
  by move=> r hr; rewrite sing_D.
have n0 : n = 0%N by rewrite /n /n_diffs d0 D0 muln0.
have kK : k = K by rewrite kE n0.
have ARr i c : (i < K)%N -> (c < K)%N -> T i c = (if c == 0%N then (1 - AR)`_i.+1 else 0) + (c == i.+1)%N%:R.
  by move=> hi hc; have := @AR_row i c hi; rewrite n0 !add0n => ->; rewrite ?kK.
have sAR : (size (1 - AR)%R <= K.+1)%N.
  apply: leq_trans (size_add _ _) _; rewrite size_opp size_poly1 geq_max /=.
  have h1 : (p + P * S <= K)%N by rewrite /K /k_lags; mlia.
  by apply: leq_trans (_ : (p + P * S).+1 <= _)%N => //; have := size_prod (size_arp phi 1) (size_arp Phi S); rewrite muln1.
have A1 : (1 - AR).[1] = \sum_(i < K) (1 - AR)`_i.+1.
  rewrite (horner_coef_wide _ sAR) big_ord_recl /= coefB coef1 /=.
  have -> : AR`_0 = 1.
    have := ar_coef phi Phi S 0; rewrite -/AR coefB coef1 /= => e0.
    by apply/esym/eqP; rewrite -subr_eq0 -e0 gcoef0.
  rewrite subrr mul0r add0r; apply: eq_bigr => i _; rewrite expr1n mulr1 //.
have rowsum (u : nat -> F) i : (i < K)%N -> \sum_(c < K) T i c * u c = (1 - AR)`_i.+1 * u 0%N + (if (i.+1 < K)%N then u i.+1 else 0).
  move=> hi; rewrite (eq_bigr (fun c : 'I_K => (if (c : nat) == 0%N then (1 - AR)`_i.+1 * u 0%N else 0) + (if (c : nat) == i.+1 then u i.+1 else 0))); last first.
    move=> c _; rewrite ARr // mulrDl; congr (_ + _); first by case: eqP => [->|]; rewrite ?mul0r.
    by case: eqP => [->|]; rewrite ?mul0r ?mul1r.
  rewrite big_split /=; congr (_ + _).
    rewrite (bigD1 (Ordinal Kp)) //= big1 ?addr0 // => c ne.
    by rewrite (_ : ((c : nat) == _) = false) //; apply: contraNF ne => /eqP h; apply/eqP/val_inj.
  case: ifP => h; last first.
    by rewrite big1 // => c _; rewrite (_ : ((c : nat) == _) = false) //; have := ltn_ord c; mlia.
  rewrite (bigD1 (Ordinal h)) //= eqxx big1 ?addr0 // => c ne.
  by rewrite (_ : ((c : nat) == _) = false) //; apply: contraNF ne => /eqP h'; apply/eqP/val_inj.
case: (AR.[1] =P 0) => a1 /=.
  (* non-trivial fixed vector: tails of the AR coefficients *)
  apply/negbTE; apply: (@fix_sing (fun r => \sum_(r <= i < K) (1 - AR)`_i.+1)).
    by exists 0%N; rewrite ?kK // big_mkord -A1 hornerD hornerN a1 subr0 hornerC oner_eq0.
  move=> r; rewrite kK => hr.
  rewrite (rowsum (fun c => \sum_(c <= i < K) (1 - AR)`_i.+1) r hr) big_mkord -A1 hornerD hornerN a1 subr0 hornerC mulr1.
  by rewrite big_ltn //; congr (_ + _); case: ltnP => // h; rewrite big_geq.
rewrite -unitmx_tr -row_free_unit -kermx_eq0; apply/negPn/negP => /rowV0Pn[v hv nv].
pose u r := if insub r is Some o then v 0 (o : 'I_k) else 0.
have uE (o : 'I_k) : u o = v 0 o by rewrite /u valK.
have uout r : (K <= r)%N -> u r = 0 by move=> h; rewrite /u insubF // kK; mlia.
have fx r : (r < K)%N -> u r = (1 - AR)`_r.+1 * u 0%N + u r.+1.
  move=> hr; have hrk : (r < k)%N by rewrite kK.
  have := sub_kermxP hv => /matrixP /(_ 0 (Ordinal hrk)).
  rewrite /ImT linearB /= tr_scalar_mx mulmxBr mulmx1 !mxE => /eqP; rewrite subr_eq0 => /eqP.
  rewrite -(uE (Ordinal hrk)) /= => ->.
  rewrite (eq_bigr (fun c : 'I_k => T r c * u c)) => [|c _]; last by rewrite !mxE uE mulrC.
  rewrite -(big_mkord xpredT (fun c => T r c * u c)) kK big_mkord rowsum //; congr (_ + _).
  by case: ltnP => // h; rewrite uout.
have tl m : (m <= K)%N -> u (K - m)%N = (\sum_(K - m <= i < K) (1 - AR)`_i.+1) * u 0%N.
  elim: m => [|m IH] hm; first by rewrite subn0 uout // big_geq ?mul0r.
  rewrite fx; last by mlia.
  rewrite (_ : (K - m.+1).+1 = (K - m)%N); last by mlia.
  rewrite IH; last by mlia.
  rewrite [in RHS]big_ltn; last by mlia.
  by rewrite (_ : (K - m.+1).+1 = (K - m)%N) ?mulrDl //; mlia.
have u0 : u 0%N = 0.
  have := tl K (leqnn K); rewrite subnn big_mkord -A1 hornerD hornerN hornerC mulrBl mul1r => /eqP.
  rewrite eq_sym subr_eq addrC -subr_eq subrr eq_sym mulf_eq0 => /orP[/eqP //|/eqP //].
have uz r : u r = 0.
  case: (leqP K r) => h; first exact: uout.
  by have := tl (K - r)%N; rewrite u0 mulr0 (_ : (K - (K - r) = r)%N) => [|]; [apply; mlia|mlia].
by case/eqP: nv; apply/matrixP => i c; rewrite ord1 -uE uz mxE.
Qed.
End Stat.
