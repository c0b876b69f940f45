(** Proofs about the SARIMA state recursion. *)
From Coq Require Import ZArith Lia.
From mathcomp Require Import all_ssreflect all_algebra.
From Verif Require Import McLia McTac Sarima_Model Sarima_Spec Sarima_Proofs Sarima_Proofs2.
Set Implicit Arguments.
Unset Strict Implicit.
Unset Printing Implicit Defensive.
Import GRing.Theory.
Local Open Scope ring_scope.

Section Base.
Variables (d D S : nat).
Hypothesis S_pos : (0 < D -> 0 < S)%N.
Lemma nth_base' i : (i <= D)%N -> nth 0%N (base' d D S) i = (if i < D then d + S * i.+1 - 1 else d + S * D)%N.
Proof.
move=> hi; rewrite /base' nth_rcons size_map size_iota; case: ltnP => h; first by rewrite (nth_map 0%N) ?size_iota // nth_iota.
by rewrite (_ : i == D) //; mlia.
Qed.
Lemma mem_drop_base i c : (i <= D)%N ->
  reflect (exists j, [/\ i <= j, j <= D & c = if j < D then d + S * j.+1 - 1 else d + S * D]%N) (c \in drop i (base' d D S)).
Proof.
move=> hi; apply: (iffP idP).
  move/(nthP 0%N) => [j]; rewrite size_drop size_base' nth_drop => hj <-.
  by exists (i + j)%N; split; rewrite ?nth_base' //; mlia.
case=> j [h1 h2 ->]; apply/(nthP 0%N); exists (j - i)%N; first by rewrite size_drop size_base'; mlia.
by rewrite nth_drop subnKC // nth_base'.
Qed.
Lemma uniq_base : uniq (base' d D S).
Proof.
rewrite rcons_uniq map_inj_in_uniq ?iota_uniq ?andbT.
  apply/mapP => -[i]; rewrite mem_iota => hi; have := S_pos; mnia.
move=> i j; rewrite !mem_iota => hi hj e; have S0 : (0 < S)%N by apply: S_pos; mlia.
have : (S * i.+1 = S * j.+1)%N by mnia.
by move/eqP; rewrite eqn_pmul2l // => /eqP[].
Qed.
Lemma drop_base_S i : (i < D)%N -> drop i (base' d D S) = (d + S * i.+1 - 1)%N :: drop i.+1 (base' d D S).
Proof.
move=> hi; rewrite (drop_nth 0%N) ?size_base'; last by mlia.
by rewrite nth_base' ?hi; last mlia.
Qed.
Lemma drop_base_D : drop D (base' d D S) = [:: (d + S * D)%N].
Proof. by rewrite /base' -cats1 drop_size_cat // size_map size_iota. Qed.
End Base.

Section Rows.
Context (R : comRingType).
Variables (p d q P D Q S : nat).
Hypothesis S_pos : (0 < D -> 0 < S)%N.
Let T := @sarima_T R p d q P D Q S.
Let n := n_diffs d D S.
Let K := k_lags p q P Q S.
Lemma T_top r c : (r < d)%N -> T r c = (c \in iota r (d - r) ++ base' d D S)%:R.
Proof.
move=> h; rewrite /T T_E // mem_cat mem_iota.
rewrite (_ : _ && _ && _ = false); last by rewrite /n_diffs; mnia.
rewrite [X in _ && X](_ : _ = false); last by apply/negP => /hasP[i]; mlia.
rewrite andbF (_ : (d < r)%N = false) /=; last by mlia.
rewrite andbF rowcol_mem // h /= [has _ _](_ : _ = false) ?orbF; last by apply/negP => /hasP[i]; mlia.
rewrite (_ : (r + (d - r) = d)%N); last by mlia.
by case: (c \in base' d D S) => /=; rewrite ?orbT ?orbF //; case: ifP.
Qed.
Lemma T_head i c : (i < D)%N -> T (d + S * i)%N c = (c \in drop i (base' d D S))%:R.
Proof.
move=> h; have S0 : (0 < S)%N by apply: S_pos; mlia.
rewrite /T T_E // rowcol_mem //.
rewrite (_ : _ && _ && _ = false); last by rewrite /n_diffs; mnia.
rewrite S0 /=.
have nin : (0 < i)%N -> c = (d + S * i - 1)%N -> (c \in drop i (base' d D S)) = false.
  move=> i0 ce; apply/negP => /(@mem_drop_base d D S S_pos i c (ltnW h)) [j [h1 h2]]; rewrite ce; case: ltnP => _ e; mnia.
case: ifP => [/hasP[j]|hz].
  by rewrite mem_iota => hj /andP[/andP[h1 h2] /andP[/eqP h3 /eqP h4]]; rewrite nin //; mnia.
case: ifP => [/and3P[h1 h2 /eqP h3]|_].
  case/negP: hz; apply/hasP; exists (S * i - 1)%N; first by rewrite mem_iota; mnia.
  have i0 : (0 < i)%N by mnia.
  have -> : (S * i - 1 - (S - 1) = S * (i - 1))%N by mnia.
  rewrite modnMr eqxx; mnia.
rewrite (_ : (d + S * i < d)%N = false) /=; last by mnia.
rewrite (_ : (d + S * i <= c < d)%N = false) /=; last by mnia.
case: (boolP (c \in drop i _)) => hc.
  rewrite (_ : has _ _ = true) //; apply/hasP; exists i; rewrite ?mem_iota ?eqxx //.
case: ifP => // /hasP[j]; rewrite mem_iota eqn_add2l eqn_pmul2l // => hj /andP[/eqP e].
by rewrite -e (negbTE hc).
Qed.
Lemma T_roll i j c : (i < D)%N -> (0 < j < S)%N -> T (d + S * i + j)%N c = (c == d + S * i + j - 1)%N%:R.
Proof.
move=> h hj; have S0 : (0 < S)%N by mlia.
rewrite /T T_E // rowcol_mem // S0 /=.
rewrite (_ : _ && _ && _ = false); last by rewrite /n_diffs; mnia.
rewrite [has _ _](_ : _ = false); last first.
  apply/negP => /hasP[l]; rewrite mem_iota => hl /andP[/andP[h1 h2] /andP[/eqP h3 /eqP h4]].
  have i0 : (0 < i)%N by mnia.
  have e : (l - (S - 1) = (i - 1) * S + j)%N by mnia.
  by move: h2; rewrite e modnMDl modn_small; mlia.
rewrite (_ : (d < d + S * i + j)%N) /=; last by mlia.
rewrite (_ : (d + S * i + j <= n_diffs d D S)%N) /=; last by rewrite /n_diffs; mnia.
rewrite (_ : (d + S * i + j - 1 = (d + S * i + j).-1)%N); last by mlia.
case: eqP => // _.
rewrite (_ : (d + S * i + j < d)%N = false) /=; last by mnia.
rewrite (_ : (d + S * i + j <= c < d)%N = false) /=; last by mnia.
case: ifP => // /hasP[l]; rewrite mem_iota => hl /andP[/eqP e _].
have e' : (S * i + j = S * l)%N by mlia.
have : (S * i < S * l)%N by mlia. have : (S * l < S * i.+1)%N by mnia.
by rewrite !ltn_pmul2l //; mlia.
Qed.
Lemma T_arma i c : (i < K)%N -> (c < n + K)%N -> T (n + i)%N c = (c == n + i.+1)%N%:R.
Proof.
move=> h hc; rewrite /T T_E // rowcol_mem //.
case: (c =P (n + i.+1)%N) => [e|ne].
  rewrite (_ : _ && _ && _) // -/n -/K e addnS eqxx; mlia.
rewrite [X in if X then _ else _](_ : _ = false); last by rewrite -/n; mlia.
rewrite (_ : (n + i < d)%N = false) ?orFb; last by rewrite /n /n_diffs; mlia.
rewrite (_ : (n + i <= c < d)%N = false); last by rewrite /n /n_diffs; mlia.
rewrite [has (fun i0 => (_ == (d + S * i0)%N) && _) _](_ : _ = false); last first.
  apply/negP => /hasP[j]; rewrite mem_iota /n /n_diffs => hj /andP[+ _].
  have S0 : (0 < S)%N by apply: S_pos; mlia. mnia.
rewrite -/n /=; case: ifP => // hz; case: ifP => // /andP[S0 /and3P[h1 h2 /eqP h3]].
have D0 : (0 < D)%N by case: (posnP D) => // D0; move: h1 h2; rewrite /n /n_diffs D0 muln0; mlia.
case/negP: hz; rewrite S0; apply/hasP; exists (S * D - 1)%N; first by rewrite mem_iota; mnia.
have -> : (S * D - 1 - (S - 1) = S * (D - 1))%N by mnia.
rewrite modnMr eqxx; move: h1 h2 h3; rewrite /n /n_diffs; mnia.
Qed.
End Rows.

Lemma size_np_tile' (A : Type) (l : seq A) m : size (np_tile l m) = (m * size l)%N.
Proof. exact: size_np_tile. Qed.
Lemma nth_np_tile (A : Type) (x : A) (l : seq A) m i : (i < m * size l)%N ->
  nth x (np_tile l m) i = nth x l (i %% size l)%N.
Proof.
rewrite /np_tile; elim: m i => [|m IH] i //=; rewrite mulSn nth_cat => h.
case: ltnP => hi; first by rewrite modn_small.
rewrite IH; last by mlia. by rewrite -{2}(subnK hi) modnDr.
Qed.

Lemma gcoef0 (R : comRingType) f S (a A : seq R) : (0 < size A -> 0 < S)%N -> gcoef f S a A 0 = 0.
Proof.
move=> hS; rewrite /gcoef big1 // add0r big_seq big1 ?add0r => [|i].
  rewrite big_seq big1 // => i /allpairsP[[x y] /= [_ _ ->]] /=; case: eqP => //; mlia.
rewrite mem_iota => hi; case: eqP => // h; have := hS; mnia.
Qed.

Section Dyn.
Context (R : comRingType).
Variables (d D S : nat) (phi Phi theta Theta : seq R).
Let p := size phi. Let q := size theta. Let P := size Phi. Let Q := size Theta.
Hypothesis SD : (0 < D -> 0 < S)%N.
Hypothesis SP : (0 < P -> 0 < S)%N.
Hypothesis SQ : (0 < Q -> 0 < S)%N.
Hypothesis ok : verify_order p q P Q S.
Let n := n_diffs d D S.
Let K := k_lags p q P Q S.
Let k := k_states p d q P D Q S.
Let T := fast_T p d q P D Q S phi Phi.
Let Rm := fast_R d q D Q S theta Theta.
Let AR := ar_poly phi 1 * ar_poly Phi S.
Let MA := ma_poly theta 1 * ma_poly Theta S.

Lemma kE : k = (n + K)%N.
Proof. by rewrite /k /k_states addnC. Qed.
Lemma K0 : (0 < K)%N.
Proof. by rewrite /K /k_lags; mlia. Qed.
Lemma KAR : (p + P * S <= K)%N. Proof. by rewrite /K /k_lags; mlia. Qed.
Lemma KMA : (q + Q * S < K)%N. Proof. by rewrite /K /k_lags; mlia. Qed.

Lemma sAR : (size AR <= (p + P * S).+1)%N.
Proof. by have := size_prod (size_arp phi 1) (size_arp Phi S); rewrite muln1. Qed.
Lemma sMA : (size MA <= (q + Q * S).+1)%N.
Proof. by have := size_prod (size_map_ theta 1) (size_map_ Theta S); rewrite muln1. Qed.

Lemma fT_E r c : (r < k)%N -> (c < k)%N ->
  T r c = sarima_T R p d q P D Q S r c + (if (n <= r)%N && (c == n) then (1 - AR)`_(r - n).+1 else 0).
Proof.
move=> hr hc; rewrite /T /fast_T with_ar_E ?writes_E //.
- congr (_ + _); rewrite -/p -/P -/n.
  case: (leqP n r) => hn /=; last first.
    by apply: big1 => i _; rewrite xpair_eqE (_ : (r == _) = false) //; mlia.
  case: (c =P n) => hcn; last by apply: big1 => i _; rewrite xpair_eqE [c == n](introF eqP hcn) andbF.
  case: (ltnP (r - n) (p + P * S)) => hlt.
    rewrite (bigD1_seq (r - n)%N) ?iota_uniq ?mem_iota //= big1 ?addr0 => [|i ne].
      by rewrite xpair_eqE hcn eqxx andbT (_ : r == _) ?ar_coef //; mlia.
    by rewrite xpair_eqE (_ : (r == _) = false) //; mlia.
  rewrite big_seq big1 => [|i]; last first.
    by rewrite mem_iota xpair_eqE => hi; rewrite (_ : (r == _) = false) //; mlia.
  rewrite nth_default //; apply: leq_trans (size_add _ _) _.
  rewrite size_opp size_poly1 geq_max /=; apply: leq_trans sAR _; mlia.
- by case/andP: ok => h _; exact: overlap_E.
- by move=> i j; rewrite !inE => hi hj [e]; mlia.
move=> m hm /=; rewrite (_ : (n_diffs d D S + m - 1 = n_diffs d D S + (m - 1))%N); last by mlia.
have hK := KAR; rewrite T_arma // -/n -/K; [case: eqP => // h|..]; mlia.
Qed.
Lemma fR_E r : (r < k)%N -> Rm r 0%N = (if (n <= r)%N then MA`_(r - n) else 0).
Proof.
move=> hr; rewrite /Rm /fast_R with_ma_E ?writes_E //.
- rewrite -/q -/Q -/n /selection0 -/n.
  case: (leqP n r) => hn /=; last first.
    rewrite (_ : (r == n) = false); last by mlia.
    by rewrite add0r big1 // => i _; rewrite xpair_eqE (_ : (r == _) = false) //; mlia.
  have MA0 : MA`_0 = 1.
    have := ma_coef theta Theta S 0; rewrite -/MA coefB coef1 /= => e.
    by apply/eqP; rewrite -subr_eq0 -e gcoef0.
  case: (r =P n) => [e|ne].
    by rewrite e subnn MA0 big1 ?addr0 // => i _; rewrite xpair_eqE (_ : (n == _) = false) //; mlia.
  have rn : (n < r)%N by mlia.
  rewrite add0r.
  have e1 : (r - n = (r - n).-1.+1)%N by mlia.
  have MAc m : MA`_m.+1 = (MA - 1)`_m.+1 by rewrite coefB coef1 subr0.
  case: (ltnP (r - n).-1 (q + Q * S)) => hlt.
    rewrite (bigD1_seq (r - n).-1) ?iota_uniq ?mem_iota //= big1 ?addr0 => [|i ne'].
      by rewrite -e1 xpair_eqE eqxx andbT (_ : r == _) 1?e1 ?MAc ?ma_coef //; mlia.
    by rewrite xpair_eqE (_ : (r == _) = false) //; mlia.
  rewrite big_seq big1 => [|i]; last first.
    by rewrite mem_iota xpair_eqE => hi; rewrite (_ : (r == _) = false) //; mlia.
  rewrite nth_default //; apply: leq_trans sMA _; mlia.
- by case/andP: ok => _ h; exact: overlap_E.
- by move=> i j; rewrite !inE => hi hj [e]; mlia.
by move=> m hm /=; rewrite /selection0; case: eqP => // e; mlia.
Qed.

Variables (s : nat -> nat -> R) (e : nat -> R).
Hypothesis run : ss_run k T Rm s e.
Let x t := s t n.
Let w i t := \sum_(c <- drop i (base' d D S)) s t c.
Let v r t := \sum_(c <- iota r (d - r)) s t c + w 0 t.

Lemma base_lt c : c \in base' d D S -> (c < k)%N.
Proof. by move/(base_bounds SD SD); have := K0; rewrite kE /n /n_diffs; mlia. Qed.
Lemma run_top t r : (r < d)%N -> s t.+1 r = v r t.
Proof.
move=> hr; have nd : (d <= n)%N by rewrite /n /n_diffs; mlia.
have rk : (r < k)%N by rewrite kE; mlia.
rewrite run // fR_E // (_ : (n <= r)%N = false) ?mul0r ?addr0; last by mlia.
rewrite (@sum_mem _ _ _ _ (iota r (d - r) ++ base' d D S)).
- by rewrite big_cat /= /v /w drop0.
- rewrite cat_uniq iota_uniq uniq_base // andbT /=; apply/hasPn => c /(base_bounds SD SD) h.
  by apply/negP => /= h'; have : c \in iota _ _ := h'; rewrite mem_iota; mlia.
- rewrite all_cat; apply/andP; split; apply/allP => c; last exact: base_lt.
  rewrite mem_iota kE; mlia.
by move=> c hc; rewrite fT_E // T_top // (_ : (n <= r)%N = false) ?addr0 //; mlia.
Qed.
Lemma run_head t i : (i < D)%N -> s t.+1 (d + S * i)%N = w i t.
Proof.
move=> hi; have S0 : (0 < S)%N by apply: SD; mlia.
have hn : (d + S * i < n)%N by rewrite /n /n_diffs; mnia.
have rk : (d + S * i < k)%N by rewrite kE; mlia.
rewrite run // fR_E // (_ : (n <= d + S * i)%N = false) ?mul0r ?addr0; last by mlia.
rewrite (@sum_mem _ _ _ _ (drop i (base' d D S))) ?drop_uniq ?uniq_base //.
- by apply/allP => c /mem_drop; exact: base_lt.
by move=> c hc; rewrite fT_E // T_head // (_ : (n <= d + S * i)%N = false) ?addr0 //; mlia.
Qed.
Lemma run_roll t i j : (i < D)%N -> (0 < j < S)%N -> s t.+1 (d + S * i + j)%N = s t (d + S * i + j - 1)%N.
Proof.
move=> hi hj.
have hn : (d + S * i + j < n)%N by rewrite /n /n_diffs; mnia.
have rk : (d + S * i + j < k)%N by rewrite kE; mlia.
rewrite run // fR_E // (_ : (n <= d + S * i + j)%N = false) ?mul0r ?addr0; last by mlia.
rewrite (@sum_mem _ _ _ _ [:: (d + S * i + j - 1)%N]) ?big_seq1 //=; first by rewrite andbT; mlia.
by move=> c hc; rewrite fT_E // T_roll // (_ : (n <= d + S * i + j)%N = false) ?addr0 ?inE //; mlia.
Qed.
Lemma run_arma t i : (i < K)%N ->
  s t.+1 (n + i)%N = (1 - AR)`_i.+1 * x t + (if (i.+1 < K)%N then s t (n + i.+1)%N else 0) + MA`_i * e t.+1.
Proof.
move=> hi; have rk : (n + i < k)%N by rewrite kE; mlia.
rewrite run // fR_E // (_ : (n <= n + i)%N) ?leq_addr // addKn; congr (_ + _).
have nk : (n < k)%N by rewrite kE; have := K0; mlia.
rewrite (eq_bigr (fun c : 'I_k => (if (c : nat) == n then (1 - AR)`_i.+1 else 0) * s t c + (if (c : nat) == (n + i.+1)%N then 1 else 0) * s t c)); last first.
  move=> c _; rewrite fT_E // T_arma // -?kE // leq_addr addKn /= -mulrDl addrC; congr ((_ + _) * _).
  by case: eqP.
rewrite big_split /=; congr (_ + _).
  rewrite (bigD1 (Ordinal nk)) //= eqxx big1 ?addr0 // => c ne.
  by rewrite (_ : ((c : nat) == n) = false) ?mul0r //; apply: contraNF ne => /eqP h; apply/eqP/val_inj.
case: ifP => h.
  have nk' : (n + i.+1 < k)%N by rewrite kE; mlia.
  rewrite (bigD1 (Ordinal nk')) //= eqxx mul1r big1 ?addr0 // => c ne.
  by rewrite (_ : ((c : nat) == _) = false) ?mul0r //; apply: contraNF ne => /eqP h'; apply/eqP/val_inj.
rewrite big1 // => c _; rewrite (_ : ((c : nat) == _) = false) ?mul0r //; have := ltn_ord c; rewrite {2}kE; mlia.
Qed.

(** seasonal and ordinary difference chains *)
Lemma last_lag i t : (i < D)%N -> (S <= t)%N -> s t (d + S * i.+1 - 1)%N = w i (t - S)%N.
Proof.
move=> hi ht; have S0 : (0 < S)%N by apply: SD; mlia.
have h j : (j < S)%N -> s t (d + S * i.+1 - 1)%N = s (t - j)%N (d + S * i + (S - 1 - j))%N.
  elim: j => [|j IH] hj; first by rewrite !subn0; congr (s _ _); mnia.
  rewrite IH; last by mlia.
  rewrite (_ : (t - j = (t - j.+1).+1)%N); last by mlia.
  by rewrite run_roll //; [congr (s _ _)|]; mlia.
rewrite (h (S - 1)%N); last by mlia.
rewrite (_ : (t - (S - 1) = (t - S).+1)%N); last by mlia.
by rewrite (_ : (d + S * i + _ = d + S * i)%N); [exact: run_head|mlia].
Qed.
Lemma w_step i t : (i < D)%N -> (S <= t)%N -> w i t - w i (t - S)%N = w i.+1 t.
Proof. by move=> hi ht; rewrite -(last_lag hi ht) {1}/w drop_base_S // big_cons addrC addKr. Qed.
Lemma w_D t : w D t = x t.
Proof. by rewrite /w drop_base_D big_seq1 /x /n /n_diffs addnC. Qed.
Lemma v_step r t : (r < d)%N -> (1 <= t)%N -> v r t - v r (t - 1)%N = v r.+1 t.
Proof.
move=> hr ht; rewrite -(run_top (t - 1) hr) (_ : (t - 1).+1 = t)%N; last by mlia.
rewrite {1}/v (_ : (d - r = (d - r.+1).+1)%N) /=; last by mlia.
by rewrite big_cons /v; zmod.
Qed.
Lemma v_d t : v d t = w 0 t.
Proof. by rewrite /v subnn big_nil add0r. Qed.

Lemma observe_v t : observe k (sarima_Z R p d q P D Q S) s t = v 0 t.
Proof.
rewrite /observe (@sum_mem _ _ _ _ (iota 0 d ++ base' d D S)).
- by rewrite big_cat /= /v /w drop0 subn0.
- rewrite cat_uniq iota_uniq uniq_base // andbT /=; apply/hasPn => c /(base_bounds SD SD) h.
  by apply/negP => /= h'; have : c \in iota _ _ := h'; rewrite mem_iota; mlia.
- rewrite all_cat; apply/andP; split; apply/allP => c; last exact: base_lt.
  rewrite mem_iota kE /n /n_diffs; have := K0; mlia.
move=> c hc; rewrite /sarima_Z mem_cat mem_iota nth_cat size_nseq add0n leq0n /=.
case: ltnP => cd; first by rewrite nth_nseq cd.
rewrite /= nth_cat size_np_tile size_rcons size_nseq.
have eD : (D * (S - 1).+1 = S * D)%N by case: (posnP D) => [->|D0]; [mlia|have := SD D0; mnia].
rewrite eD; case: ltnP => cn.
  have D0 : (0 < D)%N by case: (posnP D) => // D0; move: cn; rewrite D0; mlia.
  have S0 := SD D0.
  have sz : size (rcons (nseq (S - 1) (0 : R)) 1) = S by rewrite size_rcons size_nseq; mlia.
  rewrite nth_np_tile sz; last by mlia.
  set i := (c - d)%N in cn *; have ei : c = (d + i)%N by rewrite /i; mlia.
  have m1 := divn_eq i S; have m2 : (i %% S < S)%N by rewrite ltn_mod.
  have m3 : (i %/ S < D)%N by rewrite ltn_divLR // mulnC.
  rewrite nth_rcons size_nseq; case: ltnP => h1.
    rewrite nth_nseq if_same (_ : _ \in _ = false) //; apply/negP => hcb.
    have := hcb; rewrite -[base' _ _ _]drop0 => /(mem_drop_base d SD _ (leq0n D)) [j [_ hj]].
    case: ltnP => hjD ec; last by mlia.
    have : (i = j * S + (S - 1))%N by mnia.
    by move=> e'; move: h1; rewrite e' modnMDl modn_small; mlia.
  rewrite (_ : _ == _); last by mlia.
  rewrite (_ : _ \in _) //; rewrite -[base' _ _ _]drop0; apply/(mem_drop_base d SD _ (leq0n D)).
  by exists (i %/ S)%N; split; rewrite ?m3 //; mnia.
case em: (c - d - S * D)%N => [|m] /=.
  rewrite (_ : _ \in _) //; rewrite -[base' _ _ _]drop0; apply/(mem_drop_base d SD _ (leq0n D)).
  by exists D; split; rewrite ?ltnn //; mlia.
rewrite nth_nseq if_same (_ : _ \in _ = false) //; apply/negP => /(base_bounds SD SD); mlia.
Qed.

Lemma diff_identity t : (d + S * D <= t)%N ->
  lagpoly (diff_poly R d D S) (observe k (sarima_Z R p d q P D Q S) s) t = x t.
Proof.
move=> ht; rewrite /diff_poly mulrC lagpolyM.
have hv u : (d <= u)%N -> lagpoly ((1 - 'X) ^+ d) (observe k (sarima_Z R p d q P D Q S) s) u = w 0 u.
  move=> hu; rewrite -v_d.
  have := @diff_chain _ v 1 d v_step d 0 u; rewrite expr1 add0n mul1n => <- //.
  by apply: lagpoly_eq => j _; exact: observe_v.
have szl : forall l, (size ((1 - 'X^S) ^+ l : {poly R})%R <= (S * l).+1)%N.
  elim=> [|l IHl]; first by rewrite expr0 size_poly1.
  rewrite exprS; apply: leq_trans (size_mul_leq _ _) _.
  have : (size (1 - 'X^S : {poly R})%R <= S.+1)%N.
    apply: leq_trans (size_add _ _) _; rewrite geq_max size_poly1 /= size_opp size_polyXn; mlia.
  by move: IHl; move: (size _) (size _) => a b; mnia.
rewrite (@lagpoly_eq _ _ _ (w 0)) => [|j hj]; last first.
  by apply: hv; have := leq_trans hj (szl D); mlia.
by rewrite (@diff_chain _ w S D w_step D 0 t) // ?w_D //; mlia.
Qed.

(** the ARMA block unrolled *)
Lemma unroll m t : (m <= K)%N -> (m <= t)%N ->
  x t = \sum_(i < m) ((1 - AR)`_i.+1 * x (t - i.+1)%N + MA`_i * e (t - i)%N)
        + (if (m < K)%N then s (t - m)%N (n + m)%N else 0).
Proof.
elim: m => [|m IH] hm ht; first by rewrite big_ord0 add0r K0 subn0 addn0.
rewrite IH; try mlia; rewrite hm big_ord_recr /= -addrA; congr (_ + _).
rewrite (_ : (t - m = (t - m.+1).+1)%N); last by mlia.
by rewrite run_arma // (_ : (t - m.+1).+1 = (t - m)%N); last mlia; rewrite addrAC.
Qed.
Lemma arma_equation t : (K <= t)%N -> lagpoly AR x t = lagpoly MA e t.
Proof.
move=> ht; have := unroll (leqnn K) ht; rewrite ltnn addr0 big_split /= => ex.
have sAR' : (size AR <= K.+1)%N by apply: leq_trans sAR _; have := KAR; mlia.
have sMA' : (size MA <= K)%N by apply: leq_trans sMA _; have := KMA; mlia.
rewrite (lagpoly_widen _ _ sAR') (lagpoly_widen _ _ sMA') big_ord_recl /= subn0.
have AR0 : AR`_0 = 1.
  have := ar_coef phi Phi S 0; rewrite -/AR coefB coef1 /= => e0.
  by apply/esym/eqP; rewrite -subr_eq0 -e0 gcoef0.
rewrite AR0 mul1r {1}ex addrC addrA -big_split /= big1 ?add0r // => i _.
rewrite /bump /= add1n coefB coef1 sub0r mulNr subrr //.
Qed.
Lemma sarima_equation t : (d + S * D + K <= t)%N ->
  lagpoly (AR * diff_poly R d D S) (observe k (sarima_Z R p d q P D Q S) s) t = lagpoly MA e t.
Proof.
move=> ht; rewrite lagpolyM -arma_equation; last by mlia.
apply: lagpoly_eq => j hj; apply: diff_identity.
by have := leq_trans hj sAR; have := KAR; mlia.
Qed.
End Dyn.
