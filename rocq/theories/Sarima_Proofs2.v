(** Proofs about the SARIMA matrices: parameter columns and state recursions. *)
From Coq Require Import ZArith Lia.
From mathcomp Require Import all_ssreflect all_algebra.
From Verif Require Import McLia McTac Sarima_Model Sarima_Spec Sarima_Proofs.
Set Implicit Arguments.
Unset Strict Implicit.
Unset Printing Implicit Defensive.
Import GRing.Theory.
Local Open Scope ring_scope.

Section U.
Context (R : comRingType).
Implicit Types (T : mat R).
Lemma updv_add T (l : seq ((nat * nat) * R)) r c :
  uniq (unzip1 l) -> (forall rc, rc \in unzip1 l -> T rc.1 rc.2 = 0) ->
  foldl (fun M (iv : (nat * nat) * R) => upd M [:: iv.1] iv.2) T l r c =
  T r c + \sum_(iv <- l) (if (r, c) == iv.1 then iv.2 else 0).
Proof.
elim: l T => [|[i v] l IH] T /=; first by rewrite big_nil addr0.
move=> /andP[ni u] h; rewrite IH //; last first.
  move=> rc hrc; rewrite /upd inE -surjective_pairing; case: eqP => [e|_]; first by rewrite -e hrc in ni.
  by apply: h; rewrite inE hrc orbT.
rewrite big_cons /= addrA; congr (_ + _); rewrite /upd inE.
by case: eqP => [e|_]; rewrite ?addr0 // -[T r c]/(T (r, c).1 (r, c).2) e h ?inE ?eqxx ?add0r.
Qed.
Lemma updv_map T (X : eqType) (f : X -> nat * nat) (g : X -> R) (l : seq X) r c :
  {in l &, injective f} -> uniq l -> (forall x, x \in l -> T (f x).1 (f x).2 = 0) ->
  updv T [seq f i | i <- l] [seq g i | i <- l] r c = T r c + \sum_(i <- l) (if (r, c) == f i then g i else 0).
Proof.
move=> inj u h; rewrite /updv zip_maps updv_add.
- by rewrite big_map.
- by rewrite /unzip1 -map_comp map_inj_in_uniq.
by move=> rc; rewrite /unzip1 -map_comp => /mapP[x hx ->]; exact: h.
Qed.
Lemma repeat_tile_map (A B : Type) (f : nat -> A) (g : nat -> B) a b :
  zip (np_repeat [seq f i | i <- iota 0 a] b) (np_tile [seq g j | j <- iota 0 b] a) =
  [seq (f ij.1, g ij.2) | ij <- [seq (i, j) | i <- iota 0 a, j <- iota 0 b]].
Proof.
have := @zip_repeat_tile _ _ [seq f i | i <- iota 0 a] [seq g j | j <- iota 0 b].
rewrite !size_map !size_iota => ->; rewrite map_allpairs.
by rewrite allpairs_mapl allpairs_mapr.
Qed.
Lemma mkseq_nth (c : seq R) : [seq c`_i | i <- iota 0 (size c)] = c.
Proof. by rewrite -/(mkseq _ _) mkseq_nth. Qed.
Lemma repeat_tile_iota (A : Type) (f : nat -> A) a b :
  zip (np_repeat [seq f i | i <- iota 0 a] b) (np_tile (iota 0 b) a) =
  [seq (f ij.1, ij.2) | ij <- [seq (i, j) | i <- iota 0 a, j <- iota 0 b]].
Proof. by have := repeat_tile_map f id a b; rewrite map_id. Qed.
Lemma repeat_tile_nth (x y : seq R) :
  zip (np_repeat x (size y)) (np_tile y (size x)) =
  [seq (x`_ij.1, y`_ij.2) | ij <- [seq (i, j) | i <- iota 0 (size x), j <- iota 0 (size y)]].
Proof. by have := repeat_tile_map (nth 0 x) (nth 0 y) (size x) (size y); rewrite !mkseq_nth. Qed.
Lemma iota1_map n : iota 1 n = [seq i.+1 | i <- iota 0 n].
Proof. by rewrite (iotaDl 1 0 n); apply: eq_map => i; rewrite add1n. Qed.
End U.

Section W.
Context (R : comRingType).
Implicit Types (T : mat R).
(** one family of parameter writes: lag m goes to cell [pos m] *)
Definition writes (pos : nat -> nat * nat) (f : R -> R -> R) (a A S : nat) (phi Phi : seq R) (T : mat R) : mat R :=
  let T := if (0 < a)%N then updv T [seq pos i.+1 | i <- iota 0 a] phi else T in
  if (0 < A)%N then
    let T := updv T [seq pos (i.+1 * S)%N | i <- iota 0 A] Phi in
    if (0 < a)%N then
      updv T [seq pos (ij.1.+1 * S + ij.2.+1)%N | ij <- [seq (i, j) | i <- iota 0 A, j <- iota 0 a]]
             [seq f (Phi`_ij.1) (phi`_ij.2) | ij <- [seq (i, j) | i <- iota 0 A, j <- iota 0 a]]
    else T
  else T.
(** coefficient of lag m *)
Definition gcoef (f : R -> R -> R) (S : nat) (phi Phi : seq R) (m : nat) : R :=
  \sum_(i <- iota 0 (size phi)) (if m == i.+1 then phi`_i else 0)
  + \sum_(i <- iota 0 (size Phi)) (if m == (i.+1 * S)%N then Phi`_i else 0)
  + \sum_(ij <- [seq (i, j) | i <- iota 0 (size Phi), j <- iota 0 (size phi)])
      (if m == (ij.1.+1 * S + ij.2.+1)%N then f (Phi`_ij.1) (phi`_ij.2) else 0).

Lemma writes_E pos f S (phi Phi : seq R) T r c :
  let a := size phi in let A := size Phi in
  (0 < A -> a < S)%N ->
  {in [pred m | 0 < m <= a + A * S]%N &, injective pos} ->
  (forall m, (0 < m <= a + A * S)%N -> T (pos m).1 (pos m).2 = 0) ->
  writes pos f a A S phi Phi T r c =
  T r c + \sum_(i <- iota 0 (a + A * S)) (if (r, c) == pos i.+1 then gcoef f S phi Phi i.+1 else 0).
Proof.
move=> a A hS inj T0.
have posE m m' : (0 < m <= a + A * S)%N -> (0 < m' <= a + A * S)%N -> (pos m == pos m') = (m == m').
  by move=> h h'; apply/eqP/eqP => [|-> //]; apply: inj.
(* the right-hand side as three sums *)
have -> : \sum_(i <- iota 0 (a + A * S)) (if (r, c) == pos i.+1 then gcoef f S phi Phi i.+1 else 0) =
  \sum_(i <- iota 0 a) (if (r, c) == pos i.+1 then phi`_i else 0)
  + \sum_(i <- iota 0 A) (if (r, c) == pos (i.+1 * S)%N then Phi`_i else 0)
  + \sum_(ij <- [seq (i, j) | i <- iota 0 A, j <- iota 0 a])
      (if (r, c) == pos (ij.1.+1 * S + ij.2.+1)%N then f (Phi`_ij.1) (phi`_ij.2) else 0).
  have one (X : eqType) (l : seq X) (g : X -> nat) (v : X -> R) : (forall x, x \in l -> 0 < g x <= a + A * S)%N ->
    \sum_(x <- l) (if (r, c) == pos (g x) then v x else 0) =
    \sum_(i <- iota 0 (a + A * S)) \sum_(x <- l) (if (r, c) == pos i.+1 then if i.+1 == g x then v x else 0 else 0).
    move=> hg; rewrite exchange_big big_seq [RHS]big_seq /=; apply: eq_bigr => x hx.
    have := hg x hx => hgx.
    rewrite (bigD1_seq (g x).-1) ?iota_uniq ?mem_iota //=; last by mlia.
    rewrite prednK; last by mlia. rewrite eqxx big_seq_cond big1 ?addr0 // => i /andP[hi].
    by case: ifP => // _ ne; case: eqP => // e; rewrite -e /= eqxx in ne.
  rewrite (one _ (iota 0 a) (fun i => i.+1)); last by move=> i; rewrite mem_iota; mlia.
  rewrite (one _ (iota 0 A) (fun i => (i.+1 * S)%N)); last by move=> i; rewrite mem_iota => hi; move: hS; mnia.
  rewrite (one _ _ (fun ij => (ij.1.+1 * S + ij.2.+1)%N)); last first.
    by move=> ij /allpairsP[[i j] /= [+ + ->]] /=; rewrite !mem_iota; move: hS; mnia.
  rewrite -!big_split /=; apply: eq_bigr => i _; rewrite /gcoef.
  case: ifP => _ //; by rewrite !big1_eq !addr0.
rewrite !addrA /writes.
set T1 := if (0 < a)%N then updv T _ _ else T.
have T1E r' c' : T1 r' c' = T r' c' + \sum_(i <- iota 0 a) (if (r', c') == pos i.+1 then phi`_i else 0).
  rewrite /T1; case: posnP => a0; first by rewrite a0 big_nil addr0.
  rewrite -{1}(mkseq_nth phi) -/a updv_map ?iota_uniq //.
    by move=> i j; rewrite !mem_iota => hi hj e; apply/succn_inj/inj => //; rewrite inE; mlia.
  by move=> i; rewrite mem_iota => hi; apply: T0; mlia.
have z1 m : (a < m <= a + A * S)%N -> T1 (pos m).1 (pos m).2 = 0.
  move=> hm; rewrite T1E T0; last by mlia. rewrite add0r big_seq big1 // => i; rewrite mem_iota => hi.
  by rewrite -surjective_pairing posE; [case: eqP => // e|..]; mlia.
case: (posnP A) => A0; first by rewrite T1E A0 !big_nil !addr0.
have aS := hS A0.
set T2 := updv T1 _ _.
have T2E r' c' : T2 r' c' = T1 r' c' + \sum_(i <- iota 0 A) (if (r', c') == pos (i.+1 * S)%N then Phi`_i else 0).
  rewrite /T2 -{1}(mkseq_nth Phi) -/A updv_map ?iota_uniq //.
    move=> i j; rewrite !mem_iota => hi hj /inj e.
    have : (i.+1 * S = j.+1 * S)%N by apply: e; rewrite inE; mnia.
    by move/eqP; rewrite eqn_pmul2r => [/eqP[->] //|]; mlia.
  by move=> i; rewrite mem_iota => hi; apply: z1; mnia.
case: (posnP a) => a0.
  have -> : [seq (i, j) | i <- iota 0 A, j <- iota 0 a] = [::] by rewrite a0; elim: (iota 0 A).
  by rewrite T2E T1E big_nil addr0.
rewrite updv_map.
- by rewrite T2E T1E.
- move=> x y /allpairsP[[i j] /= [+ + ->]] /allpairsP[[i' j'] /= [+ + ->]] /=; rewrite !mem_iota => hi hj hi' hj' e.
  have : (i.+1 * S + j.+1 = i'.+1 * S + j'.+1)%N by apply: inj e; rewrite inE; mnia.
  move=> e'; have ei : i = i' by mnia.
  by congr (_, _); mnia.
- by apply: allpairs_uniq; rewrite ?iota_uniq // => -[i j] [i' j'] _ _ [-> ->].
move=> x /allpairsP[[i j] /= [+ + ->]] /=; rewrite !mem_iota => hi hj.
rewrite T2E z1; last by mnia.
rewrite add0r big_seq big1 // => i'; rewrite mem_iota => hi'.
rewrite -surjective_pairing posE; [case: eqP => // e|..]; last by mnia.
  have : (i'.+1 = i.+1)%N by mnia. by mnia.
by mnia.
Qed.
End W.

Section Co.
Context (R : comRingType).
Implicit Types (phi Phi : seq R).
Definition lagsum phi S : {poly R} := \sum_(i < size phi) phi`_i *: 'X^(i.+1 * S).
Lemma lagsum_coef phi S m : (lagsum phi S)`_m = \sum_(i <- iota 0 (size phi)) (if m == (i.+1 * S)%N then phi`_i else 0).
Proof.
rewrite /lagsum coef_sum -(big_mkord xpredT (fun i => (phi`_i *: 'X^(i.+1 * S))`_m)) /index_iota subn0.
by apply: eq_bigr => i _; rewrite coefZ coefXn; case: eqP; rewrite ?mulr1 ?mulr0.
Qed.
Lemma lagsumM_coef phi Phi S m : (lagsum phi 1 * lagsum Phi S)`_m =
  \sum_(ij <- [seq (i, j) | i <- iota 0 (size Phi), j <- iota 0 (size phi)])
      (if m == (ij.1.+1 * S + ij.2.+1)%N then Phi`_ij.1 * phi`_ij.2 else 0).
Proof.
rewrite mulrC /lagsum big_distrlr coef_sum big_allpairs /=.
rewrite -(big_mkord xpredT (fun i => (\sum_(j < size phi) Phi`_i *: 'X^(i.+1 * S) * (phi`_j *: 'X^(j.+1 * 1)))`_m)) /index_iota subn0.
apply: eq_bigr => i _; rewrite coef_sum.
rewrite -(big_mkord xpredT (fun j => (Phi`_i *: 'X^(i.+1 * S) * (phi`_j *: 'X^(j.+1 * 1)))`_m)) /index_iota subn0.
apply: eq_bigr => j _.
by rewrite -scalerAl -scalerAr scalerA -exprD coefZ coefXn muln1; case: eqP; rewrite ?mulr1 ?mulr0.
Qed.
Lemma ar_coef phi Phi S m : gcoef (fun a b => - a * b) S phi Phi m = (1 - ar_poly phi 1 * ar_poly Phi S)`_m.
Proof.
have -> : 1 - ar_poly phi 1 * ar_poly Phi S = lagsum phi 1 + lagsum Phi S - lagsum phi 1 * lagsum Phi S.
  rewrite /ar_poly -!/(lagsum _ _); move: (lagsum _ _) (lagsum _ _) => a b.
  rewrite mulrBl mul1r mulrBr mulr1; zmod.
rewrite !coefD coefN lagsumM_coef !lagsum_coef /gcoef -sumrN; congr (_ + _ + _).
  by apply: eq_bigr => i _; rewrite muln1.
by apply: eq_bigr => ij _; case: ifP; rewrite ?oppr0 // mulNr.
Qed.
Lemma ma_coef phi Phi S m : gcoef (fun a b => a * b) S phi Phi m = (ma_poly phi 1 * ma_poly Phi S - 1)`_m.
Proof.
have -> : ma_poly phi 1 * ma_poly Phi S - 1 = lagsum phi 1 + lagsum Phi S + lagsum phi 1 * lagsum Phi S.
  rewrite /ma_poly -!/(lagsum _ _); move: (lagsum _ _) (lagsum _ _) => a b.
  rewrite mulrDl mul1r mulrDr mulr1; zmod.
rewrite !coefD lagsumM_coef !lagsum_coef /gcoef; congr (_ + _ + _).
  by apply: eq_bigr => i _; rewrite muln1.
Qed.
Lemma size_lagsum phi S : (size (lagsum phi S) <= (size phi * S).+1)%N.
Proof.
apply: leq_trans (size_sum _ _ _) _; apply/bigmax_leqP => i _.
apply: leq_trans (size_scale_leq _ _) _; rewrite size_polyXn ltnS leq_mul2r ltn_ord orbT //.
Qed.
Lemma size_prod (f g : {poly R}) a b : (size f <= a.+1 -> size g <= b.+1 -> size (f * g)%R <= (a + b).+1)%N.
Proof. by move=> h1 h2; apply: leq_trans (size_mul_leq _ _) _; move: h1 h2; move: (size f) (size g); mlia. Qed.
Lemma size_arp phi S : (size (ar_poly phi S) <= (size phi * S).+1)%N.
Proof.
apply: leq_trans (size_add _ _) _; rewrite size_opp size_poly1 geq_max ltnS leq0n; exact: size_lagsum.
Qed.
Lemma size_map_ phi S : (size (ma_poly phi S) <= (size phi * S).+1)%N.
Proof.
apply: leq_trans (size_add _ _) _; rewrite size_poly1 geq_max ltnS leq0n; exact: size_lagsum.
Qed.
Lemma overlap_E a A S : (0 < A -> 0 < S)%N -> ~~ overlap a A S -> (0 < A -> a < S)%N.
Proof.
move=> h0 + hA; have S0 := h0 hA; move/hasPn/(_ S) => h.
have : (S \in [seq ((1 + i) * S)%N | i <- iota 0 A]) by apply/mapP; exists 0%N; rewrite ?mem_iota //; mlia.
move/h; case: ltnP => // le /negP[]; apply/mapP; exists S.-1; rewrite ?mem_iota; mlia.
Qed.
Lemma overlap_iff a A S : (0 < S)%N -> overlap a A S = ((0 < A) && (S <= a))%N.
Proof.
move=> S0; apply/hasP/andP => [[x /mapP[i]]|[hA hS]].
  by rewrite mem_iota => hi -> /mapP[j]; rewrite mem_iota; split; mnia.
by exists S; apply/mapP; [exists 0%N|exists S.-1]; rewrite ?mem_iota; mlia.
Qed.
End Co.

(** the model's parameter writes as instances of [writes] *)
Section Lnk.
Context (R : comRingType).
Lemma with_ar_E d D S (phi Phi : seq R) T : (0 < size Phi -> 0 < S)%N ->
  with_ar d D S (size phi) (size Phi) phi Phi T =
  writes (fun m => (n_diffs d D S + m - 1, n_diffs d D S)%N) (fun a b => - a * b) (size phi) (size Phi) S phi Phi T.
Proof.
move=> S0; rewrite /with_ar /writes.
set n := n_diffs d D S.
have e1 : [seq ((n + i)%N, n) | i <- iota 0 (size phi)] = [seq ((n + i.+1 - 1)%N, n) | i <- iota 0 (size phi)].
  by apply: eq_map => i; congr (_, _); mlia.
rewrite e1; set T1 := if _ then updv T _ _ else T; case: (posnP (size Phi)) => // A0.
have e2 : [seq (r, n) | r <- [seq (n + i * S - 1)%N | i <- iota 1 (size Phi)]] = [seq ((n + i.+1 * S - 1)%N, n) | i <- iota 0 (size Phi)].
  by rewrite iota1_map -!map_comp; apply: eq_map => i.
rewrite e2; case: ifP => // a0; congr updv.
  rewrite iota1_map -map_comp repeat_tile_iota -map_comp; apply: eq_map => -[i j] /=.
  by congr (_, _); have := S0 A0; mnia.
by rewrite repeat_tile_nth -map_comp; exact: eq_map.
Qed.
Lemma with_ma_E d D S (phi Phi : seq R) T : 
  with_ma d D S (size phi) (size Phi) phi Phi T =
  writes (fun m => (n_diffs d D S + m, 0)%N) (fun a b => a * b) (size phi) (size Phi) S phi Phi T.
Proof.
rewrite /with_ma /writes.
set n := n_diffs d D S.
have e1 : [seq ((1 + n + i)%N, 0%N) | i <- iota 0 (size phi)] = [seq ((n + i.+1)%N, 0%N) | i <- iota 0 (size phi)].
  by apply: eq_map => i; congr (_, _); mlia.
rewrite e1; set T1 := if _ then updv T _ _ else T; case: (posnP (size Phi)) => // A0.
have e2 : [seq (r, 0%N) | r <- [seq (n + i * S)%N | i <- iota 1 (size Phi)]] = [seq ((n + i.+1 * S)%N, 0%N) | i <- iota 0 (size Phi)].
  by rewrite iota1_map -!map_comp; apply: eq_map => i.
rewrite e2; case: ifP => // a0; congr updv.
  rewrite iota1_map -map_comp repeat_tile_iota -map_comp; apply: eq_map => -[i j] /=.
  by congr (_, _); mlia.
by rewrite repeat_tile_nth -map_comp; exact: eq_map.
Qed.
End Lnk.
