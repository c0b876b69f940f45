(** Proofs about the SARIMA matrices: entries of the transition matrix, state recursions, lag polynomials. *)
From Coq Require Import ZArith Lia.
From mathcomp Require Import all_ssreflect all_algebra.
From Verif Require Import McLia Sarima_Model Sarima_Spec.
Set Implicit Arguments.
Unset Strict Implicit.
Unset Printing Implicit Defensive.
Import GRing.Theory.
Local Open Scope ring_scope.

(** ** lists *)
Lemma zip_maps (A B C : Type) (f : A -> B) (g : A -> C) l : zip (map f l) (map g l) = [seq (f i, g i) | i <- l].
Proof. by elim: l => //= a l ->. Qed.
Lemma every_map (f : nat -> nat) n s st :
  every (map f (iota 0 n)) s st = map f [seq k <- iota 0 n | (s <= k)%N && ((k - s) %% st == 0)%N].
Proof.
rewrite /every size_map size_iota; apply/eq_in_map => k; rewrite mem_filter mem_iota add0n => /andP[_ /andP[_ h]].
by rewrite (nth_map 0%N) ?size_iota // nth_iota.
Qed.
Lemma zip_repeat_tile (A B : Type) (a : seq A) (b : seq B) :
  zip (np_repeat a (size b)) (np_tile b (size a)) = [seq (x, y) | x <- a, y <- b].
Proof.
rewrite /np_repeat /np_tile; elim: a => //= x a IH.
rewrite zip_cat ?size_nseq // IH; congr (_ ++ _).
by elim: b {IH} => //= y b ->.
Qed.
Lemma size_np_tile (A : Type) (l : seq A) n : size (np_tile l n) = (n * size l)%N.
Proof. by rewrite /np_tile; elim: n => //= n IH; rewrite size_cat IH mulSn. Qed.
Lemma size_np_repeat (A : Type) (l : seq A) n : size (np_repeat l n) = (size l * n)%N.
Proof. by rewrite /np_repeat; elim: l => //= x l IH; rewrite size_cat IH size_nseq mulSn. Qed.

(** the full set of columns: last element of each seasonal block, then x itself *)
Definition base' (d D S : nat) : seq nat := rcons [seq (d + S * i.+1 - 1)%N | i <- iota 0 D] (d + S * D)%N.

Section Ent.
Variables (d D S : nat).
Hypothesis S_pos : (0 < D -> 0 < S)%N.
Lemma base_E : (0 < D)%N -> base_col_idx d D S = base' d D S.
Proof.
move=> D0; have S0 := S_pos D0; rewrite /base_col_idx size_map size_iota D0 /base'.
have -> : [seq (d + S + i * S - 1)%N | i <- iota 0 D] = [seq (d + S * i.+1 - 1)%N | i <- iota 0 D].
  by apply: eq_map => i; mlia.
congr rcons; rewrite -nth_last size_map size_iota (nth_map 0%N) ?size_iota; last by mlia.
by rewrite nth_iota; last mlia; mnia.
Qed.
Lemma size_base' : size (base' d D S) = D.+1.
Proof. by rewrite size_rcons size_map size_iota. Qed.
Lemma base_bounds c : (0 < D -> 0 < S)%N -> c \in base' d D S -> (d <= c <= d + S * D)%N.
Proof.
move=> _; rewrite mem_rcons inE => /orP[/eqP ->|/mapP[i]]; first by rewrite leqnn leq_addr.
rewrite mem_iota add0n /= => hi ->; have := S_pos; mnia.
Qed.
Lemma season_mem (st : seq nat * seq nat) r c : size st.1 = size st.2 -> (0 < D)%N ->
  (r, c) \in zip (season_rows d D S st).1 (season_rows d D S st).2 =
  ((r, c) \in zip st.1 st.2) || has (fun i => (r == d + S * i)%N && (c \in drop i (base' d D S))) (iota 0 D).
Proof.
move=> + D0; rewrite /season_rows (base_E D0); elim: (iota 0 D) st => [|i l IH] [a b] /= sz; first by rewrite orbF.
rewrite IH /=; last by rewrite !size_cat size_nseq sz.
rewrite zip_cat // mem_cat -!orbA; congr (_ || (_ || _)).
by elim: (drop i _) => [|y s IHs] /=; rewrite ?andbF // !inE xpair_eqE IHs -andb_orr.
Qed.
End Ent.

Section E2.
Context (R : comRingType).
Variables (p d q P D Q S : nat).
Hypothesis S_pos : (0 < D -> 0 < S)%N.
Let T := @sarima_T R p d q P D Q S.
Let n := n_diffs d D S.
Let K := k_lags p q P Q S.
Notation k := (k_states p d q P D Q S).

(** membership in the successive index lists *)
Lemma triu_mem r c : ((r, c) \in triu_indices d) = (r <= c < d)%N.
Proof.
apply/allpairsPdep/idP.
  by case=> i [j]; rewrite !mem_iota => -[] h1 h2 [-> ->]; move: h1 h2; mlia.
by move=> h; exists r, c; split; rewrite ?mem_iota //; mlia.
Qed.
Definition rowcol_idx : seq (nat * nat) :=
  let col0 := np_tile (base_col_idx d D S) d in
  let row0 := np_repeat (iota 0 d) D.+1 in
  let '(row1, col1) := season_rows d D S (row0, col0) in
  let '(row, col) := if (D == 0)%N && (0 < d)%N then (iota 0 d, nseq d d) else (row1, col1) in
  zip row col.
Lemma rowcol_mem r c : ((r, c) \in rowcol_idx) =
  ((r < d) && (c \in base' d D S))%N ||
  has (fun i => (r == d + S * i)%N && (c \in drop i (base' d D S))) (iota 0 D).
Proof.
rewrite /rowcol_idx; case: (posnP D) => D0.
  have -> : base' d D S = [:: d] by rewrite /base' D0 /= muln0 addn0.
  rewrite D0 /= orbF mem_seq1.
  case: (posnP d) => [->|d0] /=; first by rewrite /np_tile /=.
  rewrite (_ : nseq d d = [seq (fun _ => d) i | i <- iota 0 d]); last first.
    apply: (@eq_from_nth _ 0%N) => [|i]; first by rewrite size_map size_iota size_nseq.
    by rewrite size_nseq => hi; rewrite nth_nseq hi (nth_map 0%N) ?size_iota.
  rewrite -{1}[iota 0 d]map_id zip_maps.
  apply/mapP/andP => [[i]|[h /eqP ->]]; last by exists r; rewrite ?mem_iota.
  by rewrite mem_iota => hi [-> ->].
rewrite /=.
have sz : size (np_repeat (iota 0 d) D.+1) = size (np_tile (base_col_idx d D S) d).
  by rewrite size_np_repeat size_np_tile size_iota (base_E d S_pos D0) size_base'.
move: (@season_mem d D S S_pos (np_repeat (iota 0 d) D.+1, np_tile (base_col_idx d D S) d) r c sz D0).
case: (season_rows _ _ _ _) => row1 col1 /= ->; congr (_ || _).
have := @zip_repeat_tile _ _ (iota 0 d) (base' d D S); rewrite (base_E d S_pos D0) size_iota size_base' => ->.
apply/allpairsP/andP => [[[x y] /= [h1 h2 [-> ->]]]|[h1 h2]]; first by move: h1; rewrite mem_iota.
by exists (r, c); rewrite mem_iota.
Qed.
Lemma mem_diag (f g : nat -> nat) l r c : ((r, c) \in [seq (f i, g i) | i <- l]) = has (fun i => (r == f i) && (c == g i)) l.
Proof. by elim: l => //= i l IH; rewrite inE xpair_eqE IH. Qed.

Lemma T_E r c : T r c =
  if ((n <= r) && (c == r.+1) && (r.+1 < n + K))%N then 1 else
  if (0 < S)%N && (has (fun i => (S - 1 <= i) && ((i - (S - 1)) %% S == 0) && ((r == i + d + 1) && (c == i + d)))%N (iota 0 (S * D))) then 0 else
  if (0 < S)%N && [&& (d < r)%N, (r <= n)%N & c == r.-1] then 1 else
  if (r, c) \in rowcol_idx then 1 else
  if (r <= c < d)%N then 1 else 0.
Proof.
rewrite /T /sarima_T /rowcol_idx.
case E1: (season_rows d D S _) => [row1 col1].
set rc := if _ then (_, _) else (row1, col1).
case E2: rc => [row col].
rewrite {1}/upd zip_maps mem_diag.
have -> : has (fun i => (r == i + n_diffs d D S)%N && (c == i + n_diffs d D S + 1)%N) (diag_indices (k_lags p q P Q S - 1)) = ((n <= r) && (c == r.+1) && (r.+1 < n + K))%N.
  apply/hasP/idP => [[i]|h]; first by rewrite mem_iota /n /K; mlia.
  by exists (r - n)%N; rewrite ?mem_iota /n /K; move: h; rewrite /n /K; mlia.
case: ifP => // _.
case: (posnP S) => S0 /=.
  by rewrite /upd triu_mem.
rewrite {1}/upd !every_map zip_maps mem_diag.
rewrite has_filter -filter_predI -has_filter.
rewrite (eq_has (a2 := fun i => (S - 1 <= i) && ((i - (S - 1)) %% S == 0) && ((r == i + d + 1) && (c == i + d)))%N); last first.
  by move=> i /=; rewrite andbC.
case: ifP => // _.
rewrite {1}/upd zip_maps mem_diag.
have -> : has (fun i => (r == i + d + 1)%N && (c == i + d)%N) (diag_indices (S * D)) = [&& (d < r)%N, (r <= n)%N & c == r.-1].
  apply/hasP/idP => [[i]|h]; first by rewrite mem_iota /n /n_diffs; mlia.
  by exists (r - d - 1)%N; rewrite ?mem_iota; move: h; rewrite /n /n_diffs; mlia.
case: ifP => // _.
by rewrite /upd triu_mem.
Qed.
End E2.

(** ** lag polynomials *)
Section Lag.
Context (R : comRingType).
Implicit Types (A B : {poly R}) (y : nat -> R).
Lemma lagpoly_widen A y t N : (size A <= N)%N -> lagpoly A y t = \sum_(j < N) A`_j * y (t - j)%N.
Proof.
move=> h; rewrite /lagpoly (big_ord_widen N (fun j => A`_j * y (t - j)%N) h) [RHS](bigID (fun i : 'I_N => (i < size A)%N)) /=.
rewrite [X in _ + X]big1 ?addr0 // => i; rewrite -leqNgt => hi; by rewrite nth_default ?mul0r.
Qed.
Lemma lagpolyD A B y t : lagpoly (A + B) y t = lagpoly A y t + lagpoly B y t.
Proof.
pose N := maxn (size (A + B)) (maxn (size A) (size B)).
rewrite !(@lagpoly_widen _ _ _ N) /N; try mlia.
by rewrite -big_split; apply: eq_bigr => j _ /=; rewrite coefD mulrDl.
Qed.
Lemma lagpoly0 y t : lagpoly 0 y t = 0 :> R.
Proof. by rewrite /lagpoly size_poly0 big_ord0. Qed.
Lemma lagpolyZ a A y t : lagpoly (a *: A) y t = a * lagpoly A y t.
Proof.
rewrite (@lagpoly_widen _ _ _ (size A)) ?size_scale_leq // /lagpoly mulr_sumr.
by apply: eq_bigr => j _; rewrite coefZ mulrA.
Qed.
Lemma lagpoly_sum (I : Type) (l : seq I) (F : I -> {poly R}) y t :
  lagpoly (\sum_(i <- l) F i) y t = \sum_(i <- l) lagpoly (F i) y t.
Proof. elim: l => [|i l IH]; rewrite ?big_nil ?lagpoly0 // !big_cons lagpolyD IH //. Qed.
Lemma lagpolyXn_mul i B y t : lagpoly ('X^i * B) y t = lagpoly B y (t - i)%N.
Proof.
have h : (size ('X^i * B)%R <= i + size B)%N.
  by apply: leq_trans (size_mul_leq _ _) _; rewrite size_polyXn.
rewrite (lagpoly_widen _ _ h) big_split_ord /= big1 ?add0r => [|j _]; last by rewrite coefXnM ltn_ord mul0r.
by apply: eq_bigr => j _; rewrite coefXnM ltnNge leq_addr /= addKn subnDA.
Qed.
Lemma lagpolyXn i y t : lagpoly 'X^i y t = y (t - i)%N :> R.
Proof.
have := lagpolyXn_mul i 1 y t; rewrite mulr1 => ->.
by rewrite /lagpoly size_poly1 big_ord1 coef1 mul1r subn0.
Qed.
Lemma lagpolyM A B y t : lagpoly (A * B) y t = lagpoly A (lagpoly B y) t.
Proof.
rewrite -[A]coefK poly_def big_distrl /= !lagpoly_sum; apply: eq_bigr => i _.
by rewrite -scalerAl !lagpolyZ lagpolyXn_mul lagpolyXn.
Qed.
Lemma lagpolyC1 y t : lagpoly 1 y t = y t :> R.
Proof. by rewrite -(expr0 'X) lagpolyXn subn0. Qed.
Lemma lagpolyB A B y t : lagpoly (A - B) y t = lagpoly A y t - lagpoly B y t.
Proof. by rewrite lagpolyD -scaleN1r lagpolyZ mulN1r. Qed.
Lemma lagpoly_eq A y z t : (forall j, (j < size A)%N -> y (t - j)%N = z (t - j)%N) -> lagpoly A y t = lagpoly A z t.
Proof. by move=> h; apply: eq_bigr => j _; rewrite h. Qed.

(** repeated differencing *)
Lemma diff_chain (f : nat -> nat -> R) s m :
  (forall i t, (i < m)%N -> (s <= t)%N -> f i t - f i (t - s)%N = f i.+1 t) ->
  forall j i t, (i + j <= m)%N -> (s * j <= t)%N -> lagpoly ((1 - 'X^s) ^+ j) (f i) t = f (i + j)%N t.
Proof.
move=> h; elim=> [|j IH] i t hi ht; first by rewrite expr0 lagpolyC1 addn0.
rewrite exprS mulrC lagpolyM addnS -addSn -IH; try mlia.
have size_le l : (size ((1 - 'X^s) ^+ l : {poly R})%R <= (s * l).+1)%N.
  elim: l => [|l IHl]; first by rewrite expr0 size_poly1.
  rewrite exprS; apply: leq_trans (size_mul_leq _ _) _.
  have : (size (1 - 'X^s : {poly R})%R <= s.+1)%N.
    apply: leq_trans (size_add _ _) _; rewrite geq_max size_poly1 /= size_opp size_polyXn; mlia.
  by move: IHl; move: (size _) (size _) => a b; mnia.
apply: lagpoly_eq => l hl; rewrite lagpolyB lagpolyC1 lagpolyXn.
have := leq_trans hl (size_le j) => hl'.
by rewrite h //; mnia.
Qed.
End Lag.

(** ** rows of the transition matrix as sums *)
Section Rows.
Context (R : comRingType).
Lemma sum_mem (k : nat) (M : nat -> R) (s : nat -> R) (L : seq nat) :
  uniq L -> all (fun c => c < k)%N L -> (forall c, (c < k)%N -> M c = (c \in L)%:R) ->
  \sum_(c < k) M c * s c = \sum_(c <- L) s c.
Proof.
move=> u /allP a h.
rewrite -(big_mkord xpredT (fun c => M c * s c)) /=.
rewrite (eq_big_nat _ _ (F2 := fun c => if c \in L then s c else 0)) => [|c /andP[_ hc]]; last first.
  by rewrite h //; case: (c \in L); rewrite ?mul1r ?mul0r.
rewrite -big_mkcond -big_filter /=; apply: perm_big; apply: uniq_perm => //.
  by rewrite filter_uniq // iota_uniq.
by move=> c; rewrite mem_filter mem_index_iota /=; case: (boolP (c \in L)) => //= hc; rewrite a.
Qed.
End Rows.
