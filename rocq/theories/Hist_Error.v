(** C46: how far the potential of histogram_approximation is from the exact log-likelihood, for continuous data. *)
From Verif Require Import Common Hist_Model Hist_Props.
From Coq Require Import QArith Qreals Reals Lra.
Open Scope nat_scope.

(** * Specification *)
(** the potential of histogram_approximation (histogram_utils.py:163): logp at the midpoints, weighted by the counts *)
Definition qpotential (logp : R -> R) (h : qhist) (c : list nat) : R :=
  rsum (map (fun p => (logp (Q2R (fst p)) * INR (snd p))%R) (combine (mids h) c)).
(** the widths of the bins, weighted by the counts *)
Definition spread (h : qhist) (c : list nat) : R :=
  rsum (map (fun p => ((Q2R (snd (fst p)) - Q2R (fst (fst p))) * INR (snd p))%R) (combine (combine (lower h) (upper h)) c)).

(** * Proof *)
Definition bins (e : list Q) : list (Q * Q) := combine (firstn (length e - 1) e) (tl e).
Lemma bins_cons a b r : bins (a :: b :: r) = (a, b) :: bins (b :: r).
Proof. unfold bins. cbn [length tl]. replace (S (S (length r)) - 1) with (S (length r)) by lia.
  replace (S (length r) - 1) with (length r) by lia. reflexivity. Qed.

Lemma count_filter {A} (p q : A -> bool) l : (forall x, p x = true -> q x = true) -> count p (filter q l) = count p l.
Proof.
  intros H. induction l as [|x l IH]; [reflexivity|]. cbn [filter]. rewrite count_cons. destruct (q x) eqn:E.
  - rewrite count_cons, IH. reflexivity.
  - destruct (p x) eqn:P; [apply H in P; congruence|]. rewrite IH. reflexivity.
Qed.
Lemma histogram_filter z e col : q_sorted e -> (forall x, e <> [] -> Qle_bool (nth 0 e 0%Q) x = true -> Qle_bool z x = true) ->
  histogram Qle_bool e (filter (Qle_bool z) col) = histogram Qle_bool e col.
Proof.
  induction e as [|a e IH]; intros Hs Hz; [reflexivity|]. destruct e as [|b r]; [reflexivity|].
  cbn [histogram]. f_equal.
  - apply count_filter. intros x Hx. apply andb_prop in Hx as [Hx _]. apply Hz; [discriminate|exact Hx].
  - apply IH; [eapply q_sorted_tail; eauto|]. intros x _ Hx. apply Hz; [discriminate|]. cbn [nth] in *.
    apply Qle_bool_iff in Hx. apply Qle_bool_iff. eapply Qle_trans; [|exact Hx]. apply (Hs 0 1); cbn; lia.
Qed.
Lemma rsum_filter (f : Q -> R) (p : Q -> bool) l :
  rsum (map f l) = (rsum (map f (filter (fun x => negb (p x)) l)) + rsum (map f (filter p l)))%R.
Proof.
  induction l as [|x l IH]; cbn; [lra|]. unfold rsum in *. destruct (p x); cbn; rewrite IH; lra.
Qed.
Lemma q2r_mid a b : Q2R ((a + b) / 2) = ((Q2R a + Q2R b) / 2)%R.
Proof. rewrite Q2R_div by discriminate. rewrite Q2R_plus. replace (Q2R 2) with 2%R by (unfold Q2R; cbn; lra). reflexivity. Qed.

Section Err.
Context (logp : R -> R) (L lo hi : R).
Hypothesis HL : forall x y, (lo <= x <= hi -> lo <= y <= hi -> Rabs (logp x - logp y) <= L * Rabs (x - y))%R.

Lemma one_bin a b l : (lo <= Q2R a)%R -> (Q2R b <= hi)%R -> (0 <= L)%R ->
  (forall x, In x l -> (a <= x)%Q /\ (x <= b)%Q) ->
  (Rabs (logp (Q2R ((a + b) / 2)) * INR (length l) - rsum (map (fun x => logp (Q2R x)) l))
   <= L / 2 * ((Q2R b - Q2R a) * INR (length l)))%R.
Proof.
  intros Ha Hb HL0. induction l as [|x l IH]; intros Hx.
  - cbn. rewrite !Rmult_0_r, Rminus_0_r, Rabs_R0. lra.
  - cbn [length map rsum fold_right]. fold (rsum (map (fun x => logp (Q2R x)) l)). rewrite S_INR.
    specialize (IH (fun y Hy => Hx y (or_intror Hy))). destruct (Hx x (or_introl eq_refl)) as [H1 H2].
    apply Qle_Rle in H1, H2. rewrite q2r_mid in *.
    assert (K : (Rabs (logp ((Q2R a + Q2R b) / 2) - logp (Q2R x)) <= L * ((Q2R b - Q2R a) / 2))%R).
    { eapply Rle_trans; [apply HL; lra|]. apply Rmult_le_compat_l; auto. apply Rabs_le. lra. }
    set (s := rsum _) in *. set (m := logp ((Q2R a + Q2R b) / 2)%R) in *. set (n := INR (length l)) in *.
    replace (m * (n + 1) - (logp (Q2R x) + s))%R with ((m - logp (Q2R x)) + (m * n - s))%R by ring.
    eapply Rle_trans; [apply Rabs_triang|]. lra.
Qed.

Lemma all_bins e : forall col, (0 <= L)%R -> 2 <= length e -> q_sorted e -> (lo <= Q2R (nth 0 e 0%Q))%R ->
  (Q2R (nth (length e - 1) e 0%Q) <= hi)%R ->
  (forall x, In x col -> (nth 0 e 0 <= x)%Q /\ (x <= nth (length e - 1) e 0)%Q) ->
  (Rabs (rsum (map (fun p => (logp (Q2R (fst p)) * INR (snd p))%R)
                   (combine (map (fun p => ((fst p + snd p) / 2)%Q) (bins e)) (histogram Qle_bool e col)))
         - rsum (map (fun x => logp (Q2R x)) col))
   <= L / 2 * rsum (map (fun p => ((Q2R (snd (fst p)) - Q2R (fst (fst p))) * INR (snd p))%R)
                        (combine (bins e) (histogram Qle_bool e col))))%R.
Proof.
  induction e as [|a e IH]; intros col HL0 Hl Hs Hlo Hhi Hin; [cbn in Hl; lia|].
  destruct e as [|b r]; [cbn in Hl; lia|]. destruct r as [|c r].
  - rewrite bins_cons. cbn [histogram]. cbn [nth length Nat.sub] in *.
    rewrite (count_all _ col).
    2:{ intros x Hx. destruct (Hin x Hx). apply andb_true_iff. rewrite !Qle_bool_iff. auto. }
    change (bins [b]) with (@nil (Q * Q)). cbn [map combine rsum fold_right fst snd]. rewrite !Rplus_0_r.
    apply one_bin; auto.
  - rewrite bins_cons. set (e := b :: c :: r) in *.
    assert (E : histogram Qle_bool (a :: e) col = count (fun x => Qle_bool a x && ltb_ Qle_bool x b) col :: histogram Qle_bool e col) by reflexivity.
    rewrite E. clear E. cbn [map combine rsum fold_right fst snd].
    assert (Hse : q_sorted e) by (eapply q_sorted_tail; eauto).
    assert (El : nth (length (a :: e) - 1) (a :: e) 0%Q = nth (length e - 1) e 0%Q).
    { replace (length (a :: e) - 1) with (S (length e - 1)) by (cbn; lia). reflexivity. }
    rewrite El in *. change (nth 0 (a :: e) 0%Q) with a in *.
    assert (Hab : (a <= b)%Q) by (apply (Hs 0 1); cbn; lia).
    assert (Hbz : (b <= nth (length e - 1) e 0)%Q) by (apply (Hse 0 (length e - 1)); cbn; lia).
    set (c1 := filter (fun x => negb (Qle_bool b x)) col). set (c2 := filter (Qle_bool b) col).
    assert (H0 : count (fun x => Qle_bool a x && ltb_ Qle_bool x b) col = length c1).
    { unfold c1. transitivity (count (fun x => negb (Qle_bool b x)) col); [|reflexivity]. apply count_ext. intros x Hx.
      unfold ltb_. destruct (Hin x Hx) as [K _]. apply Qle_bool_iff in K. rewrite K. reflexivity. }
    rewrite H0. rewrite <- (histogram_filter b e col Hse) by (intros x _ K; exact K). fold c2.
    rewrite (rsum_filter (fun x => logp (Q2R x)) (Qle_bool b) col). fold c1 c2.
    assert (P1 := one_bin a b c1 Hlo (Rle_trans _ _ _ (Qle_Rle _ _ Hbz) Hhi) HL0).
    assert (P2 := IH c2 HL0).
    change (nth 0 e 0%Q) with b in P2.
    specialize (P2 ltac:(cbn; lia) Hse (Rle_trans _ _ _ Hlo (Qle_Rle _ _ Hab)) Hhi).
    assert (Q1 : forall x, In x c1 -> (a <= x)%Q /\ (x <= b)%Q).
    { intros x Hx. apply filter_In in Hx as [Hx Hn]. split; [apply Hin; auto|]. apply negb_true_iff, qleb_false in Hn.
      apply Qlt_le_weak. exact Hn. }
    assert (Q2 : forall x, In x c2 -> (b <= x)%Q /\ (x <= nth (length e - 1) e 0)%Q).
    { intros x Hx. apply filter_In in Hx as [Hx Hn]. split; [apply Qle_bool_iff; auto|apply Hin; auto]. }
    specialize (P1 Q1). specialize (P2 Q2). fold (rsum) in *.
    unfold rsum in *. set (s1 := fold_right Rplus 0%R (map (fun x => logp (Q2R x)) c1)) in *.
    set (s2 := fold_right Rplus 0%R (map (fun x => logp (Q2R x)) c2)) in *.
    match type of P2 with (Rabs (?t2 - _) <= L / 2 * ?w2)%R => set (T2 := t2) in *; set (W2 := w2) in * end.
    match type of P1 with (Rabs (?t1 - _) <= L / 2 * ?w1)%R => set (T1 := t1) in *; set (W1 := w1) in * end.
    replace (T1 + T2 - (s1 + s2))%R with ((T1 - s1) + (T2 - s2))%R by ring.
    eapply Rle_trans; [apply Rabs_triang|]. lra.
Qed.
End Err.

(** the outermost edges are the smallest and the largest observation *)
Lemma percentiles_ends qdata nq e : qdata <> [] -> 2 <= nq -> percentiles qdata nq = Ok e ->
  (exists x, In x qdata /\ (nth 0 e 0 == x)%Q) /\ (exists x, In x qdata /\ (nth (nq - 1) e 0 == x)%Q).
Proof.
  intros Hne Hn. unfold percentiles. destruct qdata as [|x0 q] eqn:Eq; [congruence|]. rewrite <- Eq in *. clear x0 q Eq.
  replace (nq =? 1)%nat with false by (symmetry; apply Nat.eqb_neq; lia). intros H. injection H as <-.
  set (s := sort_q qdata).
  assert (Hl : 0 < length s) by (unfold s; rewrite length_sort_q; destruct qdata; [congruence|cbn; lia]).
  set (f := fun j => interpolate s ((length s - 1) * j) (nq - 1)).
  assert (N : forall j, j < nq -> nth j (map f (seq 0 nq)) 0%Q = f j).
  { intros j Hj. rewrite (nth_indep _ 0%Q (f 0)) by (rewrite map_length, seq_length; auto). rewrite map_nth, seq_nth by auto. reflexivity. }
  assert (Hd : (0 < inject_Z (Z.of_nat (nq - 1)))%Q) by (change 0%Q with (inject_Z 0); rewrite <- Zlt_Qlt; lia).
  assert (Z0 : forall k, (interpolate s (k * (nq - 1)) (nq - 1) == nth k s 0)%Q).
  { intros k. unfold interpolate. rewrite Nat.div_mul, Nat.mod_mul by lia. change (inject_Z (Z.of_nat 0)) with 0%Q. field. intro HH; rewrite HH in Hd; discriminate Hd. }
  split.
  - exists (nth 0 s 0%Q). split; [apply in_sort_q; fold s; apply nth_In; lia|]. rewrite N by lia. unfold f.
    rewrite Nat.mul_0_r. apply (Z0 0).
  - exists (nth (length s - 1) s 0%Q). split; [apply in_sort_q; fold s; apply nth_In; lia|]. rewrite N by lia. apply Z0.
Qed.

(** For every log-density that is L-Lipschitz between the smallest and the largest observation, the potential of a column
    differs from its exact log-likelihood by at most L/2 times the count-weighted widths of the bins. *)
Theorem C46_quantile_error data nq logp L lo hi : concat data <> [] -> 2 <= nq -> (0 <= L)%R ->
  (forall x, In x (concat data) -> (lo <= Q2R x <= hi)%R) ->
  (forall x y, (lo <= x <= hi -> lo <= y <= hi -> Rabs (logp x - logp y) <= L * Rabs (x - y))%R) ->
  exists h, quantile_histogram data nq false = Ok h /\
    Forall2 (fun c col => (Rabs (qpotential logp h c - rsum (map (fun x => logp (Q2R x)) col)) <= L / 2 * spread h c)%R)
      (counts h) data.
Proof.
  intros Hne Hn HL0 Hr HL. unfold quantile_histogram.
  destruct (percentiles_ok _ nq Hne Hn) as (e & E & Hl & Hs & Hb).
  destruct (percentiles_ends _ _ _ Hne Hn E) as ((x1 & I1 & E1) & (x2 & I2 & E2)).
  rewrite E. cbn [bind]. eexists; split; [reflexivity|]. cbn [counts].
  assert (G : forall d, (forall col, In col d -> In col data) ->
    Forall2 (fun c col => (Rabs (qpotential logp {| lower := firstn (length e - 1) e; upper := tl e;
       counts := map (histogram Qle_bool e) data |} c - rsum (map (fun x => logp (Q2R x)) col)) <= L / 2 *
       spread {| lower := firstn (length e - 1) e; upper := tl e; counts := map (histogram Qle_bool e) data |} c)%R)
      (map (histogram Qle_bool e) d) d).
  { induction d as [|col d IH]; intros Hd; cbn [map]; constructor; [|apply IH; intros; apply Hd; now right].
    unfold qpotential, spread, mids. cbn [lower upper]. fold (bins e).
    apply (all_bins logp L lo hi HL e col); auto; try lia.
    - rewrite (Qeq_eqR _ _ E1). apply Hr; auto.
    - rewrite Hl, (Qeq_eqR _ _ E2). apply Hr; auto.
    - intros x Hx. rewrite Hl. apply Hb. apply in_concat. exists col. split; auto. apply Hd. now left. }
  apply G. auto.
Qed.

(** A concrete case: three observations, two quantiles, the log-density x -> x. *)
Example C46_quantile_error_example : exists h,
  quantile_histogram [[0; 1; 4]]%Q 2 false = Ok h /\ counts h = [[3]] /\
  qpotential (fun x => x) h [3] = 6%R /\ rsum (map Q2R [0; 1; 4]%Q) = 5%R /\ spread h [3] = 12%R.
Proof.
  eexists. split; [reflexivity|]. split; [reflexivity|]. unfold qpotential, spread, mids. cbn.
  unfold Q2R. cbn. repeat split; lra.
Qed.
