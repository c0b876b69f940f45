(** C79: B-spline interpolation. *)
From Coq Require Import Reals Lra.
From Verif Require Import Common Spline_Model.
Open Scope R_scope.

Lemma nth_repeatR (v : R) n i d : (i < n)%nat -> nth i (repeat v n) d = v.
Proof. revert i. induction n; intros [|i] H; cbn; auto; try lia. apply IHn. lia. Qed.
Lemma linspace_nth m i : (i < m)%nat -> nth i (linspace01 m) 0 = INR i / INR (m - 1).
Proof.
  intros H. unfold linspace01. rewrite (nth_indep _ 0 ((fun i => INR i / INR (m - 1)) 0%nat)) by (rewrite map_length, seq_length; auto).
  rewrite (map_nth (fun i => INR i / INR (m - 1))), seq_nth by auto. reflexivity.
Qed.
Definition sumR (l : list R) := fold_right Rplus 0 l.
Lemma sumR_app a b : sumR (a ++ b) = sumR a + sumR b.
Proof. unfold sumR. induction a as [|v a IH]; cbn; [lra|]. rewrite IH. lra. Qed.
Lemma sumR_zeros n : sumR (repeat 0 n) = 0.
Proof. unfold sumR. induction n as [|n IH]; cbn; [lra|]. rewrite IH. lra. Qed.
Lemma Forall_repeatR (P : R -> Prop) v n : P v -> Forall P (repeat v n).
Proof. intros. induction n; cbn; auto. Qed.

(** ** Knots *)
Section Knots.
Variables (k degree : nat).
Hypothesis Hk : (degree < k)%nat.
Let t i := nth i (knots k degree) 0.

Lemma knots_mid i : (degree <= i)%nat -> (i <= k)%nat -> t i = INR (i - degree) / INR (k - degree).
Proof.
  intros H1 H2. unfold t, knots. rewrite app_nth2; rewrite repeat_length; [|lia].
  assert (L : length (linspace01 (k + degree + 1 - 2 * degree)) = (k - degree + 1)%nat) by (unfold linspace01; rewrite map_length, seq_length; lia).
  rewrite app_nth1 by lia. rewrite linspace_nth by (unfold linspace01 in L; rewrite map_length, seq_length in L; lia). do 2 f_equal. lia.
Qed.
Lemma knots_left i : (i <= degree)%nat -> t i = 0.
Proof.
  intros H. destruct (Nat.eq_dec i degree) as [->|Hn].
  - rewrite knots_mid by lia. rewrite Nat.sub_diag. cbn. lra.
  - unfold t, knots. rewrite app_nth1 by (rewrite repeat_length; lia). apply nth_repeatR. lia.
Qed.
Lemma kd_pos : 0 < INR (k - degree).
Proof. apply lt_0_INR. lia. Qed.
Lemma knots_right i : (k <= i)%nat -> (i <= k + degree)%nat -> t i = 1.
Proof.
  intros H1 H2. destruct (Nat.eq_dec i k) as [->|Hn].
  - rewrite knots_mid by lia. pose proof kd_pos. field. lra.
  - unfold t, knots. assert (L : length (linspace01 (k + degree + 1 - 2 * degree)) = (k - degree + 1)%nat) by (unfold linspace01; rewrite map_length, seq_length; lia).
    rewrite app_nth2; rewrite repeat_length; [|lia]. rewrite app_nth2 by lia. apply nth_repeatR. lia.
Qed.
Lemma knots_lt i j : (degree <= i)%nat -> (i < j)%nat -> (j <= k)%nat -> t i < t j.
Proof.
  intros. rewrite !knots_mid by lia. pose proof kd_pos. apply Rmult_lt_compat_r; [apply Rinv_0_lt_compat; auto|]. apply lt_INR. lia.
Qed.
Lemma knots_le i j : (i <= j)%nat -> (j <= k + degree)%nat -> t i <= t j.
Proof.
  intros. pose proof kd_pos.
  assert (B : forall i, (degree <= i)%nat -> (i <= k)%nat -> 0 <= t i <= 1).
  { intros u Hu1 Hu2. rewrite knots_mid by auto. pose proof (pos_INR (u - degree)). split.
    - apply Rmult_le_pos; auto. left. apply Rinv_0_lt_compat. auto.
    - apply Rmult_le_reg_r with (INR (k - degree)); auto. unfold Rdiv. rewrite Rmult_assoc, Rinv_l, Rmult_1_r, Rmult_1_l by lra. apply le_INR. lia. }
  destruct (Nat.le_gt_cases j degree); [rewrite !knots_left by lia; lra|]. destruct (Nat.le_gt_cases i degree).
  - rewrite (knots_left i) by auto. destruct (Nat.le_gt_cases j k); [apply B; lia|rewrite knots_right by lia; lra].
  - destruct (Nat.le_gt_cases k i); [rewrite !knots_right by lia; lra|]. destruct (Nat.le_gt_cases j k).
    + destruct (Nat.eq_dec i j) as [->|]; [lra|]. left. apply knots_lt; lia.
    + rewrite (knots_right j) by lia. apply B; lia.
Qed.

(** ** The interval of a point *)
Lemma search_left_spec x l : (degree <= l)%nat -> let r := search_left t degree x l in
  (degree <= r)%nat /\ (r <= l)%nat /\ (t r <= x \/ r = degree).
Proof.
  induction l as [|l IH]; intros H; cbn [search_left].
  - split; [auto|]. split; [auto|]. right. lia.
  - destruct (Rlt_dec x (t (S l))) as [L|L]; [|split; [auto|]; split; [auto|left; lra]].
    destruct (Nat.eqb_spec (S l) degree) as [E|E]; [split; [auto|]; split; auto|].
    destruct (IH ltac:(lia)) as (A & B & C). split; auto.
Qed.
Lemma search_right_spec x fuel : forall l, let r := search_right t x l fuel in
  (l <= r)%nat /\ (r <= l + fuel)%nat /\ (r = l \/ t (r - 1)%nat <= x) /\ (x < t r \/ r = (l + fuel)%nat).
Proof.
  induction fuel as [|fuel IH]; intros l; cbn [search_right].
  - repeat split; auto; try lia.
  - destruct (Rlt_dec x (t l)) as [L|L]; [repeat split; auto; lia|].
    destruct (IH (S l)) as (A & B & C & D). set (r := search_right t x (S l) fuel) in *. repeat split; try lia.
    + right. destruct C as [->|C]; [|auto]. cbn. rewrite Nat.sub_0_r. lra.
    + destruct D as [D|D]; [auto|right; lia].
Qed.
Definition in_interval (x : R) (ell : nat) : Prop :=
  (degree <= ell < k)%nat /\ (t ell <= x \/ ell = degree) /\ (x < t (S ell) \/ S ell = k).
Lemma find_interval_spec x start : (degree <= start < k)%nat -> in_interval x (find_interval t degree k start x).
Proof.
  intros H. unfold find_interval. destruct (search_left_spec x start ltac:(lia)) as (A & B & C). set (l := search_left t degree x start) in *.
  destruct (search_right_spec x (k - S l) (S l)) as (A' & B' & C' & D'). set (r := search_right t x (S l) (k - S l)) in *.
  split; [lia|]. split.
  - destruct C' as [->|C']; [|auto]. cbn. rewrite Nat.sub_0_r. auto.
  - replace (S (r - 1)) with r by lia. destruct D' as [D'|D']; [auto|right; lia].
Qed.
Lemma in_interval_unique x a b : in_interval x a -> in_interval x b -> a = b.
Proof.
  assert (G : forall a b, in_interval x a -> in_interval x b -> (a < b)%nat -> False).
  { clear a b. intros a b (A1 & A2 & A3) (B1 & B2 & B3) L. destruct A3 as [A3|A3]; [|lia]. destruct B2 as [B2|B2]; [|lia].
    assert (t (S a) <= t b); [|lra]. apply knots_le; lia. }
  intros Ha Hb. destruct (Nat.lt_trichotomy a b) as [L|[E|L]]; auto; exfalso; eauto.
Qed.

(** ** The weights *)
Lemma sweep_len x ell j n c hh : length (deboor_sweep t x ell j n c hh) = S (length hh).
Proof. revert n c. induction hh as [|v hh IH]; intros n c; cbn; auto. destruct Req_EM_T; cbn; auto. Qed.
Lemma deboor_len x ell d : length (deboor t x ell d) = S d.
Proof. induction d; cbn; auto. rewrite sweep_len. auto. Qed.

Lemma xa_xb ell j n : (degree <= ell < k)%nat -> (j <= degree)%nat -> (1 <= n <= j)%nat ->
  t (ell + n - j)%nat <= t ell /\ t (S ell) <= t (ell + n)%nat /\ t ell < t (S ell).
Proof. intros. repeat split; [apply knots_le; lia|apply knots_le; lia|apply knots_lt; lia]. Qed.

Lemma sweep_sum x ell j : (degree <= ell < k)%nat -> (j <= degree)%nat -> forall hh n c, (1 <= n)%nat -> (n + length hh = S j)%nat ->
  sumR (deboor_sweep t x ell j n c hh) = c + sumR hh.
Proof.
  intros He Hj. induction hh as [|v hh IH]; intros n c H1 H2; cbn [deboor_sweep]; [cbn; lra|]. cbn in H2.
  destruct (xa_xb ell j n He Hj ltac:(lia)) as (A & B & C). destruct (Req_EM_T (t (ell + n)%nat) (t (ell + n - j)%nat)) as [E|E]; [lra|].
  cbn [sumR fold_right]. fold (sumR (deboor_sweep t x ell j (S n) (v / (t (ell + n)%nat - t (ell + n - j)%nat) * (x - t (ell + n - j)%nat)) hh)). rewrite IH by lia.
  cbn [sumR fold_right]. fold (sumR hh). field. lra.
Qed.
Lemma sweep_nonneg x ell j : (degree <= ell < k)%nat -> (j <= degree)%nat -> t ell <= x <= t (S ell) -> forall hh n c, (1 <= n)%nat -> (n + length hh = S j)%nat ->
  0 <= c -> Forall (Rle 0) hh -> Forall (Rle 0) (deboor_sweep t x ell j n c hh).
Proof.
  intros He Hj Hx. induction hh as [|v hh IH]; intros n c H1 H2 Hc Hh; cbn [deboor_sweep]; [auto|]. cbn in H2. inversion Hh; subst.
  destruct (xa_xb ell j n He Hj ltac:(lia)) as (A & B & C). destruct (Req_EM_T (t (ell + n)%nat) (t (ell + n - j)%nat)) as [E|E]; [lra|].
  set (xb := t (ell + n)%nat) in *. set (xa := t (ell + n - j)%nat) in *.
  assert (W : 0 <= v / (xb - xa)). { apply Rmult_le_pos; auto. left. apply Rinv_0_lt_compat. lra. }
  constructor; [|apply IH; auto; try lia]. 1: apply Rplus_le_le_0_compat; auto. all: apply Rmult_le_pos; auto; lra.
Qed.

Lemma deboor_sum x ell d : (degree <= ell < k)%nat -> (d <= degree)%nat -> sumR (deboor t x ell d) = 1.
Proof.
  intros He. induction d as [|d IH]; intros Hd; [cbn; lra|]. cbn [deboor]. rewrite sweep_sum; auto; [rewrite IH by lia; lra|]. rewrite deboor_len. lia.
Qed.
Lemma deboor_nonneg x ell d : (degree <= ell < k)%nat -> (d <= degree)%nat -> t ell <= x <= t (S ell) -> Forall (Rle 0) (deboor t x ell d).
Proof.
  intros He. induction d as [|d IH]; intros Hd Hx; [cbn; constructor; auto; lra|]. cbn [deboor].
  apply sweep_nonneg; auto; [rewrite deboor_len; lia|lra|apply IH; auto; lia].
Qed.

(** at the left end only the first basis function is nonzero, at the right end only the last *)
Lemma sweep_left_end ell j : ell = degree -> (j <= degree)%nat -> forall hh n c, (1 <= n)%nat -> (n + length hh = S j)%nat ->
  deboor_sweep t 0 ell j n c hh = match hh with [] => [c] | v :: hh' => (c + v) :: hh' ++ [0] end.
Proof.
  intros -> Hj. induction hh as [|v hh IH]; intros n c H1 H2; cbn [deboor_sweep]; auto. cbn in H2.
  destruct (xa_xb degree j n ltac:(lia) Hj ltac:(lia)) as (A & B & C). destruct (Req_EM_T (t (degree + n)%nat) (t (degree + n - j)%nat)) as [E|E]; [lra|].
  rewrite IH by lia. rewrite (knots_left (degree + n - j)) in * by lia. f_equal; [field; lra|].
  destruct hh; cbn; f_equal; lra.
Qed.
Lemma deboor_left_end d : (d <= degree)%nat -> deboor t 0 degree d = 1 :: repeat 0 d.
Proof.
  induction d as [|d IH]; intros H; auto. cbn [deboor]. rewrite sweep_left_end; auto; [|rewrite deboor_len; lia]. rewrite IH by lia.
  f_equal; [lra|]. rewrite <- repeat_cons. reflexivity.
Qed.
Lemma sweep_right_end ell j : S ell = k -> (j <= degree)%nat -> forall hh n c, (1 <= n)%nat -> (n + length hh = S j)%nat ->
  deboor_sweep t 1 ell j n c hh = c :: hh.
Proof.
  intros Hl Hj. induction hh as [|v hh IH]; intros n c H1 H2; cbn [deboor_sweep]; auto. cbn in H2.
  destruct (xa_xb ell j n ltac:(lia) Hj ltac:(lia)) as (A & B & C). destruct (Req_EM_T (t (ell + n)%nat) (t (ell + n - j)%nat)) as [E|E]; [lra|].
  rewrite IH by lia. rewrite (knots_right (ell + n)) in * by lia. f_equal; [field; lra|]. f_equal. field. lra.
Qed.
Lemma deboor_right_end d : (d <= degree)%nat -> deboor t 1 (k - 1) d = repeat 0 d ++ [1].
Proof.
  induction d as [|d IH]; intros H; auto. cbn [deboor]. rewrite sweep_right_end; auto; [|lia|rewrite deboor_len; lia]. rewrite IH by lia. reflexivity.
Qed.

(** ** Rows *)
Lemma row_shape ell (h : list R) : (degree <= ell < k)%nat -> length h = S degree ->
  map (fun j => if (ell - degree <=? j)%nat && (j <=? ell)%nat then nth (j - (ell - degree)) h 0 else 0) (seq 0 k)
  = repeat 0 (ell - degree) ++ h ++ repeat 0 (k - 1 - ell).
Proof.
  intros He Hh. apply nth_ext with 0 0; [rewrite map_length, seq_length, !app_length, !repeat_length; lia|]. rewrite map_length, seq_length. intros j Hj.
  rewrite (nth_indep _ 0 ((fun j => if (ell - degree <=? j)%nat && (j <=? ell)%nat then nth (j - (ell - degree)) h 0 else 0) 0%nat)) by (rewrite map_length, seq_length; auto).
  rewrite (map_nth (fun j => if (ell - degree <=? j)%nat && (j <=? ell)%nat then nth (j - (ell - degree)) h 0 else 0)), seq_nth by auto. cbn [Nat.add].
  destruct (Nat.leb_spec (ell - degree) j); cbn [andb].
  - rewrite app_nth2; rewrite repeat_length; auto. destruct (Nat.leb_spec j ell).
    + rewrite app_nth1 by lia. reflexivity.
    + rewrite app_nth2 by lia. symmetry. apply nth_repeatR. lia.
  - rewrite app_nth1 by (rewrite repeat_length; lia). symmetry. apply nth_repeatR. lia.
Qed.
End Knots.

(** ** Specification: weights of a point *)
(** [w] is a vector of convex weights with at most [degree + 1] consecutive nonzero entries. *)
Definition convex_weights (degree : nat) (w : list R) : Prop :=
  Forall (Rle 0) w /\ fold_right Rplus 0 w = 1 /\
  exists first, forall j, (j < first \/ first + degree < j)%nat -> nth j w 0 = 0.
Definition weighted (w x : list R) : R := fold_right Rplus 0 (map (fun p => fst p * snd p) (combine w x)).

Notation tk k degree := (fun i : nat => nth i (knots k degree) 0).
Lemma basis_row_spec k degree start x : (degree < k)%nat -> (degree <= start < k)%nat ->
  let row := basis_row k degree start x in
  length row = k /\ fold_right Rplus 0 row = 1 /\ (0 <= x <= 1 -> Forall (Rle 0) row) /\
  (exists first, forall j, (j < first \/ first + degree < j)%nat -> nth j row 0 = 0) /\
  row = basis_row k degree degree x /\
  (x = 0 -> row = 1 :: repeat 0 (k - 1)) /\ (x = 1 -> row = repeat 0 (k - 1) ++ [1]).
Proof.
  intros Hk Hs. cbv zeta. unfold basis_row. cbv zeta.
  pose proof (find_interval_spec k degree Hk x start Hs) as I. cbv beta in I.
  pose proof (find_interval_spec k degree Hk x degree ltac:(lia)) as I2. cbv beta in I2.
  rewrite (in_interval_unique k degree Hk x _ _ I I2). clear I. set (ell := find_interval (tk k degree) degree k degree x) in *.
  pose proof I2 as ([A1 A2] & B & C). rewrite (row_shape k degree Hk ell _ (conj A1 A2) (deboor_len k degree x ell degree)).
  split; [rewrite !app_length, !repeat_length; rewrite (deboor_len k degree); lia|]. split.
  { change (sumR (repeat 0 (ell - degree) ++ deboor (tk k degree) x ell degree ++ repeat 0 (k - 1 - ell)) = 1). rewrite !sumR_app, !sumR_zeros. rewrite deboor_sum by auto. lra. }
  split.
  { intros Hx. apply Forall_app. split; [apply Forall_repeatR; lra|]. apply Forall_app. split; [|apply Forall_repeatR; lra]. apply deboor_nonneg; auto. split.
    - destruct B as [B|B]; auto. rewrite B. rewrite (knots_left k degree) by auto. lra.
    - destruct C as [C|C]; [lra|]. rewrite C. rewrite (knots_right k degree) by lia. lra. }
  split.
  { exists (ell - degree)%nat. intros j Hj. destruct Hj as [Hj|Hj].
    - rewrite app_nth1 by (rewrite repeat_length; auto). apply nth_repeatR. auto.
    - rewrite app_nth2; rewrite repeat_length; [|lia]. rewrite app_nth2 by (rewrite (deboor_len k degree); lia).
      destruct (Nat.lt_ge_cases (j - (ell - degree) - length (deboor (tk k degree) x ell degree)) (k - 1 - ell)); [apply nth_repeatR; auto|]. apply nth_overflow. rewrite repeat_length. auto. }
  split; auto. split; intros ->.
  - assert (E : ell = degree). { apply (in_interval_unique k degree Hk 0); auto. split; [lia|]. split; [auto|]. left. pose proof (knots_lt k degree Hk degree (S degree)) as Q. cbv beta in Q. rewrite (knots_left k degree Hk degree) in Q by auto. apply Q; lia. }
    rewrite E, Nat.sub_diag. rewrite (deboor_left_end k degree) by auto. cbn. f_equal. rewrite <- repeat_app. f_equal. lia.
  - assert (E : ell = (k - 1)%nat). { apply (in_interval_unique k degree Hk 1); auto. split; [lia|]. split; [|right; lia]. left. pose proof (knots_le k degree Hk (k - 1) k) as Q. cbv beta in Q. rewrite (knots_right k degree Hk k) in Q by lia. apply Q; lia. }
    rewrite E. rewrite (deboor_right_end k degree) by auto. replace (k - 1 - (k - 1))%nat with 0%nat by lia. cbn [repeat]. rewrite app_nil_r, app_assoc, <- repeat_app. do 2 f_equal. lia.
Qed.

Lemma basis_rows_spec k degree pts : (degree < k)%nat -> forall prev, basis_rows k degree prev pts = map (basis_row k degree degree) pts.
Proof.
  intros Hk. induction pts as [|x pts IH]; intros prev; cbn [basis_rows map]; auto. rewrite IH. f_equal.
  apply basis_row_spec; auto. destruct (Nat.ltb_spec degree prev), (Nat.ltb_spec prev k); cbn; lia.
Qed.

(** * Theorems *)
(** Exactly one of [n] and [eval_points], and more values than the degree, are required; anything else is a ValueError. *)
Theorem C79_arguments : forall x n eval_points degree,
  (exists y, bspline_interpolation x n eval_points degree = Ok y) <->
  (((n <> None /\ eval_points = None) \/ (n = None /\ eval_points <> None)) /\ (degree < length x)%nat).
Proof.
  intros x n e degree. unfold bspline_interpolation, numpy_bspline_basis. destruct n as [n|], e as [e|]; cbn [bind].
  - split; [intros [y H]; discriminate|intros [[[_ H]|[H _]] _]; discriminate].
  - destruct (Nat.ltb_spec (length x) (degree + 1)); cbn [bind].
    + split; [intros [y H0]; discriminate|intros [_ H0]; lia].
    + split; [intros _; split; [left; split; congruence|lia]|eauto].
  - destruct (Nat.ltb_spec (length x) (degree + 1)); cbn [bind].
    + split; [intros [y H0]; discriminate|intros [_ H0]; lia].
    + split; [intros _; split; [right; split; congruence|lia]|eauto].
  - split; [intros [y H]; discriminate|intros [[[H _]|[_ H]] _]; congruence].
Qed.
Theorem C79_error_kind : forall x n eval_points degree e, bspline_interpolation x n eval_points degree = Err e -> e = ValueError.
Proof.
  intros x n e degree err. unfold bspline_interpolation, numpy_bspline_basis. destruct n as [n|], e as [e|]; cbn [bind]; try congruence; destruct (length x <? degree + 1)%nat; cbn; congruence.
Qed.

(** Every evaluation point in [0, 1] gets a convex combination of at most [degree + 1] neighbouring values, with weights
    that depend only on the point, the number of values and the degree -- so neither on the values nor on the other
    points; [n] points are [i/(n-1)]. *)
Theorem C79_weights : forall k degree, (degree < k)%nat -> exists W : R -> list R,
  (forall p, length (W p) = k /\ fold_right Rplus 0 (W p) = 1 /\ (0 <= p <= 1 -> convex_weights degree (W p))) /\
  (W 0 = 1 :: repeat 0 (k - 1) /\ W 1 = repeat 0 (k - 1) ++ [1]) /\
  (forall x pts, length x = k -> bspline_interpolation x None (Some pts) degree = Ok (map (fun p => weighted (W p) x) pts)) /\
  (forall x n, length x = k -> bspline_interpolation x (Some n) None degree = Ok (map (fun i => weighted (W (INR i / INR (n - 1))) x) (seq 0 n))).
Proof.
  intros k degree Hk. exists (basis_row k degree degree). split; [|split; [|split]].
  - intros p. destruct (basis_row_spec k degree degree p Hk ltac:(lia)) as (A & B & C & D & _). split; auto. split; auto. intros Hp. split; [|split]; auto.
  - destruct (basis_row_spec k degree degree 0 Hk ltac:(lia)) as (_ & _ & _ & _ & _ & A & _). destruct (basis_row_spec k degree degree 1 Hk ltac:(lia)) as (_ & _ & _ & _ & _ & _ & B). auto.
  - intros x pts Hx. unfold bspline_interpolation, numpy_bspline_basis. cbn [bind]. rewrite Hx. destruct (Nat.ltb_spec k (degree + 1)); [lia|]. cbn [bind].
    rewrite basis_rows_spec by auto. rewrite map_map. reflexivity.
  - intros x n Hx. unfold bspline_interpolation, numpy_bspline_basis. cbn [bind]. rewrite Hx. destruct (Nat.ltb_spec k (degree + 1)); [lia|]. cbn [bind].
    rewrite basis_rows_spec by auto. unfold linspace01. rewrite !map_map. reflexivity.
Qed.

Lemma weighted_bounds lo hi : forall w x, length w = length x -> Forall (Rle 0) w -> Forall (fun v => lo <= v <= hi) x ->
  lo * fold_right Rplus 0 w <= weighted w x <= hi * fold_right Rplus 0 w.
Proof.
  induction w as [|a w IH]; intros [|v x] L Hw Hx; try discriminate; [cbn; lra|]. injection L as L. inversion Hw; inversion Hx; subst. specialize (IH x L H2 H6).
  unfold weighted in *. cbn. split; nra.
Qed.

(** Between its end points the curve stays between the smallest and the largest value and starts and ends at the first
    and last value. *)
Theorem C79_range_and_ends : forall x degree pts y lo hi,
  bspline_interpolation x None (Some pts) degree = Ok y -> Forall (fun p => 0 <= p <= 1) pts -> Forall (fun v => lo <= v <= hi) x ->
  length y = length pts /\ Forall (fun v => lo <= v <= hi) y /\
  forall i, (nth_error pts i = Some 0 -> nth_error y i = nth_error x 0) /\ (nth_error pts i = Some 1 -> nth_error y i = nth_error x (length x - 1)).
Proof.
  intros x degree pts y lo hi H Hp Hx.
  assert (Hk : (degree < length x)%nat) by (apply (C79_arguments x None (Some pts) degree); eauto).
  destruct (C79_weights (length x) degree Hk) as (W & HW & [W0 W1] & HE & _). rewrite (HE x pts eq_refl) in H. injection H as <-.
  split; [apply map_length|]. split.
  - apply Forall_map. eapply Forall_impl; [|exact Hp]. intros p Hp'. destruct (HW p) as (A & B & C). destruct (C Hp') as (C1 & _).
    pose proof (weighted_bounds lo hi (W p) x A C1 Hx). rewrite B in H. lra.
  - assert (Z : forall n (x : list R), weighted (repeat 0 n) x = 0).
    { induction n as [|n IH]; intros [|v x']; cbn; auto. unfold weighted in IH. rewrite IH. lra. }
    intros i. split; intros Hi; rewrite (map_nth_error _ _ _ Hi).
    + rewrite W0. destruct x as [|v x']; [cbn in Hk; lia|]. cbn [nth_error]. f_equal. unfold weighted. cbn. unfold weighted in Z. rewrite Z. lra.
    + rewrite W1. destruct (exists_last (l := x)) as (x' & v & ->); [intros ->; cbn in Hk; lia|]. rewrite app_length. cbn [length]. replace (length x' + 1 - 1)%nat with (length x') by lia.
      rewrite nth_error_app2 by auto. rewrite Nat.sub_diag. cbn [nth_error]. f_equal. clear -Z.
      induction x' as [|u x' IH]; unfold weighted in *; cbn; [lra|]. rewrite IH. lra.
Qed.

(** With degree 1 the curve passes through every value at its place on the regular grid. *)
Theorem C79_degree_one_interpolates : forall x i, (1 < length x)%nat -> (i < length x)%nat ->
  bspline_interpolation x None (Some [INR i / INR (length x - 1)]) 1 = Ok [nth i x 0].
Proof.
  intros x i Hk Hi. set (k := length x) in *. unfold bspline_interpolation, numpy_bspline_basis. cbn [bind]. fold k. destruct (Nat.ltb_spec k (1 + 1)); [lia|]. cbn [bind].
  rewrite basis_rows_spec by auto. cbn [map]. do 2 f_equal.
  assert (Hrow : basis_row k 1 1 (INR i / INR (k - 1)) = repeat 0 i ++ 1 :: repeat 0 (k - 1 - i)).
  { destruct (Nat.eq_dec i (k - 1)) as [E|E].
    - subst i. replace (INR (k - 1) / INR (k - 1)) with 1 by (field; apply not_0_INR; lia).
      destruct (basis_row_spec k 1 1 1 Hk ltac:(lia)) as (_ & _ & _ & _ & _ & _ & B). rewrite (B eq_refl). now rewrite Nat.sub_diag.
    - set (p := INR i / INR (k - 1)). pose proof (find_interval_spec k 1 Hk p 1 ltac:(lia)) as I.
      assert (Ti : nth (S i) (knots k 1) 0 = p). { rewrite (knots_mid k 1) by lia. unfold p. do 2 f_equal. lia. }
      assert (Hp : p < nth (S (S i)) (knots k 1) 0). { rewrite <- Ti. apply (knots_lt k 1); lia. }
      assert (El : find_interval (fun i => nth i (knots k 1) 0) 1 k 1 p = S i).
      { apply (in_interval_unique k 1 Hk p); auto. split; [lia|]. split; [left; rewrite Ti; lra|left; auto]. }
      unfold basis_row. cbv zeta. rewrite El. rewrite (row_shape k 1) by (auto; try lia; apply (deboor_len k 1)).
      replace (S i - 1)%nat with i by lia. f_equal. cbn [deboor deboor_sweep]. replace (S i + 1)%nat with (S (S i)) by lia. replace (S (S i) - 1)%nat with (S i) by lia.
      rewrite Ti. destruct (Req_EM_T (nth (S (S i)) (knots k 1) 0) p); [lra|].
      replace (0 + 1 / (nth (S (S i)) (knots k 1) 0 - p) * (nth (S (S i)) (knots k 1) 0 - p)) with 1 by (field; lra).
      replace (1 / (nth (S (S i)) (knots k 1) 0 - p) * (p - p)) with 0 by (field; lra).
      cbn [app]. f_equal. replace (k - 1 - i)%nat with (S (k - 1 - S i)) by lia. reflexivity. }
  rewrite Hrow. unfold dot. assert (Z : forall n (x : list R), fold_right Rplus 0 (map (fun p => fst p * snd p) (combine (repeat 0 n) x)) = 0).
  { induction n as [|n IH]; intros [|v x']; cbn; auto. rewrite IH. lra. }
  clear -Hi Z. unfold k in *. generalize (length x - 1 - i)%nat. revert i Hi. induction x as [|v x IH]; intros [|i] Hi m; cbn in *; try lia.
  - rewrite Z. lra.
  - rewrite IH by lia. lra.
Qed.

(** It is not an interpolation for higher degrees: three values 0, 1, 0 with degree 2 give 1/2 in the middle. *)
Theorem C79_interpolation_refuted : exists x degree, (degree < length x)%nat /\
  bspline_interpolation x None (Some [INR 1 / INR (length x - 1)]) degree <> Ok [nth 1 x 0].
Proof.
  exists [0; 1; 0], 2%nat. split; [cbn; lia|]. unfold bspline_interpolation, numpy_bspline_basis. cbn [bind length Nat.ltb Nat.leb Nat.add].
  rewrite basis_rows_spec by lia. cbn [map]. set (p := INR 1 / INR (3 - 1)). assert (Hp : p = 1 / 2) by (unfold p; cbn; lra). clearbody p.
  pose proof (find_interval_spec 3 2 ltac:(lia) p 2 ltac:(lia)) as I. pose proof I as (I1 & _).
  unfold basis_row. cbv zeta. set (ell := find_interval (fun i => nth i (knots 3 2) 0) 2 3 2 p) in *. assert (El : ell = 2%nat) by lia. rewrite El.
  rewrite (row_shape 3 2) by (try lia; apply (deboor_len 3 2)). cbn [deboor deboor_sweep Nat.add Nat.sub].
  assert (K1 : nth 1 (knots 3 2) 0 = 0) by (apply (knots_left 3 2); lia). assert (K2 : nth 2 (knots 3 2) 0 = 0) by (apply (knots_left 3 2); lia).
  assert (K3 : nth 3 (knots 3 2) 0 = 1) by (apply (knots_right 3 2); lia). assert (K4 : nth 4 (knots 3 2) 0 = 1) by (apply (knots_right 3 2); lia).
  rewrite K2, K3. destruct (Req_EM_T 1 0); [lra|]. cbn [deboor_sweep Nat.add Nat.sub]. rewrite K1, K2, K3, K4. destruct (Req_EM_T 1 0); [lra|]. unfold dot. cbn. intros H. injection H as H. subst p. lra.
Qed.

(** The hypotheses are satisfiable. *)
Example C79_example : exists y, bspline_interpolation [3; 1; 4; 1; 5] None (Some [0; 1/3; 1]) 3 = Ok y /\ Forall (fun v => 1 <= v <= 5) y /\ nth_error y 0 = Some 3 /\ nth_error y 2 = Some 5.
Proof.
  destruct (C79_arguments [3; 1; 4; 1; 5] None (Some [0; 1/3; 1]) 3) as [_ H]. destruct H as [y H]; [split; [right; split; congruence|cbn; lia]|].
  exists y. split; auto. destruct (C79_range_and_ends _ _ _ _ 1 5 H) as (A & B & C); [repeat constructor; lra|repeat constructor; lra|]. split; auto. split.
  - destruct (C 0%nat) as [C0 _]. rewrite C0; auto.
  - destruct (C 2%nat) as [_ C2]. rewrite C2; auto.
Qed.
