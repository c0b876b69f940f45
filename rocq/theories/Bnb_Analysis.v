(** The series of the beta negative binomial distribution. *)
From Coq Require Import Reals Lra Lia Psatz.
From Coquelicot Require Import Coquelicot.
From Verif Require Import Common Chi_Spec Chi_Props Gam_Analysis Bnb_Spec.
Local Open Scope R_scope.

(** * Series of nonnegative terms *)
Lemma sum_n_S f n : sum_n f (S n) = sum_n f n + f (S n) :> R.
Proof. apply (sum_Sn f n). Qed.
Lemma sum_n_incr f : (forall n, 0 <= f n) -> forall n, sum_n f n <= sum_n f (S n).
Proof. intros H n. rewrite sum_n_S. specialize (H (S n)). lra. Qed.
Lemma sum_n_mono f : (forall n, 0 <= f n) -> forall n k, sum_n f n <= sum_n f (n + k).
Proof. intros H n k. induction k as [|k IH]; [rewrite Nat.add_0_r; lra|]. rewrite Nat.add_succ_r. pose proof (sum_n_incr f H (n + k)). lra. Qed.
Lemma series_bounded f M : (forall n, 0 <= f n) -> (forall n, sum_n f n <= M) -> exists l, is_series f l /\ l <= M.
Proof.
  intros P B. destruct (ex_finite_lim_seq_incr (sum_n f) M (sum_n_incr f P) B) as [l Hl]. exists l. split; [exact Hl|].
  assert (K : Rbar_le (Finite l) (Finite M)); [|exact K]. apply (is_lim_seq_le (sum_n f) (fun _ => M)); [exact B | exact Hl | apply is_lim_seq_const].
Qed.
Lemma series_or_oo f : (forall n, 0 <= f n) -> ex_series f \/ diverges f.
Proof.
  intros P. destruct (Classical_Prop.classic (exists M, forall n, sum_n f n <= M)) as [[M HM]|N].
  - left. destruct (series_bounded f M P HM) as [l [H _]]. exists l. exact H.
  - right. apply is_lim_seq_spec. intros M.
    assert (E : exists n, M < sum_n f n). { apply Classical_Prop.NNPP. intros K. apply N. exists M. intros n. apply Rnot_lt_le. intros Hn. apply K. exists n. exact Hn. }
    destruct E as [n Hn]. exists n. intros k Hk. replace k with (n + (k - n))%nat by lia. pose proof (sum_n_mono f P n (k - n)). lra.
Qed.
Lemma is_series_pos_le f l : (forall n, 0 <= f n) -> is_series f l -> forall n, sum_n f n <= l.
Proof.
  intros P H n. assert (K : Rbar_le (Finite (sum_n f n)) (Finite l)); [|exact K].
  apply (is_lim_seq_le_loc (fun _ => sum_n f n) (sum_n f)); [|apply is_lim_seq_const | exact H].
  exists n. intros k Hk. replace k with (n + (k - n))%nat by lia. apply sum_n_mono, P.
Qed.
(** at least c / x from some point on: no sum *)
Lemma harmonic f c N : 0 < c -> (forall n, 0 <= f n) -> (forall n, (N <= n)%nat -> c <= INR n * f n) -> ~ ex_series f.
Proof.
  intros Hc P H [l Hl].
  assert (L1 : is_lim_seq (fun n => sum_n f (n + n)) l). { apply (is_lim_seq_subseq (sum_n f) l (fun n => (n + n)%nat)); [|exact Hl]. apply eventually_subseq. intros n. lia. }
  assert (L2 : is_lim_seq (fun n => sum_n f (n + n) - sum_n f n) (l - l)) by (apply is_lim_seq_minus'; [exact L1 | exact Hl]).
  assert (B : forall n k, (N <= n)%nat -> (k <= n)%nat -> (0 < n)%nat -> INR k * (c / (2 * INR n)) <= sum_n f (n + k) - sum_n f n).
  { intros n k Hn. induction k as [|k IH]; intros Hk Hp; [rewrite Nat.add_0_r, Rmult_0_l; lra|]. specialize (IH ltac:(lia) Hp). rewrite Nat.add_succ_r, sum_n_S, S_INR.
    assert (Q : c / (2 * INR n) <= f (S (n + k))).
    { specialize (H (S (n + k)) ltac:(lia)). assert (I0 : 0 < INR n) by (apply lt_0_INR; lia). assert (I1 : INR (S (n + k)) <= 2 * INR n). { replace 2 with (INR 2) by reflexivity. rewrite <- mult_INR. apply le_INR. lia. }
      apply Rmult_le_reg_l with (2 * INR n); [lra|]. replace (2 * INR n * (c / (2 * INR n))) with c by (field; lra). specialize (P (S (n + k))). nra. }
    lra. }
  assert (K : Rbar_le (Finite (c / 2)) (Finite (l - l))).
  { apply (is_lim_seq_le_loc (fun _ => c / 2) (fun n => sum_n f (n + n) - sum_n f n)); [|apply is_lim_seq_const | exact L2].
    exists (S N). intros n Hn. pose proof (B n n ltac:(lia) ltac:(lia) ltac:(lia)) as Q. replace (INR n * (c / (2 * INR n))) with (c / 2) in Q; [exact Q|]. field. apply not_0_INR. lia. }
  simpl in K. lra.
Qed.

Section Bnb.
Context (Gm : R -> R) (HG : gamma_function Gm).
Lemma Gpos s : 0 < s -> 0 < Gm s. Proof. intros H. apply (gamma_pos s), HG, H. Qed.
Lemma Grec s : 0 < s -> Gm (s + 1) = s * Gm s.
Proof. intros H. apply (Chi_Analysis.RInt0_unique (gam (s + 1))); [apply HG; lra | apply gamma_rec; [exact H | apply HG, H]]. Qed.
(** Gm (x + b) / Gm x grows with x *)
Lemma Gshift x y b : 0 < x -> x <= y -> 0 < b -> Gm (x + b) * Gm y <= Gm x * Gm (y + b).
Proof.
  intros Hx Hy Hb. set (w := b / (y + b - x)). assert (Hd : 0 < y + b - x) by lra.
  assert (Hw : 0 <= w <= 1). { unfold w. split; [apply Rlt_le, Rdiv_lt_0_compat; lra|]. apply Rmult_le_reg_r with (y + b - x); [exact Hd|]. unfold Rdiv. rewrite Rmult_assoc, Rinv_l by lra. lra. }
  assert (E1 : (1 - w) * x + (1 - (1 - w)) * (y + b) = x + b) by (unfold w; field; lra).
  assert (E2 : w * x + (1 - w) * (y + b) = y) by (unfold w; field; lra).
  assert (A1 := gamma_logconvex x (y + b) (1 - w) (Gm x) (Gm (y + b)) (Gm (x + b)) Hx ltac:(lra) ltac:(lra) (HG x Hx) (HG (y + b) ltac:(lra))). rewrite E1 in A1. specialize (A1 (HG (x + b) ltac:(lra))).
  assert (A2 := gamma_logconvex x (y + b) w (Gm x) (Gm (y + b)) (Gm y) Hx ltac:(lra) Hw (HG x Hx) (HG (y + b) ltac:(lra))). rewrite E2 in A2. specialize (A2 (HG y ltac:(lra))).
  pose proof (Gpos x Hx). pose proof (Gpos y ltac:(lra)). pose proof (Gpos (x + b) ltac:(lra)). pose proof (Gpos (y + b) ltac:(lra)).
  rewrite <- (exp_ln (Gm (x + b) * Gm y)), <- (exp_ln (Gm x * Gm (y + b))) by (apply Rmult_lt_0_compat; assumption). rewrite !ln_mult by assumption.
  assert (Q : ln (Gm (x + b)) + ln (Gm y) <= ln (Gm x) + ln (Gm (y + b))) by lra. destruct Q as [Q|Q]; [apply Rlt_le, exp_increasing, Q | rewrite Q; lra].
Qed.

(** the pmf, written with Gamma functions *)
Definition P (a b r : R) (x : nat) : R :=
  Gm (r + INR x) * Gm (a + b) * Gm (r + a) * Gm (INR x + b) / (Gm (r + INR x + (a + b)) * Gm r * Gm a * INR (fact x) * Gm b).
Context (b r : R) (Hb : 0 < b) (Hr : 0 < r).
Lemma Ppos a x : 0 < a -> 0 < P a b r x.
Proof.
  intros Ha. pose proof (pos_INR x). unfold P. apply Rdiv_lt_0_compat; repeat apply Rmult_lt_0_compat; try apply Gpos; try lra. apply INR_fact_lt_0.
Qed.
Lemma Pstep a x : 0 < a -> P a b r (S x) = P a b r x * ((r + INR x) * (INR x + b) / ((r + INR x + a + b) * (INR x + 1))).
Proof.
  intros Ha. pose proof (pos_INR x). unfold P. rewrite S_INR, fact_simpl, mult_INR, S_INR.
  replace (r + (INR x + 1)) with (r + INR x + 1) by ring. replace (INR x + 1 + b) with (INR x + b + 1) by ring. replace (r + INR x + 1 + (a + b)) with (r + INR x + (a + b) + 1) by ring.
  rewrite !Grec by lra. pose proof (Gpos (r + INR x + (a + b)) ltac:(lra)). pose proof (Gpos r Hr). pose proof (Gpos a Ha). pose proof (Gpos b Hb). pose proof (INR_fact_lt_0 x). field. repeat split; lra.
Qed.
Lemma Pastep a x : 0 < a -> P (a + 1) b r x = P a b r x * ((a + b) * (r + a) / ((r + INR x + a + b) * a)).
Proof.
  intros Ha. pose proof (pos_INR x). unfold P.
  replace (a + 1 + b) with (a + b + 1) by ring. replace (r + (a + 1)) with (r + a + 1) by ring. replace (r + INR x + (a + b + 1)) with (r + INR x + (a + b) + 1) by ring.
  rewrite !Grec by lra. pose proof (Gpos (r + INR x + (a + b)) ltac:(lra)). pose proof (Gpos r Hr). pose proof (Gpos a Ha). pose proof (Gpos b Hb). pose proof (INR_fact_lt_0 x). field. repeat split; lra.
Qed.
(** the telescoping sum *)
Lemma wz a n : 0 < a -> sum_n (P (a + 1) b r) n - sum_n (P a b r) n = INR (S n) * P a b r (S n) / a.
Proof.
  intros Ha. induction n as [|n IH].
  - rewrite !sum_O, Pastep, Pstep by assumption. cbn [INR]. field. lra.
  - rewrite !sum_n_S. replace (sum_n (P (a + 1) b r) n + P (a + 1) b r (S n) - (sum_n (P a b r) n + P a b r (S n))) with (INR (S n) * P a b r (S n) / a + (P (a + 1) b r (S n) - P a b r (S n))) by lra.
    rewrite (Pastep a (S n)), (Pstep a (S n)) by assumption. rewrite (S_INR (S n)). pose proof (pos_INR (S n)). field. repeat split; lra.
Qed.
Lemma lim_inv c d : is_lim_seq (fun n => c / (d + INR n)) 0.
Proof.
  assert (H : is_lim_seq (fun n => d + INR n) p_infty). { eapply is_lim_seq_plus; [apply is_lim_seq_const | apply is_lim_seq_INR | reflexivity]. }
  assert (H2 : is_lim_seq (fun n => / (d + INR n)) (Rbar_inv p_infty)) by (apply is_lim_seq_inv; [exact H | discriminate]). simpl in H2.
  replace 0 with (c * 0) by ring. apply (is_lim_seq_mult' (fun _ => c)); [apply is_lim_seq_const | exact H2].
Qed.
(** P (a + n) 0 tends to 1 *)
Fixpoint ratio (m : nat) (a : R) : R := match m with O => 1 | S k => ratio k a * ((a + INR k) / (a + b + INR k)) end.
Lemma ratio_eq m a : 0 < a -> Gm (a + INR m) / Gm (a + INR m + b) = Gm a / Gm (a + b) * ratio m a.
Proof.
  intros Ha. induction m as [|m IH]; [cbn; rewrite !Rplus_0_r; ring|]. cbn [ratio]. rewrite S_INR. pose proof (pos_INR m).
  replace (a + (INR m + 1)) with (a + INR m + 1) by ring. replace (a + INR m + 1 + b) with (a + INR m + b + 1) by ring. rewrite !Grec by lra.
  transitivity (Gm (a + INR m) / Gm (a + INR m + b) * ((a + INR m) / (a + b + INR m))).
  - pose proof (Gpos (a + INR m + b) ltac:(lra)). field. split; lra.
  - rewrite IH. ring.
Qed.
Lemma ratio_lim m a : 0 < a -> is_lim_seq (fun n => ratio m (a + INR n)) 1.
Proof.
  intros Ha. induction m as [|m IH]; cbn [ratio]; [apply is_lim_seq_const|]. replace 1 with (1 * (1 - 0)) by ring. apply is_lim_seq_mult'; [exact IH|].
  apply is_lim_seq_ext with (fun n => 1 - b / (a + b + INR m + INR n)).
  - intros n. pose proof (pos_INR n). pose proof (pos_INR m). field. lra.
  - apply is_lim_seq_minus'; [apply is_lim_seq_const | apply lim_inv].
Qed.
Lemma P0_le a : 0 < a -> P a b r 0 <= 1.
Proof.
  intros Ha. unfold P. cbn [INR fact]. rewrite !Rplus_0_r, Rplus_0_l, Rmult_1_r.
  pose proof (Gshift a (a + r) b Ha ltac:(lra) Hb) as Q. pose proof (Gpos r Hr). pose proof (Gpos b Hb). pose proof (Gpos a Ha). pose proof (Gpos (r + (a + b)) ltac:(lra)).
  replace (Gm r * Gm (a + b) * Gm (r + a) * Gm b / (Gm (r + (a + b)) * Gm r * Gm a * Gm b)) with (Gm (a + b) * Gm (r + a) / (Gm a * Gm (r + (a + b)))) by (field; repeat split; lra).
  replace (a + r) with (r + a) in Q by ring. replace (r + a + b) with (r + (a + b)) in Q by ring.
  apply Rmult_le_reg_r with (Gm a * Gm (r + (a + b))); [apply Rmult_lt_0_compat; assumption|]. unfold Rdiv. rewrite Rmult_assoc, Rinv_l by (apply Rgt_not_eq, Rmult_lt_0_compat; assumption). lra.
Qed.
Lemma P0_ge m a : 0 < a -> r <= INR m -> ratio m a <= P a b r 0.
Proof.
  intros Ha Hm. unfold P. cbn [INR fact]. rewrite !Rplus_0_r, Rplus_0_l, Rmult_1_r.
  pose proof (Gshift (a + r) (a + INR m) b ltac:(lra) ltac:(lra) Hb) as Q. pose proof (ratio_eq m a Ha) as E.
  pose proof (Gpos r Hr). pose proof (Gpos b Hb). pose proof (Gpos a Ha). pose proof (Gpos (r + (a + b)) ltac:(lra)). pose proof (Gpos (a + b) ltac:(lra)). pose proof (Gpos (a + INR m + b) ltac:(lra)). pose proof (Gpos (a + r) ltac:(lra)).
  replace (Gm r * Gm (a + b) * Gm (r + a) * Gm b / (Gm (r + (a + b)) * Gm r * Gm a * Gm b)) with (Gm (a + b) / Gm a * (Gm (r + a) / Gm (r + (a + b)))) by (field; repeat split; lra).
  assert (E2 : ratio m a = Gm (a + b) / Gm a * (Gm (a + INR m) / Gm (a + INR m + b))) by (rewrite E; field; split; lra). rewrite E2.
  apply Rmult_le_compat_l; [apply Rlt_le, Rdiv_lt_0_compat; assumption|]. replace (r + a) with (a + r) by ring. replace (r + (a + b)) with (a + r + b) in * by ring.
  apply Rmult_le_reg_r with (Gm (a + r + b)); [assumption|]. apply Rmult_le_reg_r with (Gm (a + INR m + b)); [assumption|].
  replace (Gm (a + INR m) / Gm (a + INR m + b) * Gm (a + r + b) * Gm (a + INR m + b)) with (Gm (a + r + b) * Gm (a + INR m)) by (field; lra).
  replace (Gm (a + r) / Gm (a + r + b) * Gm (a + r + b) * Gm (a + INR m + b)) with (Gm (a + r) * Gm (a + INR m + b)) by (field; lra). exact Q.
Qed.
Lemma P0_lim a : 0 < a -> is_lim_seq (fun n => P (a + INR n) b r 0) 1.
Proof.
  intros Ha. assert (Em : exists m, r <= INR m). { destruct (nfloor_ex r ltac:(lra)) as [m Hm]. exists (S m). rewrite S_INR. lra. } destruct Em as [m Hm]. apply is_lim_seq_le_le with (u := fun n => ratio m (a + INR n)) (w := fun _ => 1).
  - intros n. pose proof (pos_INR n). split; [apply P0_ge; lra | apply P0_le; lra].
  - apply ratio_lim, Ha.
  - apply is_lim_seq_const.
Qed.
Lemma Px_lim a x : 0 < a -> is_lim_seq (fun n => P (a + INR n) b r (S x)) 0.
Proof.
  intros Ha. assert (G : forall l x, is_lim_seq (fun n => P (a + INR n) b r x) (Finite l) -> is_lim_seq (fun n => P (a + INR n) b r (S x)) 0).
  { intros l y Hl. apply is_lim_seq_ext with (fun n => P (a + INR n) b r y * ((r + INR y) * (INR y + b) / (INR y + 1) / (r + INR y + a + b + INR n))).
    - intros n. pose proof (pos_INR n). pose proof (pos_INR y). rewrite Pstep by lra. field. split; lra.
    - replace 0 with (l * 0) by ring. apply is_lim_seq_mult'; [exact Hl | apply lim_inv]. }
  induction x as [|x IH]; [apply (G 1), P0_lim, Ha | apply (G 0), IH].
Qed.
Lemma psum_lim a N : 0 < a -> is_lim_seq (fun n => sum_n (P (a + INR n) b r) N) 1.
Proof.
  intros Ha. induction N as [|N IH].
  - apply is_lim_seq_ext with (fun n => P (a + INR n) b r 0); [intros n; now rewrite sum_O | apply P0_lim, Ha].
  - apply is_lim_seq_ext with (fun n => sum_n (P (a + INR n) b r) N + P (a + INR n) b r (S N)); [intros n; now rewrite sum_n_S|].
    replace 1 with (1 + 0) by ring. apply is_lim_seq_plus'; [exact IH | apply Px_lim, Ha].
Qed.
Lemma psum_mono a n N : 0 < a -> sum_n (P a b r) N <= sum_n (P (a + INR n) b r) N.
Proof.
  intros Ha. induction n as [|n IH]; [cbn; rewrite Rplus_0_r; lra|]. rewrite S_INR. pose proof (pos_INR n). pose proof (wz (a + INR n) N ltac:(lra)) as W.
  replace (a + (INR n + 1)) with (a + INR n + 1) by ring. assert (Q : 0 <= INR (S N) * P (a + INR n) b r (S N) / (a + INR n)).
  { apply Rmult_le_pos; [apply Rmult_le_pos; [apply pos_INR | apply Rlt_le, Ppos; lra] | apply Rlt_le, Rinv_0_lt_compat; lra]. } lra.
Qed.
Lemma psum_le a N : 0 < a -> sum_n (P a b r) N <= 1.
Proof.
  intros Ha. assert (K : Rbar_le (Finite (sum_n (P a b r) N)) (Finite 1)); [|exact K].
  apply (is_lim_seq_le (fun _ => sum_n (P a b r) N) (fun n => sum_n (P (a + INR n) b r) N)); [intros n; apply psum_mono, Ha | apply is_lim_seq_const | apply psum_lim, Ha].
Qed.
Lemma Pser a : 0 < a -> exists l, is_series (P a b r) l /\ l <= 1.
Proof. intros Ha. apply series_bounded; [intros n; apply Rlt_le, Ppos, Ha | intros n; apply psum_le, Ha]. Qed.
Lemma Pser_step a l l' : 0 < a -> is_series (P a b r) l -> is_series (P (a + 1) b r) l' -> l = l'.
Proof.
  intros Ha H H'. assert (L : is_lim_seq (fun n => INR (S n) * P a b r (S n)) (a * (l' - l))).
  { apply is_lim_seq_ext with (fun n => a * (sum_n (P (a + 1) b r) n - sum_n (P a b r) n)); [intros n; rewrite wz by exact Ha; field; lra|].
    apply is_lim_seq_mult'; [apply is_lim_seq_const|]. apply is_lim_seq_minus'; assumption. }
  apply (is_lim_seq_incr_1 (fun n => INR n * P a b r n)) in L.
  assert (N : 0 <= a * (l' - l)).
  { assert (K : Rbar_le (Finite 0) (Finite (a * (l' - l)))); [|exact K]. apply (is_lim_seq_le (fun _ => 0) (fun n => INR n * P a b r n)); [|apply is_lim_seq_const | exact L].
    intros n. apply Rmult_le_pos; [apply pos_INR | apply Rlt_le, Ppos, Ha]. }
  destruct (Req_dec l l') as [E|E]; [exact E | exfalso].
  assert (Q : 0 < a * (l' - l)). { destruct N as [N|N]; [exact N|]. exfalso. apply E. symmetry in N. apply Rmult_integral in N. destruct N; lra. }
  apply is_lim_seq_spec in L. destruct (L (mkposreal _ (Rmult_lt_0_compat _ _ Q (Rinv_0_lt_compat 2 Rlt_0_2)))) as [M HM].
  apply (harmonic (P a b r) (a * (l' - l) * / 2) M); [lra | intros n; apply Rlt_le, Ppos, Ha | | exists l; exact H].
  intros n Hn. specialize (HM n Hn). simpl in HM. apply Rabs_def2 in HM. lra.
Qed.
(** the probabilities sum to one *)
Theorem P_total a : 0 < a -> is_series (P a b r) 1.
Proof.
  intros Ha. destruct (Pser a Ha) as [l [Hl Hle]].
  assert (A : forall n, is_series (P (a + INR n) b r) l).
  { induction n as [|n IH]; [cbn; rewrite Rplus_0_r; exact Hl|]. rewrite S_INR. pose proof (pos_INR n). destruct (Pser (a + INR n + 1) ltac:(lra)) as [l' [Hl' _]].
    rewrite (Pser_step (a + INR n) l l' ltac:(lra) IH Hl'). replace (a + (INR n + 1)) with (a + INR n + 1) by ring. exact Hl'. }
  assert (G : Rbar_le (Finite 1) (Finite l)).
  { apply (is_lim_seq_le (fun n => P (a + INR n) b r 0) (fun _ => l)); [|apply P0_lim, Ha | apply is_lim_seq_const].
    intros n. pose proof (pos_INR n). rewrite <- (sum_O (P (a + INR n) b r)). apply is_series_pos_le; [intros k; apply Rlt_le, Ppos; lra | apply A]. }
  simpl in G. replace 1 with l by lra. exact Hl.
Qed.
End Bnb.
