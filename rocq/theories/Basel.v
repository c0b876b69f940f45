(** The sum of 1/k^2 is PI^2/6 (Matsuoka's proof with the integrals of cos^2n and x^2 cos^2n); used by C100. *)
From Coq Require Import Reals Lra Lia Psatz.
From Coquelicot Require Import Coquelicot.
Local Open Scope R_scope.

Definition ci (n : nat) (x : R) : R := cos x ^ (2 * n).
Definition cj (n : nat) (x : R) : R := x ^ 2 * cos x ^ (2 * n).
Definition I_ (n : nat) : R := RInt (ci n) 0 (PI / 2).
Definition J_ (n : nat) : R := RInt (cj n) 0 (PI / 2).
Lemma ci_c n x : continuous (ci n) x.
Proof. apply (ex_derive_continuous (ci n)). unfold ci. auto_derive. exact I. Qed.
Lemma cj_c n x : continuous (cj n) x.
Proof. apply (ex_derive_continuous (cj n)). unfold cj. auto_derive. exact I. Qed.
Lemma ci_i n a b : ex_RInt (ci n) a b.
Proof. apply (@ex_RInt_continuous R_CompleteNormedModule). intros; apply ci_c. Qed.
Lemma cj_i n a b : ex_RInt (cj n) a b.
Proof. apply (@ex_RInt_continuous R_CompleteNormedModule). intros; apply cj_c. Qed.
Lemma pi2 : 0 < PI / 2. Proof. pose proof PI_RGT_0. lra. Qed.
Lemma sc2 x : sin x ^ 2 = 1 - cos x ^ 2.
Proof. pose proof (sin2_cos2 x) as H. unfold Rsqr in H. lra. Qed.

(** linear combinations *)
Lemma lin3 (f g h : R -> R) a b c : ex_RInt f 0 (PI / 2) -> ex_RInt g 0 (PI / 2) -> ex_RInt h 0 (PI / 2) ->
  RInt (fun x => a * f x + b * g x + c * h x) 0 (PI / 2) = a * RInt f 0 (PI / 2) + b * RInt g 0 (PI / 2) + c * RInt h 0 (PI / 2).
Proof.
  intros Hf Hg Hh. apply is_RInt_unique.
  apply (is_RInt_plus (fun x => a * f x + b * g x) (fun x => c * h x)).
  - apply (is_RInt_plus (fun x => a * f x) (fun x => b * g x)).
    + apply (is_RInt_scal f); apply (@RInt_correct R_CompleteNormedModule f); exact Hf.
    + apply (is_RInt_scal g); apply (@RInt_correct R_CompleteNormedModule g); exact Hg.
  - apply (is_RInt_scal h); apply (@RInt_correct R_CompleteNormedModule h); exact Hh.
Qed.
(** integral of a derivative *)
Lemma ftc (F f : R -> R) : (forall x, is_derive F x (f x)) -> (forall x, continuous f x) -> RInt f 0 (PI / 2) = F (PI / 2) - F 0.
Proof. intros D C. apply is_RInt_unique. apply (is_RInt_derive F f); intros x _; [apply D | apply C]. Qed.

Lemma I_step n : 2 * INR (S n) * I_ (S n) = (2 * INR (S n) - 1) * I_ n.
Proof.
  assert (E : RInt (fun x => 2 * INR (S n) * ci (S n) x + - (2 * INR (S n) - 1) * ci n x + 0 * ci n x) 0 (PI / 2) = 0).
  { rewrite (ftc (fun x => sin x * cos x ^ (2 * n + 1))).
    - rewrite cos_PI2, sin_0, pow_add. simpl. ring.
    - intros x. unfold ci. replace (2 * S n)%nat with (S (S (2 * n)))%nat by lia. replace (2 * n + 1)%nat with (S (2 * n)) by lia.
      assert (Hm : INR (2 * n) = 2 * INR n) by (rewrite mult_INR; simpl; ring). generalize dependent (2 * n)%nat. intros m Hm.
      auto_derive; [exact I|]. match goal with |- context [match m with O => 1 | S _ => INR m + 1 end] => change (match m with O => 1 | S _ => INR m + 1 end) with (INR (S m)) end.
      rewrite !S_INR, Hm. generalize (sc2 x). cbn [Nat.pred pow]. intros H.
      assert (HH : sin x * sin x = 1 - cos x * cos x) by (simpl in H; lra).
      set (c := cos x) in *. set (s := sin x) in *. set (e := c ^ m). set (k := INR n).
      replace (s * (1 * - s * ((2 * k + 1) * e))) with (- ((2 * k + 1) * e * (s * s))) by ring. rewrite HH. ring.
    - intros x. apply (ex_derive_continuous (fun x => 2 * INR (S n) * ci (S n) x + - (2 * INR (S n) - 1) * ci n x + 0 * ci n x)). unfold ci. auto_derive. exact I. }
  pose proof (lin3 (ci (S n)) (ci n) (ci n) (2 * INR (S n)) (- (2 * INR (S n) - 1)) 0 (ci_i _ _ _) (ci_i _ _ _) (ci_i _ _ _)) as L.
  apply (eq_trans (eq_sym L)) in E. fold (I_ (S n)) (I_ n) in E. lra.
Qed.
Lemma J_step n : I_ (S n) = INR (S n) * (2 * INR (S n) - 1) * J_ n - 2 * INR (S n) ^ 2 * J_ (S n).
Proof.
  assert (E : RInt (fun x => 1 * ci (S n) x + 2 * INR (S n) ^ 2 * cj (S n) x + - (INR (S n) * (2 * INR (S n) - 1)) * cj n x) 0 (PI / 2) = 0).
  { rewrite (ftc (fun x => x * cos x ^ (2 * n + 2) + INR (S n) * x ^ 2 * sin x * cos x ^ (2 * n + 1))).
    - rewrite cos_PI2, sin_0, !pow_add. simpl. ring.
    - intros x. unfold ci, cj. replace (2 * S n)%nat with (S (S (2 * n)))%nat by lia. replace (2 * n + 1)%nat with (S (2 * n)) by lia. replace (2 * n + 2)%nat with (S (S (2 * n))) by lia.
      assert (Hm : INR (2 * n) = 2 * INR n) by (rewrite mult_INR; simpl; ring). generalize dependent (2 * n)%nat. intros m Hm.
      generalize (S_INR n). generalize (INR (S n)). intros N HN.
      auto_derive; [exact I|]. 
      repeat match goal with |- context [match m with O => 1 | S _ => INR m + 1 end] => change (match m with O => 1 | S _ => INR m + 1 end) with (INR (S m)) end.
      rewrite ?S_INR, ?Hm, ?HN. generalize (sc2 x). cbn [Nat.pred pow]. intros H.
      assert (HH : sin x * sin x = 1 - cos x * cos x) by (simpl in H; lra).
      set (c := cos x) in *. set (s := sin x) in *. set (e := c ^ m). set (k := INR n).
      match goal with |- ?l = ?r => ring_simplify l; ring_simplify r end.
      replace (s ^ 2) with (1 - c ^ 2) by (simpl; lra). ring.
    - intros x. apply (ex_derive_continuous (fun x => 1 * ci (S n) x + 2 * INR (S n) ^ 2 * cj (S n) x + - (INR (S n) * (2 * INR (S n) - 1)) * cj n x)). unfold ci, cj. auto_derive. exact I. }
  pose proof (lin3 (ci (S n)) (cj (S n)) (cj n) 1 (2 * INR (S n) ^ 2) (- (INR (S n) * (2 * INR (S n) - 1))) (ci_i _ _ _) (cj_i _ _ _) (cj_i _ _ _)) as L.
  apply (eq_trans (eq_sym L)) in E. fold (I_ (S n)) (J_ (S n)) (J_ n) in E. lra.
Qed.
Lemma I_0 : I_ 0 = PI / 2.
Proof. unfold I_. rewrite (ftc (fun x => x)); [ring| |apply ci_c]. intros x. unfold ci. simpl. auto_derive; [exact I | ring]. Qed.
Lemma J_0 : J_ 0 = PI ^ 3 / 24.
Proof.
  unfold J_. rewrite (ftc (fun x => x ^ 3 / 3)); [field| |apply cj_c]. intros x. unfold cj. auto_derive; [exact I|]. simpl. field.
Qed.
Lemma I_pos n : 0 < I_ n.
Proof.
  induction n; [rewrite I_0; apply pi2|]. pose proof (I_step n) as H. rewrite S_INR in H. pose proof (pos_INR n).
  assert (0 < (2 * (INR n + 1) - 1) * I_ n) by (apply Rmult_lt_0_compat; lra). nra.
Qed.
Lemma x_cos x : 0 <= x <= PI / 2 -> 0 <= x * cos x <= sin x.
Proof.
  intros Hx. assert (Hc : 0 <= cos x) by (apply cos_ge_0; pose proof pi2; lra). split; [apply Rmult_le_pos; lra|].
  destruct (Req_dec x 0) as [->|N]; [rewrite sin_0; lra|].
  assert (K : exists c, 0 <= c <= x /\ (sin x - x * cos x) - (sin 0 - 0 * cos 0) = (c * sin c) * (x - 0)).
  { destruct (MVT_gen (fun x => sin x - x * cos x) 0 x (fun x => x * sin x)) as (c & Hc1 & Hc2).
    - intros y _. auto_derive; [exact I | ring].
    - intros y _. apply continuity_pt_filterlim. apply (ex_derive_continuous (fun x => sin x - x * cos x)). auto_derive. exact I.
    - rewrite Rmin_left, Rmax_right in Hc1 by lra. exists c. split; [lra|exact Hc2]. }
  destruct K as (c & Hc1 & Hc2). rewrite sin_0 in Hc2.
  assert (0 <= sin c) by (apply sin_ge_0; pose proof pi2; lra). assert (0 <= c * sin c * x) by (apply Rmult_le_pos; [apply Rmult_le_pos|]; lra). lra.
Qed.
Lemma J_bound n : 0 <= J_ (S n) <= I_ n - I_ (S n).
Proof.
  split.
  - apply RInt_ge_0; [pose proof pi2; lra | apply cj_i |]. intros x _. unfold cj. rewrite pow_mult. apply Rmult_le_pos; [apply pow2_ge_0 | apply pow_le, pow2_ge_0].
  - assert (E : I_ n - I_ (S n) = RInt (fun x => 1 * ci n x + - 1 * ci (S n) x + 0 * ci n x) 0 (PI / 2)).
    { rewrite (lin3 (ci n) (ci (S n)) (ci n) 1 (-1) 0 (ci_i _ _ _) (ci_i _ _ _) (ci_i _ _ _)). unfold I_. ring. }
    rewrite E. apply RInt_le; [pose proof pi2; lra | apply cj_i | |].
    + apply (@ex_RInt_continuous R_CompleteNormedModule). intros x _. apply (ex_derive_continuous (fun x => 1 * ci n x + - 1 * ci (S n) x + 0 * ci n x)). unfold ci. auto_derive. exact I.
    + intros x Hx. unfold ci, cj. replace (2 * S n)%nat with (2 + 2 * n)%nat by lia. rewrite pow_add.
      set (e := cos x ^ (2 * n)). assert (He : 0 <= e) by (unfold e; rewrite pow_mult; apply pow_le, pow2_ge_0).
      destruct (x_cos x) as [H1 H2]; [lra|].
      assert (H3 : (x * cos x) ^ 2 <= sin x ^ 2) by (apply pow_incr; lra). rewrite sc2, Rpow_mult_distr in H3. nra.
Qed.
Lemma basel_partial n : sum_f_R0 (fun k => / INR (S k) ^ 2) n = PI ^ 2 / 6 - 2 * (J_ (S n) / I_ (S n)).
Proof.
  assert (St : forall n, / INR (S n) ^ 2 = 2 * (J_ n / I_ n) - 2 * (J_ (S n) / I_ (S n))).
  { intros m. pose proof (I_pos m) as P0. pose proof (I_pos (S m)) as P1. pose proof (I_step m) as E1. pose proof (J_step m) as E2.
    assert (Hk : 0 < INR (S m)) by (apply lt_0_INR; lia). set (k := INR (S m)) in *.
    assert (E3 : I_ m = 2 * k * I_ (S m) / (2 * k - 1)).
    { assert (1 <= k) by (unfold k; rewrite S_INR; pose proof (pos_INR m); lra). field_simplify_eq; [|lra]. lra. }
    assert (1 <= k) by (unfold k; rewrite S_INR; pose proof (pos_INR m); lra).
    rewrite E3. replace (J_ (S m)) with ((k * (2 * k - 1) * J_ m - I_ (S m)) / (2 * k ^ 2)) by (rewrite E2; field; lra).
    field. repeat split; lra. }
  assert (Z : 2 * (J_ 0 / I_ 0) = PI ^ 2 / 6).
  { rewrite I_0, J_0. pose proof PI_RGT_0. field. lra. }
  induction n; [change (/ INR 1 ^ 2 = PI ^ 2 / 6 - 2 * (J_ 1 / I_ 1)); rewrite St, Z; reflexivity|]. rewrite tech5, IHn, St. ring.
Qed.
Theorem basel : is_lim_seq (fun n => sum_f_R0 (fun k => / INR (S k) ^ 2) n) (PI ^ 2 / 6).
Proof.
  apply is_lim_seq_ext with (fun n => PI ^ 2 / 6 - 2 * (J_ (S n) / I_ (S n))); [intros; symmetry; apply basel_partial|].
  replace (Finite (PI ^ 2 / 6)) with (Finite (PI ^ 2 / 6 - 2 * 0)) by (f_equal; ring).
  apply is_lim_seq_minus'; [apply is_lim_seq_const|]. apply is_lim_seq_mult'; [apply is_lim_seq_const|].
  apply is_lim_seq_le_le with (fun _ => 0) (fun n => / (INR n + 1)).
  - intros n. pose proof (I_pos (S n)). destruct (J_bound n) as [B1 B2]. split; [apply Rdiv_le_0_compat; lra|].
    apply Rle_div_l; [lra|]. pose proof (I_step n) as E. rewrite S_INR in E. pose proof (pos_INR n).
    apply Rle_trans with (1 := B2). assert (E3 : I_ n = 2 * (INR n + 1) * I_ (S n) / (2 * (INR n + 1) - 1)) by (field_simplify_eq; lra).
    rewrite E3. apply Rle_trans with (I_ (S n) / (2 * INR n + 1)); [right; field; lra|]. unfold Rdiv. rewrite Rmult_comm. apply Rmult_le_compat_r; [lra|].
    apply Rinv_le_contravar; lra.
  - apply is_lim_seq_const.
  - replace (Finite 0) with (Rbar_inv p_infty) by reflexivity. apply is_lim_seq_inv; [|discriminate].
    apply is_lim_seq_ext with (fun n => INR (S n)); [intros; apply S_INR|]. apply (is_lim_seq_incr_1 INR). apply is_lim_seq_INR.
Qed.
