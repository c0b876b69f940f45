(** C57: the pivoted Cholesky factorization of utils/pivoted_cholesky.py. *)
From Coq Require Import Reals Lra Lia Permutation.
From Verif Require Import Common Cg_Model Cg_Props Pchol_Model.
Open Scope nat_scope.

(** ** Specification *)
Definition quad (n : nat) (S : nat -> nat -> R) (x : vec) : R := sumn n (fun i => x i * sumn n (fun j => S i j * x j))%R.
Definition psd (n : nat) (S : nat -> nat -> R) : Prop :=
  (forall i j, i < n -> j < n -> S i j = S j i) /\ forall x, (0 <= quad n S x)%R.
(** what is left of A after k rows of L *)
Definition resid (A L : nat -> nat -> R) (k : nat) (i j : nat) : R := (A i j - sumn k (fun r => L r i * L r j))%R.
Definition trace (n : nat) (S : nat -> nat -> R) : R := sumn n (fun i => S i i).

(** ** Positive semidefinite matrices *)
Definition e_ (p : nat) : vec := fun i => if i =? p then 1%R else 0%R.
Lemma sumn_delta n p f : p < n -> sumn n (fun i => e_ p i * f i)%R = f p.
Proof.
  intros H. induction n; [lia|]. simpl. unfold e_ at 2. destruct (Nat.eqb_spec n p).
  - subst. rewrite (sumn_ext p _ (fun _ => 0%R)).
    + rewrite sumn_zero. lra.
    + intros i Hi. unfold e_. destruct (Nat.eqb_spec i p); [lia|lra].
  - rewrite IHn by lia. lra.
Qed.
Definition mk (n : nat) (S : nat -> nat -> R) : arr := Arr false n n S.
Lemma quad_dot n S x : quad n S x = dot n x (mv n (mk n S) x).
Proof. reflexivity. Qed.
Lemma quad_shift n S x p t : p < n -> (forall i j, i < n -> j < n -> S i j = S j i) ->
  quad n S (fun i => x i + t * e_ p i)%R = (quad n S x + 2 * t * sumn n (fun j => S p j * x j) + t * t * S p p)%R.
Proof.
  intros Hp HS. rewrite !quad_dot.
  rewrite (dot_ext n _ (fun i => x i + t * e_ p i)%R _ (fun i => mv n (mk n S) x i + t * mv n (mk n S) (e_ p) i)%R)
    by (intros; auto; rewrite mv_plus; auto).
  rewrite dot_plus_l, !dot_plus_r. rewrite (dot_mv_sym n (mk n S) x (e_ p)) by exact HS.
  unfold dot at 2 3 4. rewrite !sumn_delta by auto. unfold mv at 2 3 4. simpl elt.
  rewrite (sumn_ext n (fun j => S p j * e_ p j)%R (fun j => e_ p j * S p j)%R) by (intros; lra).
  rewrite sumn_delta by auto. lra.
Qed.
Lemma psd_diag n S p : psd n S -> p < n -> (0 <= S p p)%R.
Proof.
  intros (H1&H2) Hp. specialize (H2 (fun i => 0 + 1 * e_ p i)%R). rewrite quad_shift in H2 by auto.
  unfold quad in H2. rewrite (sumn_ext n (fun i => 0 * _)%R (fun _ => 0%R)) in H2 by (intros; lra). rewrite sumn_zero in H2.
  rewrite (sumn_ext n (fun j => S p j * 0)%R (fun _ => 0%R)) in H2 by (intros; lra). rewrite sumn_zero in H2. lra.
Qed.
Lemma psd_ext n S S' : (forall i j, i < n -> j < n -> S i j = S' i j) -> psd n S -> psd n S'.
Proof.
  intros H (H1&H2). split.
  - intros. rewrite <- !H by auto. auto.
  - intros x. replace (quad n S' x) with (quad n S x); auto.
    apply sumn_ext. intros. f_equal. apply sumn_ext. intros. rewrite H; auto.
Qed.
(** one elimination step *)
Lemma psd_eliminate n S p : psd n S -> p < n -> (0 < S p p)%R -> psd n (fun i j => S i j - S p i * S p j / S p p)%R.
Proof.
  intros HS Hp Hv. pose proof HS as (H1&H2). split.
  - intros i j Hi Hj. rewrite (H1 i j) by auto. field. lra.
  - intros x. set (s := sumn n (fun j => S p j * x j)%R).
    replace (quad n (fun i j => S i j - S p i * S p j / S p p)%R x) with (quad n S (fun i => x i + (- (s / S p p)) * e_ p i)%R); auto.
    rewrite quad_shift by auto. fold s.
    assert (E : quad n (fun i j => S i j - S p i * S p j / S p p)%R x = (quad n S x - s * s / S p p)%R).
    { unfold quad. unfold s at 1.
      rewrite (sumn_ext n _ (fun i => x i * sumn n (fun j => S i j * x j) - s / S p p * (S p i * x i))%R).
      - rewrite sumn_minus, sumn_scal. fold s. field. lra.
      - intros i Hi. rewrite (sumn_ext n _ (fun j => S i j * x j - S p i / S p p * (S p j * x j))%R) by (intros; field; lra).
        rewrite sumn_minus, sumn_scal. fold s. field. lra. }
    rewrite E. field. lra.
Qed.

(** ** Pivot bookkeeping *)
Lemma swap_length l a b : length (swap l a b) = length l.
Proof. unfold swap. rewrite map_length, seq_length. auto. Qed.
Lemma swap_nth l a b k : k < length l -> nth k (swap l a b) 0 = nth (if k =? a then b else if k =? b then a else k) l 0.
Proof.
  intros H. unfold swap. set (f := fun k => nth (if k =? a then b else if k =? b then a else k) l 0).
  rewrite (nth_indep _ 0 (f 0)) by (rewrite map_length, seq_length; auto). rewrite map_nth, seq_nth by auto. reflexivity.
Qed.
Lemma map_nth_seq (l : list nat) : map (fun k => nth k l 0) (seq 0 (length l)) = l.
Proof.
  apply nth_ext with 0 0.
  - rewrite map_length, seq_length. auto.
  - intros k Hk. rewrite map_length, seq_length in Hk.
    set (f := fun k => nth k l 0). rewrite (nth_indep _ 0 (f 0)) by (rewrite map_length, seq_length; auto).
    rewrite map_nth, seq_nth by auto. auto.
Qed.
Lemma swap_perm l a b : a < length l -> b < length l -> Permutation (swap l a b) l.
Proof.
  intros Ha Hb. rewrite <- (map_nth_seq l) at 2. unfold swap.
  rewrite <- (map_map (fun k => if k =? a then b else if k =? b then a else k) (fun k => nth k l 0)).
  apply Permutation_map. apply NoDup_Permutation_bis.
  - apply FinFun.Injective_map_NoDup; [|apply seq_NoDup]. intros x y.
    repeat match goal with |- context [?u =? ?v] => destruct (Nat.eqb_spec u v) end; lia.
  - rewrite map_length. auto.
  - intros x Hx. apply in_map_iff in Hx as (y&E&Hy). apply in_seq in Hy. apply in_seq.
    destruct (Nat.eqb_spec y a), (Nat.eqb_spec y b); lia.
Qed.
Lemma argmax_from_spec l : forall best bv pos all, pos <= length all -> skipn pos all = l -> best < pos -> nth best all 0%R = bv ->
  (forall k, k < pos -> (nth k all 0 <= bv)%R) ->
  argmax_from best bv pos l < length all /\ forall k, k < length all -> (nth k all 0 <= nth (argmax_from best bv pos l) all 0)%R.
Proof.
  induction l as [|x r IH]; intros best bv pos all Hp E Hb Hv HM; simpl.
  - assert (length all = pos). { pose proof (skipn_length pos all). rewrite E in H. simpl in H. lia. }
    subst bv. split; [lia|]. intros k Hk. apply HM. lia.
  - assert (Hlt : pos < length all).
    { pose proof (skipn_length pos all). rewrite E in H. simpl in H. lia. }
    assert (Hx : nth pos all 0%R = x).
    { rewrite <- (firstn_skipn pos all), E, app_nth2; rewrite firstn_length, Nat.min_l by lia; [|lia]. rewrite Nat.sub_diag. auto. }
    assert (Er : skipn (S pos) all = r).
    { clear -E. revert all E. induction pos; intros all E; destruct all; simpl in *; try discriminate; [inversion E; auto|]. apply IHpos. auto. }
    unfold ltb. destruct (Rlt_dec bv x).
    + apply IH; auto; try lia. intros k Hk. destruct (Nat.eq_dec k pos); [subst k; lra|].
      specialize (HM k ltac:(lia)). lra.
    + apply IH; auto; try lia. intros k Hk. destruct (Nat.eq_dec k pos); [subst k; lra|]. apply HM. lia.
Qed.
Lemma argmax_spec l : l <> [] -> argmax l < length l /\ forall k, k < length l -> (nth k l 0 <= nth (argmax l) l 0)%R.
Proof.
  destruct l as [|x r]; [congruence|]. intros _. unfold argmax. apply argmax_from_spec; simpl; auto; try lia.
  intros k Hk. assert (k = 0) by lia. subst. simpl. lra.
Qed.
Lemma norm1_nonneg d l : (0 <= norm1 d l)%R.
Proof. unfold norm1. induction l; simpl; [lra|]. pose proof (Rabs_pos (d a)). lra. Qed.
Lemma norm1_pos d l : (forall j, In j l -> (d j <= 0)%R) -> (forall j, In j l -> (0 <= d j)%R) -> norm1 d l = 0%R.
Proof.
  unfold norm1. intros H1 H2. induction l; simpl; auto. rewrite IHl; try (intros; first [apply H1|apply H2]; simpl; auto).
  assert (d a = 0%R). { specialize (H1 a). specialize (H2 a). simpl in *. pose proof (H1 (or_introl eq_refl)). pose proof (H2 (or_introl eq_refl)). lra. }
  rewrite H, Rabs_R0. lra.
Qed.
Lemma mem_in j l : mem j l = true <-> In j l.
Proof.
  unfold mem. rewrite existsb_exists. split.
  - intros (x&H&E). apply Nat.eqb_eq in E. subst. auto.
  - intros H. exists j. split; auto. apply Nat.eqb_refl.
Qed.
Lemma in_skipn_nth (l : list nat) k j : In j (skipn k l) <-> exists q, k <= q < length l /\ nth q l 0 = j.
Proof.
  split.
  - intros H. apply (In_nth _ _ 0) in H as (i&Hi&E). rewrite skipn_length in Hi. exists (k + i). split; [lia|].
    rewrite <- E. rewrite <- (firstn_skipn k l) at 1. rewrite app_nth2; rewrite firstn_length, Nat.min_l by lia; [|lia].
    f_equal. lia.
  - intros (q&Hq&E). rewrite <- (firstn_skipn k l) in E. rewrite app_nth2 in E; rewrite firstn_length, Nat.min_l in * by lia; [|lia].
    rewrite <- E. apply nth_In. rewrite skipn_length. lia.
Qed.

(** ** The invariant *)
Definition maxdiag (n : nat) (A : nat -> nat -> R) : R := maxl (map (fun i => A i i) (seq 0 n)).
Record inv (n : nat) (A : nat -> nat -> R) (s : state) : Prop := {
  i_perm : Permutation (pi s) (seq 0 n);
  i_m : m s <= n;
  i_psd : psd n (resid A (L s) (m s));
  i_done : forall k j, k < m s -> j < n -> resid A (L s) (m s) (nth k (pi s) 0) j = 0%R;
  i_d : forall k, m s <= k < n -> d s (nth k (pi s) 0) = resid A (L s) (m s) (nth k (pi s) 0) (nth k (pi s) 0);
  i_zero : forall k c, m s <= k -> L s k c = 0%R;
  i_tri : forall k j, j < k < m s -> L s k (nth j (pi s) 0) = 0%R;
  i_pos : forall k, k < m s -> (0 < L s k (nth k (pi s) 0%nat))%R;
  i_greedy : forall k c, k < m s -> c < n -> (resid A (L s) k c c <= L s k (nth k (pi s) 0%nat) ^ 2)%R;
  i_err : m s < n -> error s = (norm1 (d s) (skipn (m s) (pi s)) / maxdiag n A)%R }.

Section Step.
Variable (n : nat) (A : nat -> nat -> R) (s : state).
Hypothesis (I : inv n A s) (Hm : m s < n) (Hmax : (0 <= maxdiag n A)%R) (Herr : (0 < error s)%R).
Let permuted_d := map (d s) (pi s).
Let i := argmax (skipn (m s) permuted_d) + m s.
Let pi' := swap (pi s) (m s) i.
Let p := nth (m s) pi' 0.
Let v := nth i permuted_d 0%R.
Let S0 := resid A (L s) (m s).

Lemma len_pi : length (pi s) = n.
Proof. rewrite (Permutation_length (i_perm _ _ _ I)). apply seq_length. Qed.
Lemma pi_lt k : k < n -> nth k (pi s) 0 < n.
Proof.
  intros. assert (In (nth k (pi s) 0) (seq 0 n)). { eapply Permutation_in; [apply (i_perm _ _ _ I)|]. apply nth_In. rewrite len_pi. auto. }
  apply in_seq in H0. lia.
Qed.
Lemma pi_inj a b : a < n -> b < n -> nth a (pi s) 0 = nth b (pi s) 0 -> a = b.
Proof.
  intros Ha Hb. apply NoDup_nth; try (rewrite len_pi; auto).
  eapply Permutation_NoDup; [symmetry; apply (i_perm _ _ _ I)|]. apply seq_NoDup.
Qed.
Lemma pi_surj c : c < n -> exists k, k < n /\ nth k (pi s) 0 = c.
Proof.
  intros Hc. assert (In c (pi s)). { eapply Permutation_in; [symmetry; apply (i_perm _ _ _ I)|]. apply in_seq. lia. }
  apply (In_nth _ _ 0) in H as (k&Hk&E). rewrite len_pi in Hk. eauto.
Qed.
Lemma nth_pd k : k < n -> nth k permuted_d 0%R = d s (nth k (pi s) 0).
Proof.
  intros. unfold permuted_d. rewrite (nth_indep _ 0%R (d s 0)) by (rewrite map_length, len_pi; auto). apply map_nth.
Qed.
Lemma i_spec : m s <= i < n /\ forall k, m s <= k < n -> (d s (nth k (pi s) 0%nat) <= v)%R.
Proof.
  assert (HL : length (skipn (m s) permuted_d) = n - m s). { rewrite skipn_length. unfold permuted_d. rewrite map_length, len_pi. auto. }
  destruct (argmax_spec (skipn (m s) permuted_d)) as (H1&H2). { intros E. rewrite E in HL. simpl in HL. lia. }
  rewrite HL in *. assert (i < n) by (unfold i; lia). split; [unfold i in *; lia|]. intros k Hk. unfold v.
  specialize (H2 (k - m s) ltac:(lia)).
  assert (Q : forall q, q < n - m s -> nth q (skipn (m s) permuted_d) 0%R = nth (q + m s) permuted_d 0%R).
  { intros q Hq. rewrite <- (firstn_skipn (m s) permuted_d) at 2.
    assert (LF : length (firstn (m s) permuted_d) = m s) by (rewrite firstn_length; unfold permuted_d; rewrite map_length, len_pi; lia).
    rewrite app_nth2; rewrite LF; [|lia]. f_equal. lia. }
  rewrite !Q in H2 by lia. fold i in H2. replace (k - m s + m s) with k in H2 by lia. rewrite nth_pd in H2 by lia. auto.
Qed.
Lemma v_eq : v = S0 p p.
Proof.
  destruct i_spec as (Hi&_). unfold v. rewrite nth_pd by lia. unfold p, pi'. rewrite swap_nth by (rewrite len_pi; lia).
  rewrite Nat.eqb_refl. apply (i_d _ _ _ I). lia.
Qed.
Lemma p_lt : p < n.
Proof. destruct i_spec as (Hi&_). unfold p, pi'. rewrite swap_nth by (rewrite len_pi; lia). rewrite Nat.eqb_refl. apply pi_lt. lia. Qed.
Lemma v_pos : (0 < v)%R.
Proof.
  rewrite v_eq. pose proof (psd_diag n S0 p (i_psd _ _ _ I) p_lt) as H. destruct H as [H|H]; auto. exfalso.
  rewrite (i_err _ _ _ I Hm) in Herr. rewrite norm1_pos in Herr.
  - unfold Rdiv in Herr. lra.
  - intros j Hj. apply in_skipn_nth in Hj as (q&Hq&E). rewrite len_pi in Hq. destruct i_spec as (_&H2).
    specialize (H2 q Hq). rewrite E in H2. rewrite v_eq, <- H in H2. auto.
  - intros j Hj. apply in_skipn_nth in Hj as (q&Hq&E). rewrite len_pi in Hq. subst j. rewrite (i_d _ _ _ I q Hq).
    apply (psd_diag n _ _ (i_psd _ _ _ I)). apply pi_lt. lia.
Qed.
Lemma pi'_nth k : k < n -> nth k pi' 0 = nth (if k =? m s then i else if k =? i then m s else k) (pi s) 0.
Proof. intros. apply swap_nth. rewrite len_pi. auto. Qed.
Lemma perm' : Permutation pi' (seq 0 n).
Proof. destruct i_spec as (Hi&_). eapply Permutation_trans; [apply swap_perm; rewrite len_pi; lia|apply (i_perm _ _ _ I)]. Qed.
Lemma pi'_old k : k < m s -> nth k pi' 0 = nth k (pi s) 0.
Proof.
  intros. destruct i_spec as (Hi&_). rewrite pi'_nth by lia. destruct (Nat.eqb_spec k (m s)); [lia|]. destruct (Nat.eqb_spec k i); [lia|]. auto.
Qed.
Lemma pi'_new k : m s <= k < n -> exists q, m s <= q < n /\ nth k pi' 0 = nth q (pi s) 0.
Proof.
  intros. destruct i_spec as (Hi&_). rewrite pi'_nth by lia. eexists. split; [|reflexivity].
  destruct (Nat.eqb_spec k (m s)); [lia|]. destruct (Nat.eqb_spec k i); lia.
Qed.
Lemma pi'_inj a b : a < n -> b < n -> nth a pi' 0 = nth b pi' 0 -> a = b.
Proof.
  assert (length pi' = n) by (rewrite (Permutation_length perm'); apply seq_length).
  intros Ha Hb. apply NoDup_nth; try lia. eapply Permutation_NoDup; [symmetry; apply perm'|]. apply seq_NoDup.
Qed.
Lemma len_pi' : length pi' = n.
Proof. rewrite (Permutation_length perm'). apply seq_length. Qed.
Lemma pi'_surj c : c < n -> exists k, k < n /\ nth k pi' 0 = c.
Proof.
  intros Hc. assert (In c pi'). { eapply Permutation_in; [symmetry; apply perm'|]. apply in_seq. lia. }
  apply (In_nth _ _ 0) in H as (k&Hk&E). rewrite len_pi' in Hk. eauto.
Qed.
Lemma pi'_lt k : k < n -> nth k pi' 0 < n.
Proof.
  intros. assert (In (nth k pi' 0) (seq 0 n)). { eapply Permutation_in; [apply perm'|]. apply nth_In. rewrite len_pi'. auto. }
  apply in_seq in H0. lia.
Qed.

Let s' := step n A (maxdiag n A) s.
Lemma s'_m : m s' = m s + 1.
Proof. unfold s', step. destruct (_ <? _); auto. Qed.
Lemma s'_pi : pi s' = pi'.
Proof. unfold s', step. destruct (_ <? _); auto. Qed.
Lemma s'_L_old k c : k <> m s -> L s' k c = L s k c.
Proof.
  intros. unfold s', step. cbv zeta. destruct (_ <? n); cbn [L]; destruct (Nat.eqb_spec k (m s)); try congruence; simpl; auto.
Qed.
(** the new row is the pivot row of the residual divided by the square root of its diagonal entry *)
Lemma s'_L_row c : c < n -> L s' (m s) c = (S0 p c / sqrt v)%R.
Proof.
  intros Hc. pose proof v_pos as Hv. pose proof (sqrt_lt_R0 v Hv) as Hq. pose proof (sqrt_sqrt v (Rlt_le _ _ Hv)) as Hqq.
  destruct (pi'_surj c Hc) as (k&Hk&Ek).
  assert (Epv : (S0 p p / sqrt v = sqrt v)%R) by (rewrite <- v_eq, <- Hqq at 1; field; lra).
  assert (Edone : k < m s -> c <> p /\ S0 p c = 0%R /\ L s (m s) c = 0%R /\ mem c (skipn (m s + 1) pi') = false).
  { intros Hkm. split; [|split; [|split]].
    - intros E. subst c. assert (k = m s); [|lia]. apply pi'_inj; auto.
    - destruct (i_psd _ _ _ I) as (Sym&_). unfold S0. rewrite Sym by (auto using p_lt). rewrite <- Ek, pi'_old by auto.
      apply (i_done _ _ _ I); auto using p_lt.
    - apply (i_zero _ _ _ I). lia.
    - destruct (mem c _) eqn:EM; auto. apply mem_in, in_skipn_nth in EM as (q&Hq'&Eq). rewrite len_pi' in Hq'.
      assert (k = q); [|lia]. apply pi'_inj; lia. }
  assert (Enew : m s < k -> c <> p /\ mem c (skipn (m s + 1) pi') = true).
  { intros Hkm. split; [intros E; subst c; assert (k = m s); [|lia]; apply pi'_inj; auto|].
    apply mem_in, in_skipn_nth. exists k. rewrite len_pi'. split; [lia|auto]. }
  unfold s', step. cbv zeta. fold permuted_d. fold i. fold pi'. fold p. fold v.
  destruct (Nat.ltb_spec (m s + 1) n); cbn [L]; rewrite !Nat.eqb_refl; cbn [andb].
  - destruct (Nat.lt_total k (m s)) as [Hkm|[Hkm|Hkm]].
    + destruct (Edone Hkm) as (E1&E2&E3&->). destruct (Nat.eqb_spec c p); [congruence|]. rewrite E2, E3. unfold Rdiv. ring.
    + assert (Ecp : c = p) by (rewrite <- Ek, Hkm; auto). clear Ek Edone Enew. subst c.
      replace (mem p (skipn (m s + 1) pi')) with false.
      * rewrite Nat.eqb_refl. auto.
      * symmetry. destruct (mem p _) eqn:EM; auto. apply mem_in, in_skipn_nth in EM as (q&Hq'&Eq). rewrite len_pi' in Hq'.
        assert (m s = q); [|lia]. apply pi'_inj; lia.
    + destruct (Enew Hkm) as (E1&->).
      f_equal. unfold S0, resid.
      destruct (Nat.ltb_spec 0 (m s)).
      * f_equal. apply sumn_ext. intros r Hr. destruct (Nat.eqb_spec r (m s)); [lia|]. auto.
      * replace (m s) with 0 by lia. simpl. lra.
  - destruct (Nat.eqb_spec c p) as [Ecp|Ecp]; [rewrite Ecp; auto|].
    assert (Hkm : k < m s). { destruct (Nat.lt_total k (m s)) as [HH|[HH|HH]]; [auto| |lia]. exfalso. apply Ecp. rewrite <- Ek, HH. reflexivity. }
    destruct (Edone Hkm) as (_&E2&E3&_). rewrite E2, E3. unfold Rdiv. ring.
Qed.
Lemma s'_resid a b : a < n -> b < n -> resid A (L s') (m s') a b = (S0 a b - S0 p a * S0 p b / S0 p p)%R.
Proof.
  intros Ha Hb. unfold resid at 1. rewrite s'_m, Nat.add_1_r. simpl.
  rewrite (sumn_ext (m s) _ (fun r => L s r a * L s r b)%R) by (intros; rewrite !s'_L_old by lia; auto).
  rewrite !s'_L_row by auto. pose proof v_pos as Hv. pose proof (sqrt_lt_R0 v Hv) as Hq. pose proof (sqrt_sqrt v (Rlt_le _ _ Hv)) as Hqq.
  replace (S0 p a / sqrt v * (S0 p b / sqrt v))%R with (S0 p a * S0 p b / S0 p p)%R.
  - change (S0 a b) with (A a b - sumn (m s) (fun r => L s r a * L s r b))%R. lra.
  - rewrite <- v_eq. rewrite <- Hqq at 1. field. lra.
Qed.
Lemma resid_old k c : k <= m s -> resid A (L s') k c c = resid A (L s) k c c.
Proof. intros. unfold resid. f_equal. apply sumn_ext. intros r Hr. rewrite !s'_L_old by lia. auto. Qed.

Lemma step_inv : inv n A s'.
Proof.
  pose proof v_pos as Hv. pose proof (sqrt_lt_R0 v Hv) as Hq. pose proof (sqrt_sqrt v (Rlt_le _ _ Hv)) as Hqq.
  pose proof v_eq as Ev.
  assert (Epp : L s' (m s) p = sqrt v).
  { rewrite s'_L_row by apply p_lt. rewrite <- Ev. rewrite <- Hqq at 1. field. lra. }
  constructor.
  - rewrite s'_pi. apply perm'.
  - rewrite s'_m. lia.
  - eapply psd_ext; [|apply (psd_eliminate n S0 p (i_psd _ _ _ I) p_lt); rewrite <- Ev; auto].
    intros. symmetry. apply s'_resid; auto.
  - intros k j Hk Hj. rewrite s'_m in Hk. rewrite s'_pi, s'_resid by (auto; apply pi'_lt; lia).
    destruct (Nat.eq_dec k (m s)) as [->|Hne].
    + fold p. field. rewrite <- Ev. lra.
    + rewrite pi'_old by lia. destruct (i_psd _ _ _ I) as (Sym&_).
      assert (S0 (nth k (pi s) 0) j = 0%R) by (apply (i_done _ _ _ I); auto; lia).
      assert (S0 p (nth k (pi s) 0) = 0%R).
      { unfold S0. rewrite Sym by (try apply p_lt; apply pi_lt; lia). apply (i_done _ _ _ I); [lia|apply p_lt]. }
      rewrite H, H0. unfold Rdiv. ring.
  - intros k Hk. rewrite s'_m in Hk. rewrite s'_pi, s'_resid by (apply pi'_lt; lia).
    set (c := nth k pi' 0).
    assert (Hc : c < n) by (apply pi'_lt; lia).
    assert (Hd : d s c = S0 c c).
    { destruct (pi'_new k ltac:(lia)) as (q&Hq'&Eq). unfold c. rewrite Eq. apply (i_d _ _ _ I). auto. }
    assert (HM : mem c (skipn (m s + 1) pi') = true).
    { apply mem_in, in_skipn_nth. exists k. rewrite len_pi'. split; [lia|auto]. }
    pose proof (s'_L_row c Hc) as HR. revert HR. unfold s', step. cbv zeta. fold permuted_d. fold i. fold pi'. fold p. fold v.
    replace (m s + 1 <? n) with true by (symmetry; apply Nat.ltb_lt; lia). cbn [d L]. rewrite HM, Nat.eqb_refl. cbn [andb].
    rewrite Nat.eqb_refl. intros ->. rewrite Hd, <- Ev. transitivity (S0 c c - S0 p c * S0 p c / (sqrt v * sqrt v))%R; [field; lra|rewrite Hqq; reflexivity].
  - intros k c Hk. rewrite s'_m in Hk. rewrite s'_L_old by lia. apply (i_zero _ _ _ I). lia.
  - intros k j Hk. rewrite s'_m in Hk. rewrite s'_pi. rewrite pi'_old by lia.
    destruct (Nat.eq_dec k (m s)) as [->|Hne].
    + rewrite s'_L_row by (apply pi_lt; lia). destruct (i_psd _ _ _ I) as (Sym&_). unfold S0.
      rewrite Sym by (try apply p_lt; apply pi_lt; lia). rewrite (i_done _ _ _ I); [unfold Rdiv; ring|lia|apply p_lt].
    + rewrite s'_L_old by lia. apply (i_tri _ _ _ I). lia.
  - intros k Hk. rewrite s'_m in Hk. rewrite s'_pi. destruct (Nat.eq_dec k (m s)) as [->|Hne].
    + fold p. rewrite Epp. auto.
    + rewrite pi'_old by lia. rewrite s'_L_old by lia. apply (i_pos _ _ _ I). lia.
  - intros k c Hk Hc. rewrite s'_m in Hk. rewrite s'_pi, resid_old by lia. destruct (Nat.eq_dec k (m s)) as [->|Hne].
    + fold p. rewrite Epp. simpl. rewrite Rmult_1_r, Hqq.
      destruct (pi_surj c Hc) as (q&Hq'&Eq). destruct (Nat.lt_ge_cases q (m s)).
      * rewrite <- Eq, (i_done _ _ _ I) by (auto; apply pi_lt; lia). lra.
      * rewrite <- Eq, <- (i_d _ _ _ I) by lia. apply i_spec. lia.
    + rewrite pi'_old, s'_L_old by lia. apply (i_greedy _ _ _ I); [lia|auto].
  - intros Hlt. rewrite s'_m in Hlt. rewrite s'_pi, s'_m. unfold s', step. cbv zeta.
    replace (m s + 1 <? n) with true by (symmetry; apply Nat.ltb_lt; lia). reflexivity.
Qed.
End Step.

Lemma maxl_ge l x : In x l -> (x <= maxl l)%R.
Proof.
  assert (G : forall r a, (a <= fold_left Rmax r a)%R /\ forall x, In x r -> (x <= fold_left Rmax r a)%R).
  { induction r; intros a0; simpl; [split; [lra|tauto]|]. destruct (IHr (Rmax a0 a)) as (H1&H2). split.
    - pose proof (Rmax_l a0 a). lra.
    - intros y [->|H]; auto. pose proof (Rmax_r a0 y). lra. }
  destruct l as [|a r]; simpl; [tauto|]. intros [->|H]; [exact (proj1 (G r x))|exact (proj2 (G r a) x H)].
Qed.
Lemma init_inv n A : 0 < n -> psd n A ->
  inv n A (State 0 (fun i => A i i) (seq 0 n) (fun _ _ => 0%R) (norm1 (fun i => A i i) (seq 0 n) / maxdiag n A)%R).
Proof.
  intros Hn HA. constructor; simpl; auto; try lia.
  - eapply psd_ext; [|exact HA]. intros. unfold resid. simpl. lra.
  - intros k Hk. unfold resid. simpl. lra.
Qed.
Lemma maxdiag_nonneg n A : 0 < n -> psd n A -> (0 <= maxdiag n A)%R.
Proof.
  intros Hn HA. apply Rle_trans with (A 0 0); [apply (psd_diag n); auto|]. apply maxl_ge.
  apply in_map_iff. exists 0. split; auto. apply in_seq. lia.
Qed.
Lemma loop_inv n A tol mi : 0 < n -> psd n A -> (0 <= tol)%R -> mi <= n -> forall fuel s, inv n A s -> m s <= mi ->
  let s' := loop n A (maxdiag n A) tol mi fuel s in
  inv n A s' /\ m s' <= mi /\ (mi <= m s + fuel -> m s' < mi -> (error s' <= tol)%R).
Proof.
  intros Hn HA Ht Hmi. induction fuel; intros s I Hm; cbn [loop].
  - split; auto. split; auto. intros; lia.
  - destruct (Nat.ltb_spec (m s) mi); cbn [andb].
    + unfold ltb. destruct (Rlt_dec tol (error s)).
      * assert (I' : inv n A (step n A (maxdiag n A) s)) by (apply step_inv; auto using maxdiag_nonneg; [lia|lra]).
        assert (E : m (step n A (maxdiag n A) s) = m s + 1) by (unfold step; destruct (_ <? _); auto).
        destruct (IHfuel _ I' ltac:(lia)) as (J1&J2&J3). split; auto. split; auto. intros. apply J3; lia.
      * split; auto. split; auto. intros. lra.
    + split; auto. split; auto. intros; lia.
Qed.

(** sums over a permutation of the indices *)
Lemma fold_perm (f : nat -> R) l l' : Permutation l l' -> fold_right Rplus 0%R (map f l) = fold_right Rplus 0%R (map f l').
Proof. induction 1; simpl; auto; try lra. Qed.
Lemma fold_seq f n : fold_right Rplus 0%R (map f (seq 0 n)) = sumn n f.
Proof.
  induction n; auto. rewrite seq_S, map_app, fold_right_app. simpl. rewrite <- IHn.
  generalize (map f (seq 0 n)). induction l; simpl; lra.
Qed.

(** C57: for a positive semidefinite matrix, any tolerance and iteration count, the pivots are a permutation, the rows of
    L are triangular in pivot order with a positive diagonal, L'L reproduces the matrix on the rows and columns of
    the pivots used, what remains is positive semidefinite, and if the iteration stopped early the remaining trace is at
    most error_tol times the largest diagonal entry. *)
Theorem C57_factorization n A tol mi s : psd n A -> (0 <= tol)%R ->
  pivoted_cholesky n A tol (Some mi) = Ok s ->
  Permutation (pi s) (seq 0 n) /\ m s <= Nat.min mi n /\
  (forall i j, i < m s -> j < n ->
     sumn (m s) (fun k => L s k (nth i (pi s) 0%nat) * L s k j)%R = A (nth i (pi s) 0) j) /\
  (forall k j, j < k < m s -> L s k (nth j (pi s) 0) = 0%R) /\
  (forall k, k < m s -> (0 < L s k (nth k (pi s) 0%nat))%R) /\
  (forall k c, m s <= k -> L s k c = 0%R) /\
  psd n (resid A (L s) (m s)) /\
  (m s < Nat.min mi n -> (trace n (resid A (L s) (m s)) <= tol * maxdiag n A)%R).
Proof.
  intros HA Ht. unfold pivoted_cholesky. destruct (Nat.eqb_spec n 0); [discriminate|].
  assert (Hn : 0 < n) by lia. intros E. injection E as E. fold (maxdiag n A) in E.
  destruct (loop_inv n A tol (Nat.min mi n) Hn HA Ht ltac:(lia) (Nat.min mi n) _ (init_inv n A Hn HA) ltac:(simpl; lia)) as (I&Hm&He).
  rewrite E in I, Hm, He. clear E.
  split; [apply I|]. split; [exact Hm|]. split.
  { intros i j Hi Hj. pose proof (i_done _ _ _ I i j Hi Hj) as H. unfold resid in H. lra. }
  split; [apply I|]. split; [apply I|]. split; [apply I|]. split; [apply I|].
  intros Hlt. specialize (He ltac:(simpl; lia) Hlt). rewrite (i_err _ _ _ I ltac:(lia)) in He.
  set (S0 := resid A (L s) (m s)) in *.
  assert (Etr : trace n S0 = norm1 (d s) (skipn (m s) (pi s))).
  { unfold trace. rewrite <- fold_seq. rewrite <- (fold_perm _ _ _ (i_perm _ _ _ I)).
    rewrite <- (firstn_skipn (m s) (pi s)) at 1. rewrite map_app, fold_right_app.
    assert (Len : length (pi s) = n) by (rewrite (Permutation_length (i_perm _ _ _ I)); apply seq_length).
    assert (F : forall l b, (forall x, In x l -> S0 x x = 0%R) -> fold_right Rplus b (map (fun i => S0 i i) l) = b).
    { induction l; simpl; auto. intros b H. rewrite IHl by auto. rewrite H by auto. lra. }
    rewrite F.
    - unfold norm1. f_equal. apply map_ext_in. intros c Hc. apply in_skipn_nth in Hc as (q&Hq&Eq). rewrite Len in Hq.
      rewrite <- Eq, (i_d _ _ _ I) by lia. fold S0. symmetry. apply Rabs_pos_eq. apply (psd_diag n); [apply I|].
      assert (In (nth q (pi s) 0) (seq 0 n)) by (eapply Permutation_in; [apply I|]; apply nth_In; lia). apply in_seq in H. lia.
    - intros x Hx. apply (In_nth _ _ 0) in Hx as (q&Hq&Eq). rewrite firstn_length, Len, Nat.min_l in Hq by lia.
      assert (Eq' : nth q (pi s) 0 = x). { rewrite <- Eq. rewrite <- (firstn_skipn (m s) (pi s)) at 1. apply app_nth1. rewrite firstn_length. lia. }
      rewrite <- Eq'. apply (i_done _ _ _ I); auto.
      assert (In (nth q (pi s) 0) (seq 0 n)) by (eapply Permutation_in; [apply I|]; apply nth_In; lia). apply in_seq in H. lia. }
  rewrite Etr. pose proof (maxdiag_nonneg n A Hn HA) as [Hp|Hz].
  - apply Rmult_le_reg_r with (/ maxdiag n A)%R; [apply Rinv_0_lt_compat; auto|].
    replace (tol * maxdiag n A * / maxdiag n A)%R with tol by (field; lra). exact He.
  - rewrite <- Etr. rewrite <- Hz, Rmult_0_r. unfold trace. 
    assert (D : forall i, i < n -> (S0 i i <= 0)%R).
    { intros i Hi. assert (0 <= sumn (m s) (fun r => L s r i * L s r i))%R by (apply sumn_nonneg; intros; nra).
      assert (A i i <= maxdiag n A)%R by (apply maxl_ge, in_map_iff; exists i; split; auto; apply in_seq; lia).
      unfold S0, resid. lra. }
    assert (G : forall k, k <= n -> (sumn k (fun i => S0 i i) <= 0)%R).
    { induction k; simpl; intros; [lra|]. specialize (IHk ltac:(lia)). specialize (D k ltac:(lia)). lra. }
    apply G. auto.
Qed.

(** With enough iterations and tolerance 0 the whole matrix is reproduced. *)
Theorem C57_complete n A s : psd n A -> pivoted_cholesky n A 0 (Some n) = Ok s ->
  forall i j, i < n -> j < n -> sumn (m s) (fun k => L s k i * L s k j)%R = A i j.
Proof.
  intros HA E i j Hi Hj.
  destruct (C57_factorization n A 0 n s HA (Rle_refl _) E) as (P&Hm&F&_&_&_&Hp&Htr). rewrite Nat.min_id in *.
  destruct (Nat.eq_dec (m s) n) as [Em|Hne].
  - assert (In i (pi s)) by (eapply Permutation_in; [symmetry; exact P|]; apply in_seq; lia).
    apply (In_nth _ _ 0) in H as (q&Hq&Eq). rewrite <- Eq. apply F; auto. rewrite (Permutation_length P), seq_length in Hq. lia.
  - specialize (Htr ltac:(lia)). rewrite Rmult_0_l in Htr.
    set (S0 := resid A (L s) (m s)) in *.
    assert (D : forall k, k < n -> S0 k k = 0%R).
    { assert (G : forall k, k <= n -> (0 <= sumn k (fun i => S0 i i))%R /\ forall q, q < k -> (S0 q q <= sumn k (fun i => S0 i i))%R).
      { induction k; intros Hk; simpl; [split; [lra|lia]|]. destruct (IHk ltac:(lia)) as (G1&G2). pose proof (psd_diag n S0 k Hp ltac:(lia)).
        split; [lra|]. intros q Hq. destruct (Nat.eq_dec q k); [subst; lra|]. specialize (G2 q ltac:(lia)). lra. }
      intros k Hk. destruct (G n ltac:(lia)) as (G1&G2). specialize (G2 k Hk). unfold trace in Htr. pose proof (psd_diag n S0 k Hp Hk). lra. }
    (* a psd matrix with zero diagonal is zero *)
    assert (Z : S0 i j = 0%R).
    { destruct Hp as (Sym&Q).
      assert (QQ : forall t, (0 <= 2 * t * S0 i j)%R).
      { intros t. specialize (Q (fun k => (0 + 1 * e_ j k) + t * e_ i k)%R). rewrite quad_shift in Q by auto.
        rewrite quad_shift in Q by auto. rewrite (D i), (D j) in Q by auto.
        replace (quad n S0 (fun _ => 0%R)) with 0%R in Q.
        2:{ unfold quad. rewrite (sumn_ext n _ (fun _ => 0%R)) by (intros; lra). rewrite sumn_zero. auto. }
        rewrite (sumn_ext n (fun k => S0 j k * 0)%R (fun _ => 0%R)) in Q by (intros; lra). rewrite sumn_zero in Q.
        rewrite (sumn_ext n _ (fun k => e_ j k * S0 i k)%R) in Q by (intros; lra). rewrite sumn_delta in Q by auto. lra. }
      pose proof (QQ 1%R). pose proof (QQ (-1)%R). lra. }
    unfold S0, resid in Z. lra.
Qed.

(** Every pivot is the largest remaining diagonal entry. *)
Theorem C57_greedy_pivots n A tol mi s : psd n A -> (0 <= tol)%R ->
  pivoted_cholesky n A tol (Some mi) = Ok s ->
  forall k c, k < m s -> c < n ->
  (resid A (L s) k c c <= resid A (L s) k (nth k (pi s) 0%nat) (nth k (pi s) 0%nat))%R.
Proof.
  intros HA Ht. unfold pivoted_cholesky. destruct (Nat.eqb_spec n 0); [discriminate|].
  assert (Hn : 0 < n) by lia. intros E. injection E as E. fold (maxdiag n A) in E.
  destruct (loop_inv n A tol (Nat.min mi n) Hn HA Ht ltac:(lia) (Nat.min mi n) _ (init_inv n A Hn HA) ltac:(simpl; lia)) as (I&Hm&He).
  rewrite E in I, Hm. clear E He. intros k c Hk Hc.
  eapply Rle_trans; [apply (i_greedy _ _ _ I k c Hk Hc)|]. right.
  assert (Hp : nth k (pi s) 0 < n).
  { pose proof (i_m _ _ _ I). assert (In (nth k (pi s) 0) (seq 0 n)).
    { eapply Permutation_in; [apply I|]; apply nth_In. rewrite (Permutation_length (i_perm _ _ _ I)), seq_length. lia. }
    apply in_seq in H0. lia. }
  pose proof (i_done _ _ _ I k _ Hk Hp) as D. unfold resid in D |- *.
  assert (G : forall q, k < q <= m s -> sumn q (fun r => L s r (nth k (pi s) 0%nat) * L s r (nth k (pi s) 0%nat))%R =
     (sumn k (fun r => L s r (nth k (pi s) 0%nat) * L s r (nth k (pi s) 0%nat)) + L s k (nth k (pi s) 0%nat) ^ 2)%R).
  { intros q. induction q; intros Hq; [lia|]. destruct (Nat.eq_dec q k); [subst; simpl; ring|].
    cbn [sumn]. rewrite IHq by lia. rewrite (i_tri _ _ _ I q k) by lia. ring. }
  rewrite G in D by lia. lra.
Qed.

(** The default max_iter never works, and an empty matrix is rejected. *)
Theorem C57_default_max_iter_refuted n A tol : pivoted_cholesky n A tol None = Err OverflowError.
Proof. reflexivity. Qed.
Theorem C57_accepts n A tol mi : 0 < n -> exists s, pivoted_cholesky n A tol (Some mi) = Ok s.
Proof. intros. unfold pivoted_cholesky. destruct (Nat.eqb_spec n 0); [lia|]. eauto. Qed.
Example C57_example : psd 2 (fun i j => if i =? j then 2%R else 1%R).
Proof.
  split.
  - intros i j _ _. rewrite Nat.eqb_sym. auto.
  - intros x. unfold quad. cbn [sumn Nat.eqb]. nra.
Qed.
