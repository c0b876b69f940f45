(** C46: histogram counts. *)
From Verif Require Import Common Hist_Model.
From Coq Require Import QArith Permutation Sorting.Sorted Reals Lra.
Open Scope nat_scope.

(** * Specification *)
(** the observations a histogram stands for: each reported value as often as its count says *)
Definition expand {A} (mid : list A) (counts : list nat) : list A := concat (map (fun p => repeat (fst p) (snd p)) (combine mid counts)).
Definition total (l : list nat) : nat := fold_right plus 0 l.

(** * Counting *)
Lemma count_nil {A} (p : A -> bool) : count p [] = 0. Proof. reflexivity. Qed.
Lemma count_cons {A} (p : A -> bool) x l : count p (x :: l) = (if p x then 1 else 0) + count p l.
Proof. unfold count. cbn. destruct (p x); reflexivity. Qed.
Lemma count_ext {A} (p q : A -> bool) l : (forall x, In x l -> p x = q x) -> count p l = count q l.
Proof. induction l as [|x l IH]; intros H; auto. rewrite !count_cons, (H x), IH; auto; [intros; apply H; now right|now left]. Qed.
Lemma count_all {A} (p : A -> bool) l : (forall x, In x l -> p x = true) -> count p l = length l.
Proof. induction l as [|x l IH]; intros H; auto. rewrite count_cons, (H x), IH; auto; [intros; apply H; now right|now left]. Qed.
Lemma count_split {A} (p q : A -> bool) l : count p l = count (fun x => p x && q x) l + count (fun x => p x && negb (q x)) l.
Proof. induction l as [|x l IH]; auto. rewrite !count_cons, IH. destruct (p x), (q x); cbn; lia. Qed.

Lemma in_insert_z x y l : In y (insert_z x l) <-> y = x \/ In y l.
Proof.
  induction l as [|z r IH]; cbn [insert_z In]; [intuition|]. destruct (Z.ltb_spec x z); [cbn [In]; intuition|]. destruct (Z.eqb_spec x z); [subst; cbn [In]; intuition|].
  cbn [In]. rewrite IH. intuition.
Qed.
Lemma in_unique y l : In y (unique l) <-> In y l.
Proof. induction l as [|x l IH]; cbn [unique fold_right In]; [tauto|]. fold (unique l). rewrite in_insert_z, IH. intuition. Qed.
Lemma sorted_insert_z x l : StronglySorted Z.lt l -> StronglySorted Z.lt (insert_z x l).
Proof.
  induction 1 as [|y r Hs IH Hf]; cbn [insert_z]; [repeat constructor|]. rewrite Forall_forall in Hf. destruct (Z.ltb_spec x y).
  - constructor; [constructor; auto; apply Forall_forall; auto|]. apply Forall_forall. intros z [<-|Hz]; auto. specialize (Hf z Hz). lia.
  - destruct (Z.eqb_spec x y); [constructor; auto; apply Forall_forall; auto|]. constructor; auto. apply Forall_forall. intros z Hz. apply in_insert_z in Hz as [->|Hz]; [lia|auto].
Qed.
Lemma sorted_unique l : StronglySorted Z.lt (unique l).
Proof. induction l; cbn; [constructor|]. apply sorted_insert_z; auto. Qed.
Lemma sorted_filter {A} (R : A -> A -> Prop) p l : StronglySorted R l -> StronglySorted R (filter p l).
Proof.
  induction 1 as [|y r Hs IH Hf]; cbn [filter]; [constructor|]. destruct (p y); auto. constructor; auto. rewrite Forall_forall in *. intros z Hz. apply filter_In in Hz as (Hz & _). auto.
Qed.

(** where an observation is counted: under the largest reported value not above it, if it is at most one above the largest reported value *)
Definition goes_to (mid : list Z) (top : Z) (m x : Z) : bool :=
  (m <=? x)%Z && forallb (fun y => negb ((m <? y)%Z && (y <=? x)%Z)) mid && (x <=? top)%Z.
Lemma hist_spec mid t col : StronglySorted Z.lt mid -> (forall m, In m mid -> (m < t)%Z) ->
  histogram Z.leb (mid ++ [t]) col = map (fun m => count (goes_to mid t m) col) mid.
Proof.
  induction 1 as [|m rest Hs IH Hf]; intros Ht; [reflexivity|]. rewrite Forall_forall in Hf. destruct rest as [|m2 r].
  - cbn [app histogram map]. f_equal. apply count_ext. intros x _. unfold goes_to. cbn [forallb]. rewrite Z.ltb_irrefl. cbn. now rewrite !andb_true_r.
  - assert (E : histogram Z.leb ((m :: m2 :: r) ++ [t]) col = count (fun x => (m <=? x)%Z && ltb_ Z.leb x m2) col :: histogram Z.leb ((m2 :: r) ++ [t]) col).
    { cbn [app]. destruct (r ++ [t]) eqn:Er; [destruct r; discriminate|]. reflexivity. }
    rewrite E. clear E. rewrite IH by (intros; apply Ht; now right). rewrite (map_cons _ m (m2 :: r)). f_equal.
    + apply count_ext. intros x _. unfold goes_to, ltb_. destruct (Z.leb_spec m x); [|reflexivity]. cbn [andb].
      destruct (Z.leb_spec m2 x); cbn [negb].
      * symmetry. apply andb_false_iff. left. cbn [forallb]. rewrite Z.ltb_irrefl. cbn [negb andb]. apply andb_false_iff. left.
        replace (m <? m2)%Z with true by (symmetry; apply Z.ltb_lt, Hf; now left). replace (m2 <=? x)%Z with true by (symmetry; apply Z.leb_le; auto). reflexivity.
      * symmetry. apply andb_true_iff. split; [|apply Z.leb_le; specialize (Ht m2 (or_intror (or_introl eq_refl))); lia].
        apply forallb_forall. intros y [<-|Hy]; [now rewrite Z.ltb_irrefl|]. apply negb_true_iff, andb_false_iff. right. apply Z.leb_gt.
        inversion Hs as [|? ? _ Hf2]; subst. rewrite Forall_forall in Hf2. destruct Hy as [<-|Hy]; [auto|specialize (Hf2 y Hy); lia].
    + apply map_ext_in. intros m' Hm'. apply count_ext. intros x _. unfold goes_to. f_equal. f_equal. cbn [forallb].
      replace (m' <? m)%Z with false by (symmetry; apply Z.ltb_ge; specialize (Hf m' Hm'); lia). reflexivity.
Qed.
Lemma zmax_ok l : l <> [] -> StronglySorted Z.lt l -> exists t, zmax l = Ok t /\ In t l /\ forall m, In m l -> (m <= t)%Z.
Proof.
  destruct l as [|x l]; [congruence|]. intros _ _. cbn [zmax]. exists (fold_left Z.max l x). split; auto.
  assert (H : forall l x, (x <= fold_left Z.max l x)%Z /\ (forall m, In m l -> (m <= fold_left Z.max l x)%Z) /\ (fold_left Z.max l x = x \/ In (fold_left Z.max l x) l)).
  { clear. induction l as [|y l IH]; intros x; cbn [fold_left In]; [repeat split; auto; [lia|tauto]|]. destruct (IH (Z.max x y)) as (A & B & C). split; [lia|]. split; [intros m [<-|Hm]; [lia|auto]|].
    destruct C as [C|C]; [|tauto]. destruct (Z.max_spec x y) as [(_ & E)|(_ & E)]; rewrite E in C at 2; [right; left; auto|left; auto]. }
  destruct (H l x) as (A & B & C). split; [destruct C as [C|C]; [left; auto|right; auto]|]. intros m [<-|Hm]; auto.
Qed.

(** ** C46, discrete data *)
(** Without min_count: every distinct value is reported once, with its number of occurrences in each column. *)
Theorem C46_discrete data : concat data <> [] -> exists mid counts, discrete_histogram data None = Ok (mid, counts) /\
  StronglySorted Z.lt mid /\ (forall v, In v mid <-> In v (concat data)) /\ counts = map (fun col => map (count_occ Z.eq_dec col) mid) data.
Proof.
  intros Hne. unfold discrete_histogram. pose proof (sorted_unique (concat data)) as Hs.
  assert (Hu : unique (concat data) <> []).
  { destruct (concat data) as [|x l] eqn:E; [congruence|]. intros H. assert (In x (unique (x :: l))) by (apply in_unique; now left). rewrite H in H0. easy. }
  destruct (zmax_ok _ Hu Hs) as (t & Et & Ht & Hm). rewrite Et. cbn [bind]. eexists; eexists. split; [reflexivity|]. split; auto. split; [intros; apply in_unique|].
  apply map_ext_in. intros col Hc. rewrite hist_spec; [|auto|intros m Hm'; specialize (Hm m Hm'); lia].
  apply map_ext_in. intros m Hm'. unfold count. assert (Hin : forall x, In x col -> In x (unique (concat data))).
  { intros x Hx. apply in_unique. apply in_concat. eauto. }
  clear -Hin Hm Hm'. revert Hin. induction col as [|x col IH]; intros Hin; [reflexivity|]. cbn [filter count_occ]. specialize (IH (fun y Hy => Hin y (or_intror Hy))).
  specialize (Hin x (or_introl eq_refl)).
  destruct (Z.eq_dec x m) as [->|Hne].
  - replace (goes_to _ _ _ _) with true; [cbn [length]; now rewrite IH|]. symmetry. unfold goes_to. rewrite Z.leb_refl. cbn [andb]. apply andb_true_iff. split; [|apply Z.leb_le; specialize (Hm m Hm'); lia].
    apply forallb_forall. intros y _. apply negb_true_iff, andb_false_iff. destruct (Z.ltb_spec m y); auto. right. apply Z.leb_gt. lia.
  - replace (goes_to _ _ _ _) with false; [exact IH|]. symmetry. unfold goes_to. destruct (Z.leb_spec m x); [|reflexivity]. cbn [andb]. apply andb_false_iff. left.
    apply not_true_is_false. intros HF. rewrite forallb_forall in HF. specialize (HF x Hin). rewrite Z.leb_refl, andb_true_r in HF. apply negb_true_iff, Z.ltb_ge in HF. lia.
Qed.
Lemma expand_perm mid col : NoDup mid -> (forall x, In x col -> In x mid) -> Permutation (expand mid (map (count_occ Z.eq_dec col) mid)) col.
Proof.
  intros ND Hin. apply (Permutation_count_occ Z.eq_dec). intros x. unfold expand.
  assert (E : forall l, NoDup l -> count_occ Z.eq_dec (concat (map (fun p => repeat (fst p) (snd p)) (combine l (map (count_occ Z.eq_dec col) l)))) x = if in_dec Z.eq_dec x l then count_occ Z.eq_dec col x else 0).
  { clear. induction 1 as [|y l Hn _ IH]; [reflexivity|]. cbn [map combine concat fst snd]. rewrite count_occ_app, IH.
    assert (R : forall n, count_occ Z.eq_dec (repeat y n) x = if Z.eq_dec y x then n else 0).
    { induction n; cbn [repeat count_occ]; [destruct (Z.eq_dec y x); auto|]. rewrite IHn. destruct (Z.eq_dec y x); auto. }
    rewrite R. destruct (Z.eq_dec y x) as [->|Hne].
    - destruct (in_dec Z.eq_dec x l); [contradiction|]. destruct (in_dec Z.eq_dec x (x :: l)) as [|H]; [lia|exfalso; apply H; now left].
    - destruct (in_dec Z.eq_dec x l) as [i|i], (in_dec Z.eq_dec x (y :: l)) as [j|j]; auto; exfalso; [apply j; now right|destruct j as [j|j]; [congruence|contradiction]]. }
  rewrite E by auto. destruct (in_dec Z.eq_dec x mid); auto. symmetry. apply count_occ_not_In. intros H. auto.
Qed.
Lemma sorted_nodup l : StronglySorted Z.lt l -> NoDup l.
Proof. induction 1 as [|x l Hs IH Hf]; constructor; auto. rewrite Forall_forall in Hf. intros H. specialize (Hf x H). lia. Qed.
(** So the histogram stands for exactly the observations of each column ... *)
Theorem C46_discrete_data data mid counts : discrete_histogram data None = Ok (mid, counts) -> Forall2 (fun c col => Permutation (expand mid c) col) counts data.
Proof.
  intros H. destruct (concat data) as [|x l] eqn:E.
  - unfold discrete_histogram in H. rewrite E in H. discriminate.
  - destruct (C46_discrete data) as (mid' & counts' & H' & Hs & Hi & ->); [congruence|]. rewrite H in H'. injection H' as -> ->.
    assert (G : forall d, (forall col, In col d -> In col data) -> Forall2 (fun c col => Permutation (expand mid' c) col) (map (fun col => map (count_occ Z.eq_dec col) mid') d) d).
    { induction d as [|col d IH]; intros Hd; constructor; [|apply IH; intros; apply Hd; now right]. apply expand_perm; [now apply sorted_nodup|]. intros y Hy. apply Hi. apply in_concat. exists col. split; auto. apply Hd. now left. }
    apply G. auto.
Qed.
(** ... and the potential of histogram_approximation, logp(mid) * count summed, is the log-likelihood of the data, for every log-probability. *)
Definition rsum (l : list R) : R := fold_right Rplus 0%R l.
Definition potential (logp : Z -> R) (mid : list Z) (counts : list nat) : R := rsum (map (fun p => (logp (fst p) * INR (snd p))%R) (combine mid counts)).
Lemma rsum_app a b : rsum (a ++ b) = (rsum a + rsum b)%R.
Proof. induction a; cbn; [now rewrite Rplus_0_l|]. unfold rsum in *. rewrite IHa. ring. Qed.
Lemma rsum_perm a b : Permutation a b -> rsum a = rsum b.
Proof. induction 1; cbn in *; try lra; unfold rsum in *; lra. Qed.
Theorem C46_discrete_potential data mid counts logp : discrete_histogram data None = Ok (mid, counts) -> Forall2 (fun c col => potential logp mid c = rsum (map logp col)) counts data.
Proof.
  intros H. pose proof (C46_discrete_data _ _ _ H) as F. clear H. induction F as [|c col cs cols P F IH]; constructor; auto.
  rewrite <- (rsum_perm _ _ (Permutation_map logp P)). unfold potential, expand. generalize (combine mid c). clear. induction l as [|[m n] l IH]; [reflexivity|].
  cbn [map concat fst snd]. rewrite map_app, rsum_app, <- IH. cbn [rsum fold_right]. fold (rsum (map (fun p => (logp (fst p) * INR (snd p))%R) l)). f_equal.
  clear. induction n; [cbn; ring|]. cbn [repeat map rsum fold_right]. fold (rsum (map logp (repeat m n))). rewrite <- IHn, S_INR. ring.
Qed.
(** With min_count: an observation is counted under the largest reported value not above it; the values reported are those occurring often enough. *)
Theorem C46_min_count_partial data m : filter (fun v => m <=? count_occ Z.eq_dec (concat data) v) (unique (concat data)) <> [] ->
  exists mid counts top, discrete_histogram data (Some m) = Ok (mid, counts) /\ In top mid /\ (forall v, In v mid -> (v <= top)%Z) /\
    (forall v, In v mid <-> In v (concat data) /\ m <= count_occ Z.eq_dec (concat data) v) /\
    counts = map (fun col => map (fun v => count (goes_to mid (top + 1) v) col) mid) data.
Proof.
  intros Hne. unfold discrete_histogram. set (mid := filter _ _) in *.
  assert (Hs : StronglySorted Z.lt mid) by (apply sorted_filter, sorted_unique).
  destruct (zmax_ok _ Hne Hs) as (t & Et & Ht & Hm). rewrite Et. cbn [bind]. exists mid. eexists; exists t. split; [reflexivity|]. split; auto. split; auto. split.
  - intros v. unfold mid. rewrite filter_In, in_unique, Nat.leb_le. tauto.
  - apply map_ext_in. intros col _. apply hist_spec; auto. intros v Hv. specialize (Hm v Hv). lia.
Qed.
(** hence exact whenever nothing was dropped right above the value *)
Theorem C46_min_count_exact_partial data m mid counts i col v : discrete_histogram data (Some m) = Ok (mid, counts) ->
  nth_error data i = Some col -> In v mid -> (forall x, In x col -> (v < x)%Z -> exists y, In y mid /\ (v < y <= x)%Z) ->
  exists c j, nth_error counts i = Some c /\ nth_error mid j = Some v /\ nth_error c j = Some (count_occ Z.eq_dec col v).
Proof.
  intros H Hi Hv Hx. assert (Hne : filter (fun v => m <=? count_occ Z.eq_dec (concat data) v) (unique (concat data)) <> []).
  { intros E. unfold discrete_histogram in H. rewrite E in H. discriminate. }
  destruct (C46_min_count_partial data m Hne) as (mid' & counts' & top & H' & Ht & Hm & _ & ->). rewrite H in H'. injection H' as <- ->.
  destruct (In_nth_error _ _ Hv) as (j & Hj). eexists; exists j. split; [apply map_nth_error; exact Hi|]. split; auto.
  rewrite (map_nth_error (fun v => count (goes_to mid (top + 1) v) col) j mid Hj). f_equal. clear -Hx Hv Hm. unfold count. induction col as [|x col IH]; [reflexivity|].
  cbn [filter count_occ]. specialize (IH (fun y Hy => Hx y (or_intror Hy))). specialize (Hx x (or_introl eq_refl)). destruct (Z.eq_dec x v) as [->|Hn].
  - replace (goes_to _ _ _ _) with true; [cbn [length]; now rewrite IH|]. symmetry. unfold goes_to. rewrite Z.leb_refl. cbn [andb]. apply andb_true_iff. split; [|apply Z.leb_le; specialize (Hm v Hv); lia].
    apply forallb_forall. intros y _. apply negb_true_iff, andb_false_iff. destruct (Z.ltb_spec v y); auto. right. apply Z.leb_gt. lia.
  - replace (goes_to _ _ _ _) with false; [exact IH|]. symmetry. unfold goes_to. destruct (Z.leb_spec v x); [|reflexivity]. cbn [andb]. apply andb_false_iff. left.
    destruct Hx as (y & Hy & Hyx); [lia|]. apply not_true_is_false. intros HF. rewrite forallb_forall in HF. specialize (HF y Hy).
    replace (v <? y)%Z with true in HF by (symmetry; apply Z.ltb_lt; lia). replace (y <=? x)%Z with true in HF by (symmetry; apply Z.leb_le; lia). discriminate.
Qed.
(** False as stated with min_count: the one 3 is reported as a third 2, and a value more than one above the largest reported one is not counted at all. *)
Theorem C46_min_count_refuted : exists data mid counts,
  discrete_histogram data (Some 2) = Ok (mid, counts) /\ In 2%Z mid /\ counts <> map (fun col => map (count_occ Z.eq_dec col) mid) data /\
  exists data' mid' counts', discrete_histogram data' (Some 2) = Ok (mid', counts') /\ map total counts' <> map (@length Z) data'.
Proof.
  exists [[2; 2; 3; 5; 5]%Z], [2; 5]%Z, [[3; 2]]. split; [reflexivity|]. split; [now left|]. split; [discriminate|].
  exists [[2; 2; 9]%Z], [2]%Z, [[2]]. split; [reflexivity|discriminate].
Qed.
Example C46_discrete_example : discrete_histogram [[1; 1; 4]; [4; 2; 1]]%Z None = Ok ([1; 2; 4]%Z, [[2; 0; 1]; [1; 1; 1]]).
Proof. reflexivity. Qed.

(** ** C46, continuous data *)
Lemma qleb_false a b : Qle_bool a b = false <-> (b < a)%Q.
Proof. rewrite <- not_true_iff_false, Qle_bool_iff. split; [apply Qnot_le_lt|apply Qlt_not_le]. Qed.
Definition q_sorted (l : list Q) : Prop := forall i j, i <= j -> j < length l -> (nth i l 0 <= nth j l 0)%Q.
Lemma q_sorted_tail a l : q_sorted (a :: l) -> q_sorted l.
Proof. intros H i j Hij Hj. apply (H (S i) (S j)); cbn; lia. Qed.
(** each column's counts add up to the observations between the first and the last edge *)
Lemma histogram_total edges col : 2 <= length edges -> q_sorted edges ->
  total (histogram Qle_bool edges col) = count (fun x => Qle_bool (nth 0 edges 0%Q) x && Qle_bool x (nth (length edges - 1) edges 0%Q)) col.
Proof.
  induction edges as [|a edges IH]; intros Hl Hs; [cbn in Hl; lia|]. destruct edges as [|b rest]; [cbn in Hl; lia|]. destruct rest as [|c r].
  - cbn. rewrite Nat.add_0_r. reflexivity.
  - set (e := b :: c :: r) in *. assert (E : histogram Qle_bool (a :: e) col = count (fun x => Qle_bool a x && ltb_ Qle_bool x b) col :: histogram Qle_bool e col) by reflexivity.
    rewrite E. cbn [total fold_right]. fold (total (histogram Qle_bool e col)). rewrite IH by (cbn; try lia; eapply q_sorted_tail; eauto).
    replace (length (a :: e) - 1) with (S (length e - 1)) by (cbn; lia). change (nth (S (length e - 1)) (a :: e) 0%Q) with (nth (length e - 1) e 0%Q).
    change (nth 0 (a :: e) 0%Q) with a. change (nth 0 e 0%Q) with b. set (z := nth (length e - 1) e 0%Q).
    rewrite (count_split (fun x => Qle_bool a x && Qle_bool x z) (fun x => ltb_ Qle_bool x b)).
    assert (Hab : (a <= b)%Q) by (apply (Hs 0 1); cbn; lia). assert (Hbz : (b <= z)%Q) by (apply (Hs 1 (S (length e - 1))); cbn; lia).
    f_equal; apply count_ext; intros x _; unfold ltb_.
    + destruct (Qle_bool b x) eqn:Eb; cbn [negb]; [now rewrite !andb_false_r|]. rewrite !andb_true_r. apply qleb_false in Eb.
      replace (Qle_bool x z) with true; [now rewrite andb_true_r|]. symmetry. apply Qle_bool_iff. apply Qlt_le_weak in Eb. eapply Qle_trans; eauto.
    + destruct (Qle_bool b x) eqn:Eb; cbn [negb]; [|now rewrite andb_false_r]. rewrite andb_true_r. cbn [andb]. apply Qle_bool_iff in Eb.
      replace (Qle_bool a x) with true; [reflexivity|]. symmetry. apply Qle_bool_iff. eapply Qle_trans; eauto.
Qed.
(** sorting *)
Lemma in_insert_q x y l : In y (insert_q x l) <-> y = x \/ In y l.
Proof. induction l as [|z r IH]; cbn [insert_q In]; [intuition|]. destruct (Qle_bool x z); cbn [In]; [intuition|]. rewrite IH. intuition. Qed.
Lemma length_insert_q x l : length (insert_q x l) = S (length l).
Proof. induction l as [|z r IH]; cbn [insert_q]; auto. destruct (Qle_bool x z); cbn [length]; auto. Qed.
Lemma in_sort_q y l : In y (sort_q l) <-> In y l.
Proof. induction l as [|x l IH]; cbn [sort_q fold_right In]; [tauto|]. fold (sort_q l). rewrite in_insert_q, IH. intuition. Qed.
Lemma length_sort_q l : length (sort_q l) = length l.
Proof. induction l as [|x l IH]; cbn [sort_q fold_right length]; auto. fold (sort_q l). rewrite length_insert_q. lia. Qed.
Lemma ss_insert_q x l : StronglySorted Qle l -> StronglySorted Qle (insert_q x l).
Proof.
  induction 1 as [|y r Hs IH Hf]; cbn [insert_q]; [repeat constructor|]. rewrite Forall_forall in Hf. destruct (Qle_bool x y) eqn:E.
  - apply Qle_bool_iff in E. constructor; [constructor; auto; apply Forall_forall; auto|]. apply Forall_forall. intros z [<-|Hz]; auto. eapply Qle_trans; eauto.
  - apply qleb_false, Qlt_le_weak in E. constructor; auto. apply Forall_forall. intros z Hz. apply in_insert_q in Hz as [->|Hz]; auto.
Qed.
Lemma sorted_sort_q l : q_sorted (sort_q l).
Proof.
  assert (H : StronglySorted Qle (sort_q l)) by (induction l; cbn; [constructor|apply ss_insert_q; auto]). revert H. generalize (sort_q l). clear.
  induction 1 as [|y r Hs IH Hf]; intros i j Hij Hj; [cbn in Hj; lia|]. rewrite Forall_forall in Hf. destruct i as [|i], j as [|j]; cbn [nth length] in *; try lia; try apply Qle_refl.
  - apply Hf, nth_In. lia.
  - apply IH; lia.
Qed.
(** percentiles *)
Lemma interpolate_mono s d p : q_sorted s -> 0 < d -> p + 1 <= (length s - 1) * d -> (interpolate s p d <= interpolate s (p + 1) d)%Q.
Proof.
  intros Hs Hd Hp. unfold interpolate.
  assert (Hdq : (0 < inject_Z (Z.of_nat d))%Q) by (change 0%Q with (inject_Z 0); rewrite <- Zlt_Qlt; lia).
  pose proof (Nat.div_mod p d ltac:(lia)) as E. pose proof (Nat.mod_upper_bound p d ltac:(lia)) as Em. set (k := p / d) in *. set (m := p mod d) in *.
  assert (Hk : k + 1 <= length s - 1) by nia.
  replace (Nat.min (k + 1) (length s - 1)) with (k + 1) by lia.
  assert (Hab : (nth k s 0 <= nth (k + 1) s 0)%Q) by (apply Hs; lia). set (a := nth k s 0%Q) in *. set (b := nth (k + 1) s 0%Q) in *.
  destruct (Nat.eq_dec (m + 1) d) as [Hm|Hm].
  - replace ((p + 1) / d) with (k + 1) by (apply Nat.div_unique with (r := 0); nia). replace ((p + 1) mod d) with 0 by (apply Nat.mod_unique with (q := k + 1); nia).
    fold b. change (inject_Z (Z.of_nat 0)) with 0%Q. setoid_replace (0 / inject_Z (Z.of_nat d) * (nth (Nat.min (k + 1 + 1) (length s - 1)) s 0 - b))%Q with 0%Q by (field; intro HH; rewrite HH in Hdq; discriminate Hdq).
    rewrite Qplus_0_r. assert (Hg : (inject_Z (Z.of_nat m) / inject_Z (Z.of_nat d) <= 1)%Q).
    { apply Qle_shift_div_r; auto. rewrite Qmult_1_l, <- Zle_Qle. lia. }
    assert (H2 : (inject_Z (Z.of_nat m) / inject_Z (Z.of_nat d) * (b - a) <= 1 * (b - a))%Q).
    { apply Qmult_le_compat_r; auto. rewrite <- (Qplus_opp_r a). apply Qplus_le_l with (z := 0%Q). rewrite !Qplus_0_r. apply Qplus_le_compat; [exact Hab|apply Qle_refl]. }
    setoid_replace b with (a + 1 * (b - a))%Q at 2 by ring. apply Qplus_le_compat; [apply Qle_refl|exact H2].
  - replace ((p + 1) / d) with k by (apply Nat.div_unique with (r := m + 1); nia). replace ((p + 1) mod d) with (m + 1) by (apply Nat.mod_unique with (q := k); nia).
    replace (Nat.min (k + 1) (length s - 1)) with (k + 1) by lia. fold a b. apply Qplus_le_compat; [apply Qle_refl|]. apply Qmult_le_compat_r.
    + unfold Qdiv. apply Qmult_le_compat_r; [rewrite <- Zle_Qle; lia|apply Qlt_le_weak, Qinv_lt_0_compat; auto].
    + apply Qplus_le_l with (z := a). ring_simplify. exact Hab.
Qed.
Lemma interpolate_le s d p q : q_sorted s -> 0 < d -> p <= q -> q <= (length s - 1) * d -> (interpolate s p d <= interpolate s q d)%Q.
Proof.
  intros Hs Hd Hpq Hq. induction Hpq as [|q Hpq IH]; [apply Qle_refl|]. eapply Qle_trans; [apply IH; lia|]. replace (S q) with (q + 1) by lia. apply interpolate_mono; auto. lia.
Qed.
Lemma percentiles_ok qdata nq : qdata <> [] -> 2 <= nq -> exists e, percentiles qdata nq = Ok e /\ length e = nq /\ q_sorted e /\
  forall x, In x qdata -> (nth 0 e 0 <= x)%Q /\ (x <= nth (nq - 1) e 0)%Q.
Proof.
  intros Hne Hn. unfold percentiles. destruct qdata as [|x0 q] eqn:Eq; [congruence|]. rewrite <- Eq in *. clear x0 q Eq.
  replace (nq =? 1)%nat with false by (symmetry; apply Nat.eqb_neq; lia). eexists; split; [reflexivity|]. rewrite map_length, seq_length. split; auto.
  set (s := sort_q qdata). assert (Hs : q_sorted s) by apply sorted_sort_q.
  assert (Hl : 0 < length s) by (unfold s; rewrite length_sort_q; destruct qdata; [congruence|cbn; lia]).
  set (f := fun j => interpolate s ((length s - 1) * j) (nq - 1)).
  assert (N : forall j, j < nq -> nth j (map f (seq 0 nq)) 0%Q = f j).
  { intros j Hj. rewrite (nth_indep _ 0%Q (f 0)) by (rewrite map_length, seq_length; auto). rewrite map_nth, seq_nth by auto. reflexivity. }
  assert (Hd : (0 < inject_Z (Z.of_nat (nq - 1)))%Q) by (change 0%Q with (inject_Z 0); rewrite <- Zlt_Qlt; lia).
  split.
  - intros i j Hij Hj. rewrite map_length, seq_length in Hj. rewrite !N by lia. apply interpolate_le; auto; try lia; nia.
  - assert (Z0 : forall k, (interpolate s (k * (nq - 1)) (nq - 1) == nth k s 0)%Q).
    { intros k. unfold interpolate. rewrite Nat.div_mul, Nat.mod_mul by lia. change (inject_Z (Z.of_nat 0)) with 0%Q. field. intro HH; rewrite HH in Hd; discriminate Hd. }
    intros x Hx. rewrite !N by lia. unfold f. rewrite Nat.mul_0_r. change 0 with (0 * (nq - 1)) at 1. rewrite (Z0 0), (Z0 (length s - 1)).
    apply in_sort_q in Hx. fold s in Hx. destruct (In_nth _ _ 0%Q Hx) as (i & Hi & <-). split; apply Hs; lia.
Qed.
(** Every observation is counted: the counts of a column add up to its number of observations. *)
Theorem C46_quantile_total data nq : concat data <> [] -> 2 <= nq -> exists h, quantile_histogram data nq false = Ok h /\
  length (lower h) = nq - 1 /\ length (upper h) = nq - 1 /\ map total (counts h) = map (@length Q) data.
Proof.
  intros Hne Hn. unfold quantile_histogram. destruct (percentiles_ok _ nq Hne Hn) as (e & E & Hl & Hs & Hb). rewrite E. cbn [bind]. eexists; split; [reflexivity|]. cbn [lower upper counts].
  split; [rewrite firstn_length; lia|]. split; [destruct e; cbn in *; lia|]. rewrite map_map. apply map_ext_in. intros col Hc. rewrite histogram_total by (auto; lia).
  rewrite Hl. apply count_all. intros x Hx. apply andb_true_iff. rewrite !Qle_bool_iff. apply Hb. apply in_concat. eauto.
Qed.
(** ... and in the bin whose edges enclose it (the upper edge belongs to the next bin, except for the last one). *)
Theorem C46_quantile_bins data nq h i col j : quantile_histogram data nq false = Ok h -> nth_error data i = Some col -> S j < nq ->
  exists c, nth_error (counts h) i = Some c /\
    nth_error c j = Some (count (fun x => Qle_bool (nth j (lower h) 0%Q) x && (if (j + 2 =? nq)%nat then Qle_bool x (nth j (upper h) 0%Q) else negb (Qle_bool (nth j (upper h) 0%Q) x))) col).
Proof.
  unfold quantile_histogram. intros H Hi Hj. destruct (percentiles (concat data) nq) as [e|] eqn:E; [|discriminate]. cbn [bind] in H. injection H as <-. cbn [counts lower upper].
  assert (Hl : length e = nq) by (unfold percentiles in E; destruct (concat data); [discriminate|]; injection E as <-; now rewrite map_length, seq_length).
  exists (histogram Qle_bool e col). split; [now apply map_nth_error|]. clear E Hi. subst nq. revert j Hj. induction e as [|a e IH]; intros j Hj; [cbn in Hj; lia|].
  destruct e as [|b r]; [cbn in Hj; lia|]. destruct j as [|j].
  - cbn [histogram nth_error length firstn Nat.sub nth tl]. f_equal. apply count_ext. intros x _. destruct r as [|c r]; cbn; reflexivity.
  - change (histogram Qle_bool (a :: b :: r) col) with (count (fun x => Qle_bool a x && match r with [] => Qle_bool x b | _ => ltb_ Qle_bool x b end) col :: histogram Qle_bool (b :: r) col).
    cbn [nth_error]. rewrite IH by (cbn [length] in *; lia). f_equal. apply count_ext. intros x _.
    assert (E1 : nth (S j) (firstn (length (a :: b :: r) - 1) (a :: b :: r)) 0%Q = nth j (firstn (length (b :: r) - 1) (b :: r)) 0%Q).
    { cbn [length]. replace (S (S (length r)) - 1) with (S (length r)) by lia. replace (S (length r) - 1) with (length r) by lia. reflexivity. }
    rewrite E1. destruct r as [|c r]; [cbn in Hj; lia|]. reflexivity.
Qed.
(** With zero_inflation: zeros have their own bin; nothing is lost if no observation is negative and one is positive. *)
Theorem C46_zero_inflation_partial data nq : (forall x, In x (concat data) -> (0 <= x)%Q) -> (exists x, In x (concat data) /\ (0 < x)%Q) -> 2 <= nq ->
  exists h, quantile_histogram data nq true = Ok h /\ map total (counts h) = map (@length Q) data /\
    map (hd 0) (counts h) = map (fun col => length (filter (fun x => Qeq_bool x 0) col)) data.
Proof.
  intros Hpos (x0 & Hx0 & Hp0) Hn. unfold quantile_histogram. set (qd := filter _ (concat data)).
  assert (Hne : qd <> []).
  { intros E. assert (H : In x0 qd) by (apply filter_In; split; auto; unfold ltb_; apply negb_true_iff, qleb_false; auto). rewrite E in H. easy. }
  destruct (percentiles_ok _ nq Hne Hn) as (e & E & Hl & Hs & Hb). rewrite E. cbn [bind]. eexists; split; [reflexivity|]. cbn [counts].
  assert (G : forall d, (forall col, In col d -> In col data) ->
     map total (map (fun p => count (fun x => Qeq_bool x 0) (fst p) :: snd p) (combine d (map (histogram Qle_bool e) (map (filter (fun x => negb (Qeq_bool x 0))) d)))) = map (@length Q) d /\
     map (hd 0) (map (fun p => count (fun x => Qeq_bool x 0) (fst p) :: snd p) (combine d (map (histogram Qle_bool e) (map (filter (fun x => negb (Qeq_bool x 0))) d)))) = map (fun col => length (filter (fun x => Qeq_bool x 0) col)) d).
  { induction d as [|col d IH]; intros Hd; [split; reflexivity|]. destruct (IH (fun c Hc => Hd c (or_intror Hc))) as (I1 & I2). cbn [map combine fst snd hd]. rewrite I1, I2. split; [|reflexivity]. f_equal.
    cbn [total fold_right]. fold (total (histogram Qle_bool e (filter (fun x => negb (Qeq_bool x 0)) col))). rewrite histogram_total by (auto; lia). rewrite (count_all _ (filter (fun x => negb (Qeq_bool x 0)) col)).
    - clear. unfold count. induction col as [|x col IH]; [reflexivity|]. cbn [filter]. destruct (Qeq_bool x 0); cbn [negb length]; lia.
    - intros x Hx. apply filter_In in Hx as (Hx & Hz). apply andb_true_iff. rewrite !Qle_bool_iff, Hl. apply Hb. assert (Hin : In x (concat data)) by (apply in_concat; exists col; split; auto; apply Hd; now left).
      apply filter_In. split; auto. unfold ltb_. apply negb_true_iff, qleb_false. specialize (Hpos x Hin). apply Qle_lteq in Hpos as [H|H]; auto. apply negb_true_iff in Hz. exfalso.
      apply Qeq_bool_neq in Hz. apply Hz. now symmetry. }
  apply G. auto.
Qed.
(** Negative observations are dropped, and data without a positive observation is an error. *)
Theorem C46_zero_inflation_refuted : exists data h, quantile_histogram data 2 true = Ok h /\ map total (counts h) <> map (@length Q) data /\
  quantile_histogram [[0; 0]]%Q 2 true = Err IndexError.
Proof. exists [[0; -(1); 2]]%Q. eexists. split; [reflexivity|]. split; [discriminate|reflexivity]. Qed.
(** A single quantile gives no bin at all. *)
Theorem C46_one_quantile_refuted data : concat data <> [] -> exists h, quantile_histogram data 1 false = Ok h /\ map total (counts h) = map (fun _ => 0) data.
Proof.
  intros H. unfold quantile_histogram, percentiles. destruct (concat data); [congruence|]. cbn [bind]. eexists. split; [reflexivity|]. cbn [counts seq map histogram].
  rewrite map_map. reflexivity.
Qed.
Example C46_quantile_example : exists h, quantile_histogram [[1; 2; 5; 4; 3]]%Q 3 false = Ok h /\ counts h = [[2; 3]] /\ (nth 0 (upper h) 0 == 3)%Q.
Proof. eexists. split; [reflexivity|]. split; reflexivity. Qed.
Example C46_zero_inflation_example : exists h, quantile_histogram [[0; 1; 2]; [0; 0; 4]]%Q 3 true = Ok h /\ counts h = [[1; 1; 1]; [2; 0; 1]] /\
  (forall x, In x (concat [[0; 1; 2]; [0; 0; 4]]%Q) -> (0 <= x)%Q).
Proof. eexists. split; [reflexivity|]. split; [reflexivity|]. cbn. intros x [<-|[<-|[<-|[<-|[<-|[<-|[]]]]]]]; discriminate. Qed.
Example C46_min_count_example : discrete_histogram [[1; 1; 2; 4; 4; 4]]%Z (Some 2) = Ok ([1; 4]%Z, [[3; 3]]) /\
  discrete_histogram [[0; 1; 1; 2; 2]]%Z (Some 2) = Ok ([1; 2]%Z, [[2; 2]]).
Proof. split; reflexivity. Qed.
