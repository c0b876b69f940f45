(** General lemmas about the structural model. *)
From Coq Require Import Reals String Ascii Lra.
From Verif Require Import Common Struct_Model Struct_Spec.
Open Scope nat_scope.

(** *** sums *)
Lemma rsum_ext n f g : (forall i, i < n -> f i = g i) -> rsum n f = rsum n g.
Proof. induction n; simpl; intros H; auto. rewrite IHn, H; auto. Qed.

Lemma rsum_0 n f : (forall i, i < n -> f i = 0%R) -> rsum n f = 0%R.
Proof. induction n; simpl; intros H; auto. rewrite IHn, H by auto. lra. Qed.

Lemma rsum_plus n f g : rsum n (fun i => f i + g i)%R = (rsum n f + rsum n g)%R.
Proof. induction n; simpl; [lra|]. rewrite IHn. lra. Qed.

Lemma rsum_opp n f : rsum n (fun i => - f i)%R = (- rsum n f)%R.
Proof. induction n; simpl; [lra|]. rewrite IHn. lra. Qed.

Lemma rsum_scal n c f : rsum n (fun i => c * f i)%R = (c * rsum n f)%R.
Proof. induction n; simpl; [lra|]. rewrite IHn. lra. Qed.

Lemma rsum_app n m f : rsum (n + m) f = (rsum n f + rsum m (fun i => f (n + i)%nat))%R.
Proof.
  induction m; simpl; [rewrite Nat.add_0_r; lra|].
  rewrite Nat.add_succ_r; simpl. rewrite IHm. lra.
Qed.

Lemma rsum_S n f : rsum (S n) f = (f O + rsum n (fun i => f (S i)))%R.
Proof. change (S n) with (1 + n). rewrite rsum_app. simpl. lra. Qed.

(** one nonzero term *)
Lemma rsum_one n f k : k < n -> (forall i, i < n -> i <> k -> f i = 0%R) -> rsum n f = f k.
Proof.
  induction n; intros Hk H; [lia|]. simpl.
  destruct (Nat.eq_dec k n) as [->|Hn].
  - rewrite rsum_0; [lra|]. intros; apply H; lia.
  - rewrite IHn by (try lia; intros; apply H; lia). rewrite (H n) by lia. lra.
Qed.

Lemma rsum_eye n f k : k < n -> rsum n (fun j => eye k j * f j)%R = f k.
Proof.
  intros Hk. rewrite (rsum_one n _ k); auto.
  - unfold eye, eye_below. rewrite Nat.add_0_r, Nat.eqb_refl. lra.
  - intros i _ Hi. unfold eye, eye_below. rewrite Nat.add_0_r.
    destruct (Nat.eqb_spec k i); [congruence|]. lra.
Qed.

Lemma rsum_rev n : forall f, rsum n f = rsum n (fun i => f (n - 1 - i)).
Proof.
  induction n; auto. intros f. rewrite rsum_S. simpl. rewrite Nat.sub_0_r.
  rewrite Rplus_comm. f_equal.
  - rewrite (rsum_ext n (fun i => f (n - i)) (fun i => (fun k => f (S k)) (n - 1 - i))).
    + apply (IHn (fun k => f (S k))).
    + intros i Hi. simpl. f_equal. lia.
  - f_equal; lia.
Qed.

Lemma rsum_lt_ext n m f : n <= m -> (forall i, n <= i < m -> f i = 0%R) -> rsum m f = rsum n f.
Proof.
  intros H Hz. replace m with (n + (m - n)) by lia. rewrite rsum_app.
  rewrite (rsum_0 (m - n)); [lra|]. intros; apply Hz; lia.
Qed.

(** *** dictionaries and strings *)
Lemma smem_In k l : smem k l = true <-> In k l.
Proof.
  unfold smem. rewrite existsb_exists. split.
  - intros [x [Hx E]]. apply String.eqb_eq in E. congruence.
  - intros H. exists k. split; auto. apply String.eqb_refl.
Qed.

Lemma dget_In {V} (d : dict V) k v : dget d k = Some v -> In (k, v) d.
Proof.
  induction d as [|[k' v'] d IH]; simpl; [discriminate|].
  destruct (String.eqb_spec k k'); intros H; [inversion H; subst; auto|auto].
Qed.

Lemma dmem_In {V} (d : dict V) k : dmem d k = true <-> In k (dkeys d).
Proof.
  unfold dmem, dkeys. induction d as [|[k' v'] d IH]; simpl.
  - split; [discriminate|tauto].
  - destruct (String.eqb_spec k k'); [subst; intuition|]. rewrite IH. intuition congruence.
Qed.

Lemma dmem_false {V} (d : dict V) k : dmem d k = false <-> ~ In k (dkeys d).
Proof. rewrite <- dmem_In. destruct (dmem d k); intuition congruence. Qed.

Lemma dset_fresh {V} (d : dict V) k v : ~ In k (dkeys d) -> dset d k v = (d ++ [(k, v)])%list.
Proof.
  induction d as [|[k' v'] d IH]; simpl; auto. intros H.
  destruct (String.eqb_spec k k'); [subst; tauto|]. rewrite IH; auto.
Qed.

Lemma dkeys_app {V} (a b : dict V) : dkeys (a ++ b)%list = (dkeys a ++ dkeys b)%list.
Proof. apply map_app. Qed.

Lemma dupdate_disjoint {V} (a b : dict V) :
  NoDup (dkeys b) -> (forall k, In k (dkeys a) -> ~ In k (dkeys b)) -> dupdate a b = (a ++ b)%list.
Proof.
  unfold dupdate. revert a. induction b as [|[k v] b IH]; intros a Hn Hd; simpl.
  - now rewrite app_nil_r.
  - inversion Hn; subst. rewrite dset_fresh by (intros Hk; apply (Hd k Hk); left; auto).
    rewrite IH; auto.
    + rewrite <- app_assoc. auto.
    + intros k' Hk'. rewrite dkeys_app in Hk'. apply in_app_or in Hk'. simpl in Hk'.
      destruct Hk' as [Hk'|[<-|[]]]; [|exact H1].
      intros Hb. apply (Hd k' Hk'). right; auto.
Qed.

Lemma dget_app {V} (a b : dict V) k :
  dget (a ++ b)%list k = match dget a k with Some v => Some v | None => dget b k end.
Proof.
  induction a as [|[k' v'] a IH]; simpl; auto. destruct (String.eqb k k'); auto.
Qed.

(** count of a character, to tell concatenated names apart *)
Fixpoint count_char (c : ascii) (s : string) : nat :=
  match s with
  | EmptyString => 0
  | String a s' => (if Ascii.eqb a c then 1 else 0) + count_char c s'
  end.
Lemma count_char_append c a b : count_char c (a ++ b)%string = count_char c a + count_char c b.
Proof. induction a; simpl; auto. rewrite IHa. lia. Qed.

Lemma append_neq c u v x :
  count_char c u <> count_char c v -> (u ++ x)%string <> (x ++ v)%string.
Proof.
  intros H E. apply (f_equal (count_char c)) in E. rewrite !count_char_append in E. lia.
Qed.
Lemma append_self_neq u x : u <> EmptyString -> (u ++ x)%string <> x.
Proof.
  intros H E. apply (f_equal String.length) in E.
  assert (forall a b, String.length (a ++ b)%string = String.length a + String.length b) as HL
    by (intros a b; induction a; simpl; auto).
  rewrite HL in E. destruct u; simpl in *; [congruence|lia].
Qed.
Lemma append_self_neq_r u x : u <> EmptyString -> (x ++ u)%string <> x.
Proof.
  intros H E. apply (f_equal String.length) in E.
  assert (forall a b, String.length (a ++ b)%string = String.length a + String.length b) as HL
    by (intros a b; induction a; simpl; auto).
  rewrite HL in E. destruct u; simpl in *; [congruence|lia].
Qed.

(** *** component construction *)
Lemma register_all pn uid ph vars :
  NoDup (map fst ph) -> incl (map fst ph) pn ->
  (forall n, In n (map fst ph) -> ~ In n (dkeys vars)) ->
  fold_left (fun acc ns => do d <- acc; make_and_register_variable pn d uid (fst ns) (snd ns))
    ph (Ok vars)
  = Ok (vars ++ map (fun ns : string * list nat => (fst ns, ((uid, fst ns), snd ns))) ph)%list.
Proof.
  revert vars. induction ph as [|[n sh] ph IH]; intros vars Hn Hi Hf; simpl.
  - now rewrite app_nil_r.
  - inversion Hn; subst. unfold make_and_register_variable at 2.
    assert (smem n pn = true) as ->.
    { apply smem_In. apply Hi. simpl; auto. }
    assert (dmem vars n = false) as ->.
    { apply dmem_false. apply Hf. simpl; auto. }
    simpl. rewrite IH; auto.
    + rewrite <- app_assoc. auto.
    + intros x Hx. apply Hi. simpl; auto.
    + intros x Hx. rewrite dkeys_app. intros Hin. apply in_app_or in Hin. simpl in Hin.
      destruct Hin as [Hin|[<-|[]]]; [|exact (H1 Hx)].
      apply (Hf x); simpl; auto.
Qed.

Lemma mk_component_ok uid name ks kp merr comb obs sn dn shn pn en coords pd pi di ph rep :
  NoDup (map fst ph) -> incl (map fst ph) pn ->
  mk_component uid name ks kp merr comb obs sn dn shn pn en coords pd pi di ph rep =
  Ok (Comp name ks kp merr sn dn shn pn en coords pd pi di
        (map (fun ns => (fst ns, ((uid, fst ns), snd ns))) ph)
        (map (fun n => (n, (uid, n))) dn) [(name, CInfo ks kp comb obs)] rep).
Proof.
  intros Hn Hi. unfold mk_component. rewrite register_all; auto.
Qed.

(** *** masks *)
Lemma flatnonzero_cons b m :
  flatnonzero (b :: m) = ((if b then [0] else []) ++ map S (flatnonzero m))%list.
Proof.
  unfold flatnonzero. simpl. rewrite <- seq_shift.
  assert (filter (fun i : nat => match i with 0 => b | S m0 => nth m0 m false end)
            (map S (seq 0 (length m)))
          = map S (filter (fun i => nth i m false) (seq 0 (length m)))) as E.
  { induction (seq 0 (length m)); simpl; auto. destruct (nth a m false); simpl; congruence. }
  rewrite E. destruct b; auto.
Qed.

Lemma flatnonzero_length m : length (flatnonzero m) = bsum m.
Proof.
  induction m; auto. rewrite flatnonzero_cons, app_length, map_length, IHm.
  unfold bsum. simpl. destruct a; auto.
Qed.

Lemma flatnonzero_In m i : In i (flatnonzero m) <-> nth i m false = true.
Proof.
  unfold flatnonzero. rewrite filter_In, in_seq. split; [tauto|]. intros H. split; auto.
  split; [lia|]. simpl. destruct (Nat.lt_ge_cases i (length m)); auto.
  rewrite nth_overflow in H by auto. discriminate.
Qed.

Lemma flatnonzero_NoDup m : NoDup (flatnonzero m).
Proof. apply NoDup_filter, seq_NoDup. Qed.

Lemma rank_cons b m i : rank (b :: m) (S i) = (if b then 1 else 0) + rank m i.
Proof. unfold rank, bsum. simpl. destruct b; auto. Qed.

Lemma rank_lt m i : nth i m false = true -> rank m i < bsum m.
Proof.
  revert i. induction m; intros [|i]; simpl; intros H; try discriminate.
  - subst. unfold rank, bsum. simpl. lia.
  - rewrite rank_cons. specialize (IHm i H). unfold bsum in *. simpl. destruct a; simpl; lia.
Qed.

(** the enabled entry of rank k sits at position flatnonzero[k] *)
Lemma flatnonzero_rank m i : nth i m false = true -> nth (rank m i) (flatnonzero m) 0 = i.
Proof.
  revert i. induction m as [|b m IH]; intros i H; [destruct i; discriminate|].
  rewrite flatnonzero_cons. destruct i.
  - simpl in H. subst b. reflexivity.
  - rewrite rank_cons. simpl in H. rewrite app_nth2 by (destruct b; simpl; lia).
    replace ((if b then 1 else 0) + rank m i - length (if b then [0] else [])) with (rank m i)
      by (destruct b; simpl; lia).
    rewrite nth_indep with (d' := S 0)
      by (rewrite map_length, flatnonzero_length; apply rank_lt; auto).
    rewrite map_nth. rewrite IH; auto.
Qed.

Lemma rank_flatnonzero m k : k < bsum m -> rank m (nth k (flatnonzero m) 0) = k.
Proof.
  revert k. induction m as [|b m IH]; intros k Hk; [unfold bsum in Hk; simpl in Hk; lia|].
  rewrite flatnonzero_cons. unfold bsum in Hk. simpl in Hk. destruct b; simpl in *.
  - destruct k; auto. rewrite nth_indep with (d' := S 0)
      by (rewrite map_length, flatnonzero_length; unfold bsum; lia).
    rewrite map_nth, rank_cons. rewrite IH; auto. unfold bsum; lia.
  - rewrite nth_indep with (d' := S 0) by (rewrite map_length, flatnonzero_length; unfold bsum; lia).
    rewrite map_nth, rank_cons. rewrite IH; auto.
Qed.

(** *** fancy assignment *)
Lemma set_fancy_gen (M : mat) (ps : list (nat * nat)) (vals : nat -> R) base i j :
  fold_left (fun acc kij => let '(k, (i0, j0)) := kij in
               fun i j => if (i =? i0) && (j =? j0) then vals k else acc i j)
    (combine (seq base (length ps)) ps) M i j =
  match find (fun kp : nat * (nat * nat) => let '(k, (i0, j0)) := kp in (i =? i0) && (j =? j0))
         (rev (combine (seq base (length ps)) ps)) with
  | Some (k, _) => vals k
  | None => M i j
  end.
Proof.
  revert M base. induction ps as [|[i0 j0] ps IH]; intros M base; simpl; auto.
  rewrite IH. clear IH.
  assert (forall {A} (f : A -> bool) l1 x, find f (l1 ++ [x])%list =
            match find f l1 with Some y => Some y | None => if f x then Some x else None end) as FA.
  { clear. intros A f l1 x. induction l1; simpl; auto. destruct (f a); auto. }
  rewrite FA. destruct (find _ _) as [[k p]|]; auto.
  destruct ((i =? i0) && (j =? j0)); auto.
Qed.

Lemma combine_map_rows (rows cols : list nat) :
  length rows = length cols -> length (combine rows cols) = length rows.
Proof. intros H. rewrite combine_length. lia. Qed.

(** the entry written by the k-th pair, when the pairs are distinct *)
Lemma set_fancy_hit M rows cols vals k :
  length rows = length cols -> NoDup (combine rows cols) -> k < length rows ->
  set_fancy M rows cols vals (nth k rows 0) (nth k cols 0) = vals k.
Proof.
  intros HL HN Hk. unfold set_fancy. rewrite <- (combine_map_rows rows cols HL).
  rewrite set_fancy_gen.
  set (ps := combine rows cols) in *.
  assert (Hp : nth k ps (0, 0) = (nth k rows 0, nth k cols 0)) by (apply combine_nth; auto).
  assert (Hkp : k < length ps) by (unfold ps; rewrite combine_map_rows; auto).
  destruct (find _ _) as [[k' [i' j']]|] eqn:F.
  - apply find_some in F. destruct F as [F1 F2]. apply in_rev in F1.
    apply andb_prop in F2. destruct F2 as [F2 F3].
    apply Nat.eqb_eq in F2. apply Nat.eqb_eq in F3.
    apply In_nth with (d := (0, (0, 0))) in F1. destruct F1 as [q [Hq Eq]].
    rewrite combine_length, seq_length, Nat.min_id in Hq.
    rewrite combine_nth in Eq by apply seq_length. rewrite seq_nth in Eq by auto.
    inversion Eq; subst k'. f_equal. simpl.
    apply (proj1 (NoDup_nth ps (0, 0)) HN); auto. rewrite Hp. congruence.
  - exfalso. pose proof (find_none _ _ F (k, (nth k rows 0, nth k cols 0))) as FN.
    simpl in FN. rewrite !Nat.eqb_refl in FN. simpl in FN. discriminate FN.
    apply -> in_rev. rewrite <- Hp.
    replace (k, nth k ps (0, 0)) with (nth k (combine (seq 0 (length ps)) ps) (0, (0, 0))).
    + apply nth_In. rewrite combine_length, seq_length, Nat.min_id. auto.
    + rewrite combine_nth by apply seq_length. rewrite seq_nth; auto.
Qed.

Lemma set_fancy_miss M rows cols vals i j :
  length rows = length cols -> ~ In (i, j) (combine rows cols) ->
  set_fancy M rows cols vals i j = M i j.
Proof.
  intros HL HN. unfold set_fancy. rewrite <- (combine_map_rows rows cols HL).
  rewrite set_fancy_gen. destruct (find _ _) as [[k' [i' j']]|] eqn:F; auto.
  exfalso. apply find_some in F. destruct F as [F1 F2]. apply in_rev in F1.
  apply andb_prop in F2. destruct F2 as [F2 F3].
  apply Nat.eqb_eq in F2. apply Nat.eqb_eq in F3. subst.
  apply in_combine_r in F1. auto.
Qed.

Lemma combine_same (l : list nat) : combine l l = map (fun x => (x, x)) l.
Proof. induction l; simpl; congruence. Qed.

Lemma NoDup_map_inj {A B} (f : A -> B) l :
  (forall x y, f x = f y -> x = y) -> NoDup l -> NoDup (map f l).
Proof.
  intros Hf. induction 1; simpl; constructor; auto.
  rewrite in_map_iff. intros [y [E Hy]]. apply Hf in E. congruence.
Qed.

(** diagonal assignment *)
Lemma set_diag k vals i j :
  i < k -> set_fancy zmat (seq 0 k) (seq 0 k) vals i j = if i =? j then vals i else 0%R.
Proof.
  intros Hi. destruct (Nat.eqb_spec i j) as [<-|H].
  - replace (set_fancy zmat (seq 0 k) (seq 0 k) vals i i) with
      (set_fancy zmat (seq 0 k) (seq 0 k) vals (nth i (seq 0 k) 0) (nth i (seq 0 k) 0)).
    + apply set_fancy_hit; auto.
      * rewrite combine_same. apply NoDup_map_inj; [intros; congruence|apply seq_NoDup].
      * rewrite seq_length. auto.
    + rewrite seq_nth by auto. auto.
  - rewrite set_fancy_miss; auto. rewrite combine_same, in_map_iff.
    intros [x [E _]]. inversion E. congruence.
Qed.

(** *** triu *)
Lemma triu_pairs n i j :
  In (i, j) (combine (fst (triu_indices n)) (snd (triu_indices n))) <-> i <= j < n.
Proof.
  unfold triu_indices.
  destruct (split (flat_map (fun i => map (fun j => (i, j)) (seq i (n - i))) (seq 0 n))) as [a b] eqn:E.
  simpl. assert (combine a b = flat_map (fun i => map (fun j => (i, j)) (seq i (n - i))) (seq 0 n)) as ->.
  { pose proof (split_combine (flat_map (fun i => map (fun j => (i, j)) (seq i (n - i))) (seq 0 n))) as S.
    rewrite E in S. apply S; auto. }
  rewrite in_flat_map. split.
  - intros [x [Hx Hj]]. rewrite in_map_iff in Hj. destruct Hj as [y [Ey Hy]].
    inversion Ey; subst. rewrite in_seq in *. lia.
  - intros H. exists i. split; [rewrite in_seq; lia|]. apply in_map. rewrite in_seq. lia.
Qed.

Lemma triu_len n : length (fst (triu_indices n)) = length (snd (triu_indices n)).
Proof. unfold triu_indices. rewrite split_length_l, split_length_r. auto. Qed.

Lemma set_const_in M rows cols (v : R) i j :
  length rows = length cols -> In (i, j) (combine rows cols) ->
  set_fancy M rows cols (fun _ => v) i j = v.
Proof.
  intros HL HI. unfold set_fancy. rewrite <- (combine_map_rows rows cols HL).
  rewrite set_fancy_gen. destruct (find _ _) as [[k' [i' j']]|] eqn:F; auto.
  exfalso. apply In_nth with (d := (0,0)) in HI. destruct HI as [q [Hq Eq]].
  pose proof (find_none _ _ F (q, (i, j))) as FN.
  simpl in FN. rewrite !Nat.eqb_refl in FN. simpl in FN. discriminate FN.
  apply -> in_rev. 
  replace (q, (i, j)) with (nth q (combine (seq 0 (length (combine rows cols))) (combine rows cols)) (0, (0, 0))).
  + apply nth_In. rewrite combine_length, seq_length, Nat.min_id. auto.
  + rewrite combine_nth by apply seq_length. rewrite seq_nth, Eq; auto.
Qed.

Lemma triu_entry n i j : i < n -> j < n ->
  set_fancy zmat (fst (triu_indices n)) (snd (triu_indices n)) (fun _ => 1%R) i j
  = if i <=? j then 1%R else 0%R.
Proof.
  intros Hi Hj. destruct (Nat.leb_spec i j).
  - apply set_const_in; [apply triu_len|]. apply triu_pairs. lia.
  - rewrite set_fancy_miss; [auto|apply triu_len|]. rewrite triu_pairs. lia.
Qed.
