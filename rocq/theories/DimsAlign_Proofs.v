From Coq Require Import Permutation.
From Verif Require Import Common LogR Dims_Model DimsAlign_Model DimsAlign_Spec.
Local Open Scope nat_scope.

Definition is_none (o : option nat) : bool := match o with None => true | _ => false end.

(** *** filter of connected indices *)
Lemma filter_flat_map {A B} (f : A -> list B) p l :
  filter p (flat_map f l) = flat_map (fun a => filter p (f a)) l.
Proof. induction l as [|a l IH]; simpl; [reflexivity|]. now rewrite filter_app, IH. Qed.

Lemma filter_map_cons p k (L : list (list nat)) :
  filter p (map (cons k) L) = map (cons k) (filter (fun i => p (k :: i)) L).
Proof. induction L as [|a L IH]; simpl; [reflexivity|]. destruct (p (k :: a)); simpl; now rewrite IH. Qed.

Lemma flat_map_single {B} (g : nat -> list B) c : forall n s,
  s <= c < s + n -> (forall k, k <> c -> g k = []) -> flat_map g (seq s n) = g c.
Proof.
  induction n as [|n IH]; intros s Hc Hk; [lia|]. simpl.
  destruct (Nat.eq_dec s c) as [->|Hne].
  - assert (Hz : flat_map g (seq (S c) n) = []).
    { assert (Hgen : forall m t, c < t -> flat_map g (seq t m) = []).
      { induction m as [|m IHm]; intros t Ht; simpl; [reflexivity|].
        rewrite (Hk t) by lia. simpl. apply IHm. lia. }
      apply Hgen. lia. }
    rewrite Hz. apply app_nil_r.
  - rewrite (Hk s Hne). simpl. apply IH; [lia | exact Hk].
Qed.

Lemma filter_false {A} (p : A -> bool) l : (forall a, In a l -> p a = false) -> filter p l = [].
Proof.
  induction l as [|a l IH]; intros H; simpl; [reflexivity|].
  rewrite (H a (or_introl eq_refl)). apply IH. intros x Hx. apply H. now right.
Qed.

Lemma map_flat_map {A B C} (f : A -> list B) (g : B -> C) l :
  map g (flat_map f l) = flat_map (fun a => map g (f a)) l.
Proof. induction l as [|a l IH]; simpl; [reflexivity|]. now rewrite map_app, IH. Qed.

Lemma connected_indices d b : forall s, length d = length s ->
  (forall k j, nth k d None = Some j -> nth j b 0 < nth k s 0) ->
  filter (connected d b) (all_indices s)
  = map (fun red => merge_index (map is_none d) (map (fun j => nth j b 0) (known_dims d)) red)
        (all_indices (select true (map is_none d) s)).
Proof.
  induction d as [|o d IH]; intros [|n s] Hlen Hb; simpl in Hlen; try discriminate; [reflexivity|].
  injection Hlen as Hlen.
  assert (Hb' : forall k j, nth k d None = Some j -> nth j b 0 < nth k s 0).
  { intros k j Hk. apply (Hb (S k) j Hk). }
  specialize (IH s Hlen Hb').
  destruct o as [j|]; simpl.
  - rewrite filter_flat_map.
    rewrite (flat_map_single _ (nth j b 0)).
    + rewrite filter_map_cons.
      rewrite (filter_ext _ (connected d b)).
      2:{ intros i. unfold connected. simpl. now rewrite Nat.eqb_refl. }
      rewrite IH, map_map. reflexivity.
    + pose proof (Hb 0 j eq_refl). simpl in H. lia.
    + intros k Hk. rewrite filter_map_cons.
      rewrite filter_false; [reflexivity|].
      intros a _. unfold connected. simpl. apply Nat.eqb_neq in Hk. now rewrite Hk.
  - rewrite filter_flat_map, map_flat_map. apply flat_map_ext. intros k.
    rewrite filter_map_cons.
    rewrite (filter_ext _ (connected d b)) by (intros i; reflexivity).
    rewrite IH, !map_map. reflexivity.
Qed.

(** *** the summed axes are exactly the unknown ones *)

Lemma supp_axes_from_in r : forall i x, 0 < i ->
  In x (supp_axes_from i r 0) <-> (i <= x /\ x - i < length r /\ nth (x - i) r (Some 0) = None).
Proof.
  induction r as [|o r IH]; intros i x Hi; simpl.
  - split; [easy | intros [? [? ?]]; lia].
  - destruct o as [j|].
    + rewrite IH by lia. split.
      * intros [H1 [H2 H3]]. replace (x - i) with (S (x - S i)) by lia. repeat split; auto; lia.
      * intros [H1 [H2 H3]]. destruct (x - i) as [|m] eqn:E; [discriminate|].
        replace (x - S i) with m by lia. repeat split; auto; lia.
    + destruct i as [|i]; [lia|]. change (S i <=? 0) with false. cbv iota.
      cbn [In]. rewrite IH by lia. split.
      * intros [<- | [H1 [H2 H3]]].
        -- replace (S i - S i) with 0 by lia. repeat split; auto; lia.
        -- replace (x - S i) with (S (x - S (S i))) by lia. repeat split; auto; lia.
      * intros [H1 [H2 H3]]. destruct (Nat.eq_dec (S i) x) as [->|Hne]; [now left|right].
        replace (x - S i) with (S (x - S (S i))) in H3 by lia. repeat split; try lia.
        replace (x - S (S i)) with (x - S (S i)) by lia. exact H3.
Qed.

Lemma supp_axes_in d x :
  In x (supp_axes d 0) <-> (1 <= x <= length d /\ nth (length d - x) d (Some 0) = None).
Proof.
  unfold supp_axes. rewrite supp_axes_from_in by lia. rewrite rev_length. split.
  - intros [H1 [H2 H3]]. split; [lia|]. rewrite rev_nth in H3 by lia.
    now replace (length d - x) with (length d - S (x - 1)) by lia.
  - intros [H1 H2]. repeat split; try lia. rewrite rev_nth by lia.
    now replace (length d - S (x - 1)) with (length d - x) by lia.
Qed.

Lemma sum_mask d : forall nd, nd = length d ->
  map (fun a => existsb (fun i => Nat.eqb a (nd - i)) (supp_axes d 0)) (seq 0 nd) = map is_none d.
Proof.
  intros nd ->. apply nth_ext with (d := false) (d' := false).
  - now rewrite !map_length, seq_length.
  - intros k Hk. rewrite map_length, seq_length in Hk.
    rewrite nth_indep with (d' := (fun a => existsb (fun i => Nat.eqb a (length d - i)) (supp_axes d 0)) 0)
      by (now rewrite map_length, seq_length).
    rewrite (map_nth (fun a => existsb (fun i => Nat.eqb a (length d - i)) (supp_axes d 0))).
    rewrite seq_nth by exact Hk. simpl.
    rewrite nth_indep with (l := map is_none d) (d' := is_none (Some 0)) by (now rewrite map_length).
    rewrite map_nth. apply eq_iff_eq_true. rewrite existsb_exists. split.
    + intros [x [Hx Hk']]. apply Nat.eqb_eq in Hk'. apply supp_axes_in in Hx.
      destruct Hx as [H1 H2]. rewrite Hk', H2. reflexivity.
    + intros Hn. exists (length d - k). split.
      * apply supp_axes_in. split; [lia|].
        replace (length d - (length d - k)) with k by lia.
        destruct (nth k d (Some 0)); [discriminate | reflexivity].
      * apply Nat.eqb_eq. lia.
Qed.

Lemma sum_axes_ok d t : length d = length (lt_shape t) ->
  sum_axes t (supp_axes d 0) =
  Ok {| lt_shape := select false (map is_none d) (lt_shape t);
        lt_at := fun idx => lsum (map (fun red => lt_at t (merge_index (map is_none d) idx red))
                                      (all_indices (select true (map is_none d) (lt_shape t)))) |}.
Proof.
  intros Hlen. unfold sum_axes.
  assert (Hall : forallb (fun i => i <=? length (lt_shape t)) (supp_axes d 0) = true).
  { apply forallb_forall. intros x Hx. apply supp_axes_in in Hx. apply Nat.leb_le. lia. }
  rewrite Hall. rewrite sum_mask by (now symmetry). reflexivity.
Qed.

Lemma select_false_shape d : forall s xshape, length d = length s ->
  (forall k j, nth k d None = Some j -> nth k s 0 = nth j xshape 0) ->
  select false (map is_none d) s = map (fun j => nth j xshape 0) (known_dims d).
Proof.
  induction d as [|o d IH]; intros [|n s] xshape Hlen H; simpl in Hlen; try discriminate; [reflexivity|].
  injection Hlen as Hlen.
  assert (H' : forall k j, nth k d None = Some j -> nth k s 0 = nth j xshape 0).
  { intros k j Hk. apply (H (S k) j Hk). }
  destruct o as [j|]; simpl.
  - rewrite (IH s xshape Hlen H'). f_equal. apply (H 0 j eq_refl).
  - apply (IH s xshape Hlen H').
Qed.

(** *** permutations as lists *)
Lemma perm_is_perm p n : Permutation p (seq 0 n) -> is_perm p n = true.
Proof.
  intros HP. unfold is_perm. rewrite (Permutation_length HP), seq_length, Nat.eqb_refl. simpl.
  apply forallb_forall. intros k Hk. apply existsb_exists. exists k. split.
  - now apply (Permutation_in _ (Permutation_sym HP)).
  - apply Nat.eqb_refl.
Qed.

Lemma index_of_nth p k d : In k p -> nth (index_of k p) p d = k.
Proof.
  induction p as [|x p IH]; simpl; [easy|]. intros H.
  destruct (Nat.eqb_spec x k) as [->|Hne]; [reflexivity|]. apply IH. destruct H; [contradiction|assumption].
Qed.
Lemma index_of_lt p k : In k p -> index_of k p < length p.
Proof.
  induction p as [|x p IH]; simpl; [easy|]. intros H.
  destruct (Nat.eqb_spec x k) as [->|Hne]; [lia|].
  destruct H as [H|H]; [contradiction|]. specialize (IH H). lia.
Qed.
Lemma index_of_unique p k m d : NoDup p -> m < length p -> nth m p d = k -> index_of k p = m.
Proof.
  intros Hnd Hm Hk. assert (Hin : In k p) by (rewrite <- Hk; now apply nth_In).
  pose proof (index_of_lt p k Hin) as Hl.
  pose proof (index_of_nth p k d Hin) as Hn.
  rewrite NoDup_nth with (d := d) in Hnd. apply Hnd; auto. congruence.
Qed.

Lemma map_nth_seq {A} (l : list A) d : map (fun k => nth k l d) (seq 0 (length l)) = l.
Proof.
  apply nth_ext with (d := d) (d' := d).
  - now rewrite map_length, seq_length.
  - intros k Hk. rewrite map_length, seq_length in Hk.
    rewrite nth_indep with (d' := (fun k => nth k l d) 0) by (now rewrite map_length, seq_length).
    rewrite (map_nth (fun k => nth k l d)). now rewrite seq_nth.
Qed.

Lemma perm_facts p n : Permutation p (seq 0 n) ->
  length p = n /\ NoDup p /\ (forall k, k < n -> In k p) /\ (forall k, k < n -> nth k p 0 < n).
Proof.
  intros HP. assert (Hl : length p = n) by (rewrite (Permutation_length HP); apply seq_length).
  repeat split; auto.
  - apply (Permutation_NoDup (Permutation_sym HP)). apply seq_NoDup.
  - intros k Hk. apply (Permutation_in _ (Permutation_sym HP)). apply in_seq. lia.
  - intros k Hk. assert (Hin : In (nth k p 0) (seq 0 n)).
    { apply (Permutation_in _ HP). apply nth_In. lia. }
    apply in_seq in Hin. lia.
Qed.

Lemma index_of_involutive p n : Permutation p (seq 0 n) -> involutive p ->
  map (fun a => index_of a p) (seq 0 n) = p.
Proof.
  intros HP Hinv. destruct (perm_facts p n HP) as [Hl [Hnd [Hin Hlt]]].
  transitivity (map (fun k => nth k p 0) (seq 0 (length p))); [|apply map_nth_seq].
  rewrite Hl. apply map_ext_in. intros a Ha. apply in_seq in Ha.
  apply index_of_unique with (d := 0); auto.
  - rewrite Hl. apply Hlt. lia.
  - apply Hinv. lia.
Qed.

Lemma all_indices_in s : forall b, In b (all_indices s) <->
  (length b = length s /\ forall k, k < length s -> nth k b 0 < nth k s 0).
Proof.
  induction s as [|n s IH]; intros b; simpl.
  - split.
    + intros [<-|[]]. split; [reflexivity | intros; lia].
    + intros [H _]. destruct b; [now left | discriminate].
  - rewrite in_flat_map. split.
    + intros [k [Hk Hb]]. apply in_map_iff in Hb. destruct Hb as [b' [<- Hb']].
      apply IH in Hb'. destruct Hb' as [Hl Hn]. apply in_seq in Hk. split; [simpl; lia|].
      intros [|m] Hm; simpl; [lia | apply Hn; simpl in Hm; lia].
    + intros [Hl Hn]. destruct b as [|x b]; [discriminate|]. injection Hl as Hl.
      exists x. split.
      * apply in_seq. specialize (Hn 0). simpl in Hn. lia.
      * apply in_map. apply IH. split; [exact Hl|]. intros m Hm. specialize (Hn (S m)). simpl in Hn. apply Hn. lia.
Qed.

(** what the reduction followed by the transposition computes, for every permutation *)
Lemma transpose_known d n (t : ltensor) : Permutation (known_dims d) (seq 0 n) -> length (lt_shape t) = n ->
  transpose t (known_dims d) =
  Ok {| lt_shape := map (fun a => nth a (lt_shape t) 1) (known_dims d);
        lt_at := fun idx => lt_at t (map (fun a => nth (index_of a (known_dims d)) idx 0) (seq 0 n)) |}.
Proof.
  intros HP Hn. unfold transpose. rewrite Hn.
  destruct (known_dims d) as [|x p] eqn:E.
  - apply Permutation_nil in HP. destruct n; [reflexivity|discriminate].
  - rewrite (perm_is_perm _ _ HP). reflexivity.
Qed.

Lemma reduce_dependent_value d s xshape at_ :
  full_connection d s xshape ->
  exists r, reduce_dependent d 0 {| lt_shape := s; lt_at := at_ |} = Ok r /\
    lt_shape r = map (fun a => nth a (map (fun j => nth j xshape 0) (known_dims d)) 1) (known_dims d) /\
    forall idx, In idx (all_indices xshape) -> lt_at r idx =
      lsum (map (fun red => at_ (merge_index (map is_none d)
                     (map (fun a => nth (index_of a (known_dims d)) idx 0) (seq 0 (length xshape))) red))
                (all_indices (select true (map is_none d) s))).
Proof.
  intros [Hlen [HP Hsh]]. unfold reduce_dependent. simpl.
  destruct s as [|n s].
  - destruct d as [|o d]; [|discriminate]. simpl in HP. apply Permutation_nil in HP.
    destruct xshape; [|discriminate]. eexists; split; [reflexivity|]. split; [reflexivity|].
    intros idx [<-|[]]. simpl. symmetry. apply ladd_0_r.
  - pose proof (sum_axes_ok d {| lt_shape := n :: s; lt_at := at_ |} Hlen) as Hs.
    rewrite Hs. cbn [bind lt_shape lt_at].
    rewrite transpose_known with (n := length xshape); [|exact HP|].
    + cbn [lt_shape lt_at]. eexists; split; [reflexivity|]. cbn [lt_shape lt_at].
      rewrite (select_false_shape d (n :: s) xshape Hlen Hsh). split; reflexivity.
    + cbn [lt_shape]. rewrite (select_false_shape d (n :: s) xshape Hlen Hsh), map_length.
      rewrite (Permutation_length HP). apply seq_length.
Qed.

Lemma connected_logp_value d s xshape at_ b :
  full_connection d s xshape -> In b (all_indices xshape) ->
  connected_logp d {| lt_shape := s; lt_at := at_ |} b =
  lsum (map (fun red => at_ (merge_index (map is_none d) (map (fun j => nth j b 0) (known_dims d)) red))
            (all_indices (select true (map is_none d) s))).
Proof.
  intros [Hlen [HP Hsh]] Hb. unfold connected_logp. cbn [lt_shape lt_at].
  rewrite connected_indices; [now rewrite map_map | exact Hlen |].
  intros k j Hk. rewrite (Hsh k j Hk). apply all_indices_in in Hb. apply Hb.
  assert (Hin : In j (seq 0 (length xshape))).
  { apply (Permutation_in _ HP). unfold known_dims. apply in_flat_map. exists (Some j).
    split; [|now left]. rewrite <- Hk. apply nth_In.
    destruct (Nat.lt_ge_cases k (length d)) as [|Hge]; [assumption|].
    rewrite nth_overflow in Hk by exact Hge. discriminate. }
  apply in_seq in Hin. lia.
Qed.

Lemma reduce_involutive d xshape logp :
  full_connection d (lt_shape logp) xshape -> involutive (known_dims d) ->
  exists r, reduce_dependent d 0 logp = Ok r /\ lt_shape r = xshape /\
    forall b, In b (all_indices xshape) -> lt_at r b = connected_logp d logp b.
Proof.
  intros HF Hinv. destruct logp as [s at_]. cbn [lt_shape] in HF.
  destruct (reduce_dependent_value d s xshape at_ HF) as [r [Hr [Hsr Hv]]].
  exists r. split; [exact Hr|].
  pose proof HF as [Hlen [HP Hsh]]. destruct (perm_facts _ _ HP) as [Hl [Hnd [Hin Hlt]]].
  split.
  - rewrite Hsr. apply nth_ext with (d := 0) (d' := 0); [now rewrite map_length|].
    intros k Hk. rewrite map_length in Hk.
    set (p := known_dims d) in *.
    rewrite nth_indep with (d' := (fun a => nth a (map (fun j => nth j xshape 0) p) 1) 0) by (now rewrite map_length).
    rewrite (map_nth (fun a => nth a (map (fun j => nth j xshape 0) p) 1)).
    rewrite nth_indep with (d' := (fun j => nth j xshape 0) 0) by (rewrite map_length, Hl; apply Hlt; lia).
    rewrite (map_nth (fun j => nth j xshape 0)). now rewrite (Hinv k Hk).
  - intros b Hb. rewrite (Hv b Hb), (connected_logp_value d s xshape at_ b HF Hb).
    pose proof (index_of_involutive _ _ HP Hinv) as Hio.
    assert (He : map (fun a => nth (index_of a (known_dims d)) b 0) (seq 0 (length xshape))
                 = map (fun j => nth j b 0) (known_dims d)).
    { transitivity (map (fun j => nth j b 0) (map (fun a => index_of a (known_dims d)) (seq 0 (length xshape)))).
      - now rewrite map_map.
      - now rewrite Hio. }
    now rewrite He.
Qed.

(** with no extra axes the reduction is right for every tensor only if the permutation is an involution *)
Lemma known_dims_pure p : known_dims (map Some p) = p.
Proof. induction p as [|x p IH]; simpl; [reflexivity | now rewrite IH]. Qed.
Lemma is_none_pure p : map is_none (map Some p) = repeat false (length p).
Proof. induction p as [|x p IH]; simpl; [reflexivity | now rewrite IH]. Qed.
Lemma select_true_false n {A} (s : list A) : select true (repeat false n) s = [].
Proof. revert s. induction n as [|n IH]; intros [|x s]; simpl; auto. Qed.
Lemma merge_false n : forall idx red, length idx = n -> merge_index (repeat false n) idx red = idx.
Proof. induction n as [|n IH]; intros [|x idx] red H; simpl in *; try discriminate; [reflexivity|].
  f_equal. apply IH. lia. Qed.

Lemma nth_repeat_lt {A} (a : A) n k d : k < n -> nth k (repeat a n) d = a.
Proof. revert k. induction n as [|n IH]; intros [|k] H; simpl; try lia; auto. apply IH. lia. Qed.

Lemma full_connection_cube p n m : Permutation p (seq 0 n) ->
  full_connection (map Some p) (repeat m n) (repeat m n).
Proof.
  intros HP. destruct (perm_facts p n HP) as [Hl [_ [_ Hlt]]].
  unfold full_connection. rewrite map_length, !repeat_length, known_dims_pure. repeat split; auto.
  intros k j Hk. destruct (Nat.lt_ge_cases k n) as [Hkn|Hge].
  - assert (Hj : nth k p 0 = j).
    { rewrite nth_indep with (d' := Some 0) in Hk by (now rewrite map_length, Hl).
      rewrite map_nth in Hk. now injection Hk. }
    pose proof (Hlt k Hkn). rewrite Hj in H. now rewrite !nth_repeat_lt.
  - rewrite nth_overflow in Hk by (rewrite map_length, Hl; lia). discriminate.
Qed.

Lemma reduce_only_involutive p n m : Permutation p (seq 0 n) -> 2 <= m ->
  (forall at_ r b, reduce_dependent (map Some p) 0 {| lt_shape := repeat m n; lt_at := at_ |} = Ok r ->
     In b (all_indices (repeat m n)) ->
     lt_at r b = connected_logp (map Some p) {| lt_shape := repeat m n; lt_at := at_ |} b) ->
  involutive p.
Proof.
  intros HP Hm Hall k Hk. destruct (perm_facts p n HP) as [Hl [Hnd [Hin Hlt]]].
  pose proof (full_connection_cube p n m HP) as HF.
  set (at_ := fun i : list nat => Fin (INR (nth k i 0))).
  set (b := map (fun a => if Nat.eqb a (nth k p 0) then 1 else 0) (seq 0 n)).
  assert (Hbl : length b = n) by (unfold b; now rewrite map_length, seq_length).
  assert (Hbn : forall a, a < n -> nth a b 0 = if Nat.eqb a (nth k p 0) then 1 else 0).
  { intros a Ha. unfold b.
    rewrite nth_indep with (d' := (fun a => if Nat.eqb a (nth k p 0) then 1 else 0) 0)
      by (now rewrite map_length, seq_length).
    rewrite (map_nth (fun a => if Nat.eqb a (nth k p 0) then 1 else 0)). now rewrite seq_nth. }
  assert (Hb : In b (all_indices (repeat m n))).
  { apply all_indices_in. rewrite repeat_length. split; [exact Hbl|].
    intros a Ha. rewrite Hbn by exact Ha. rewrite nth_repeat_lt by exact Ha.
    destruct (Nat.eqb a (nth k p 0)); lia. }
  destruct (reduce_dependent_value _ _ _ at_ HF) as [r [Hr [_ Hv]]].
  specialize (Hall at_ r b Hr Hb).
  rewrite (Hv b Hb), (connected_logp_value _ _ _ at_ b HF Hb) in Hall.
  rewrite known_dims_pure, is_none_pure, repeat_length, select_true_false in Hall.
  cbn [all_indices map lsum fold_right] in Hall. rewrite !ladd_0_r in Hall.
  rewrite !merge_false in Hall by (rewrite map_length, ?seq_length; congruence).
  unfold at_ in Hall. injection Hall as Hall. apply INR_eq in Hall.
  rewrite Hl in Hk.
  rewrite nth_indep with (d' := (fun a => nth (index_of a p) b 0) 0) in Hall by (now rewrite map_length, seq_length).
  rewrite (map_nth (fun a => nth (index_of a p) b 0)), seq_nth in Hall by exact Hk.
  rewrite nth_indep with (l := map (fun j => nth j b 0) p) (d' := (fun j => nth j b 0) 0) in Hall
    by (rewrite map_length; lia).
  rewrite (map_nth (fun j => nth j b 0)) in Hall.
  rewrite (Hbn (nth k p 0)) in Hall by (apply Hlt; exact Hk). rewrite Nat.eqb_refl in Hall.
  simpl in Hall.
  rewrite Hbn in Hall by (rewrite <- Hl; apply index_of_lt; apply Hin; lia).
  destruct (Nat.eqb_spec (index_of k p) (nth k p 0)) as [He|]; [|discriminate].
  rewrite <- He. apply index_of_nth. apply Hin. exact Hk.
Qed.

(** *** final alignment *)
Lemma align_value d n (t : ltensor) : Permutation (known_dims d) (seq 0 n) -> length (lt_shape t) = n ->
  exists r, align_logp_dims d t = Ok r /\
    (forall k, k < n -> nth k (lt_shape r) 0 = nth (nth k (known_dims d) 0) (lt_shape t) 0) /\
    (forall j b, length j = n -> length b = n ->
       (forall k, k < n -> nth k j 0 = nth (nth k (known_dims d) 0) b 0) -> lt_at r j = lt_at t b).
Proof.
  intros HP Hn. destruct (perm_facts _ _ HP) as [Hl [Hnd [Hin Hlt]]].
  unfold align_logp_dims. rewrite (transpose_known d n t HP Hn). eexists; split; [reflexivity|].
  cbn [lt_shape lt_at]. set (p := known_dims d) in *. split.
  - intros k Hk. rewrite nth_indep with (d' := (fun a => nth a (lt_shape t) 1) 0) by (rewrite map_length; lia).
    rewrite (map_nth (fun a => nth a (lt_shape t) 1)). apply nth_indep. rewrite Hn. now apply Hlt.
  - intros j b Hj Hb H. f_equal. apply nth_ext with (d := 0) (d' := 0).
    + rewrite map_length, seq_length. congruence.
    + intros a Ha. rewrite map_length, seq_length in Ha.
      rewrite nth_indep with (d' := (fun a => nth (index_of a p) j 0) 0) by (now rewrite map_length, seq_length).
      rewrite (map_nth (fun a => nth (index_of a p) j 0)), seq_nth by exact Ha. simpl.
      rewrite H by (rewrite <- Hl; apply index_of_lt; now apply Hin).
      rewrite index_of_nth; [reflexivity | now apply Hin].
Qed.

(** ** C07 *)
Lemma merge_axis_spec col : forall acc o, merge_axis acc col = Ok o ->
  (forall x, In (Some x) col -> o = Some x) /\ (forall x, acc = Some x -> o = Some x) /\
  (o = None <-> acc = None /\ forall x, ~ In (Some x) col) /\
  (forall x, o = Some x -> acc = Some x \/ In (Some x) col).
Proof.
  induction col as [|c col IH]; intros acc o H; simpl in H.
  - injection H as <-. split; [easy|]. split; [auto|]. split; [|auto]. split; [auto|]. now intros [? _].
  - destruct c as [x|].
    + destruct acc as [y|].
      * destruct (Nat.eqb_spec y x) as [->|]; [|discriminate].
        destruct (IH _ _ H) as [H1 [H2 [H3 H4]]].
        assert (Ho : o = Some x) by now apply H2.
        split; [intros z [Hz|Hz]; [congruence | now apply H1]|].
        split; [intros z Hz; congruence|].
        split; [split; [congruence | intros [? _]; discriminate]|].
        intros z Hz. left. congruence.
      * destruct (IH _ _ H) as [H1 [H2 [H3 H4]]].
        assert (Ho : o = Some x) by now apply H2.
        split; [intros z [Hz|Hz]; [congruence | now apply H1]|].
        split; [easy|].
        split; [split; [congruence | intros [_ Hn]; exfalso; apply (Hn x); now left]|].
        intros z Hz. right. left. congruence.
    + destruct (IH _ _ H) as [H1 [H2 [H3 H4]]].
      split; [intros z [Hz|Hz]; [discriminate | now apply H1]|].
      split; [exact H2|].
      split.
      * split.
        -- intros Ho. apply H3 in Ho. destruct Ho as [Ha Hn]. split; [exact Ha|].
           intros z [Hz|Hz]; [discriminate | now apply (Hn z)].
        -- intros [Ha Hn]. apply H3. split; [exact Ha|]. intros z Hz. apply (Hn z). now right.
      * intros z Hz. destruct (H4 z Hz); [now left | right; now right].
Qed.

Lemma merge_axis_err col : forall acc e, merge_axis acc col = Err e ->
  e = ValueError /\ exists x y, x <> y /\ (acc = Some x \/ In (Some x) col) /\ In (Some y) col.
Proof.
  induction col as [|c col IH]; intros acc e H; simpl in H; [discriminate|].
  destruct c as [x|].
  - destruct acc as [y|].
    + destruct (Nat.eqb_spec y x) as [->|Hne].
      * destruct (IH _ _ H) as [He [a [b [Hab [Ha Hb]]]]]. split; [exact He|]. exists a, b.
        split; [exact Hab|]. split; [|now right]. destruct Ha; [now left | right; now right].
      * injection H as <-. split; [reflexivity|]. exists y, x.
        split; [exact Hne|]. split; now left.
    + destruct (IH _ _ H) as [He [a [b [Hab [Ha Hb]]]]]. split; [exact He|]. exists a, b.
      split; [exact Hab|]. split; [|now right].
      right. destruct Ha as [Ha|Ha]; [left; congruence | now right].
  - destruct (IH _ _ H) as [He [a [b [Hab [Ha Hb]]]]]. split; [exact He|]. exists a, b.
    split; [exact Hab|]. split; [|now right]. destruct Ha; [now left | right; now right].
Qed.

Lemma merge_axes_ok n : forall st ds out, merge_axes n st ds = Ok out ->
  length out = n /\ forall k, k < n -> merge_axis None (map (fun d => nth (st + k) d None) ds) = Ok (nth k out None).
Proof.
  induction n as [|n IH]; intros st ds out H; simpl in H.
  - injection H as <-. split; [reflexivity | intros; lia].
  - destruct (merge_axis _ _) as [o|] eqn:E; [|discriminate]. simpl in H.
    destruct (merge_axes n (S st) ds) as [rest|] eqn:E2; [|discriminate]. simpl in H. injection H as <-.
    destruct (IH _ _ _ E2) as [Hl Hk]. split; [simpl; lia|].
    intros [|k] Hlt.
    + rewrite Nat.add_0_r. exact E.
    + replace (st + S k) with (S st + k) by lia. apply Hk. lia.
Qed.

Lemma merge_axes_err n : forall st ds e, merge_axes n st ds = Err e ->
  exists k, k < n /\ merge_axis None (map (fun d => nth (st + k) d None) ds) = Err e.
Proof.
  induction n as [|n IH]; intros st ds e H; simpl in H; [discriminate|].
  destruct (merge_axis _ _) as [o|] eqn:E.
  - simpl in H. destruct (merge_axes n (S st) ds) as [rest|] eqn:E2; [discriminate|]. simpl in H.
    injection H as <-. destruct (IH _ _ _ E2) as [k [Hk Hm]]. exists (S k). split; [lia|].
    replace (st + S k) with (S st + k) by lia. exact Hm.
  - simpl in H. injection H as <-. exists 0. rewrite Nat.add_0_r. split; [lia | exact E].
Qed.

Lemma max_len_ge ds d : In d ds -> length d <= max_len ds.
Proof. induction ds as [|x ds IH]; simpl; [easy|]. intros [->|H]; [lia | specialize (IH H); lia]. Qed.

Lemma nth_pad n d k : length d <= n -> k < n ->
  nth k (pad_left n d) None = from_right d (n - 1 - k).
Proof.
  intros Hl Hk. unfold pad_left, from_right.
  destruct (Nat.lt_ge_cases k (n - length d)) as [Hlt|Hge].
  - rewrite app_nth1 by (now rewrite repeat_length). rewrite nth_repeat_lt by exact Hlt.
    rewrite nth_overflow; [reflexivity|]. rewrite rev_length. lia.
  - rewrite app_nth2 by (now rewrite repeat_length). rewrite repeat_length.
    rewrite rev_nth by lia. f_equal. lia.
Qed.

Lemma column_in ds n k o : (forall d, In d ds -> length d <= n) -> k < n ->
  In o (map (fun d => nth k d None) (map (pad_left n) ds)) <->
  exists d, In d ds /\ from_right d (n - 1 - k) = o.
Proof.
  intros Hl Hk. rewrite map_map, in_map_iff. split; intros [d [H1 H2]]; exists d.
  - rewrite nth_pad in H1 by auto. auto.
  - split; [|exact H1]. now rewrite nth_pad by auto.
Qed.

Lemma nodupb_spec l : nodupb l = true <-> NoDup l.
Proof.
  induction l as [|x l IH]; simpl; [split; [constructor | reflexivity]|].
  rewrite andb_true_iff, negb_true_iff, IH. split.
  - intros [H1 H2]. constructor; [|exact H2]. intros Hin.
    assert (existsb (Nat.eqb x) l = true) by (apply existsb_exists; exists x; split; [exact Hin | apply Nat.eqb_refl]).
    congruence.
  - intros H. inversion H as [|? ? Hn Hd]; subst. split; [|exact Hd].
    destruct (existsb (Nat.eqb x) l) eqn:E; [|reflexivity]. apply existsb_exists in E.
    destruct E as [y [Hy He]]. apply Nat.eqb_eq in He. subst. contradiction.
Qed.

Lemma known_nodup d : NoDup (known_dims d) <->
  forall i k x, nth i d None = Some x -> nth k d None = Some x -> i = k.
Proof.
  induction d as [|o d IH]; simpl.
  - split; [|constructor]. intros _ [|i] [|k] x H; discriminate.
  - assert (Hin : forall x, In x (known_dims d) <-> exists k, nth k d None = Some x).
    { intros x. unfold known_dims. rewrite in_flat_map. split.
      - intros [[y|] [Hy Hx]]; [|easy]. destruct Hx as [->|[]]. apply In_nth with (d := None) in Hy.
        destruct Hy as [k [_ Hk]]. now exists k.
      - intros [k Hk]. exists (Some x). split; [|now left]. rewrite <- Hk. apply nth_In.
        destruct (Nat.lt_ge_cases k (length d)); [assumption|]. rewrite nth_overflow in Hk by assumption. discriminate. }
    destruct o as [y|]; simpl.
    + rewrite NoDup_cons_iff, IH, Hin. split.
      * intros [Hn H] [|i] [|k] x Hi Hk; auto.
        -- injection Hi as ->. exfalso. apply Hn. now exists k.
        -- injection Hk as ->. exfalso. apply Hn. now exists i.
        -- f_equal. now apply (H i k x).
      * intros H. split.
        -- intros [k Hk]. specialize (H 0 (S k) y eq_refl Hk). discriminate.
        -- intros i k x Hi Hk. specialize (H (S i) (S k) x Hi Hk). lia.
    + unfold known_dims in IH |- *. simpl. rewrite IH. split.
      * intros H [|i] [|k] x Hi Hk; auto; try discriminate. f_equal. now apply (H i k x).
      * intros H i k x Hi Hk. specialize (H (S i) (S k) x Hi Hk). lia.
Qed.

Lemma from_right_nth (d : dims) k : k < length d -> from_right d k = nth (length d - 1 - k) d None.
Proof. intros H. unfold from_right. rewrite rev_nth by exact H. f_equal. lia. Qed.

Lemma from_right_lt (d : dims) k x : from_right d k = Some x -> k < length d.
Proof.
  intros H. destruct (Nat.lt_ge_cases k (length d)); [assumption|].
  unfold from_right in H. rewrite nth_overflow in H by (now rewrite rev_length). discriminate.
Qed.

Lemma broadcast_ok ds out : broadcast_dims ds = Ok out ->
  length out = max_len ds /\
  (forall k x, from_right out k = Some x <-> exists d, In d ds /\ from_right d k = Some x) /\
  (forall i k x, from_right out i = Some x -> from_right out k = Some x -> i = k).
Proof.
  unfold broadcast_dims. intros H.
  destruct (merge_axes _ 0 _) as [o|] eqn:E; [|discriminate]. simpl in H.
  destruct (nodupb (known_dims o)) eqn:Hn; [|discriminate]. injection H as <-.
  destruct (merge_axes_ok _ _ _ _ E) as [Hl Hk]. split; [exact Hl|]. split.
  - intros k x. split.
    + intros Hx. pose proof (from_right_lt _ _ _ Hx) as Hlt. rewrite Hl in Hlt.
      rewrite from_right_nth in Hx by lia. rewrite Hl in Hx.
      specialize (Hk (max_len ds - 1 - k) ltac:(lia)). simpl in Hk.
      destruct (merge_axis_spec _ _ _ Hk) as [_ [_ [_ H4]]].
      destruct (H4 x Hx) as [|Hin]; [discriminate|].
      apply column_in in Hin; [|intros; now apply max_len_ge|lia].
      destruct Hin as [d [Hd Hf]]. exists d. split; [exact Hd|].
      now replace k with (max_len ds - 1 - (max_len ds - 1 - k)) by lia.
    + intros [d [Hd Hf]]. pose proof (from_right_lt _ _ _ Hf) as Hlt. pose proof (max_len_ge _ _ Hd) as Hm.
      rewrite from_right_nth by lia. rewrite Hl.
      specialize (Hk (max_len ds - 1 - k) ltac:(lia)). simpl in Hk.
      destruct (merge_axis_spec _ _ _ Hk) as [H1 _]. apply H1.
      apply column_in; [intros; now apply max_len_ge | lia |].
      exists d. split; [exact Hd|]. now replace (max_len ds - 1 - (max_len ds - 1 - k)) with k by lia.
  - intros i k x Hi Hk'. pose proof (from_right_lt _ _ _ Hi). pose proof (from_right_lt _ _ _ Hk').
    rewrite from_right_nth in Hi, Hk' by assumption.
    apply nodupb_spec in Hn. rewrite known_nodup in Hn. specialize (Hn _ _ _ Hi Hk'). lia.
Qed.

Lemma broadcast_err ds e : broadcast_dims ds = Err e ->
  e = ValueError /\
  ((exists d1 d2 k x y, In d1 ds /\ In d2 ds /\ from_right d1 k = Some x /\ from_right d2 k = Some y /\ x <> y) \/
   (exists d1 d2 k1 k2 x, In d1 ds /\ In d2 ds /\ from_right d1 k1 = Some x /\ from_right d2 k2 = Some x /\ k1 <> k2)).
Proof.
  unfold broadcast_dims. intros H.
  destruct (merge_axes _ 0 _) as [o|e'] eqn:E; simpl in H.
  - destruct (nodupb (known_dims o)) eqn:Hn; [discriminate|]. injection H as <-. split; [reflexivity|]. right.
    destruct (merge_axes_ok _ _ _ _ E) as [Hl Hk].
    assert (Hcol : forall a x, nth a o None = Some x -> a < max_len ds /\ exists d, In d ds /\ from_right d (max_len ds - 1 - a) = Some x).
    { intros a x Ha. assert (Hlt : a < max_len ds).
      { destruct (Nat.lt_ge_cases a (length o)); [lia|]. rewrite nth_overflow in Ha by assumption. discriminate. }
      split; [exact Hlt|]. specialize (Hk a Hlt). simpl in Hk.
      destruct (merge_axis_spec _ _ _ Hk) as [_ [_ [_ H4]]].
      destruct (H4 x Ha) as [|Hin]; [discriminate|].
      apply column_in in Hin; [exact Hin | intros; now apply max_len_ge | exact Hlt]. }
    assert (Hnn : ~ NoDup (known_dims o)).
    { intros Hnd. apply nodupb_spec in Hnd. congruence. }
    (* find the duplicate constructively by a bounded search *)
    assert (Hdup : forall l, nodupb (known_dims l) = false ->
              exists i k x, nth i l None = Some x /\ nth k l None = Some x /\ i <> k).
    { induction l as [|[y|] l IH]; simpl; intros Hl'; [discriminate| |].
      - apply andb_false_iff in Hl'. destruct Hl' as [He|He].
        + apply negb_false_iff in He. apply existsb_exists in He. destruct He as [z [Hz Hyz]].
          apply Nat.eqb_eq in Hyz. subst z. unfold known_dims in Hz. apply in_flat_map in Hz.
          destruct Hz as [[w|] [Hw Hy]]; [|easy]. destruct Hy as [->|[]].
          apply In_nth with (d := None) in Hw. destruct Hw as [k [_ Hk']].
          exists 0, (S k), y. repeat split; auto.
        + destruct (IH He) as [i [k [x [H1 [H2 H3]]]]]. exists (S i), (S k), x. repeat split; auto.
      - destruct (IH Hl') as [i [k [x [H1 [H2 H3]]]]]. exists (S i), (S k), x. repeat split; auto. }
    destruct (Hdup o Hn) as [i [k [x [Hi [Hk' Hne]]]]].
    destruct (Hcol i x Hi) as [Hil [d1 [Hd1 Hf1]]]. destruct (Hcol k x Hk') as [Hkl [d2 [Hd2 Hf2]]].
    exists d1, d2, (max_len ds - 1 - i), (max_len ds - 1 - k), x. repeat split; auto. lia.
  - injection H as <-. destruct (merge_axes_err _ _ _ _ E) as [k [Hk Hm]]. simpl in Hm.
    destruct (merge_axis_err _ _ _ Hm) as [He [x [y [Hxy [Hx Hy]]]]]. split; [exact He|]. left.
    destruct Hx as [|Hx]; [discriminate|].
    apply column_in in Hx; [|intros; now apply max_len_ge|exact Hk].
    apply column_in in Hy; [|intros; now apply max_len_ge|exact Hk].
    destruct Hx as [d1 [Hd1 Hf1]], Hy as [d2 [Hd2 Hf2]].
    exists d1, d2, (max_len ds - 1 - k), x, y. repeat split; auto.
Qed.

(** *** adding several dependents *)
Lemma bcoord_id s b : In b (all_indices s) -> bcoord s b = b.
Proof.
  intros Hb. apply all_indices_in in Hb. destruct Hb as [Hl Hn]. unfold bcoord.
  replace (length b - length s) with 0 by lia. simpl skipn.
  revert b Hl Hn. induction s as [|n s IH]; intros [|x b] Hl Hn; simpl in *; try discriminate; [reflexivity|].
  f_equal.
  - specialize (Hn 0). simpl in Hn. destruct (Nat.eqb_spec n 1); [lia | reflexivity].
  - apply IH; [lia|]. intros k Hk. apply (Hn (S k)). lia.
Qed.

Lemma bcast_shape_same s : bcast_shape [s; s] = s.
Proof.
  unfold bcast_shape. simpl. rewrite Nat.max_0_r, Nat.max_id.
  transitivity (map (fun k => nth k s 1) (seq 0 (length s))); [|apply map_nth_seq].
  apply map_ext_in. intros k Hk. unfold bshape_at. simpl.
  replace (length s - length s) with 0 by lia. rewrite Nat.sub_0_r. simpl.
  destruct (Nat.eqb_spec (nth k s 1) 1) as [->|]; reflexivity.
Qed.

Lemma reduce_all_ok deps xshape :
  Forall (fun p => match p with (d, k, l) =>
            k = 0 /\ full_connection d (lt_shape l) xshape /\ involutive (known_dims d) end) deps ->
  exists rs, reduce_all deps = Ok rs /\ Forall (fun r => lt_shape r = xshape) rs /\
    forall b, In b (all_indices xshape) ->
      map (fun r => lt_at r b) rs = map (fun p => match p with (d, _, l) => connected_logp d l b end) deps.
Proof.
  induction 1 as [|[[d k] l] deps [-> [HF Hi]] _ IH]; simpl.
  - exists []. repeat split; auto.
  - destruct (reduce_involutive d xshape l HF Hi) as [r [Hr [Hs Hv]]].
    destruct IH as [rs [Hrs [Hss Hvs]]]. rewrite Hr. simpl. rewrite Hrs. simpl.
    exists (r :: rs). split; [reflexivity|]. split; [now constructor|].
    intros b Hb. simpl. now rewrite (Hv b Hb), (Hvs b Hb).
Qed.

Lemma fold_lt_add rs xshape : Forall (fun r => lt_shape r = xshape) rs -> forall r,
  lt_shape r = xshape ->
  lt_shape (fold_left lt_add rs r) = xshape /\
  forall b, In b (all_indices xshape) ->
    lt_at (fold_left lt_add rs r) b = ladd (lt_at r b) (lsum (map (fun r => lt_at r b) rs)).
Proof.
  induction 1 as [|x rs Hx _ IH]; intros r Hr; simpl.
  - split; [exact Hr|]. intros b _. symmetry. apply ladd_0_r.
  - destruct (IH (lt_add r x)) as [H1 H2].
    + simpl. rewrite Hr, Hx. apply bcast_shape_same.
    + split; [exact H1|]. intros b Hb. rewrite (H2 b Hb). simpl. rewrite Hr, Hx.
      rewrite (bcoord_id _ _ Hb). now rewrite ladd_assoc.
Qed.

Lemma reduce_batch_ok deps xshape : deps <> [] ->
  Forall (fun p => match p with (d, k, l) =>
            k = 0 /\ full_connection d (lt_shape l) xshape /\ involutive (known_dims d) end) deps ->
  exists r, reduce_batch_dependent_logps deps = Ok r /\ lt_shape r = xshape /\
    forall b, In b (all_indices xshape) ->
      lt_at r b = lsum (map (fun p => match p with (d, _, l) => connected_logp d l b end) deps).
Proof.
  intros Hne H. destruct (reduce_all_ok deps xshape H) as [rs [Hrs [Hss Hv]]].
  unfold reduce_batch_dependent_logps. rewrite Hrs. simpl.
  destruct rs as [|r rs].
  - destruct deps as [|[[d k] l] deps]; [contradiction|]. simpl in Hrs.
    destruct (reduce_dependent d k l); [|discriminate]. simpl in Hrs. destruct (reduce_all deps); discriminate.
  - inversion Hss as [|? ? Hr Hrs']; subst.
    destruct (fold_lt_add rs (lt_shape r) Hrs' r eq_refl) as [H1 H2].
    eexists; split; [reflexivity|]. split; [exact H1|].
    intros b Hb. rewrite (H2 b Hb). rewrite <- (Hv b Hb). reflexivity.
Qed.

(** *** multivariate dependents without extra batch axes *)
Lemma supp_axes_from_pure rp k : forall i, supp_axes_from i (map Some rp) k = [].
Proof. induction rp as [|x rp IH]; intros i; simpl; auto. Qed.
Lemma supp_axes_from_none rp k : forall m i, i + m <= S k ->
  supp_axes_from i (repeat None m ++ map Some rp) k = [].
Proof.
  induction m as [|m IH]; intros i Hi; simpl.
  - apply supp_axes_from_pure.
  - assert (i <=? k = true) by (apply Nat.leb_le; lia). rewrite H. apply IH. lia.
Qed.
Lemma rev_repeat {A} (a : A) n : rev (repeat a n) = repeat a n.
Proof. induction n as [|n IH]; simpl; [reflexivity|]. rewrite IH, repeat_cons. reflexivity. Qed.
Lemma known_dims_app d1 d2 : known_dims (d1 ++ d2) = known_dims d1 ++ known_dims d2.
Proof. unfold known_dims. apply flat_map_app. Qed.
Lemma known_dims_none k : known_dims (repeat None k) = [].
Proof. induction k; simpl; auto. Qed.

Lemma reduce_multivariate p k logp :
  reduce_dependent (map Some p ++ repeat None k) k logp = reduce_dependent (map Some p) 0 logp.
Proof.
  unfold reduce_dependent. destruct (lt_shape logp) eqn:E; [reflexivity|].
  unfold supp_axes. rewrite rev_app_distr, rev_repeat, <- map_rev.
  rewrite supp_axes_from_none by lia. rewrite supp_axes_from_pure.
  now rewrite known_dims_app, known_dims_none, app_nil_r.
Qed.
