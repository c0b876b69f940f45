(** Soundness of the batch-dimension analysis (C05). *)
From Verif Require Import Common Dims_Model Dims_Spec.

Section Sound.
Variable xs : list nat.

Definition nonunit j := nth j xs 0 <> 1.
Definition lab (d : dims) := forall k j, nth k d None = Some j -> j < length xs.
Definition shp (d : dims) (s : list nat) := forall k j, nth k d None = Some j -> nonunit j -> nth k s 0 = nth j xs 0.
Definition pw (V : tensor -> tensor) := forall X X', (forall i, X i = X' i) -> forall idx, V X idx = V X' idx.
Definition sem (d : dims) (rank : nat) (V : tensor -> tensor) :=
  forall X X' idx, length idx = rank -> (forall i, same_entries xs d idx i -> X i = X' i) -> V X idx = V X' idx.

Record Inv (d : dims) (s : list nat) (V : tensor -> tensor) : Prop := {
  I_len : length d = length s;
  I_inj : injective d;
  I_lab : lab d;
  I_shp : shp d s;
  I_sem : sem d (length s) V;
  I_cov : connects_all xs d \/ independent V;
  I_pw : pw V }.

Lemma all_none_nth d k : all_none d = true -> nth k d None = None.
Proof.
  unfold all_none. rewrite forallb_forall. intros H. destruct (nth_in_or_default k d None) as [Hin|Hd]; [|auto].
  apply H in Hin. destruct (nth k d None); auto; discriminate.
Qed.

Lemma all_none_repeat n : all_none (repeat None n) = true.
Proof. induction n; cbn; auto. Qed.

(** a variable with no connected axis may be used anywhere *)
Lemma dep_none d s V : Inv d s V -> all_none d = true ->
  forall d' idx', lab d' -> forall X X', (forall i, same_entries xs d' idx' i -> X i = X' i) -> forall idx, V X idx = V X' idx.
Proof.
  intros [] N d' idx' L X X' H idx. destruct I_cov0 as [C|C]; [|apply C].
  apply I_pw0. intros i. apply H. intros k j Hk Hu. exfalso.
  destruct (C j (L _ _ Hk) Hu) as (k' & _ & Hk'). rewrite (all_none_nth _ _ N) in Hk'. discriminate.
Qed.

(** transport of an input's connection [d] at [idx] to the output's [d'] at [idx'] *)
Definition carried (d : dims) (idx : list nat) (d' : dims) (idx' : list nat) :=
  forall k j, nth k d None = Some j -> nonunit j -> exists k', nth k' d' None = Some j /\ nth k idx 0 = nth k' idx' 0.

Lemma dep_carried d s V : Inv d s V -> forall d' idx idx', length idx = length s -> injective d' -> lab d' -> carried d idx d' idx' ->
  forall X X', (forall i, same_entries xs d' idx' i -> X i = X' i) -> V X idx = V X' idx.
Proof.
  intros I d' idx idx' Hl HI HL HC X X' H. destruct (I_cov _ _ _ I) as [C|C]; [|apply C].
  apply (I_sem _ _ _ I); auto. intros i Hi. apply H. intros k' j Hk' Hu.
  destruct (C j (HL _ _ Hk') Hu) as (k & _ & Hk). destruct (HC _ _ Hk Hu) as (k'' & Hk'' & Heq).
  rewrite (HI _ _ _ Hk' Hk''). rewrite <- Heq. apply Hi; auto.
Qed.

Lemma covers_carried d idx d' idx' : connects_all xs d -> carried d idx d' idx' -> connects_all xs d'.
Proof.
  intros C H j Hj Hu. destruct (C j Hj Hu) as (k & _ & Hk). destruct (H _ _ Hk Hu) as (k' & Hk' & _). exists k'. split; auto.
  destruct (Nat.lt_ge_cases k' (length d')); auto. rewrite nth_overflow in Hk'; [discriminate|auto].
Qed.

Lemma nth_map_lt {A B} (f : A -> B) l k dA dB : k < length l -> nth k (map f l) dB = f (nth k l dA).
Proof. intros H. rewrite (nth_indep _ dB (f dA)) by (rewrite map_length; auto). apply map_nth. Qed.
Lemma nth_Some_lt {A} (l : list (option A)) k x : nth k l None = Some x -> k < length l.
Proof. intros H. destruct (Nat.lt_ge_cases k (length l)); auto. rewrite nth_overflow in H; [discriminate|auto]. Qed.

(** ** Congruence of the operations *)
Lemma map_ext_In {A B} (f g : A -> B) l : (forall a, In a l -> f a = g a) -> map f l = map g l.
Proof. apply map_ext_in. Qed.

Lemma akeys_index_ext s keys key key' na : (forall u, In u (tensor_keys keys) -> key u = key' u) ->
  akeys_index s keys key na = akeys_index s keys key' na.
Proof.
  revert s na. induction keys as [|k ks IH]; intros s na H; cbn; auto.
  assert (H' : forall u, In u (tensor_keys ks) -> key u = key' u).
  { intros u Hu. apply H. unfold tensor_keys. cbn. apply in_or_app. auto. }
  destruct k; try (destruct s; auto; now rewrite IH); try now rewrite IH.
  - destruct s; auto. rewrite IH by auto. rewrite (H v); auto. unfold tensor_keys; cbn; auto.
  - destruct s; auto. rewrite IH by auto. rewrite (H v); auto. unfold tensor_keys; cbn; auto.
Qed.

Lemma op_eval_ext shapes vals vals' nd : wf_node shapes nd ->
  (forall v, In v (n_in nd) -> forall idx, nth v vals (fun _ => 0%Z) idx = nth v vals' (fun _ => 0%Z) idx) ->
  forall idx, op_eval shapes vals nd idx = op_eval shapes vals' nd idx.
Proof.
  intros [_ W] H idx. unfold op_eval. destruct (n_op nd) eqn:E.
  - destruct W as (v & Hv & _). rewrite Hv in *. cbn. apply H; cbn; auto.
  - f_equal. apply map_ext_in. intros [c v] Hin. apply map_ext. intros ci. apply H. eapply in_combine_r; eauto.
  - destruct W as (v & Hv). rewrite Hv in *. cbn [nth].
    match goal with |- fold_right _ z ?l0 = _ => induction l0 as [|a l1 IH]; cbn; auto end. rewrite IH. f_equal. apply H; cbn; auto.
  - destruct W as (v & Hv & _). rewrite Hv in *. cbn. apply H; cbn; auto.
  - destruct W as (v & Hv & _). rewrite Hv in *. cbn [nth]. erewrite akeys_index_ext; [apply H; cbn; auto|].
    intros u Hu. apply H. right. auto.
  - f_equal. apply map_ext_in. intros v Hv. apply map_ext. intros i. apply H. auto.
Qed.

(** ** Broadcasting *)
Lemma merge_axis_some col : forall acc o x, merge_axis acc col = Ok o -> (acc = Some x \/ In (Some x) col) -> o = Some x.
Proof.
  induction col as [|c col IH]; intros acc o x H Hx; cbn in H.
  - injection H as <-. destruct Hx as [->|[]]. auto.
  - destruct c as [y|].
    + destruct acc as [z|].
      * destruct (Nat.eqb_spec z y); [|discriminate]. subst. apply (IH _ _ _ H). destruct Hx as [E|[E|E]]; auto.
      * apply (IH _ _ _ H). destruct Hx as [E|[E|E]]; auto. discriminate.
    + apply (IH _ _ _ H). destruct Hx as [E|[E|E]]; auto. discriminate.
Qed.
Lemma merge_axis_from col : forall acc x, merge_axis acc col = Ok (Some x) -> acc = Some x \/ In (Some x) col.
Proof.
  induction col as [|c col IH]; intros acc x H; cbn in H.
  - injection H as <-. auto.
  - destruct c as [y|].
    + destruct acc as [z|].
      * destruct (Nat.eqb_spec z y); [|discriminate]. subst. destruct (IH _ _ H) as [E|E]; cbn; auto.
      * destruct (IH _ _ H) as [E|E]; cbn; auto.
    + destruct (IH _ _ H) as [E|E]; cbn; auto.
Qed.

Lemma merge_axes_spec ds n : forall start out, merge_axes n start ds = Ok out ->
  length out = n /\ forall k, k < n -> merge_axis None (map (fun d => nth (start + k) d None) ds) = Ok (nth k out None).
Proof.
  induction n as [|n IH]; intros start out H; cbn in H.
  - injection H as <-. split; auto. intros; lia.
  - destruct (merge_axis None (map (fun d => nth start d None) ds)) as [o|] eqn:E1; [|discriminate]. cbn in H.
    destruct (merge_axes n (S start) ds) as [rest|] eqn:E2; [|discriminate]. cbn in H. injection H as <-.
    destruct (IH _ _ E2) as [L N]. split; [cbn; auto|]. intros [|k] Hk; cbn [nth].
    + rewrite Nat.add_0_r. auto.
    + rewrite <- Nat.add_succ_comm. apply N. lia.
Qed.

Lemma max_len_ge ds d : In d ds -> length d <= max_len ds.
Proof. induction ds as [|e ds IH]; cbn; [tauto|]. intros [->|H]; [lia|]. apply IH in H. unfold max_len in H. lia. Qed.
Lemma max_len_map ds n : (forall d, In d ds -> length d <= n) -> max_len ds <= n.
Proof. induction ds as [|e ds IH]; cbn; intros H; [lia|]. specialize (IH (fun d Hd => H d (or_intror Hd))). pose proof (H e (or_introl eq_refl)).
  unfold max_len in IH. lia. Qed.

Lemma nth_pad n d k : length d <= n -> nth (n - length d + k) (pad_left n d) None = nth k d None.
Proof. intros H. unfold pad_left. rewrite app_nth2; rewrite repeat_length; [|lia]. f_equal. lia. Qed.
Lemma nth_repeat_none n k : nth k (repeat None n) (@None nat) = None.
Proof. revert k. induction n; destruct k; cbn; auto. Qed.
Lemma nth_pad_some n d k x : length d <= n -> nth k (pad_left n d) None = Some x -> n - length d <= k /\ nth (k - (n - length d)) d None = Some x.
Proof.
  intros H Hk. unfold pad_left in Hk. destruct (Nat.lt_ge_cases k (n - length d)) as [L|L].
  - rewrite app_nth1 in Hk by (rewrite repeat_length; auto). now rewrite nth_repeat_none in Hk.
  - rewrite app_nth2 in Hk by (rewrite repeat_length; auto). rewrite repeat_length in Hk. auto.
Qed.

Lemma nodupb_NoDup l : nodupb l = true -> NoDup l.
Proof.
  induction l as [|x l IH]; cbn; intros H; constructor; apply andb_prop in H as [H1 H2]; auto.
  intros Hin. apply negb_true_iff in H1. assert (existsb (Nat.eqb x) l = true); [|congruence]. apply existsb_exists. exists x. split; auto. apply Nat.eqb_refl.
Qed.
Lemma known_In d k x : nth k d None = Some x -> In x (known_dims d).
Proof.
  revert k. induction d as [|o d IH]; intros [|k] H; cbn in H; try discriminate; unfold known_dims; cbn; apply in_or_app.
  - subst. left. cbn. auto.
  - right. eapply IH; eauto.
Qed.
Lemma known_inj d : NoDup (known_dims d) -> injective d.
Proof.
  induction d as [|o d IH]; intros N k k' j Hk Hk'; [destruct k; discriminate|].
  change (known_dims (o :: d)) with ((match o with Some x => [x] | None => [] end) ++ known_dims d) in N.
  destruct k as [|k], k' as [|k']; cbn in Hk, Hk'; auto.
  - subst o. cbn in N. inversion N; subst. exfalso. eauto using known_In.
  - subst o. cbn in N. inversion N; subst. exfalso. eauto using known_In.
  - f_equal. destruct o; cbn in N; [inversion N; subst|]; eapply IH; eauto.
Qed.

(** The whole of [_broadcast_dims] *)
Lemma broadcast_spec ds out : broadcast_dims ds = Ok out ->
  length out = max_len ds /\ injective out /\
  (forall d k x, In d ds -> nth k d None = Some x -> nth (max_len ds - length d + k) out None = Some x) /\
  (forall k x, nth k out None = Some x -> exists d, In d ds /\ max_len ds - length d <= k /\ nth (k - (max_len ds - length d)) d None = Some x).
Proof.
  unfold broadcast_dims. destruct (merge_axes (max_len ds) 0 (map (pad_left (max_len ds)) ds)) as [o|] eqn:E; [|discriminate]. cbn.
  destruct (nodupb (known_dims o)) eqn:N; [|discriminate]. intros H. injection H as <-.
  destruct (merge_axes_spec _ _ _ _ E) as [L M]. cbn in M. split; [auto|]. split; [apply known_inj, nodupb_NoDup; auto|]. split.
  - intros d k x Hd Hk. assert (Hkl : k < length d). { destruct (Nat.lt_ge_cases k (length d)); auto. rewrite nth_overflow in Hk; [discriminate|auto]. }
    pose proof (max_len_ge _ _ Hd). specialize (M (max_len ds - length d + k) ltac:(lia)). eapply merge_axis_some; eauto. right.
    apply in_map_iff. exists (pad_left (max_len ds) d). split; [rewrite nth_pad; auto|apply in_map; auto].
  - intros k x Hk. assert (Hkl : k < length o). { destruct (Nat.lt_ge_cases k (length o)); auto. rewrite nth_overflow in Hk; [discriminate|auto]. }
    specialize (M k ltac:(lia)). rewrite Hk in M. apply merge_axis_from in M as [M|M]; [discriminate|].
    apply in_map_iff in M as (d' & Hd' & Hin). apply in_map_iff in Hin as (d & <- & Hd). exists d. split; auto. apply nth_pad_some; auto. apply max_len_ge; auto.
Qed.

(** ** Nodes *)
Section Node.
Variable shapes : list (list nat).
Variable get : nat -> dims.
Variable vals : tensor -> list tensor.
Let sh := nth_shape shapes.
Let V v X := nth v (vals X) (fun _ => 0%Z).
Hypothesis HInv : forall v, v < length shapes -> Inv (get v) (sh v) (V v).

Lemma some_or_all (A : nat -> Prop) (B : nat -> Prop) l : (forall v, In v l -> A v \/ B v) -> (exists v, In v l /\ A v) \/ (forall v, In v l -> B v).
Proof.
  induction l as [|x l IH]; intros H; [right; intros ? []|].
  destruct (H x (or_introl eq_refl)) as [a|b]; [left; exists x; cbn; auto|].
  destruct IH as [(v & Hv & a)|Hb]; [intros; apply H; cbn; auto|left; exists v; cbn; auto|].
  right. intros v [<-|Hv]; auto.
Qed.

Lemma node_ins nd v : wf_node shapes nd -> In v (n_in nd) -> v < length shapes.
Proof. intros [W _] Hv. rewrite Forall_forall in W. auto. Qed.

Lemma node_pw nd : wf_node shapes nd -> pw (fun X => op_eval shapes (vals X) nd).
Proof.
  intros W X X' HX idx. apply op_eval_ext; auto. intros v Hv i. apply (I_pw _ _ _ (HInv v (node_ins _ _ W Hv))). auto.
Qed.

Lemma node_cov nd d' : wf_node shapes nd -> (forall v, In v (n_in nd) -> connects_all xs (get v) -> connects_all xs d') ->
  connects_all xs d' \/ independent (fun X => op_eval shapes (vals X) nd).
Proof.
  intros W H. destruct (some_or_all (fun v => connects_all xs (get v)) (fun v => independent (V v)) (n_in nd)) as [(v & Hv & a)|Hb].
  - intros v Hv. apply (I_cov _ _ _ (HInv v (node_ins _ _ W Hv))).
  - left. eauto.
  - right. intros X X' idx. apply op_eval_ext; auto. intros v Hv i. apply Hb; auto.
Qed.

Lemma connects_none d d' : connects_all xs d -> all_none d = true -> connects_all xs d'.
Proof. intros C N j Hj Hu. destruct (C j Hj Hu) as (k & _ & Hk). rewrite all_none_nth in Hk by auto. discriminate. Qed.

Lemma node_continue nd : wf_node shapes nd -> forallb all_none (map get (n_in nd)) = true ->
  Inv (repeat None (length (op_shape shapes nd))) (op_shape shapes nd) (fun X => op_eval shapes (vals X) nd).
Proof.
  intros W N. rewrite forallb_forall in N. split.
  - apply repeat_length.
  - intros k k' j H. now rewrite nth_repeat_none in H.
  - intros k j H. now rewrite nth_repeat_none in H.
  - intros k j H. now rewrite nth_repeat_none in H.
  - intros X X' idx _ H. apply node_pw; auto. intros i. apply H. intros k j Hk. now rewrite nth_repeat_none in Hk.
  - apply node_cov; auto. intros v Hv C. eapply connects_none; eauto. apply N. apply in_map. auto.
  - apply node_pw; auto.
Qed.

(** one connected input, read at an index that copies the connected coordinates *)
Lemma single_inv v d' s' (src : nat -> nat) (dom : nat -> Prop) : v < length shapes ->
  (forall k1 k2, dom k1 -> dom k2 -> src k1 = src k2 -> k1 = k2) ->
  (forall k' j, nth k' d' None = Some j -> dom k' /\ nth (src k') (get v) None = Some j /\ (nonunit j -> nth k' s' 0 = nth (src k') (sh v) 0)) ->
  injective d' /\ lab d' /\ shp d' s'.
Proof.
  intros Hv Hinj H. pose proof (HInv v Hv) as I. split; [|split].
  - intros k k' j Hk Hk'. destruct (H _ _ Hk) as (D & E & _), (H _ _ Hk') as (D' & E' & _). apply Hinj; auto. eapply I_inj; eauto.
  - intros k j Hk. destruct (H _ _ Hk) as (_ & E & _). eapply I_lab; eauto.
  - intros k j Hk Hu. destruct (H _ _ Hk) as (_ & E & S). rewrite S by auto. eapply I_shp; eauto.
Qed.

(** *** DimShuffle *)
Lemma pos_of_nth a order k : NoDup (somes order) -> nth k order None = Some a -> pos_of a order = Some k.
Proof.
  revert k. induction order as [|o order IH]; intros [|k] N H; cbn in H; try discriminate.
  - subst. cbn. now rewrite Nat.eqb_refl.
  - cbn. destruct o as [i|]; cbn in N.
    + inversion N; subst. destruct (Nat.eqb_spec i a).
      * subst. exfalso. apply H2. eapply (known_In order); eauto.
      * now rewrite (IH k).
    + now rewrite (IH k).
Qed.
Lemma somes_nth a order : In a (somes order) -> exists k, nth k order None = Some a.
Proof.
  induction order as [|o order IH]; cbn; [tauto|]. intros H. apply in_app_or in H as [H|H].
  - exists 0. destruct o; cbn in H; [destruct H as [->|[]]; auto|tauto].
  - destruct (IH H) as (k & Hk). exists (S k). auto.
Qed.

Lemma nth_dimshuffle (d : dims) order k : nth k (map (fun o => match o with None => None | Some i => nth i d None end) order) None =
  match nth k order None with Some i => nth i d None | None => None end.
Proof. now rewrite (map_nth (fun o => match o with None => None | Some i => nth i d None end) order None k). Qed.

Lemma node_dimshuffle nd order : wf_node shapes nd -> n_op nd = ODimShuffle order ->
  forall v, n_in nd = [v] ->
  Inv (map (fun o => match o with None => None | Some i => nth i (get v) None end) order) (op_shape shapes nd) (fun X => op_eval shapes (vals X) nd).
Proof.
  intros W E v Hv. pose proof W as [W1 W2]. rewrite E in W2. destruct W2 as (v0 & Hv0 & N & B & D). rewrite Hv in Hv0. injection Hv0 as <-.
  rewrite Hv in W1. inversion W1 as [|? ? Lv _]; subst. pose proof (HInv v Lv) as I.
  set (d' := map _ order). set (s' := op_shape shapes nd).
  assert (Hs' : forall k a, nth k order None = Some a -> nth k s' 0 = nth a (sh v) 0).
  { intros k a Hk. unfold s', op_shape. rewrite E, Hv. cbn [nth]. assert (Hkl : k < length order). { destruct (Nat.lt_ge_cases k (length order)); auto. rewrite nth_overflow in Hk; [discriminate|auto]. }
    rewrite (nth_map_lt _ _ _ None) by auto. rewrite Hk. apply nth_indep.
    rewrite Forall_forall in B. apply B. eapply (known_In order); eauto. }
  assert (Hcar : forall idx', carried (get v) (map (fun a => match pos_of a order with Some k => nth k idx' 0 | None => 0 end) (seq 0 (length (sh v)))) d' idx').
  { intros idx' a j Ha Hu. assert (La : a < length (sh v)). { rewrite <- (I_len _ _ _ I). destruct (Nat.lt_ge_cases a (length (get v))); auto. rewrite nth_overflow in Ha; [discriminate|auto]. }
    assert (Hin : In a (somes order)). { destruct (in_dec Nat.eq_dec a (somes order)); auto. exfalso. apply Hu. rewrite <- (I_shp _ _ _ I _ _ Ha Hu). apply D; auto. }
    destruct (somes_nth _ _ Hin) as (k & Hk). exists k. split; [unfold d'; rewrite nth_dimshuffle, Hk; auto|].
    rewrite (nth_map_lt _ _ _ 0), seq_nth by (rewrite ?seq_length; auto). cbn. now rewrite (pos_of_nth _ _ _ N Hk). }
  destruct (single_inv v d' s' (fun k => match nth k order None with Some a => a | None => 0 end) (fun k => nth k order None <> None) Lv) as (J1 & J2 & J3).
  - intros k1 k2 D1 D2. destruct (nth k1 order None) as [a1|] eqn:E1; [|congruence]. destruct (nth k2 order None) as [a2|] eqn:E2; [|congruence].
    intros <-. eapply (known_inj order); eauto.
  - intros k j Hk. unfold d' in Hk. rewrite nth_dimshuffle in Hk. destruct (nth k order None) as [a|] eqn:Ek; [|discriminate]. split; [congruence|]. split; auto.
  - split; auto.
    + unfold d', s', op_shape. rewrite E. now rewrite !map_length.
    + intros X X' idx Hl H. unfold op_eval. rewrite E, Hv. cbn [nth]. eapply (dep_carried _ _ _ I d' _ idx); eauto; rewrite map_length, seq_length; auto.
    + apply node_cov; auto. rewrite Hv. intros u [<-|[]] C. eapply covers_carried; [exact C|exact (Hcar [])].
    + apply node_pw; auto.
Qed.

(** *** Reductions *)
Fixpoint rsrc (axes : list nat) (a n k' : nat) : nat :=
  match n with
  | O => k'
  | S n => if existsb (Nat.eqb a) axes then S (rsrc axes (S a) n k')
           else match k' with O => O | S k' => S (rsrc axes (S a) n k') end
  end.
Definition kept {A} (axes : list nat) (a : nat) (l : list A) : list A :=
  map snd (filter (fun p => negb (existsb (Nat.eqb (fst p)) axes)) (combine (seq a (length l)) l)).
Lemma kept_cons {A} axes a (x : A) l : kept axes a (x :: l) = if existsb (Nat.eqb a) axes then kept axes (S a) l else x :: kept axes (S a) l.
Proof. unfold kept. cbn. destruct (existsb (Nat.eqb a) axes); auto. Qed.
Lemma rsrc_inj axes n : forall a k1 k2, rsrc axes a n k1 = rsrc axes a n k2 -> k1 = k2.
Proof.
  induction n as [|n IH]; intros a k1 k2 H; cbn in H; auto. destruct (existsb (Nat.eqb a) axes).
  - eapply IH. injection H. eauto.
  - destruct k1, k2; auto; try discriminate. injection H as H. f_equal. eauto.
Qed.
Lemma kept_nth {A} axes (l : list A) dflt : forall a k', nth k' (kept axes a l) dflt = nth (rsrc axes a (length l) k') l dflt.
Proof.
  induction l as [|x l IH]; intros a k'.
  - cbn. destruct k'; auto.
  - rewrite kept_cons. cbn [length rsrc]. destruct (existsb (Nat.eqb a) axes); [cbn; auto|]. destruct k'; cbn; auto.
Qed.
Lemma kept_len {A B} axes (l : list A) (l' : list B) : length l = length l' -> forall a, length (kept axes a l) = length (kept axes a l').
Proof.
  revert l'. induction l as [|x l IH]; intros [|y l'] H a; try discriminate; auto. injection H as H. rewrite !kept_cons.
  destruct (existsb (Nat.eqb a) axes); cbn; auto.
Qed.
Lemma rsrc_onto axes n : forall a k, k < n -> existsb (Nat.eqb (a + k)) axes = false -> exists k', rsrc axes a n k' = k.
Proof.
  induction n as [|n IH]; intros a k Hk H; [lia|]. cbn. destruct k.
  - rewrite Nat.add_0_r in H. rewrite H. exists 0. auto.
  - destruct (IH (S a) k) as (k' & Hk'); [lia|rewrite <- Nat.add_succ_comm in H; auto|]. destruct (existsb (Nat.eqb a) axes); [exists k'|exists (S k')]; auto.
Qed.
Lemma unreduce_nth axes n : forall a idx red k', rsrc axes a n k' < n -> nth (rsrc axes a n k') (unreduce a axes n idx red) 0 = nth k' idx 0.
Proof.
  induction n as [|n IH]; intros a idx red k' H; cbn in *; [lia|]. destruct (existsb (Nat.eqb a) axes).
  - destruct red; cbn; apply IH; lia.
  - destruct k'; [destruct idx; auto|]. destruct idx; cbn; rewrite IH by lia; auto. destruct k'; auto.
Qed.
Lemma unreduce_len axes n : forall a idx red, length (unreduce a axes n idx red) = n.
Proof. induction n as [|n IH]; intros; cbn; auto. destruct (existsb (Nat.eqb a) axes); [destruct red|destruct idx]; cbn; auto. Qed.

Lemma node_reduce nd axes f z v : wf_node shapes nd -> n_op nd = OReduce axes f z -> n_in nd = [v] ->
  (forall a j, In a axes -> nth a (get v) None = Some j -> ~ nonunit j) ->
  Inv (kept axes 0 (get v)) (op_shape shapes nd) (fun X => op_eval shapes (vals X) nd).
Proof.
  intros W E Hv Hax. pose proof W as [W1 _]. rewrite Hv in W1. inversion W1 as [|? ? Lv _]; subst. pose proof (HInv v Lv) as I.
  set (d' := kept _ _ _). assert (Hs : op_shape shapes nd = kept axes 0 (sh v)) by (unfold op_shape; rewrite E, Hv; reflexivity).
  assert (Hcar : forall idx' red, carried (get v) (unreduce 0 axes (length (sh v)) idx' red) d' idx').
  { intros idx' red a j Ha Hu. assert (La : a < length (get v)). { destruct (Nat.lt_ge_cases a (length (get v))); auto. rewrite nth_overflow in Ha; [discriminate|auto]. }
    assert (Hn : existsb (Nat.eqb (0 + a)) axes = false). { destruct (existsb (Nat.eqb (0 + a)) axes) eqn:Ex; auto. apply existsb_exists in Ex as (a' & Hin & Ea). apply Nat.eqb_eq in Ea. cbn in Ea. subst a'. exfalso. eapply Hax; eauto. }
    destruct (rsrc_onto axes (length (get v)) 0 a La Hn) as (k' & Hk'). exists k'. split.
    - unfold d'. rewrite kept_nth, Hk'. auto.
    - rewrite <- Hk'. rewrite (I_len _ _ _ I). apply unreduce_nth. rewrite <- (I_len _ _ _ I), Hk'. auto. }
  destruct (single_inv v d' (kept axes 0 (sh v)) (rsrc axes 0 (length (sh v))) (fun _ => True) Lv) as (J1 & J2 & J3).
  - intros k1 k2 _ _. apply rsrc_inj.
  - intros k' j Hk'. unfold d' in Hk'. rewrite kept_nth, (I_len _ _ _ I) in Hk'. split; auto. split; auto. intros _. apply kept_nth.
  - rewrite Hs. split; auto.
    + apply kept_len. apply (I_len _ _ _ I).
    + intros X X' idx Hl H. unfold op_eval. rewrite E, Hv. cbn [nth].
      match goal with |- fold_right _ z ?l0 = _ => induction l0 as [|red l1 IH]; cbn; auto end. rewrite IH. f_equal.
      eapply (dep_carried _ _ _ I d' _ idx); eauto. apply unreduce_len.
    + apply node_cov; auto. rewrite Hv. intros u [<-|[]] C. eapply covers_carried; [exact C|exact (Hcar [] [])].
    + apply node_pw; auto.
Qed.

(** *** Basic indexing *)
Fixpoint bsrc (keys : list bkey) (k' : nat) : nat :=
  match keys with
  | [] => k'
  | BInt _ :: ks => S (bsrc ks k')
  | _ :: ks => match k' with O => O | S k' => S (bsrc ks k') end
  end.
Lemma bsrc_inj keys : forall k1 k2, bsrc keys k1 = bsrc keys k2 -> k1 = k2.
Proof.
  induction keys as [|k ks IH]; intros k1 k2 H; cbn in H; auto.
  destruct k; [destruct k1, k2; auto; try discriminate; injection H as H; f_equal; eauto..|injection H as H; eauto].
Qed.
Lemma nth_tl (l : list nat) k : nth k (tl l) 0 = nth (S k) l 0.
Proof. destruct l; cbn; auto. destruct k; auto. Qed.
Lemma sub_dims_nil x d : sub_dims (x :: d) [] = do r <- sub_dims d []; Ok (x :: r).
Proof. destruct x; reflexivity. Qed.
Lemma sub_dims_full x d ks : sub_dims (x :: d) (BFull :: ks) = do r <- sub_dims d ks; Ok (x :: r).
Proof. destruct x; reflexivity. Qed.
Lemma sub_dims_spec d : forall keys s d', length s = length d -> sub_dims d keys = Ok d' ->
  length d' = length (bkeys_shape s keys) /\
  (forall k' j, nth k' d' None = Some j -> nth (bsrc keys k') d None = Some j /\ nth k' (bkeys_shape s keys) 0 = nth (bsrc keys k') s 0) /\
  (forall k j, nth k d None = Some j -> exists k', nth k' d' None = Some j /\ forall idx, nth k (bkeys_index (length d) keys idx) 0 = nth k' idx 0).
Proof.
  induction d as [|x d IH]; intros keys s d' Hs H.
  - destruct s; [|discriminate]. cbn in H. injection H as <-. split; [destruct keys; auto|]. split; [intros [|k'] j Hk; discriminate|intros [|k] j Hk; discriminate].
  - destruct s as [|n s]; [discriminate|]. injection Hs as Hs.
    destruct keys as [|[|f len|m] ks].
    + rewrite sub_dims_nil in H. destruct (sub_dims d []) as [r|] eqn:E; [|discriminate]. cbn in H. injection H as <-.
      destruct (IH [] s r Hs E) as (L & A & B). split; [cbn; f_equal; auto|]. split.
      * intros [|k'] j Hk; cbn in *; auto; try apply (A _ _ Hk).
      * intros [|k] j Hk; cbn in Hk.
        -- exists 0. split; auto. intros idx. destruct idx; auto.
        -- destruct (B k j Hk) as (k' & Hk' & Hi). exists (S k'). split; auto. intros idx. cbn. rewrite Hi. apply nth_tl.
    + rewrite sub_dims_full in H. destruct (sub_dims d ks) as [r|] eqn:E; [|discriminate]. cbn in H. injection H as <-.
      destruct (IH ks s r Hs E) as (L & A & B); (split; [cbn; f_equal; auto|]); split;
      [ intros [|k'] j Hk; cbn in *; auto; try apply (A _ _ Hk)
      | intros [|k] j Hk; cbn in Hk;
        [ exists 0; split; auto; intros idx; destruct idx; auto
        | destruct (B k j Hk) as (k' & Hk' & Hi); exists (S k'); split; auto; intros idx; cbn; rewrite Hi; apply nth_tl ] ].
    + cbn in H. destruct x; [discriminate|]. destruct (sub_dims d ks) as [r|] eqn:E; [|discriminate]. cbn in H. injection H as <-.
      destruct (IH ks s r Hs E) as (L & A & B). split; [cbn; f_equal; auto|]. split.
      * intros [|k'] j Hk; cbn in *; [discriminate|]. apply (A _ _ Hk).
      * intros [|k] j Hk; cbn in Hk; [discriminate|].
        destruct (B k j Hk) as (k' & Hk' & Hi). exists (S k'). split; auto. intros idx. cbn. rewrite Hi. apply nth_tl.
    + cbn in H. destruct x; [discriminate|]. destruct (IH ks s d' Hs H) as (L & A & B). split; [cbn; auto|]. split.
      * intros k' j Hk; cbn. apply (A _ _ Hk).
      * intros [|k] j Hk; cbn in Hk; [discriminate|]. destruct (B k j Hk) as (k' & Hk' & Hi). exists k'. split; auto.
Qed.
Lemma bkeys_index_len n : forall keys idx, length (bkeys_index n keys idx) = n.
Proof. induction n as [|n IH]; intros keys idx; cbn; auto. destruct keys as [|[]]; cbn; auto. Qed.

Lemma node_sub nd keys v d' : wf_node shapes nd -> n_op nd = OSub keys -> n_in nd = [v] -> sub_dims (get v) keys = Ok d' ->
  Inv d' (op_shape shapes nd) (fun X => op_eval shapes (vals X) nd).
Proof.
  intros W E Hv Hd. pose proof W as [W1 _]. rewrite Hv in W1. inversion W1 as [|? ? Lv _]; subst. pose proof (HInv v Lv) as I.
  assert (Hs : op_shape shapes nd = bkeys_shape (sh v) keys) by (unfold op_shape; rewrite E, Hv; reflexivity).
  destruct (sub_dims_spec _ _ (sh v) _ (eq_sym (I_len _ _ _ I)) Hd) as (L & A & B).
  assert (Hcar : forall idx', carried (get v) (bkeys_index (length (sh v)) keys idx') d' idx').
  { intros idx' k j Hk _. destruct (B _ _ Hk) as (k' & Hk' & Hi). exists k'. split; auto. rewrite <- (I_len _ _ _ I). auto. }
  destruct (single_inv v d' (bkeys_shape (sh v) keys) (bsrc keys) (fun _ => True) Lv) as (J1 & J2 & J3).
  - intros k1 k2 _ _. apply bsrc_inj.
  - intros k' j Hk'. destruct (A _ _ Hk'). auto.
  - rewrite Hs. split; auto.
    + intros X X' idx Hl H. unfold op_eval. rewrite E, Hv. cbn [nth]. eapply (dep_carried _ _ _ I d' _ idx); eauto. apply bkeys_index_len.
    + apply node_cov; auto. rewrite Hv. intros u [<-|[]] C. eapply covers_carried; [exact C|exact (Hcar [])].
    + apply node_pw; auto.
Qed.

(** *** Broadcasting nodes *)
Lemma nth_firstn {A} (l : list A) n k d : k < n -> nth k (firstn n l) d = nth k l d.
Proof. revert n k. induction l as [|x l IH]; intros [|n] [|k] H; cbn; auto; try lia. apply IH. lia. Qed.
Lemma nth_skipn {A} (l : list A) n k d : nth k (skipn n l) d = nth (n + k) l d.
Proof. revert n. induction l as [|x l IH]; intros [|n]; cbn; auto. destruct k; auto. Qed.

Lemma all_indices_len cs : forall i, In i (all_indices cs) -> length i = length cs.
Proof.
  induction cs as [|n cs IH]; intros i H; cbn in H; [destruct H as [<-|[]]; auto|].
  apply in_flat_map in H as (k & _ & H). apply in_map_iff in H as (i' & <- & H). cbn. auto.
Qed.
Lemma bcoord_nth s b k : k < length s -> length s <= length b -> nth k s 0 <> 1 -> nth k (bcoord s b) 0 = nth (length b - length s + k) b 0.
Proof.
  intros Hk Hl Hn. unfold bcoord.
  assert (Lc : length (combine s (skipn (length b - length s) b)) = length s) by (rewrite combine_length, skipn_length; lia).
  rewrite (nth_map_lt _ _ _ (0, 0)) by lia. rewrite combine_nth by (rewrite skipn_length; lia). cbn.
  destruct (Nat.eqb_spec (nth k s 0) 1); [contradiction|]. apply nth_skipn.
Qed.
Lemma bcoord_len s b : length s <= length b -> length (bcoord s b) = length s.
Proof. intros H. unfold bcoord. rewrite map_length, combine_length, skipn_length. lia. Qed.

Definition padded (bnd : nat) (p : nat * nat) : dims := repeat None (bnd - (length (sh (snd p)) - fst p)) ++ get (snd p).

Lemma pad_params_eq implicit bnd cores ins : length cores = length ins ->
  Forall (fun v => v < length shapes) ins ->
  Forall (fun p => let '(core, v) := p in length (sh v) - core <= bnd /\ (implicit = false -> length (sh v) - core = bnd)) (combine cores ins) ->
  pad_params implicit bnd cores (map get ins) = map (padded bnd) (combine cores ins).
Proof.
  unfold pad_params. revert ins. induction cores as [|c cores IH]; intros [|v ins] L F1 F2; try discriminate; [destruct implicit; auto|].
  injection L as L. inversion F1; subst. cbn [combine] in F2. inversion F2 as [|? ? F21 F22]; subst. specialize (IH ins L H2 F22). cbn [map combine]. destruct implicit.
  - cbn [map combine fst snd]. rewrite IH. f_equal. unfold padded. cbn. now rewrite (I_len _ _ _ (HInv v H1)).
  - rewrite IH. f_equal. unfold padded. cbn. destruct F21 as [_ F21]. rewrite F21 by auto. now rewrite Nat.sub_diag.
Qed.

Lemma node_block nd bshape core_out core_ins implicit f b : wf_node shapes nd -> n_op nd = OBlock bshape core_out core_ins implicit f ->
  n_in nd <> [] ->
  let ins' := pad_params implicit (length bshape) core_ins (map get (n_in nd)) in
  forallb (fun d => all_none (skipn (length bshape) d)) ins' = true -> broadcast_dims (map (firstn (length bshape)) ins') = Ok b ->
  Inv (b ++ repeat None (length (op_shape shapes nd) - length bshape)) (op_shape shapes nd) (fun X => op_eval shapes (vals X) nd).
Proof.
  intros W E Hne ins' Hcore Hb. pose proof W as [W1 W2]. rewrite E in W2. destruct W2 as [Lc Wc]. set (bnd := length bshape) in *.
  assert (Hins : ins' = map (padded bnd) (combine core_ins (n_in nd))).
  { apply pad_params_eq; auto. eapply Forall_impl; [|exact Wc]. intros [c v] (_ & ? & ? & _). auto. }
  rewrite Hins in *. clear ins' Hins. rewrite Forall_forall in Wc.
  assert (Hlen : forall p, In p (combine core_ins (n_in nd)) -> length (firstn bnd (padded bnd p)) = bnd).
  { intros [c v] Hp. destruct (Wc _ Hp) as (C1 & C2 & _). rewrite firstn_length. unfold padded. rewrite app_length, repeat_length. cbn.
    rewrite (I_len _ _ _ (HInv v (node_ins _ _ W (in_combine_r _ _ _ _ Hp)))). fold sh in C1, C2. lia. }
  set (ds := map (firstn bnd) (map (padded bnd) (combine core_ins (n_in nd)))) in *.
  assert (Hds : forall d, In d ds -> exists p, In p (combine core_ins (n_in nd)) /\ d = firstn bnd (padded bnd p)).
  { intros d Hd. apply in_map_iff in Hd as (x & <- & Hx). apply in_map_iff in Hx as (p & <- & Hp). eauto. }
  assert (Hmax : max_len ds = bnd).
  { apply Nat.le_antisymm.
    - apply max_len_map. intros d Hd. destruct (Hds d Hd) as (p & Hp & ->). rewrite Hlen; auto.
    - destruct (combine core_ins (n_in nd)) as [|p ps] eqn:Ec.
      { destruct core_ins, (n_in nd); try discriminate; congruence. }
      rewrite <- (Hlen p (or_introl eq_refl)). apply max_len_ge. cbn. auto. }
  destruct (broadcast_spec _ _ Hb) as (Lb & Ib & Fb & Tb). rewrite Hmax in *.
  assert (Hos : op_shape shapes nd = bshape ++ core_out) by (unfold op_shape; rewrite E; auto).
  set (d' := b ++ repeat None (length (op_shape shapes nd) - bnd)).
  assert (Hd'1 : forall k x, nth k d' None = Some x -> nth k b None = Some x /\ k < bnd).
  { intros k x Hk. unfold d' in Hk. destruct (Nat.lt_ge_cases k (length b)) as [l|l].
    - rewrite app_nth1 in Hk by auto. split; auto. lia.
    - rewrite app_nth2, nth_repeat_none in Hk by auto. discriminate. }
  assert (Hd'2 : forall k x, nth k b None = Some x -> nth k d' None = Some x).
  { intros k x Hk. unfold d'. rewrite app_nth1; auto. eapply nth_Some_lt; eauto. }
  (* where a label of input (c, v) ends up *)
  assert (Hfwd : forall c v, In (c, v) (combine core_ins (n_in nd)) -> forall k j, nth k (get v) None = Some j ->
      k < length (sh v) - c /\ nth (bnd - (length (sh v) - c) + k) d' None = Some j).
  { intros c v Hp k j Hk. pose proof (HInv v (node_ins _ _ W (in_combine_r _ _ _ _ Hp))) as I. destruct (Wc _ Hp) as (C1 & C2 & _). fold sh in C1, C2.
    assert (Hkp : nth (bnd - (length (sh v) - c) + k) (padded bnd (c, v)) None = Some j).
    { unfold padded. cbn. rewrite app_nth2; rewrite repeat_length; [|lia]. replace (_ + k - _) with k by lia. auto. }
    assert (Hlt : bnd - (length (sh v) - c) + k < bnd).
    { destruct (Nat.lt_ge_cases (bnd - (length (sh v) - c) + k) bnd) as [|Hge]; auto. exfalso.
      rewrite forallb_forall in Hcore. specialize (Hcore (padded bnd (c, v)) (in_map _ _ _ Hp)).
      apply (all_none_nth _ (bnd - (length (sh v) - c) + k - bnd)) in Hcore. rewrite nth_skipn in Hcore.
      replace (bnd + (bnd - (length (sh v) - c) + k - bnd)) with (bnd - (length (sh v) - c) + k) in Hcore by lia. congruence. }
    split; [lia|]. apply Hd'2. rewrite <- (Nat.add_0_l (_ + k)). rewrite <- (Nat.sub_diag bnd) at 1. rewrite <- (Hlen (c, v) Hp) at 2.
    apply Fb; [apply in_map, in_map; auto|]. rewrite nth_firstn; auto. }
  (* where a label of the output comes from *)
  assert (Hbwd : forall k j, nth k d' None = Some j -> exists c v, In (c, v) (combine core_ins (n_in nd)) /\ bnd - (length (sh v) - c) <= k /\
      nth (k - (bnd - (length (sh v) - c))) (get v) None = Some j).
  { intros k j Hk. destruct (Hd'1 _ _ Hk) as [Hkb Hlt]. destruct (Tb _ _ Hkb) as (d & Hd & Hle & Hn). destruct (Hds _ Hd) as ([c v] & Hp & ->).
    rewrite Hlen in Hle, Hn by auto. rewrite Nat.sub_diag, Nat.sub_0_r in Hn. rewrite nth_firstn in Hn by auto. unfold padded in Hn. cbn in Hn.
    destruct (Nat.lt_ge_cases k (bnd - (length (sh v) - c))) as [l|l].
    - rewrite app_nth1, nth_repeat_none in Hn by (rewrite repeat_length; auto). discriminate.
    - rewrite app_nth2 in Hn by (rewrite repeat_length; auto). rewrite repeat_length in Hn. eauto. }
  assert (Hinj : injective d'). { intros k k' j Hk Hk'. destruct (Hd'1 _ _ Hk), (Hd'1 _ _ Hk'). eapply Ib; eauto. }
  assert (Hlab : lab d'). { intros k j Hk. destruct (Hbwd _ _ Hk) as (c & v & Hp & _ & Hn). eapply (I_lab _ _ _ (HInv v (node_ins _ _ W (in_combine_r _ _ _ _ Hp)))); eauto. }
  assert (Hcar : forall c v, In (c, v) (combine core_ins (n_in nd)) -> forall idx' ci, length idx' = length (op_shape shapes nd) ->
     carried (get v) (bcoord (firstn (length (sh v) - c) (sh v)) (firstn bnd idx') ++ ci) d' idx').
  { intros c v Hp idx' ci Hl k j Hk Hu. pose proof (HInv v (node_ins _ _ W (in_combine_r _ _ _ _ Hp))) as I. destruct (Wc _ Hp) as (C1 & C2 & _ & C4). fold sh in C1, C2, C4.
    destruct (Hfwd _ _ Hp _ _ Hk) as [Hlt Hn]. exists (bnd - (length (sh v) - c) + k). split; auto.
    assert (Lf : length (firstn (length (sh v) - c) (sh v)) = length (sh v) - c) by (rewrite firstn_length; lia).
    assert (Li : length (firstn bnd idx') = bnd) by (rewrite firstn_length, Hl, Hos, app_length; fold bnd; lia).
    rewrite app_nth1 by (rewrite bcoord_len; lia). rewrite bcoord_nth; [|lia|lia|].
    - rewrite Lf, Li. apply nth_firstn. lia.
    - rewrite nth_firstn by auto. rewrite (I_shp _ _ _ I _ _ Hk Hu). auto. }
  split; auto.
  - unfold d'. rewrite app_length, repeat_length, Lb, Hos, app_length. fold bnd. lia.
  - intros k j Hk Hu. destruct (Hbwd _ _ Hk) as (c & v & Hp & Hle & Hn). destruct (Hd'1 _ _ Hk) as [_ Hlt].
    pose proof (HInv v (node_ins _ _ W (in_combine_r _ _ _ _ Hp))) as I. destruct (Wc _ Hp) as (C1 & C2 & _ & C4). fold sh in C1, C2, C4.
    rewrite Hos, app_nth1 by auto. pose proof (I_shp _ _ _ I _ _ Hn Hu) as Hsv. destruct (Hfwd _ _ Hp _ _ Hn) as [Hlt' _].
    destruct (C4 _ Hlt') as [C|C]; [unfold nonunit in Hu; congruence|]. fold bnd in C. replace (bnd - (length (sh v) - c) + (k - (bnd - (length (sh v) - c)))) with k in C by lia. congruence.
  - intros X X' idx Hl H. unfold op_eval. rewrite E. f_equal. apply map_ext_in. intros [c v] Hp. apply map_ext_in. intros ci Hci.
    pose proof (HInv v (node_ins _ _ W (in_combine_r _ _ _ _ Hp))) as I. destruct (Wc _ Hp) as (C1 & C2 & _ & C4). fold sh in C1, C2, C4.
    eapply (dep_carried _ _ _ I d' _ idx); eauto. apply all_indices_len in Hci. rewrite app_length, Hci, skipn_length, bcoord_len; rewrite !firstn_length; fold sh; [lia|].
    rewrite Hl, Hos, app_length. fold bnd. lia.
  - apply node_cov; auto. intros v Hv C. apply In_nth_error in Hv as (n & Hn). destruct (nth_error core_ins n) as [c|] eqn:Hc.
    + assert (Hp : In (c, v) (combine core_ins (n_in nd))).
      { revert Hn Hc. clear. revert n. generalize (n_in nd). induction core_ins as [|c0 cs IH]; intros [|v0 l] [|n] H1 H2; cbn in *; try discriminate.
        - injection H1 as ->. injection H2 as ->. auto.
        - right. eauto. }
      eapply covers_carried; [exact C|]. apply (Hcar c v Hp (repeat 0 (length (op_shape shapes nd))) []). apply repeat_length.
    + exfalso. apply nth_error_None in Hc. assert (n < length (n_in nd)) by (apply nth_error_Some; congruence). lia.
  - apply node_pw; auto.
Qed.

(** *** Advanced indexing *)
Lemma adv_loop_simple keys : forall axis a, adv_axis_loop axis (Some a) true keys = if existsb is_tensorkey keys then Some 0 else Some a.
Proof. induction keys as [|k ks IH]; intros axis a; cbn; auto. destruct k; cbn; auto. Qed.
Lemma adv_loop_found keys : forall axis a, adv_axis_loop axis (Some a) false keys = if existsb is_tensorkey (drop_tensor keys) then Some 0 else Some a.
Proof. induction keys as [|k ks IH]; intros axis a; cbn; auto. destruct k; cbn; auto using adv_loop_simple. Qed.
Lemma drop_simple_len keys : length (drop_simple keys) <= length keys.
Proof. induction keys as [|k ks IH]; cbn; auto. destruct (is_tensorkey k); cbn; lia. Qed.
Lemma adv_loop_start keys : forall axis, existsb is_tensorkey keys = true ->
  adv_axis_loop axis None false keys = Some (if existsb is_tensorkey (drop_tensor (drop_simple keys)) then 0 else axis + (length keys - length (drop_simple keys))).
Proof.
  induction keys as [|k ks IH]; intros axis H; cbn -[Nat.sub] in *; [discriminate|]. pose proof (drop_simple_len ks).
  destruct k; cbn -[Nat.sub] in *; try (rewrite IH by auto; destruct (existsb is_tensorkey (drop_tensor (drop_simple ks))); f_equal; lia).
  - rewrite adv_loop_found. destruct (existsb is_tensorkey (drop_tensor ks)); f_equal; lia.
  - rewrite adv_loop_found. destruct (existsb is_tensorkey (drop_tensor ks)); f_equal; lia.
Qed.
Lemma tensor_keys_exists keys : tensor_keys keys <> [] -> existsb is_tensorkey keys = true.
Proof. induction keys as [|k ks IH]; intros H; [cbn in H; congruence|]. destruct k; cbn in *; auto. Qed.
Lemma adv_axis_eq keys : tensor_keys keys <> [] -> adv_group_axis keys = numpy_adv_axis keys.
Proof. intros H. unfold adv_group_axis, numpy_adv_axis. rewrite adv_loop_start by (apply tensor_keys_exists; auto). reflexivity. Qed.

Lemma adv_ndim_eq keys : adv_group_ndim (fun v => length (sh v)) keys = length (bcast_shape (map sh (tensor_keys keys))).
Proof.
  unfold adv_group_ndim, bcast_shape. rewrite map_length, seq_length. induction (tensor_keys keys) as [|u us IH]; cbn; auto.
Qed.

Lemma adv_axis_le keys : forall s, length (filter (fun k => negb (is_newaxis k)) keys) <= length s -> numpy_adv_axis keys <= length (akeys_shape s keys).
Proof.
  intros s H. unfold numpy_adv_axis. destruct existsb; [lia|]. revert s H. induction keys as [|k ks IH]; intros s H; [cbn; lia|].
  pose proof (drop_simple_len ks). destruct k; cbn -[Nat.sub] in *; try lia.
  - destruct s as [|n s]; cbn -[Nat.sub] in *; [lia|]. specialize (IH s ltac:(lia)). lia.
  - destruct s as [|n s]; cbn -[Nat.sub] in *; [lia|]. specialize (IH s ltac:(lia)). lia.
  - specialize (IH s H). lia.
Qed.

(** with only full slices and arrays, the non-advanced part behaves as basic indexing *)
Fixpoint cv (s : list nat) (keys : list akey) (key : nat -> Z) : list bkey :=
  match keys, s with
  | [], _ => []
  | _, [] => []
  | ATensor u :: ks, n :: s => BInt (to_index n (key u)) :: cv s ks key
  | _ :: ks, _ :: s => BFull :: cv s ks key
  end.
Definition plain (k : akey) := match k with AFull | ATensor _ => true | _ => false end.
Lemma adv_value_dims_eq keys key : forall s d, length s = length d -> forallb plain keys = true -> adv_value_dims d keys = sub_dims d (cv s keys key).
Proof.
  assert (N : forall d, adv_value_dims d [] = sub_dims d []).
  { induction d as [|x d IH]; auto. rewrite sub_dims_nil, <- IH. destruct x; auto. }
  induction keys as [|k ks IH]; intros s d L P; [destruct s; apply N|].
  destruct s as [|n s], d as [|x d]; try discriminate; [destruct k; auto|]. injection L as L. cbn in P. apply andb_prop in P as [P1 P2].
  destruct k; try discriminate; cbn [cv].
  - rewrite sub_dims_full, <- (IH s d) by auto. destruct x; auto.
  - destruct x; cbn; auto.
Qed.
Lemma bkeys_shape_nil s : bkeys_shape s [] = s.
Proof. induction s; cbn; auto. now rewrite IHs. Qed.
Lemma akeys_shape_eq keys key : forall s, length keys <= length s -> forallb plain keys = true -> akeys_shape s keys = bkeys_shape s (cv s keys key).
Proof.
  induction keys as [|k ks IH]; intros s L P; [destruct s; cbn [akeys_shape cv]; rewrite bkeys_shape_nil; auto|].
  destruct s as [|n s]; cbn in L; [lia|]. cbn in P. apply andb_prop in P as [P1 P2]. destruct k; try discriminate; cbn; rewrite (IH s) by (auto; lia); auto.
Qed.
Lemma bkeys_index_nil (s : list nat) : forall na : list nat, length na = length s -> map snd (combine s na) = bkeys_index (length s) [] na.
Proof. induction s as [|n s IH]; intros [|x na] H; try discriminate; cbn; auto. f_equal. auto. Qed.
Lemma akeys_index_eq keys key : forall s na, length keys <= length s -> forallb plain keys = true -> length na = length (akeys_shape s keys) ->
  akeys_index s keys key na = bkeys_index (length s) (cv s keys key) na.
Proof.
  induction keys as [|k ks IH]; intros s na L P H; [destruct s; cbn [akeys_index cv]; apply bkeys_index_nil; auto|].
  destruct s as [|n s]; cbn in L; [lia|]. cbn in P. apply andb_prop in P as [P1 P2]. destruct k; try discriminate; cbn in *.
  - rewrite (IH s) by (auto; try lia; destruct na; cbn in *; lia). auto.
  - rewrite (IH s) by (auto; lia). auto.
Qed.

Lemma nth_insert {A} (l m : list A) a k d : a <= length l ->
  nth k (firstn a l ++ m ++ skipn a l) d = if k <? a then nth k l d else if k <? a + length m then nth (k - a) m d else nth (k - length m) l d.
Proof.
  intros H. destruct (Nat.ltb_spec k a).
  - rewrite app_nth1 by (rewrite firstn_length; lia). apply nth_firstn. auto.
  - rewrite app_nth2; rewrite firstn_length; [|lia]. rewrite Nat.min_l by auto. destruct (Nat.ltb_spec k (a + length m)).
    + rewrite app_nth1; auto. lia.
    + rewrite app_nth2 by lia. rewrite nth_skipn. f_equal. lia.
Qed.
Lemma nth_remove (l : list nat) a g k : a <= length l -> nth k (firstn a l ++ skipn (a + g) l) 0 = nth (if k <? a then k else k + g) l 0.
Proof.
  intros H. destruct (Nat.ltb_spec k a).
  - rewrite app_nth1 by (rewrite firstn_length; lia). apply nth_firstn. auto.
  - rewrite app_nth2; rewrite firstn_length; [|lia]. rewrite Nat.min_l by auto. rewrite nth_skipn. f_equal. lia.
Qed.

(** numpy's output shape of advanced indexing *)
Definition adv_g keys := bcast_shape (map sh (tensor_keys keys)).

Lemma akeys_index_len keys key : forall s na, length (filter (fun k => negb (is_newaxis k)) keys) <= length s ->
  length na = length (akeys_shape s keys) -> length (akeys_index s keys key na) = length s.
Proof.
  induction keys as [|k ks IH]; intros s na L H; cbn in *; [rewrite map_length, combine_length; lia|].
  destruct k; cbn in *; try (destruct s as [|n s]; cbn in *; [lia|]; f_equal; apply IH; try lia; destruct na; cbn in *; lia).
  - apply IH; auto. destruct na; cbn in *; lia.
Qed.

Lemma node_adv_value nd keys v na : wf_node shapes nd -> n_op nd = OAdv keys -> n_in nd = v :: tensor_keys keys ->
  forallb plain keys = true -> (forall u, In u (tensor_keys keys) -> all_none (get u) = true) ->
  adv_value_dims (get v) keys = Ok na ->
  Inv (firstn (adv_group_axis keys) na ++ repeat None (adv_group_ndim (fun v => length (sh v)) keys) ++ skipn (adv_group_axis keys) na)
      (op_shape shapes nd) (fun X => op_eval shapes (vals X) nd).
Proof.
  intros W E Hv P Hk Hna. pose proof W as [W1 W2]. rewrite E in W2. destruct W2 as (v0 & Hv0 & Hne & Hcnt & _). rewrite Hv in Hv0. injection Hv0 as <-.
  rewrite Hv in W1. inversion W1 as [|? ? Lv _]; subst. pose proof (HInv v Lv) as I. fold sh in Hcnt.
  assert (Lk : length keys <= length (sh v)).
  { etransitivity; [|exact Hcnt]. clear -P. induction keys as [|k ks IH]; cbn in *; auto. apply andb_prop in P as [P1 P2]. destruct k; try discriminate; cbn; apply le_n_S; auto. }
  rewrite adv_axis_eq, adv_ndim_eq by auto. fold (adv_g keys). set (a := numpy_adv_axis keys). set (g := adv_g keys).
  pose proof (adv_axis_le keys (sh v) Hcnt) as La. fold a in La.
  assert (Hos : op_shape shapes nd = firstn a (akeys_shape (sh v) keys) ++ g ++ skipn a (akeys_shape (sh v) keys)) by (unfold op_shape; rewrite E, Hv; reflexivity).
  set (key0 := fun _ : nat => 0%Z).
  rewrite (adv_value_dims_eq keys key0 (sh v)) in Hna by (auto using eq_sym, (I_len _ _ _ I)).
  destruct (sub_dims_spec _ _ (sh v) _ (eq_sym (I_len _ _ _ I)) Hna) as (L & A & B0). rewrite <- akeys_shape_eq in L, A by auto.
  assert (B : forall key k j, nth k (get v) None = Some j -> exists k', nth k' na None = Some j /\
    forall idx, nth k (bkeys_index (length (sh v)) (cv (sh v) keys key) idx) 0 = nth k' idx 0).
  { intros key. rewrite <- (I_len _ _ _ I). apply (sub_dims_spec _ _ (sh v)); [symmetry; apply I|].
    rewrite <- (adv_value_dims_eq keys key (sh v)); [|symmetry; apply I|auto]. rewrite (adv_value_dims_eq keys key0 (sh v)); auto. symmetry; apply I. }
  set (d' := firstn a na ++ repeat None (length g) ++ skipn a na).
  assert (Hd' : forall k, nth k d' None = if k <? a then nth k na None else if k <? a + length g then None else nth (k - length g) na None).
  { intros k. unfold d'. rewrite nth_insert by lia. rewrite repeat_length, nth_repeat_none. auto. }
  assert (Hidx : forall idx' : list nat, length idx' = length (op_shape shapes nd) -> length (firstn a idx' ++ skipn (a + length g) idx') = length (akeys_shape (sh v) keys)).
  { intros idx' Hl. rewrite Hos in Hl. rewrite !app_length, firstn_length, skipn_length in *. lia. }
  assert (Hcar : forall key idx', length idx' = length (op_shape shapes nd) ->
    carried (get v) (akeys_index (sh v) keys key (firstn a idx' ++ skipn (a + length g) idx')) d' idx').
  { intros key idx' Hl k j Hkj _. destruct (B key k j Hkj) as (k' & Hk' & Hi). rewrite akeys_index_eq by auto. rewrite Hi, nth_remove.
    2:{ rewrite Hl, Hos, !app_length, firstn_length, skipn_length. lia. }
    exists (if k' <? a then k' else k' + length g). split; auto. rewrite Hd'. destruct (Nat.ltb_spec k' a).
    - destruct (Nat.ltb_spec k' a); [auto|lia].
    - destruct (Nat.ltb_spec (k' + length g) a); [lia|]. destruct (Nat.ltb_spec (k' + length g) (a + length g)); [lia|]. now replace (k' + length g - length g) with k' by lia. }
  destruct (single_inv v d' (op_shape shapes nd) (fun k => bsrc (cv (sh v) keys key0) (if k <? a then k else k - length g)) (fun k => k < a \/ a + length g <= k) Lv) as (J1 & J2 & J3).
  - intros k1 k2 D1 D2 Eq. apply bsrc_inj in Eq. destruct (Nat.ltb_spec k1 a), (Nat.ltb_spec k2 a); lia.
  - intros k' j Hk'. rewrite Hd' in Hk'. rewrite Hos, nth_insert by auto. destruct (Nat.ltb_spec k' a).
    + destruct (A _ _ Hk') as [A1 A2]. auto.
    + destruct (Nat.ltb_spec k' (a + length g)); [discriminate|]. destruct (A _ _ Hk') as [A1 A2]. auto.
  - split; auto.
    + unfold d'. rewrite Hos, !app_length, !firstn_length, !skipn_length, repeat_length. lia.
    + intros X X' idx Hl H. unfold op_eval. rewrite E, Hv. cbn [nth]. fold sh. fold a. fold (adv_g keys). fold g.
      erewrite akeys_index_ext.
      * eapply (dep_carried _ _ _ I d' _ idx); [|auto|auto|apply Hcar; auto|exact H].
        rewrite akeys_index_len; auto.
      * intros u Hu. cbn beta. assert (Lu : u < length shapes) by (apply (node_ins _ _ W); rewrite Hv; right; auto). exact (dep_none _ _ _ (HInv u Lu) (Hk u Hu) d' idx J2 X X' H _).
    + apply node_cov; auto. rewrite Hv. intros u [<-|Hu] C.
      * eapply covers_carried; [exact C|]. apply (Hcar key0 (repeat 0 (length (op_shape shapes nd)))). apply repeat_length.
      * eapply connects_none; eauto.
    + apply node_pw; auto.
Qed.

Lemma node_adv_keys nd keys v ad : wf_node shapes nd -> n_op nd = OAdv keys -> n_in nd = v :: tensor_keys keys ->
  all_none (get v) = true -> broadcast_dims (map get (tensor_keys keys)) = Ok ad ->
  let a := adv_group_axis keys in let g := adv_group_ndim (fun v => length (sh v)) keys in
  Inv (repeat None a ++ ad ++ repeat None (length (op_shape shapes nd) - a - g)) (op_shape shapes nd) (fun X => op_eval shapes (vals X) nd).
Proof.
  intros W E Hv Hnone Had. pose proof W as [W1 W2]. rewrite E in W2. destruct W2 as (v0 & Hv0 & Hne & Hcnt & Wk). rewrite Hv in Hv0. injection Hv0 as <-.
  rewrite Hv in W1. inversion W1 as [|? ? Lv Lks]; subst. pose proof (HInv v Lv) as I. fold sh in Hcnt, Wk. cbv zeta.
  rewrite adv_axis_eq, adv_ndim_eq by auto. fold (adv_g keys) in *. set (a := numpy_adv_axis keys). set (g := adv_g keys) in *.
  pose proof (adv_axis_le keys (sh v) Hcnt) as La. fold a in La.
  assert (Hos : op_shape shapes nd = firstn a (akeys_shape (sh v) keys) ++ g ++ skipn a (akeys_shape (sh v) keys)) by (unfold op_shape; rewrite E, Hv; reflexivity).
  assert (Hol : length (op_shape shapes nd) = length (akeys_shape (sh v) keys) + length g).
  { rewrite Hos, !app_length, firstn_length, skipn_length. lia. }
  destruct (broadcast_spec _ _ Had) as (Lb & Ib & Fb & Tb).
  assert (Hmax : max_len (map get (tensor_keys keys)) = length g).
  { unfold g, adv_g, bcast_shape. rewrite map_length, seq_length. clear -HInv Lks. induction (tensor_keys keys) as [|u us IH]; cbn; auto.
    inversion Lks; subst. unfold max_len in IH. rewrite IH by auto. now rewrite (I_len _ _ _ (HInv u H1)). }
  rewrite Hmax in *. set (d' := repeat None a ++ ad ++ repeat None (length (op_shape shapes nd) - a - length g)).
  assert (Hd' : forall k, nth k d' None = if k <? a then None else nth (k - a) ad None).
  { intros k. unfold d'. destruct (Nat.ltb_spec k a).
    - rewrite app_nth1, nth_repeat_none by (rewrite repeat_length; auto). auto.
    - rewrite app_nth2; rewrite repeat_length; [|auto]. destruct (Nat.lt_ge_cases (k - a) (length ad)); [now rewrite app_nth1|].
      rewrite app_nth2, nth_repeat_none by auto. now rewrite nth_overflow. }
  rewrite Forall_forall in Lks, Wk.
  assert (Hlen : forall u, In u (tensor_keys keys) -> length (get u) = length (sh u) /\ length (sh u) <= length g).
  { intros u Hu. rewrite (I_len _ _ _ (HInv u (Lks u Hu))). split; auto. rewrite <- (I_len _ _ _ (HInv u (Lks u Hu))), <- Hmax. apply max_len_ge. apply in_map. auto. }
  assert (Hbwd : forall k j, nth k d' None = Some j -> a <= k /\ k - a < length g /\ exists u, In u (tensor_keys keys) /\ length g - length (sh u) <= k - a /\
      nth (k - a - (length g - length (sh u))) (get u) None = Some j).
  { intros k j Hk. rewrite Hd' in Hk. destruct (Nat.ltb_spec k a); [discriminate|]. split; auto. split; [rewrite <- Lb; eapply nth_Some_lt; eauto|].
    destruct (Tb _ _ Hk) as (d & Hd & Hle & Hn). apply in_map_iff in Hd as (u & <- & Hu). exists u. split; auto. destruct (Hlen u Hu) as [-> _] in Hle, Hn. auto. }
  assert (Hfwd : forall u, In u (tensor_keys keys) -> forall k j, nth k (get u) None = Some j -> k < length (sh u) /\ nth (a + (length g - length (sh u) + k)) d' None = Some j).
  { intros u Hu k j Hk. destruct (Hlen u Hu) as [L1 L2]. split; [rewrite <- L1; eapply nth_Some_lt; eauto|]. rewrite Hd'. destruct (Nat.ltb_spec (a + (length g - length (sh u) + k)) a); [lia|].
    replace (a + _ - a) with (length g - length (sh u) + k) by lia. rewrite <- L1. apply Fb; auto. apply in_map; auto. }
  assert (Hinj : injective d'). { intros k k' j Hk Hk'. destruct (Hbwd _ _ Hk) as (G1 & _), (Hbwd _ _ Hk') as (G2 & _). rewrite Hd' in Hk, Hk'.
    destruct (Nat.ltb_spec k a); [lia|]. destruct (Nat.ltb_spec k' a); [lia|]. pose proof (Ib _ _ _ Hk Hk'). lia. }
  assert (Hlab : lab d'). { intros k j Hk. destruct (Hbwd _ _ Hk) as (_ & _ & u & Hu & _ & Hn). eapply (I_lab _ _ _ (HInv u (Lks u Hu))); eauto. }
  assert (Hcar : forall u, In u (tensor_keys keys) -> forall idx', length idx' = length (op_shape shapes nd) ->
     carried (get u) (bcoord (sh u) (firstn (length g) (skipn a idx'))) d' idx').
  { intros u Hu idx' Hl k j Hk Hun. destruct (Hfwd u Hu k j Hk) as [Hlt Hn]. destruct (Hlen u Hu) as [L1 L2]. exists (a + (length g - length (sh u) + k)). split; auto.
    assert (Lf : length (firstn (length g) (skipn a idx')) = length g) by (rewrite firstn_length, skipn_length; lia).
    rewrite bcoord_nth; [|auto|lia|].
    - rewrite Lf, nth_firstn by lia. apply nth_skipn.
    - rewrite (I_shp _ _ _ (HInv u (Lks u Hu)) _ _ Hk Hun). auto. }
  split; auto.
  - unfold d'. rewrite !app_length, !repeat_length. lia.
  - intros k j Hk Hun. destruct (Hbwd _ _ Hk) as (G1 & G2 & u & Hu & Hle & Hn). destruct (Hfwd u Hu _ _ Hn) as [Hlt _].
    rewrite Hos, nth_insert by auto. destruct (Nat.ltb_spec k a); [lia|]. destruct (Nat.ltb_spec k (a + length g)); [|lia].
    pose proof (I_shp _ _ _ (HInv u (Lks u Hu)) _ _ Hn Hun) as Hsu. destruct (Wk u Hu _ Hlt) as [C|C]; [unfold nonunit in Hun; congruence|].
    destruct (Hlen u Hu) as [_ L2]. replace (length g - length (sh u) + (k - a - (length g - length (sh u)))) with (k - a) in C by lia. congruence.
  - intros X X' idx Hl H. unfold op_eval. rewrite E, Hv. cbn [nth]. fold sh. fold a. fold (adv_g keys). fold g.
    erewrite akeys_index_ext.
    + exact (dep_none _ _ _ I Hnone d' idx Hlab X X' H _).
    + intros u Hu. cbn beta. destruct (Hlen u Hu) as [L1 L2]. eapply (dep_carried _ _ _ (HInv u (Lks u Hu)) d' _ idx); [|auto|auto|apply Hcar; auto|exact H].
      apply bcoord_len. rewrite firstn_length, skipn_length. change (bcast_shape (map (fun v0 : nat => sh v0) (tensor_keys keys))) with g. lia.
  - apply node_cov; auto. rewrite Hv. intros u [<-|Hu] C.
    + eapply connects_none; eauto.
    + eapply covers_carried; [exact C|]. apply (Hcar u Hu (repeat 0 (length (op_shape shapes nd)))). apply repeat_length.
  - apply node_pw; auto.
Qed.

(** *** One iteration of the loop *)
Lemma node_inv nd o : wf_node shapes nd ->
  (forall axes f z v a, n_op nd = OReduce axes f z -> n_in nd = [v] -> In a axes -> nth a (get v) None = Some 0 -> nth 0 xs 0 = 1) ->
  (forall keys f len v, n_op nd = OAdv keys -> hd_error (n_in nd) = Some v -> In (ASlice f len) keys -> all_none (get v) = true) ->
  node_dims (fun v => length (sh v)) get (length (op_shape shapes nd)) nd = Ok o ->
  Inv (match o with Some d => d | None => repeat None (length (op_shape shapes nd)) end) (op_shape shapes nd) (fun X => op_eval shapes (vals X) nd).
Proof.
  intros W Hr Hs H. unfold node_dims in H. destruct (forallb all_none (map get (n_in nd))) eqn:N.
  { injection H as <-. apply node_continue; auto. }
  pose proof W as [W1 W2]. destruct (n_op nd) eqn:E.
  - destruct W2 as (v & Hv & _). rewrite Hv in H. cbn in H. injection H as <-. apply node_dimshuffle; auto.
  - destruct (forallb (fun d => all_none (skipn (length bshape) d)) (pad_params implicit (length bshape) core_ins (map get (n_in nd)))) eqn:F; [|discriminate].
    destruct (broadcast_dims (map (firstn (length bshape)) (pad_params implicit (length bshape) core_ins (map get (n_in nd))))) as [b|] eqn:B; [|discriminate]. cbn in H. injection H as <-. eapply node_block; eauto. intros Hn. rewrite Hn in N. discriminate.
  - destruct W2 as (v & Hv). rewrite Hv in H. cbn [map] in H. match type of H with (if existsb ?ff axes then _ else _) = _ => destruct (existsb ff axes) eqn:Ex; [discriminate|] end. injection H as <-. eapply node_reduce; eauto.
    intros a j Ha Hj Hu. destruct j as [|j].
    + apply Hu. eapply Hr; eauto.
    + assert (existsb (fun a0 => match nth a0 (get v) None with Some 0 => false | Some (S _) => true | None => false end) axes = true); [|congruence].
      apply existsb_exists. exists a. split; auto. now rewrite Hj.
  - destruct W2 as (v & Hv & _). rewrite Hv in H. cbn [map] in H. destruct (sub_dims (get v) keys) as [r|] eqn:S; [|discriminate]. cbn in H. injection H as <-. eapply node_sub; eauto.
  - destruct W2 as (v & Hv & Hne & _). rewrite Hv in H. cbn [map] in H.
    destruct (existsb is_boolkey keys) eqn:Bk; [discriminate|].
    destruct (all_none (get v)) eqn:Nv; cbn [negb andb] in H.
    + destruct (broadcast_dims (map get (tensor_keys keys))) as [ad|] eqn:Ad; [|discriminate]. cbn in H. injection H as <-. eapply node_adv_keys; eauto.
    + destruct (forallb all_none (map get (tensor_keys keys))) eqn:Nk; cbn [negb] in H; [|discriminate].
      destruct (existsb is_newaxis keys) eqn:Na; [discriminate|]. destruct (adv_value_dims (get v) keys) as [na|] eqn:Av; [|discriminate]. cbn in H. injection H as <-.
      eapply node_adv_value; eauto.
      * apply forallb_forall. intros k Hk. destruct k; auto.
        -- rewrite (Hs _ _ _ _ eq_refl ltac:(rewrite Hv; reflexivity) Hk) in Nv. discriminate.
        -- assert (existsb is_newaxis keys = true) by (apply existsb_exists; eexists; split; eauto). congruence.
        -- assert (existsb is_boolkey keys = true) by (apply existsb_exists; eexists; split; eauto). congruence.
      * rewrite forallb_forall in Nk. intros u Hu. apply Nk. apply in_map. auto.
  - discriminate.
Qed.
End Node.
End Sound.
