(** C102: what extract_components_from_idata does to a dataset. *)
From Coq Require Import String Reals Lra.
From Verif Require Import Common Struct_Model Extract_Model.
Import List ListNotations.
Open Scope nat_scope.

(** ** Specification *)
(** a variable holds all the hidden states when its last axis has that many entries *)
Definition holds_all_states (k : nat) (v : dvar) : Prop := exists s, v_shape v = (s ++ [k])%list.
(** the entry of a variable: index [pre] in the leading dimensions (chains, draws, ...), time [t], state [i] *)
Definition at3 (v : dvar) (pre : list nat) (t i : nat) : R := v_at v (pre ++ [t; i]).
(** a conversion of one variable: dimensions kept, one column per subcomponent *)
Definition converted (state_names : list string) (info : dict cinfo) (v w : dvar) : Prop :=
  v_dims w = v_dims v /\
  v_shape w = (removelast (v_shape v) ++ [length (subcomponent_names state_names info)])%list /\
  (forall pre t j, at3 w pre t j = nth j (hidden_columns state_names info (at3 v pre t)) 0%R) /\
  (forall lead time state, v_dims v = (lead ++ [time; state])%list ->
     v_labels w state = subcomponent_names state_names info /\
     forall d, d <> state -> v_labels w d = v_labels v d).

(** ** Proofs *)
Lemma rev_last {A} (l : list A) x r : rev l = x :: r -> l = (rev r ++ [x])%list.
Proof. intros H. rewrite <- (rev_involutive l), H. reflexivity. Qed.
Lemma columns_len state_names info x y : length (hidden_columns state_names info x) = length (hidden_columns state_names info y).
Proof.
  unfold hidden_columns. induction (combine info (state_slices info)) as [|[[n ci] [i j]] l IH]; auto. cbn [flat_map]. rewrite !app_length, IH. f_equal.
  destruct (ci_obs ci); auto. destruct (ci_combine ci); auto. rewrite !map_length. auto.
Qed.

Lemma columns_ext state_names info x y : (forall i, x i = y i) -> hidden_columns state_names info x = hidden_columns state_names info y.
Proof.
  intros H. unfold hidden_columns. apply flat_map_ext. intros [[n ci] [i j]].
  destruct (ci_obs ci); auto. destruct (ci_combine ci); [f_equal; f_equal|]; apply map_ext; auto.
Qed.

Lemma latent_spec k ds : (exists x v, In (x, v) ds /\ v_shape v = []) \/
  exists l, latent_items k ds = Ok l /\ (forall x v, In (x, v) l <-> In (x, v) ds /\ holds_all_states k v) /\
    (NoDup (map fst ds) -> NoDup (map fst l)).
Proof.
  induction ds as [|[x v] r IH].
  - right. exists []. cbn. split; [auto|]. split; [intuition|auto].
  - destruct IH as [(y & w & H & E)|(l & E & H & N)]; [left; exists y, w; cbn; auto|].
    destruct (rev (v_shape v)) as [|n s] eqn:ER.
    { left. exists x, v. split; [left; auto|]. rewrite <- (rev_involutive (v_shape v)), ER. reflexivity. }
    right. apply rev_last in ER as ES. cbn [latent_items]. unfold is_latent. rewrite ER, E. cbn [bind].
    destruct (Nat.eqb_spec n k) as [->|NE].
    + exists ((x, v) :: l). split; [auto|]. split.
      * intros y w. cbn. rewrite H. split; [intros [Q|Q]|intros [[Q|Q] G]]; [injection Q as <- <-; split; [auto|exists (rev s); exact ES]|tauto|auto|tauto].
      * cbn. intros Q. inversion Q; subst. constructor; auto. intros I. apply in_map_iff in I as ([y w] & <- & I). apply H in I as [I _].
        match goal with H0 : ~ In _ _ |- _ => apply H0 end. apply in_map_iff. exists (y, w). auto.
    + exists l. split; [auto|]. split.
      * intros y w. rewrite H. cbn. split; [tauto|]. intros [[Q|Q] G]; [|tauto]. injection Q as <- <-. destruct G as (s' & G). rewrite ES in G.
        apply app_inj_tail in G as [_ G]. congruence.
      * cbn. intros Q. inversion Q; subst. auto.
Qed.

Lemma transform_spec state_names info v w : transform state_names info v = Ok w -> converted state_names info v w.
Proof.
  unfold transform. destruct (rev (v_dims v)) as [|sd [|td lead]] eqn:ER; try discriminate.
  destruct (length (hidden_columns state_names info (fun _ => 0%R)) =? 0) eqn:E0; [discriminate|].
  destruct (Nat.eqb_spec (length (subcomponent_names state_names info)) (length (hidden_columns state_names info (fun _ => 0%R)))) as [EL|]; cbn [negb]; [|discriminate].
  intros H. injection H as <-. unfold converted. cbn [v_dims v_shape v_labels]. split; [auto|]. split; [rewrite EL; auto|]. split.
  - intros pre t j. unfold at3. cbn [v_at]. change [t; j] with ([t] ++ [j])%list. rewrite app_assoc, last_last, removelast_last.
    f_equal. apply columns_ext. intros i. unfold at3. rewrite <- app_assoc. reflexivity.
  - intros ld time state HD. rewrite HD in ER. rewrite rev_app_distr in ER. cbn in ER. injection ER as <- <- _. split; [rewrite String.eqb_refl; auto|].
    intros d Hd. apply String.eqb_neq in Hd. rewrite Hd. auto.
Qed.

Lemma transform_ok state_names info v :
  length (subcomponent_names state_names info) = length (hidden_columns state_names info (fun _ => 0%R)) -> subcomponent_names state_names info <> [] ->
  is_ok (transform state_names info v) = true <-> 2 <= length (v_dims v).
Proof.
  intros HL HN. unfold transform. rewrite <- HL, Nat.eqb_refl. cbn [negb].
  replace (length (subcomponent_names state_names info) =? 0) with false by (destruct (subcomponent_names state_names info); [congruence|reflexivity]).
  rewrite <- (rev_length (v_dims v)). destruct (rev (v_dims v)) as [|a [|b l]]; cbn; split; intros H; auto; try discriminate; lia.
Qed.
Lemma transform_all_spec state_names info ds out : transform_all state_names info ds = Ok out ->
  map fst out = map fst ds /\ Forall2 (fun a b => fst a = fst b /\ transform state_names info (snd a) = Ok (snd b)) ds out.
Proof.
  revert out. induction ds as [|[x v] r IH]; intros out; cbn [transform_all].
  - intros H. injection H as <-. split; constructor.
  - destruct (transform state_names info v) as [w|] eqn:E; [|discriminate]. destruct (transform_all state_names info r) as [l|]; [|discriminate].
    intros H. cbn in H. injection H as <-. destruct (IH l eq_refl) as [H1 H2]. split; [cbn; f_equal; auto|]. constructor; auto.
Qed.
Lemma transform_all_ok state_names info ds : (forall x v, In (x, v) ds -> is_ok (transform state_names info v) = true) <-> is_ok (transform_all state_names info ds) = true.
Proof.
  induction ds as [|[x v] r IH]; [cbn; split; auto; contradiction|]. cbn [transform_all]. split.
  - intros H. specialize (H x v (or_introl eq_refl)) as H1. destruct (transform state_names info v); [|discriminate].
    destruct (transform_all state_names info r); [reflexivity|]. apply IH. intros y w K. eapply H. right. eauto.
  - destruct (transform state_names info v) as [w|] eqn:E; [|discriminate]. destruct (transform_all state_names info r); [|discriminate].
    intros _ y u [K|K]; [injection K as <- <-; rewrite E; auto|]. eapply (proj2 IH); eauto.
Qed.
Lemma forall2_in_l {A B} (P : A -> B -> Prop) l m a : Forall2 P l m -> In a l -> exists b, In b m /\ P a b.
Proof. induction 1; cbn; [contradiction|]. intros [<-|K]; eauto. destruct (IHForall2 K) as (b & ? & ?). eauto. Qed.
Lemma forall2_in_r {A B} (P : A -> B -> Prop) l m b : Forall2 P l m -> In b m -> exists a, In a l /\ P a b.
Proof. induction 1; cbn; [contradiction|]. intros [<-|K]; eauto. destruct (IHForall2 K) as (a & ? & ?). eauto. Qed.

Lemma forall2_impl_in {A B} (P Q : A -> B -> Prop) l m : Forall2 P l m -> (forall a b, In a l -> P a b -> Q a b) -> Forall2 Q l m.
Proof. induction 1; intros K; constructor; [apply K; [left|]; auto|]. apply IHForall2. intros; apply K; [right|]; auto. Qed.

(** ** C102 *)
(** Exactly the variables that hold all hidden states are in the result, each converted: dimensions kept, one column per
    component (or per state), computed index by index from that variable alone. *)
Theorem C102_converted k state_names info ds out : NoDup (map fst ds) -> extract k state_names info ds = Ok out ->
  out <> [] /\ NoDup (map fst out) /\
  (forall x w, In (x, w) out -> exists v, In (x, v) ds /\ holds_all_states k v /\ converted state_names info v w) /\
  (forall x v, In (x, v) ds -> holds_all_states k v -> exists w, In (x, w) out /\ converted state_names info v w).
Proof.
  intros N. unfold extract. destruct (latent_items k ds) as [l|] eqn:EL; [|discriminate]. cbn [bind].
  destruct (latent_spec k ds) as [(x & v & H & E)|(l' & E & H & HN)].
  { exfalso. clear N. revert l EL. induction ds as [|[y u] r IH]; [contradiction|]. intros l. cbn [latent_items]. destruct H as [H|H].
    - injection H as -> ->. unfold is_latent. rewrite E. discriminate.
    - destruct (is_latent k u); [|discriminate]. destruct (latent_items k r); [|discriminate]. intros _. eapply IH; eauto. }
  rewrite E in EL. injection EL as ->. destruct l as [|kv l]; [discriminate|]. intros HT. apply transform_all_spec in HT as [H1 H2].
  split; [destruct out; [discriminate|congruence]|]. split; [rewrite H1; auto|]. split.
  - intros x w K. destruct (forall2_in_r _ _ _ _ H2 K) as ([y v] & K1 & K2 & K3). cbn in K2, K3. subst y. apply H in K1 as [K1 K4].
    exists v. split; [auto|]. split; [auto|]. apply transform_spec. auto.
  - intros x v K1 K2. assert (K : In (x, v) (kv :: l)) by (apply H; auto).
    destruct (forall2_in_l _ _ _ _ H2 K) as ([y w] & K3 & K4 & K5). cbn in K4, K5. subst y. exists w. split; auto. apply transform_spec. auto.
Qed.
(** When it fails: no variable holds all states, one that does has a single dimension, or some variable is a scalar. *)
Theorem C102_accepted k state_names info ds :
  length (subcomponent_names state_names info) = length (hidden_columns state_names info (fun _ => 0%R)) -> subcomponent_names state_names info <> [] ->
  is_ok (extract k state_names info ds) = true <->
  (exists x v, In (x, v) ds /\ holds_all_states k v) /\
  (forall x v, In (x, v) ds -> v_shape v <> [] /\ (holds_all_states k v -> 2 <= length (v_dims v))).
Proof.
  intros HL HN. unfold extract. destruct (latent_spec k ds) as [(x & v & H & E)|(l & E & H & _)].
  - assert (F : exists e, latent_items k ds = Err e).
    { revert H. induction ds as [|[y u] r IH]; cbn [latent_items]; [contradiction|]. intros [K|K].
      - injection K as -> ->. unfold is_latent. rewrite E. cbn. eauto.
      - destruct (is_latent k u); [|cbn; eauto]. destruct (IH K) as (e & ->). cbn. eauto. }
    destruct F as (e & ->). cbn. split; [discriminate|]. intros [_ K]. apply K in H. tauto.
  - rewrite E. cbn [bind].
    assert (NS : forall x v, In (x, v) ds -> v_shape v <> []).
    { clear H. revert l E. induction ds as [|[y u] r IH]; [contradiction|]. intros l. cbn [latent_items]. unfold is_latent.
      destruct (rev (v_shape u)) as [|n s] eqn:ER; [discriminate|]. cbn [bind]. destruct (latent_items k r) as [l'|]; [|discriminate]. intros _ x v [K|K].
      - injection K as <- <-. intros Q. rewrite Q in ER. discriminate.
      - eapply IH; eauto. }
    destruct l as [|[x0 v0] l].
    + cbn. split; [discriminate|]. intros [(x & v & K) _]. apply H in K. contradiction.
    + rewrite <- transform_all_ok. split.
      * intros K. split; [exists x0, v0; apply H; left; auto|]. intros x v I. split; [eauto|]. intros G.
        apply (transform_ok state_names info v HL HN). apply (K x). apply H. auto.
      * intros [_ K] x v I. apply (transform_ok state_names info v HL HN). apply H in I as [I G]. apply (K x v I). auto.
Qed.

Lemma pos_of_in x l : In x l -> exists i, pos_of x l = Some i /\ i < length l /\ nth_error l i = Some x.
Proof.
  induction l as [|y r IH]; [contradiction|]. intros H. cbn [pos_of]. destruct (String.eqb_spec x y) as [->|N].
  - exists 0. cbn. repeat split; auto. lia.
  - destruct H as [->|H]; [congruence|]. destruct (IH H) as (i & -> & L & E). exists (S i). cbn. repeat split; auto. lia.
Qed.
Lemma pos_of_out x l : ~ In x l -> pos_of x l = None.
Proof. induction l as [|y r IH]; cbn; auto. intros H. destruct (String.eqb_spec x y) as [->|N]; [tauto|]. rewrite IH; auto. Qed.
Lemma label_lists_spec ds d l : In l (label_lists ds d) <-> exists x v, In (x, v) ds /\ In d (v_dims v) /\ l = v_labels v d.
Proof.
  unfold label_lists. rewrite in_flat_map. split.
  - intros ([x v] & H & K). cbn [snd] in K. destruct (existsb (String.eqb d) (v_dims v)) eqn:E; [|contradiction]. destruct K as [<-|[]].
    apply existsb_exists in E as (d' & E & Q). apply String.eqb_eq in Q. subst. exists x, v. auto.
  - intros (x & v & H & K & ->). exists (x, v). split; auto. cbn [snd]. replace (existsb (String.eqb d) (v_dims v)) with true; [left; auto|].
    symmetry. apply existsb_exists. exists d. split; auto. apply String.eqb_refl.
Qed.
Lemma joined_in ds d y : In y (joined ds d) <-> exists l, In l (label_lists ds d) /\ In y l.
Proof.
  unfold joined. destruct (label_lists ds d) as [|l r]; [cbn; split; [contradiction|intros (l & [] & _)]|].
  destruct (forallb _ r) eqn:E.
  - rewrite forallb_forall in E. split; [intros H; exists l; split; [left|]; auto|]. intros (l' & [<-|H] & K); auto.
    apply E in H. destruct (list_eq_dec string_dec l l'); [subst; auto|discriminate].
  - rewrite nodup_In, in_concat. split; intros (m & H); exists m; tauto.
Qed.
Lemma joined_same ds d l : label_lists ds d <> [] -> (forall l', In l' (label_lists ds d) -> l' = l) -> joined ds d = l.
Proof.
  unfold joined. destruct (label_lists ds d) as [|l0 r]; [congruence|]. intros _ H. assert (l0 = l) by (apply H; left; auto). subst l0.
  replace (forallb _ r) with true; auto. symmetry. apply forallb_forall. intros l' K. rewrite (H l') by (right; auto).
  destruct (list_eq_dec string_dec l l); congruence.
Qed.

(** Variables that have the same dimensions, with the same labels except along the last one, come out complete: the labels
    are theirs, the last ones the names of the subcomponents, and there is no NaN. *)
Theorem C102_complete k state_names info ds out lead time state labels : NoDup (map fst ds) -> extract k state_names info ds = Ok out ->
  (forall x v, In (x, v) ds -> holds_all_states k v -> v_dims v = (lead ++ [time; state])%list /\ forall d, d <> state -> v_labels v d = labels d) ->
  ~ In state (time :: lead) ->
  joined out state = subcomponent_names state_names info /\
  (forall d, In d (time :: lead) -> joined out d = labels d) /\
  forall x w ls, In (x, w) out -> Forall2 (fun d l => In l (joined out d)) (lead ++ [time; state]) ls -> entry_at w ls <> None.
Proof.
  intros N HE HV HS. destruct (C102_converted _ _ _ _ _ N HE) as (NE & _ & HO & _).
  assert (HW : forall x w, In (x, w) out -> v_dims w = (lead ++ [time; state])%list /\ v_labels w state = subcomponent_names state_names info /\ forall d, d <> state -> v_labels w d = labels d).
  { intros x w H. destruct (HO x w H) as (v & H1 & H2 & C1 & _ & _ & C4). destruct (HV x v H1 H2) as [D L]. rewrite C1. split; auto.
    destruct (C4 lead time state D) as [L1 L2]. split; auto. intros d Hd. rewrite L2; auto. }
  assert (LL : forall d, In d (lead ++ [time; state]) -> label_lists out d <> []).
  { intros d Hd. destruct out as [|[x w] r]; [congruence|]. destruct (HW x w (or_introl eq_refl)) as (D & _).
    assert (I : In (v_labels w d) (label_lists ((x, w) :: r) d)) by (apply label_lists_spec; exists x, w; rewrite D; cbn; auto).
    intros Q. rewrite Q in I. contradiction. }
  assert (J1 : joined out state = subcomponent_names state_names info).
  { apply joined_same; [apply LL, in_app_iff; cbn; auto|]. intros l H. apply label_lists_spec in H as (x & w & H & _ & ->). apply (HW x w H). }
  assert (J2 : forall d, In d (time :: lead) -> joined out d = labels d).
  { intros d Hd. assert (d <> state) by (intros ->; tauto). apply joined_same; [apply LL, in_app_iff; destruct Hd; cbn; auto|].
    intros l H'. apply label_lists_spec in H' as (x & w & H' & _ & ->). apply (HW x w H'). auto. }
  split; [exact J1|]. split; [exact J2|]. intros x w ls H F. destruct (HW x w H) as (D & L1 & L2). unfold entry_at. rewrite D.
  assert (P : positions w (lead ++ [time; state]) ls <> None).
  { assert (Q : Forall2 (fun d l => In l (v_labels w d)) (lead ++ [time; state]) ls).
    { apply (forall2_impl_in _ _ _ _ F). intros d l H2 H1. destruct (string_dec d state) as [->|Nd]; [rewrite L1, <- J1; auto|].
      rewrite L2 by auto. rewrite <- J2; auto. apply in_app_iff in H2 as [H2|[H2|[H2|[]]]]; [right; auto|left; auto|congruence]. }
    clear - Q. induction Q; cbn [positions]; [discriminate|]. apply pos_of_in in H as (i & -> & _). destruct (positions w l l'); congruence. }
  destruct (positions w (lead ++ [time; state]) ls); cbn; congruence.
Qed.

(** With a covariance in the dataset (k x k entries per time, as stored by the Kalman filter), the states' own axis is
    taken for time in the covariance, which is converted too; and because that axis is called [state] in both, the
    outer join gives the converted states NaN at every label the covariance has and they do not. *)
Theorem C102_covariance_refuted k state_names info v P label T :
  length (subcomponent_names state_names info) = length (hidden_columns state_names info (fun _ => 0%R)) -> subcomponent_names state_names info <> [] ->
  v_dims v = ["time"; "state"]%string -> v_shape v = [T; k] ->
  v_dims P = ["time"; "state"; "state_aux"]%string -> v_shape P = [T; k; k] ->
  In label (v_labels P "state"%string) -> ~ In label (subcomponent_names state_names info) ->
  exists w Q, extract k state_names info [("filtered_state", v); ("filtered_covariance", P)]%string = Ok [("filtered_state", w); ("filtered_covariance", Q)]%string /\
    (forall t i j, at3 Q [t] i j = nth j (hidden_columns state_names info (fun i' => v_at P [t; i; i'])) 0%R) /\
    let joint := joined [("filtered_state", w); ("filtered_covariance", Q)]%string "state"%string in
    In label joint /\ forall time, entry_at w [time; label] = None.
Proof.
  intros HL HN DV SV DP SP HI HO. unfold extract. cbn [latent_items]. unfold is_latent. rewrite SV, SP. cbn [rev app bind].
  rewrite Nat.eqb_refl. cbn [bind transform_all].
  assert (Tv := proj2 (transform_ok state_names info v HL HN)). assert (TP := proj2 (transform_ok state_names info P HL HN)). rewrite DV in Tv. rewrite DP in TP. cbn in Tv, TP.
  specialize (Tv ltac:(lia)). specialize (TP ltac:(lia)).
  destruct (transform state_names info v) as [w|] eqn:Ew; [|discriminate]. destruct (transform state_names info P) as [Q|] eqn:EQ; [|discriminate].
  cbn [bind]. exists w, Q. split; [auto|].
  destruct (transform_spec _ _ _ _ Ew) as (Dw & _ & _ & Lw). destruct (transform_spec _ _ _ _ EQ) as (DQ & _ & CQ & LQ).
  destruct (Lw [] "time" "state" DV)%string as [Lw1 _]. destruct (LQ ["time"] "state" "state_aux" DP)%string as [_ LQ2].
  split; [intros t i j; apply CQ|]. cbn zeta. split.
  - apply joined_in. exists (v_labels P "state"%string). split; [|exact HI]. apply label_lists_spec. exists "filtered_covariance"%string, Q.
    split; [right; left; auto|]. split; [rewrite DQ, DP; cbn; auto|]. symmetry. apply LQ2. discriminate.
  - intros time. unfold entry_at. rewrite Dw, DV. cbn [positions]. rewrite Lw1, (pos_of_out _ _ HO). destruct (pos_of time (v_labels w "time"%string)); reflexivity.
Qed.

(** a two-component model: a trend (kept state by state) and a seasonality (summed), two chains *)
Definition two_info : dict cinfo :=
  [("trend", {| ci_k_states := 2; ci_k_posdef := 1; ci_obs := Some [true; false]; ci_combine := false |});
   ("season", {| ci_k_states := 2; ci_k_posdef := 1; ci_obs := Some [true; false]; ci_combine := true |})]%string.
Definition states : dvar := {| v_dims := ["chain"; "time"; "state"]%string; v_shape := [2; 5; 4];
  v_at := fun ix => match ix with [c; t; i] => (INR c * 100 + INR t * 10 + INR i)%R | _ => 0%R end; v_labels := fun _ => [] |}.
Example C102_example : let names := ["level"; "trend"; "L0"; "L1"]%string in
  subcomponent_names names two_info = ["trend[level]"; "trend[trend]"; "season"]%string /\
  exists w, extract 4 names two_info [("s", states); ("y", {| v_dims := ["chain"; "time"; "obs"]%string; v_shape := [2; 5; 1]; v_at := fun _ => 0%R; v_labels := fun _ => [] |})]%string
    = Ok [("s", w)]%string /\ v_shape w = [2; 5; 3] /\ at3 w [1] 3 2 = (1 * 100 + (1 + 1 + 1) * 10 + (1 + 1) + 0)%R.
Proof.
  cbn zeta. split; [reflexivity|]. eexists. split; [reflexivity|]. split; [reflexivity|]. reflexivity.
Qed.
