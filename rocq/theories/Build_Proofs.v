(** Facts about the substitution model (C80, C81). *)
From Verif Require Import Common Dict.
Import List ListNotations.
From Verif Require Import Build_Model.
Open Scope nat_scope.

Section TermInd.
Variable P : term -> Prop.
Hypothesis HP : forall i, P (Ph i).
Hypothesis HR : forall i, P (Rv i).
Hypothesis HA : forall op args, Forall P args -> P (App op args).
Fixpoint term_ind' (t : term) : P t :=
  match t with
  | Ph i => HP i
  | Rv i => HR i
  | App op args => HA op args ((fix go l : Forall P l := match l with [] => Forall_nil P | x :: l => Forall_cons x (term_ind' x) (go l) end) args)
  end.
End TermInd.

Fixpoint rvs (t : term) : list nat :=
  match t with Ph _ => [] | Rv i => [i] | App _ args => flat_map rvs args end.

Lemma map_ext_Forall {A B} (f g : A -> B) l : Forall (fun x => f x = g x) l -> map f l = map g l.
Proof. induction 1; cbn; auto. f_equal; auto. Qed.

Lemma eval_subst {V} (interp : nat -> list V -> V) ph rv s t :
  eval interp ph rv (subst s t) = eval interp (fun i => match s i with Some v => rv v | None => ph i end) rv t.
Proof.
  induction t as [i|i|op args IH] using term_ind'; cbn; auto; [destruct (s i); auto|].
  f_equal. rewrite map_map. apply map_ext_Forall. auto.
Qed.
Lemma eval_ext {V} (interp : nat -> list V -> V) ph ph' rv rv' t :
  (forall i, In i (phs t) -> ph i = ph' i) -> (forall i, In i (rvs t) -> rv i = rv' i) ->
  eval interp ph rv t = eval interp ph' rv' t.
Proof.
  induction t as [i|i|op args IH] using term_ind'; cbn; intros H1 H2; auto.
  f_equal. apply map_ext_Forall. rewrite Forall_forall in *. intros x Hx. apply IH; auto; intros i Hi; [apply H1|apply H2]; apply in_flat_map; eauto.
Qed.
Lemma phs_subst s t i : In i (phs (subst s t)) <-> In i (phs t) /\ s i = None.
Proof.
  induction t as [j|j|op args IH] using term_ind'; cbn; [|tauto|].
  - destruct (s j) eqn:E; cbn; split; [tauto| |intros [->|[]]; auto|tauto]. intros [[->|[]] H]. congruence.
  - rewrite Forall_forall in IH. rewrite !in_flat_map. split.
    + intros (x & Hx & Hi). apply in_map_iff in Hx. destruct Hx as (y & <- & Hy). apply IH in Hi; auto. destruct Hi. split; eauto.
    + intros [(x & Hx & Hi) Hs]. exists (subst s x). split; [apply in_map; auto|]. apply IH; auto.
Qed.
Lemma rvs_subst s t v : In v (rvs (subst s t)) -> In v (rvs t) \/ exists i, In i (phs t) /\ s i = Some v.
Proof.
  induction t as [j|j|op args IH] using term_ind'; cbn; [|auto|].
  - destruct (s j) eqn:E; cbn; [|tauto]. intros [->|[]]. eauto.
  - rewrite Forall_forall in IH. rewrite !in_flat_map. intros (x & Hx & Hi). apply in_map_iff in Hx. destruct Hx as (y & <- & Hy).
    apply IH in Hi; auto. destruct Hi as [Hi|(i & Hi & Hs)]; [left|right]; [eauto|exists i; split; auto; apply in_flat_map; eauto].
Qed.

(** ** Objects the constructors can produce *)
Definition closed_in (n : nat) (t : term) : Prop := (forall i, In i (phs t) -> i < n) /\ rvs t = [].

Inductive reachable : ssmod -> Prop :=
| r_init ps ds sh ms : length ms = 9 -> Forall (fun o => closed_in 0 (fst o)) ms ->
    reachable {| param_names := ps; data_names := ds; name_to_variable := []; name_to_data := []; static := sh; fresh := 0;
                 mats := ms; subbed := None; exog := []; fit_coords := None |}
| r_var st n sh p st' : reachable st -> make_and_register_variable st n sh = Ok (p, st') -> reachable st'
| r_data st n sh p st' : reachable st -> make_and_register_data st n sh = Ok (p, st') -> reachable st'
| r_set st i t k : reachable st -> i < 9 -> closed_in (fresh st) t -> reachable (set_matrix st i (t, k))
| r_build st m : reachable st -> reachable (snd (build st m)).

Record inv (st : ssmod) : Prop := {
  inv_kv : NoDup (dkeys (name_to_variable st));
  inv_kd : NoDup (dkeys (name_to_data st));
  inv_pv : forall n, In n (dkeys (name_to_variable st)) -> In n (param_names st);
  inv_pd : forall n, In n (dkeys (name_to_data st)) -> In n (data_names st);
  inv_ids : NoDup (map snd (name_to_variable st ++ name_to_data st));
  inv_fresh : forall i, i < fresh st <-> In i (map snd (name_to_variable st ++ name_to_data st));
  inv_mats : Forall (fun o => closed_in (fresh st) (fst o)) (mats st);
  inv_len : length (mats st) = 9
}.

Lemma dset_new {V} (d : dict V) k v : dget d k = None -> dset d k v = (d ++ [(k, v)])%list.
Proof.
  induction d as [|[a b] d IH]; cbn; auto. destruct (String.eqb_spec k a); [discriminate|]. intros H. rewrite IH; auto.
Qed.
Lemma closed_mono n n' t : n <= n' -> closed_in n t -> closed_in n' t.
Proof. intros H [A B]. split; auto. intros i Hi. specialize (A i Hi). lia. Qed.

Lemma save_exog_frame m l : forall st st', save_exogenous st m l = Ok st' ->
  st' = with_exog st (exog st').
Proof.
  induction l as [|n l IH]; intros st st'; cbn; [intros [= <-]; destruct st; reflexivity|].
  destruct (getitem m n); cbn; [|discriminate]. intros H. apply IH in H. rewrite H. reflexivity.
Qed.
Lemma insert_rv_frame st m st' : insert_random_variables st m = Ok st' -> exists s, st' = with_subbed st s.
Proof.
  unfold insert_random_variables. destruct found_names; cbn; [|discriminate]. destruct negb; [discriminate|]. destruct negb; [discriminate|].
  destruct replacements; cbn; [|discriminate]. destruct graph_replace; cbn; [|discriminate]. intros [= <-]. eauto.
Qed.
Lemma insert_data_frame st m st' : insert_data_variables st m = Ok st' -> exists s, st' = with_subbed st s.
Proof.
  unfold insert_data_variables. destruct found_names; cbn; [|discriminate]. destruct negb; [discriminate|].
  destruct replacements; cbn; [|discriminate]. destruct (subbed st); [|discriminate]. destruct graph_replace; cbn; [|discriminate]. intros [= <-]. eauto.
Qed.
(** what [build] never touches *)
Definition same_core (a b : ssmod) : Prop :=
  param_names a = param_names b /\ data_names a = data_names b /\ name_to_variable a = name_to_variable b /\
  name_to_data a = name_to_data b /\ static a = static b /\ fresh a = fresh b /\ mats a = mats b.
Lemma build_core st m : same_core (snd (build st m)) st.
Proof.
  unfold build. destruct (insert_random_variables st m) as [st1|] eqn:E1; [|cbn; unfold same_core; tauto].
  destruct (insert_rv_frame _ _ _ E1) as (s & ->).
  destruct (save_exogenous _ _ _) as [st2|] eqn:E2; [|cbn; unfold same_core; tauto].
  apply save_exog_frame in E2. rewrite E2. generalize (exog st2). intros e.
  destruct (insert_data_variables _ _) as [st3|] eqn:E3; [|cbn; unfold same_core; tauto].
  destruct (insert_data_frame _ _ _ E3) as (s' & ->). unfold same_core; cbn; tauto.
Qed.
Lemma inv_core a b : same_core a b -> inv b -> inv a.
Proof.
  intros (A & B & C & D & _ & F & G) []. constructor; rewrite ?A, ?B, ?C, ?D, ?F, ?G; auto.
Qed.

Lemma reachable_inv st : reachable st -> inv st.
Proof.
  induction 1 as [ps ds sh ms HL H|st n sh p st' Hr IH E|st n sh p st' Hr IH E|st i t k Hr IH Hi Ht|st m Hr IH].
  - constructor; cbn; auto; try constructor; try tauto; try lia.
  - unfold make_and_register_variable in E. destruct (smem n (param_names st)) eqn:E1; [|discriminate]. cbn in E.
    destruct (dmem (name_to_variable st) n) eqn:E2; [discriminate|]. injection E as <- <-. destruct IH.
    unfold dmem in E2. destruct (dget (name_to_variable st) n) eqn:E3; [discriminate|]. apply smem_in in E1.
    assert (EQ : map snd ((name_to_variable st ++ [(n, fresh st)]) ++ name_to_data st) =
                 (map snd (name_to_variable st) ++ fresh st :: map snd (name_to_data st))%list) by (rewrite !map_app; cbn; rewrite <- app_assoc; auto).
    constructor; cbn [param_names data_names name_to_variable name_to_data fresh mats]; auto.
    + apply NoDup_dset. auto.
    + intros k. rewrite dkeys_dset. destruct smem; auto. rewrite in_app_iff. intros [|[<-|[]]]; auto.
    + rewrite dset_new by auto. rewrite EQ. apply NoDup_Add with (a := fresh st) (l := map snd (name_to_variable st ++ name_to_data st)).
      * rewrite map_app. apply Add_app.
      * split; auto. intros Hin. apply inv_fresh0 in Hin. lia.
    + intros i. rewrite dset_new by auto. rewrite EQ. rewrite in_app_iff. cbn. specialize (inv_fresh0 i). rewrite map_app, in_app_iff in inv_fresh0.
      assert (i < S (fresh st) <-> i < fresh st \/ fresh st = i) by lia. tauto.
    + eapply Forall_impl; [|apply inv_mats0]. intros o. apply closed_mono. lia.
  - unfold make_and_register_data in E. destruct (smem n (data_names st)) eqn:E1; [|discriminate]. cbn in E.
    destruct (dmem (name_to_data st) n) eqn:E2; [discriminate|]. injection E as <- <-. destruct IH.
    unfold dmem in E2. destruct (dget (name_to_data st) n) eqn:E3; [discriminate|]. apply smem_in in E1.
    assert (EQ : map snd (name_to_variable st ++ (name_to_data st ++ [(n, fresh st)])) =
                 (map snd (name_to_variable st ++ name_to_data st) ++ [fresh st])%list) by (rewrite app_assoc, map_app; cbn; auto).
    constructor; cbn [param_names data_names name_to_variable name_to_data fresh mats]; auto.
    + apply NoDup_dset. auto.
    + intros k. rewrite dkeys_dset. destruct smem; auto. rewrite in_app_iff. intros [|[<-|[]]]; auto.
    + rewrite dset_new by auto. rewrite EQ. apply NoDup_Add with (a := fresh st) (l := map snd (name_to_variable st ++ name_to_data st)).
      * rewrite <- (app_nil_r (map snd (name_to_variable st ++ name_to_data st))) at 1. apply Add_app.
      * split; auto. intros Hin. apply inv_fresh0 in Hin. lia.
    + intros i. rewrite dset_new by auto. rewrite EQ. rewrite in_app_iff. cbn. specialize (inv_fresh0 i).
      assert (i < S (fresh st) <-> i < fresh st \/ fresh st = i) by lia. tauto.
    + eapply Forall_impl; [|apply inv_mats0]. intros o. apply closed_mono. lia.
  - destruct IH. unfold set_matrix. constructor; cbn [param_names data_names name_to_variable name_to_data fresh mats]; auto.
    + apply Forall_app. split; [apply Forall_forall; intros x Hx; rewrite Forall_forall in inv_mats0; apply inv_mats0; rewrite <- (firstn_skipn i); apply in_app_iff; auto|].
      constructor; auto. apply Forall_forall. intros x Hx. rewrite Forall_forall in inv_mats0. apply inv_mats0.
      rewrite <- (firstn_skipn (S i)). apply in_app_iff. auto.
    + rewrite app_length. cbn [length]. rewrite firstn_length, skipn_length. lia.
  - eapply inv_core; eauto. apply build_core.
Qed.

(** ** Substitution *)
Lemma replacements_spec m d : forall r, replacements m d = Ok r ->
  map fst r = map snd d /\ (forall n p, In (n, p) d -> exists v, getitem m n = Ok v /\ In (p, v) r) /\
  (forall p v, In (p, v) r -> exists n, In (n, p) d /\ getitem m n = Ok v).
Proof.
  induction d as [|[n p] d IH]; intros r; cbn; [intros [= <-]; cbn; repeat split; tauto|].
  destruct (getitem m n) as [v|] eqn:E; cbn; [|discriminate]. destruct (replacements m d) as [r'|]; cbn; [|discriminate].
  intros [= <-]. destruct (IH r' eq_refl) as (A & B & C). cbn. split; [f_equal; auto|]. split.
  - intros a b [[= <- <-]|H]; [eauto|]. destruct (B _ _ H) as (w & ? & ?). eauto.
  - intros a b [[= <- <-]|H]; [eauto|]. destruct (C _ _ H) as (w & ? & ?). eauto.
Qed.
Lemma replacements_ok m d : (forall n, In n (dkeys d) -> is_ok (getitem m n) = true) <-> is_ok (replacements m d) = true.
Proof.
  induction d as [|[n p] d IH]; cbn; [tauto|]. split.
  - intros H. pose proof (H n (or_introl eq_refl)) as H0. destruct (getitem m n); [|discriminate]. cbn.
    destruct (proj1 IH (fun k Hk => H k (or_intror Hk))). destruct (replacements m d); auto.
  - destruct (getitem m n) eqn:E; cbn; [|discriminate]. destruct (replacements m d) eqn:E2; cbn; [|discriminate]. intros _ k [<-|Hk]; [rewrite E; auto|].
    apply IH; auto.
Qed.
Lemma find_nodup (r : list (nat * nat)) i v : NoDup (map fst r) -> In (i, v) r -> find (fun p => Nat.eqb i (fst p)) r = Some (i, v).
Proof.
  induction r as [|[a b] r IH]; cbn; [tauto|]. intros ND [[= -> ->]|H]; [rewrite Nat.eqb_refl; auto|].
  inversion ND; subst. destruct (Nat.eqb_spec i a) as [->|]; auto. exfalso. apply H2. apply in_map_iff. exists (a, v). auto.
Qed.
Lemma find_notin (r : list (nat * nat)) i : ~ In i (map fst r) -> find (fun p => Nat.eqb i (fst p)) r = None.
Proof.
  induction r as [|[a b] r IH]; cbn; auto. intros H. destruct (Nat.eqb_spec i a) as [->|]; [exfalso; auto|]. apply IH. tauto.
Qed.
Definition asub (r : list (nat * nat)) i := option_map snd (find (fun p => Nat.eqb i (fst p)) r).
Lemma asub_in r i v : NoDup (map fst r) -> In (i, v) r -> asub r i = Some v.
Proof. intros. unfold asub. rewrite (find_nodup r i v); auto. Qed.
Lemma asub_none r i : ~ In i (map fst r) <-> asub r i = None.
Proof.
  split; [intros; unfold asub; rewrite find_notin; auto|]. unfold asub. destruct (find _ r) as [[a b]|] eqn:E; [discriminate|].
  intros _ H. apply in_map_iff in H. destruct H as ([a b] & <- & H). apply (find_none _ _ E) in H. cbn in H. rewrite Nat.eqb_refl in H. discriminate.
Qed.
Lemma asub_some r i v : asub r i = Some v -> In (i, v) r.
Proof.
  unfold asub. destruct (find _ r) as [[a b]|] eqn:E; [|discriminate]. cbn. intros [= <-]. apply find_some in E. destruct E as [H1 H2].
  cbn in H2. apply Nat.eqb_eq in H2. subst. auto.
Qed.

Definition all_phs (l : list (term * nat)) := flat_map (fun o => phs (fst o)) l.
Lemma graph_replace_ok st m outs r s : graph_replace st m outs r = Ok s <->
  (forall p, In p (map fst r) -> In p (all_phs outs)) /\
  (forall p v, In (p, v) r -> shape_ok (static st p) (rv_shape m v) = true) /\
  s = map (fun o => (subst (asub r) (fst o), snd o)) outs.
Proof.
  unfold graph_replace. fold (all_phs outs).
  assert (A : forallb (fun p => existsb (Nat.eqb (fst p)) (all_phs outs)) r = true <-> (forall p, In p (map fst r) -> In p (all_phs outs))).
  { rewrite forallb_forall. split.
    - intros H p Hp. apply in_map_iff in Hp. destruct Hp as (x & <- & Hx). apply H in Hx. apply existsb_exists in Hx. destruct Hx as (y & Hy & E).
      apply Nat.eqb_eq in E. rewrite E. auto.
    - intros H x Hx. apply existsb_exists. exists (fst x). rewrite Nat.eqb_refl. split; auto. apply H. apply in_map. auto. }
  assert (B : forallb (fun p => shape_ok (static st (fst p)) (rv_shape m (snd p))) r = true <-> (forall p v, In (p, v) r -> shape_ok (static st p) (rv_shape m v) = true)).
  { rewrite forallb_forall. split; [intros H p v Hp; apply (H _ Hp)|intros H [p v] Hp; apply H; auto]. }
  destruct (forallb (fun p => existsb (Nat.eqb (fst p)) (all_phs outs)) r); cbn [negb].
  2:{ split; [discriminate|]. intros (H & _). apply A in H. discriminate. }
  destruct (forallb (fun p => shape_ok (static st (fst p)) (rv_shape m (snd p))) r); cbn [negb].
  2:{ split; [discriminate|]. intros (_ & H & _). apply B in H. discriminate. }
  split; [intros [= <-]; repeat split; [apply A; auto|apply B; auto]|intros (_ & _ & ->); reflexivity].
Qed.

Lemma all_phs_subst s l i : In i (all_phs (map (fun o => (subst s (fst o), snd o)) l)) <-> In i (all_phs l) /\ s i = None.
Proof.
  unfold all_phs. rewrite !in_flat_map. split.
  - intros (x & Hx & Hi). apply in_map_iff in Hx. destruct Hx as (y & <- & Hy). cbn in Hi. apply phs_subst in Hi. destruct Hi. eauto.
  - intros [(x & Hx & Hi) Hs]. exists (subst s (fst x), snd x). split; [apply in_map_iff; eauto|]. cbn. apply phs_subst. auto.
Qed.

(** ** The two stages of a successful build *)
Lemma insert_rv_ok st m st' : insert_random_variables st m = Ok st' <->
  exists found r s, found_names m (param_names st) = Ok found /\ subset (param_names st) found = true /\ subset found (param_names st) = true /\
    replacements m (name_to_variable st) = Ok r /\ graph_replace st m (mats st) r = Ok s /\ st' = with_subbed st s.
Proof.
  unfold insert_random_variables. split.
  - destruct found_names as [f|] eqn:E; cbn; [|discriminate]. destruct (subset _ f) eqn:E1; cbn; [|discriminate]. destruct (subset f _) eqn:E2; cbn; [|discriminate].
    destruct replacements as [r|] eqn:E3; cbn; [|discriminate]. destruct graph_replace as [s|] eqn:E4; cbn; [|discriminate]. intros [= <-]. exists f, r, s. auto 10.
  - intros (f & r & s & -> & A & B & C & D & ->). cbn. rewrite A, B. cbn. rewrite C. cbn. rewrite D. reflexivity.
Qed.
Lemma insert_data_ok st m st' : insert_data_variables st m = Ok st' <->
  exists found r s0 s, found_names m (data_names st) = Ok found /\ subset (data_names st) found = true /\
    replacements m (name_to_data st) = Ok r /\ subbed st = Some s0 /\ graph_replace st m s0 r = Ok s /\ st' = with_subbed st s.
Proof.
  unfold insert_data_variables. split.
  - destruct found_names as [f|] eqn:E; cbn; [|discriminate]. destruct (subset _ f) eqn:E1; cbn; [|discriminate].
    destruct replacements as [r|] eqn:E3; cbn; [|discriminate]. destruct (subbed st) as [s0|] eqn:E0; [|discriminate].
    destruct graph_replace as [s|] eqn:E4; cbn; [|discriminate]. intros [= <-]. exists f, r, s0, s. auto 10.
  - intros (f & r & s0 & s & -> & A & C & B & D & ->). cbn. rewrite A. cbn. rewrite C. cbn. rewrite B, D. reflexivity.
Qed.
Lemma save_exog_ok m l : forall st, is_ok (save_exogenous st m l) = true <-> (forall n, In n l -> is_ok (getitem m n) = true).
Proof.
  induction l as [|n l IH]; intros st; cbn; [tauto|]. destruct (getitem m n) eqn:E; cbn.
  - rewrite IH. split; [intros H k [<-|Hk]; [rewrite E|]; auto|auto].
  - split; [discriminate|]. intros H. specialize (H n (or_introl eq_refl)). rewrite E in H. discriminate.
Qed.
Lemma save_exog_get m l : forall st st' n, save_exogenous st m l = Ok st' ->
  dget (exog st') n = if smem n l then match getitem m n with Ok v => Some v | Err _ => None end else dget (exog st) n.
Proof.
  induction l as [|k l IH]; intros st st' n; cbn; [intros [= <-]; auto|]. destruct (getitem m k) as [v|] eqn:E; cbn; [|discriminate].
  intros H. rewrite (IH _ _ n H). cbn. rewrite dget_dset. unfold smem. destruct (existsb (String.eqb n) l); cbn; [rewrite orb_true_r; auto|].
  destruct (String.eqb_spec n k); [subst; rewrite E; auto|auto].
Qed.

Lemma build_ok_iff st m st' : build st m = (Ok tt, st') <->
  exists st1 st2 st3, insert_random_variables st m = Ok st1 /\ save_exogenous st1 m (data_names st1) = Ok st2 /\
    insert_data_variables st2 m = Ok st3 /\ st' = with_fit st3 (coords m).
Proof.
  unfold build. split.
  - destruct (insert_random_variables st m) as [st1|]; [|discriminate]. destruct save_exogenous as [st2|] eqn:E; [|discriminate].
    destruct insert_data_variables as [st3|] eqn:E2; [|discriminate]. intros [= <-]. exists st1, st2, st3. auto.
  - intros (st1 & st2 & st3 & -> & -> & -> & ->). reflexivity.
Qed.

(** the whole substitution as one *)
Lemma build_ok_shape st m st' : inv st -> build st m = (Ok tt, st') ->
  exists r1 r2, replacements m (name_to_variable st) = Ok r1 /\ replacements m (name_to_data st) = Ok r2 /\
    subbed st' = Some (map (fun o => (subst (asub r2) (subst (asub r1) (fst o)), snd o)) (mats st)) /\
    (forall p v, In (p, v) (r1 ++ r2) -> shape_ok (static st p) (rv_shape m v) = true) /\
    (forall p, In p (map fst (r1 ++ r2)) -> In p (all_phs (mats st))).
Proof.
  intros I H. apply build_ok_iff in H. destruct H as (st1 & st2 & st3 & H1 & H2 & H3 & ->).
  apply insert_rv_ok in H1. destruct H1 as (f & r1 & s & Hf & S1 & S2 & R1 & G1 & ->).
  apply save_exog_frame in H2. cbn in H2. set (e := exog st2) in H2. clearbody e. subst st2.
  apply insert_data_ok in H3. destruct H3 as (f2 & r2 & s0 & s2 & Hf2 & S3 & R2 & Hs & G2 & ->). cbn in *. injection Hs as <-.
  apply graph_replace_ok in G1. destruct G1 as (A1 & B1 & ->). apply graph_replace_ok in G2. destruct G2 as (A2 & B2 & ->). cbn in B2.
  exists r1, r2. repeat split; auto.
  - f_equal. rewrite map_map. cbn. reflexivity.
  - intros p v Hp. apply in_app_iff in Hp. destruct Hp; eauto.
  - intros p Hp. rewrite map_app, in_app_iff in Hp. destruct Hp as [Hp|Hp]; auto. apply A2 in Hp. apply all_phs_subst in Hp. tauto.
Qed.

Lemma nodup_app {A} (a b : list A) : NoDup (a ++ b) -> NoDup a /\ NoDup b /\ (forall x, In x a -> ~ In x b).
Proof.
  induction a as [|x a IH]; cbn; intros H; [repeat split; auto; constructor|]. inversion H; subst. destruct (IH H3) as (A1 & A2 & A3).
  rewrite in_app_iff in H2. repeat split; auto; [constructor; auto|]. intros y [->|Hy]; auto.
Qed.
