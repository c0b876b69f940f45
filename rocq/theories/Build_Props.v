(** C80: build_statespace_graph puts the user's variables where the parameters belong, or raises. *)
From Verif Require Import Common Dict.
Import List ListNotations.
From Verif Require Import Build_Model Build_Proofs.
Open Scope string_scope.
Open Scope nat_scope.

(** Registration: exactly the declared, not yet registered names; the new placeholder is a new object and the other
    registrations stay. *)
Theorem C80_register st n sh : reachable st ->
  (is_ok (make_and_register_variable st n sh) = true <-> In n (param_names st) /\ dget (name_to_variable st) n = None) /\
  (is_ok (make_and_register_data st n sh) = true <-> In n (data_names st) /\ dget (name_to_data st) n = None) /\
  (forall p st', make_and_register_variable st n sh = Ok (p, st') ->
     dget (name_to_variable st') n = Some p /\ static st' p = sh /\
     (forall k q, In (k, q) (name_to_variable st ++ name_to_data st) -> q <> p /\ static st' q = static st q) /\
     (forall k, k <> n -> dget (name_to_variable st') k = dget (name_to_variable st) k) /\ name_to_data st' = name_to_data st) /\
  (forall p st', make_and_register_data st n sh = Ok (p, st') ->
     dget (name_to_data st') n = Some p /\ static st' p = sh /\
     (forall k q, In (k, q) (name_to_variable st ++ name_to_data st) -> q <> p /\ static st' q = static st q) /\
     (forall k, k <> n -> dget (name_to_data st') k = dget (name_to_data st) k) /\ name_to_variable st' = name_to_variable st).
Proof.
  intros Hr. apply reachable_inv in Hr.
  assert (F : forall k q, In (k, q) (name_to_variable st ++ name_to_data st) -> q <> fresh st).
  { intros k q Hq ->. pose proof (proj2 (inv_fresh _ Hr (fresh st))) as H. assert (fresh st < fresh st); [|lia]. apply H. apply in_map_iff. exists (k, fresh st). auto. }
  assert (DM : forall d : dict nat, dmem d n = false <-> dget d n = None) by (intros d; unfold dmem; destruct (dget d n); split; congruence).
  unfold make_and_register_variable, make_and_register_data. repeat split.
  - destruct (smem n (param_names st)) eqn:E; [apply smem_in; auto|discriminate].
  - destruct (smem n (param_names st)) eqn:E; [cbn in *|discriminate]. destruct (dmem (name_to_variable st) n) eqn:E2; [discriminate|apply DM; auto].
  - intros [A B]. apply smem_in in A. apply DM in B. rewrite A, B. auto.
  - destruct (smem n (data_names st)) eqn:E; [apply smem_in; auto|discriminate].
  - destruct (smem n (data_names st)) eqn:E; [cbn in *|discriminate]. destruct (dmem (name_to_data st) n) eqn:E2; [discriminate|apply DM; auto].
  - intros [A B]. apply smem_in in A. apply DM in B. rewrite A, B. auto.
  - destruct smem; [cbn in *|discriminate]. destruct dmem; [discriminate|]. injection H as <- <-. cbn. rewrite dget_dset, String.eqb_refl. auto.
  - destruct smem; [cbn in *|discriminate]. destruct dmem; [discriminate|]. injection H as <- <-. cbn. rewrite Nat.eqb_refl. auto.
  - destruct smem; [cbn in *|discriminate]. destruct dmem; [discriminate|]. injection H as <- <-. eapply F; eauto.
  - destruct smem; [cbn in *|discriminate]. destruct dmem; [discriminate|]. injection H as <- <-. cbn. apply F in H0. apply Nat.eqb_neq in H0. rewrite H0. auto.
  - destruct smem; [cbn in *|discriminate]. destruct dmem; [discriminate|]. injection H as <- <-. cbn. intros k Hk. rewrite dget_dset. apply String.eqb_neq in Hk. rewrite Hk. auto.
  - destruct smem; [cbn in *|discriminate]. destruct dmem; [discriminate|]. injection H as <- <-. auto.
  - destruct smem; [cbn in *|discriminate]. destruct dmem; [discriminate|]. injection H as <- <-. cbn. rewrite dget_dset, String.eqb_refl. auto.
  - destruct smem; [cbn in *|discriminate]. destruct dmem; [discriminate|]. injection H as <- <-. cbn. rewrite Nat.eqb_refl. auto.
  - destruct smem; [cbn in *|discriminate]. destruct dmem; [discriminate|]. injection H as <- <-. eapply F; eauto.
  - destruct smem; [cbn in *|discriminate]. destruct dmem; [discriminate|]. injection H as <- <-. cbn. apply F in H0. apply Nat.eqb_neq in H0. rewrite H0. auto.
  - destruct smem; [cbn in *|discriminate]. destruct dmem; [discriminate|]. injection H as <- <-. cbn. intros k Hk. rewrite dget_dset. apply String.eqb_neq in Hk. rewrite Hk. auto.
  - destruct smem; [cbn in *|discriminate]. destruct dmem; [discriminate|]. injection H as <- <-. auto.
Qed.

(** After a successful build, the matrices given to the Kalman filter are the model's matrices with every placeholder at
    the value of the user's variable of the same name ([theta]); nothing is left of the placeholders ([ph] is arbitrary). *)
Theorem C80_substitution st m st' : reachable st -> build st m = (Ok tt, st') ->
  exists ms, subbed st' = Some ms /\ map snd ms = map snd (mats st) /\
  forall V (interp : nat -> list V -> V) (ph rv : nat -> V) (theta : string -> V) (place : nat -> V),
    (forall n v, getitem m n = Ok v -> theta n = rv v) ->
    (forall n p, In (n, p) (name_to_variable st ++ name_to_data st) -> place p = theta n) ->
    map (fun o => eval interp ph rv (fst o)) ms = map (fun o => eval interp place rv (fst o)) (mats st).
Proof.
  intros Hr H. apply reachable_inv in Hr. destruct (build_ok_shape _ _ _ Hr H) as (r1 & r2 & R1 & R2 & -> & _ & _).
  eexists. split; [reflexivity|]. split; [rewrite map_map; reflexivity|].
  intros V interp ph rv theta place Ht Hp. rewrite map_map. apply map_ext_in. intros o Ho. cbn. rewrite !eval_subst.
  pose proof (inv_mats _ Hr) as Hm. rewrite Forall_forall in Hm. destruct (Hm o Ho) as [Hlt _].
  destruct (replacements_spec _ _ _ R1) as (M1 & S1 & _). destruct (replacements_spec _ _ _ R2) as (M2 & S2 & _).
  pose proof (inv_ids _ Hr) as ND. rewrite map_app in ND. destruct (nodup_app _ _ ND) as (ND1 & ND2 & ND3).
  assert (N1 : NoDup (map fst r1)). { rewrite M1. auto. }
  assert (N2 : NoDup (map fst r2)). { rewrite M2. auto. }
  apply eval_ext; auto. intros i Hi. pose proof (proj1 (inv_fresh _ Hr i) (Hlt i Hi)) as Hin.
  apply in_map_iff in Hin. destruct Hin as ([n p] & E & Hin). cbn in E. subst p. rewrite (Hp n i Hin).
  apply in_app_iff in Hin. destruct Hin as [Hin|Hin].
  - destruct (S1 _ _ Hin) as (v & G & Hv). rewrite (asub_in r1 i v) by auto. rewrite <- (Ht _ _ G). auto.
  - destruct (S2 _ _ Hin) as (v & G & Hv).
    assert (asub r1 i = None) as ->.
    { apply asub_none. rewrite M1. intros C. assert (In i (map snd (name_to_data st))) by (apply in_map_iff; exists (n, i); auto).
      eapply ND3; eauto. }
    rewrite (asub_in r2 i v) by auto. rewrite <- (Ht _ _ G). auto.
Qed.

(** When it succeeds, for an unnamed model and names that are not attributes of pm.Model: exactly when every declared
    parameter and data name is in the model, every placeholder is used by some matrix, and no static shape contradicts. *)
Lemma full_name_unnamed m n : prefix m = "" -> full_name m n = n.
Proof. intros H. unfold full_name. rewrite H. reflexivity. Qed.
Lemma found_names_unnamed m l : prefix m = "" -> (forall n, In n l -> dget (builtin m) n = None) ->
  found_names m l = Ok (filter (fun n => dmem (named m) n) l).
Proof.
  intros Hp. induction l as [|n l IH]; intros Hb; cbn; auto. unfold found_name. rewrite Hb by (cbn; auto). rewrite full_name_unnamed by auto.
  cbn. rewrite IH by (intros; apply Hb; cbn; auto). cbn.
  assert (dmem (named m) n = match dget (named m) n with Some _ => true | None => false end) as -> by reflexivity. destruct (dget (named m) n); auto.
Qed.
Lemma subset_filter l (f : string -> bool) : subset l (filter f l) = true <-> (forall n, In n l -> f n = true).
Proof.
  unfold subset. rewrite forallb_forall. split; intros H n Hn; [apply H in Hn; apply smem_in in Hn; apply filter_In in Hn; tauto|].
  apply smem_in. apply filter_In. auto.
Qed.
Lemma subset_filter2 l (f : string -> bool) : subset (filter f l) l = true.
Proof. unfold subset. rewrite forallb_forall. intros n Hn. apply smem_in. apply filter_In in Hn. tauto. Qed.
Lemma getitem_unnamed m n : prefix m = "" -> getitem m n = match dget (named m) n with Some v => Ok v | None => Err KeyError end.
Proof. intros H. unfold getitem. rewrite full_name_unnamed by auto. destruct (dget (named m) n); auto. Qed.
Lemma dmem_keys {V} (d : dict V) n : dmem d n = true <-> In n (dkeys d).
Proof.
  unfold dmem. destruct (dget d n) as [v|] eqn:E.
  - split; auto. intros _. apply dget_in in E. unfold dkeys. apply in_map_iff. exists (n, v). auto.
  - split; [discriminate|]. apply dget_none in E. tauto.
Qed.

Theorem C80_success st m : reachable st -> prefix m = "" ->
  (forall n, In n (param_names st ++ data_names st) -> dget (builtin m) n = None) ->
  (is_ok (fst (build st m)) = true <->
   (forall n, In n (param_names st ++ data_names st) -> In n (dkeys (named m))) /\
   (forall n p, In (n, p) (name_to_variable st ++ name_to_data st) -> exists t k, In (t, k) (mats st) /\ In p (phs t)) /\
   (forall n p v, In (n, p) (name_to_variable st ++ name_to_data st) -> dget (named m) n = Some v -> shape_ok (static st p) (rv_shape m v) = true)).
Proof.
  intros Hr Hpre Hb. apply reachable_inv in Hr. split.
  - destruct (build st m) as [[[]|] st'] eqn:E; [intros _|discriminate].
    pose proof E as E0. apply build_ok_iff in E0. destruct E0 as (st1 & st2 & st3 & H1 & H2 & H3 & _).
    destruct (build_ok_shape _ _ _ Hr E) as (r1 & r2 & R1 & R2 & _ & SH & US).
    destruct (replacements_spec _ _ _ R1) as (M1 & S1 & _). destruct (replacements_spec _ _ _ R2) as (M2 & S2 & _).
    apply insert_rv_ok in H1. destruct H1 as (f & r & s & Hf & SS & _ & _ & _ & ->).
    rewrite found_names_unnamed in Hf; auto. 2:{ intros; apply Hb, in_app_iff; auto. } injection Hf as <-. rewrite subset_filter in SS.
    split; [|split].
    + intros n Hn. apply in_app_iff in Hn. apply dmem_keys. destruct Hn as [Hn|Hn]; auto.
      assert (O : is_ok (save_exogenous (with_subbed st s) m (data_names (with_subbed st s))) = true) by (rewrite H2; auto).
      rewrite save_exog_ok in O. specialize (O n Hn). rewrite getitem_unnamed in O by auto. unfold dmem. destruct (dget (named m) n); auto.
    + intros n p Hn. assert (In p (all_phs (mats st))).
      { apply US. rewrite map_app, M1, M2, <- map_app. apply in_map_iff. exists (n, p). auto. }
      apply in_flat_map in H. destruct H as ([t k] & A & B). eauto.
    + intros n p v Hn Hv. apply SH. apply in_app_iff in Hn. apply in_app_iff.
      destruct Hn as [Hn|Hn]; [left; destruct (S1 _ _ Hn) as (w & G & I)|right; destruct (S2 _ _ Hn) as (w & G & I)];
        rewrite getitem_unnamed, Hv in G by auto; injection G as <-; auto.
  - intros (A & B & C).
    assert (OK : forall d, (forall n, In n (dkeys d) -> In n (param_names st ++ data_names st)) -> is_ok (replacements m d) = true).
    { intros d Hd. apply replacements_ok. intros n Hn. rewrite getitem_unnamed by auto. apply Hd, A, dmem_keys in Hn. unfold dmem in Hn. destruct (dget (named m) n); auto. }
    pose proof (OK (name_to_variable st) (fun n H => in_or_app _ _ _ (or_introl (inv_pv _ Hr n H)))) as O1.
    pose proof (OK (name_to_data st) (fun n H => in_or_app _ _ _ (or_intror (inv_pd _ Hr n H)))) as O2.
    destruct (replacements m (name_to_variable st)) as [r1|] eqn:R1; [|discriminate]. destruct (replacements m (name_to_data st)) as [r2|] eqn:R2; [|discriminate].
    destruct (replacements_spec _ _ _ R1) as (M1 & S1 & T1). destruct (replacements_spec _ _ _ R2) as (M2 & S2 & T2).
    pose proof (inv_ids _ Hr) as ND. rewrite map_app in ND. destruct (nodup_app _ _ ND) as (ND1 & ND2 & ND3).
    assert (I1 : insert_random_variables st m = Ok (with_subbed st (map (fun o => (subst (asub r1) (fst o), snd o)) (mats st)))).
    { apply insert_rv_ok. eexists _, r1, _. split; [apply found_names_unnamed; auto; intros; apply Hb, in_app_iff; auto|]. split; [apply subset_filter|].
      - intros n Hn. apply dmem_keys, A, in_app_iff. auto.
      - split; [apply subset_filter2|]. split; auto. split; [|reflexivity]. apply graph_replace_ok. repeat split; auto.
        + intros p Hp. rewrite M1 in Hp. apply in_map_iff in Hp. destruct Hp as ([n q] & <- & Hn). destruct (B n q) as (t & k & ? & ?); [apply in_app_iff; auto|].
          apply in_flat_map. exists (t, k). auto.
        + intros p v Hp. destruct (T1 _ _ Hp) as (n & Hn & G). rewrite getitem_unnamed in G by auto. apply (C n p v); [apply in_app_iff; auto|]. destruct (dget (named m) n); congruence. }
    unfold build. rewrite I1. destruct (save_exogenous _ m _) as [st2|] eqn:E2.
    2:{ exfalso. assert (is_ok (save_exogenous (with_subbed st (map (fun o => (subst (asub r1) (fst o), snd o)) (mats st))) m (data_names st)) = true).
        - apply save_exog_ok. intros n Hn. rewrite getitem_unnamed by auto. assert (In n (dkeys (named m))) by (apply A, in_app_iff; auto). apply dmem_keys in H. unfold dmem in H. destruct (dget (named m) n); auto.
        - cbn in E2. rewrite E2 in H. discriminate. }
    apply save_exog_frame in E2. rewrite E2. generalize (exog st2). intros e. clear st2 E2.
    destruct (insert_data_variables _ m) as [st3|] eqn:E3; auto. exfalso.
    assert (D : insert_data_variables (with_exog (with_subbed st (map (fun o => (subst (asub r1) (fst o), snd o)) (mats st))) e) m =
      Ok (with_subbed (with_exog (with_subbed st (map (fun o => (subst (asub r1) (fst o), snd o)) (mats st))) e)
            (map (fun o => (subst (asub r2) (fst o), snd o)) (map (fun o => (subst (asub r1) (fst o), snd o)) (mats st))))); [|rewrite D in E3; discriminate].
    apply insert_data_ok. eexists _, r2, _, _. cbn. split; [apply found_names_unnamed; auto; intros; apply Hb, in_app_iff; auto|]. split; [apply subset_filter|].
    + intros n Hn. apply dmem_keys, A, in_app_iff. auto.
    + split; auto. split; [reflexivity|]. split; [|reflexivity]. apply graph_replace_ok. repeat split; auto.
      * intros p Hp. pose proof Hp as Hp0. rewrite M2 in Hp. apply in_map_iff in Hp. destruct Hp as ([n q] & <- & Hn). destruct (B n q) as (t & k & H1 & H2); [apply in_app_iff; auto|].
        cbn in *. apply all_phs_subst. split; [apply in_flat_map; exists (t, k); auto|]. apply asub_none. rewrite M1. intros Cc.
        assert (H0 : In q (map snd (name_to_data st))) by (rewrite <- M2; auto).
        eapply ND3; eauto.
      * intros p v Hp. cbn. destruct (T2 _ _ Hp) as (n & Hn & G). rewrite getitem_unnamed in G by auto. apply (C n p v); [apply in_app_iff; auto|]. destruct (dget (named m) n); congruence.
Qed.

(** A declared parameter that is not in the model: ValueError, and the object is exactly as before. *)
Theorem C80_missing_parameter st m n : prefix m = "" -> (forall k, In k (param_names st) -> dget (builtin m) k = None) ->
  In n (param_names st) -> ~ In n (dkeys (named m)) -> build st m = (Err ValueError, st).
Proof.
  intros Hp Hb Hn Hm. unfold build, insert_random_variables. rewrite found_names_unnamed by auto. cbn [bind].
  destruct (subset (param_names st) _) eqn:E; [|reflexivity]. rewrite subset_filter in E. apply E, dmem_keys in Hn. tauto.
Qed.

(** What a build does depends on the object's declarations and on the model, never on earlier builds. *)
Theorem C80_rebuild st m1 m2 : fst (build (snd (build st m1)) m2) = fst (build st m2) /\
  (fst (build st m2) = Ok tt -> subbed (snd (build (snd (build st m1)) m2)) = subbed (snd (build st m2)) /\
     fit_coords (snd (build (snd (build st m1)) m2)) = fit_coords (snd (build st m2)) /\
     forall n, In n (data_names st) -> dget (exog (snd (build (snd (build st m1)) m2))) n = dget (exog (snd (build st m2))) n).
Proof.
  pose proof (build_core st m1) as C. set (b := snd (build st m1)) in *. clearbody b.
  destruct C as (C1 & C2 & C3 & C4 & C5 & C6 & C7).
  assert (G : forall o r, graph_replace b m2 o r = graph_replace st m2 o r) by (intros; unfold graph_replace; rewrite C5; auto).
  assert (I : (exists e, insert_random_variables b m2 = Err e /\ insert_random_variables st m2 = Err e) \/
              (exists s, insert_random_variables b m2 = Ok (with_subbed b s) /\ insert_random_variables st m2 = Ok (with_subbed st s))).
  { unfold insert_random_variables. rewrite C1, C3, C7. destruct found_names; cbn; eauto. destruct negb; eauto. destruct negb; eauto.
    destruct replacements; cbn; eauto. rewrite G. destruct graph_replace; cbn; eauto. }
  unfold build. destruct I as [(e & -> & ->)|(s & -> & ->)]; [split; [auto|discriminate]|].
  cbn [data_names with_subbed]. rewrite C2.
  assert (S : is_ok (save_exogenous (with_subbed b s) m2 (data_names st)) = is_ok (save_exogenous (with_subbed st s) m2 (data_names st))).
  { apply eq_iff_eq_true. rewrite !save_exog_ok. tauto. }
  assert (SE : forall x l e, save_exogenous x m2 l = Err e -> e = KeyError).
  { clear. intros x l. revert x. induction l as [|n l IH]; intros x e; cbn; [discriminate|]. destruct (getitem m2 n) eqn:E; cbn; [apply IH|].
    intros [= <-]. unfold getitem in E. destruct (dget (named m2) n); [discriminate|]. destruct dget; congruence. }
  destruct (save_exogenous (with_subbed b s) m2 (data_names st)) as [sb|e1] eqn:Eb; destruct (save_exogenous (with_subbed st s) m2 (data_names st)) as [ss|e2] eqn:Es; try discriminate S.
  2:{ apply SE in Eb, Es. subst. split; [auto|discriminate]. }
  pose proof (fun n => save_exog_get _ _ _ _ n Eb) as Gb. pose proof (fun n => save_exog_get _ _ _ _ n Es) as Gs.
  apply save_exog_frame in Eb, Es. set (eb := exog sb) in *. set (es := exog ss) in *. clearbody eb es. subst sb ss.
  assert (G2 : forall o r, graph_replace (with_exog (with_subbed b s) eb) m2 o r = graph_replace (with_exog (with_subbed st s) es) m2 o r) by (intros; unfold graph_replace; cbn; rewrite C5; auto).
  unfold insert_data_variables. cbn [data_names name_to_data subbed with_exog with_subbed]. rewrite C2, C4.
  destruct found_names; cbn [bind]; [|split; [auto|discriminate]]. destruct negb; [split; [auto|discriminate]|].
  destruct replacements; cbn [bind]; [|split; [auto|discriminate]]. rewrite G2. destruct graph_replace; cbn [bind fst snd]; [|split; [auto|discriminate]].
  split; auto. intros _. split; [reflexivity|]. split; [reflexivity|]. intros n Hn. cbn. specialize (Gb n). specialize (Gs n). apply smem_in in Hn.
  rewrite Hn in *. congruence.
Qed.

(** Refuted: "parameters found in the PyMC model but not required by the statespace model" are never reported; the
    check compares the required names with themselves.  Any further variables leave the result unchanged. *)
Lemma dget_app_some {V} (a b : dict V) k v : dget a k = Some v -> dget (a ++ b)%list k = Some v.
Proof. induction a as [|[x y] a IH]; cbn; [discriminate|]. destruct (String.eqb k x); auto. Qed.
Definition with_extra (m : pmodel) (extra : dict nat) : pmodel :=
  {| prefix := prefix m; named := (named m ++ extra)%list; rv_shape := rv_shape m; builtin := builtin m; coords := coords m |}.
Theorem C80_extra_variables_refuted st m extra st' : prefix m = "" ->
  build st m = (Ok tt, st') -> build st (with_extra m extra) = (Ok tt, st').
Proof.
  intros Hp H. apply build_ok_iff in H. destruct H as (st1 & st2 & st3 & H1 & H2 & H3 & ->). apply build_ok_iff.
  set (m' := with_extra m extra).
  assert (GI : forall n v, getitem m n = Ok v -> getitem m' n = Ok v).
  { intros n v. rewrite !getitem_unnamed by auto. destruct (dget (named m) n) as [w|] eqn:E; [|discriminate]. intros [= <-]. cbn. rewrite (dget_app_some _ _ _ w) by auto. auto. }
  assert (RP : forall d r, replacements m d = Ok r -> replacements m' d = Ok r).
  { induction d as [|[n p] d IH]; intros r; cbn; auto. destruct (getitem m n) as [v|] eqn:E; cbn; [|discriminate]. rewrite (GI _ _ E). cbn.
    destruct (replacements m d) as [r'|]; cbn; [|discriminate]. rewrite (IH r' eq_refl). auto. }
  assert (FN : forall l f, found_names m l = Ok f -> subset l f = true -> exists f', found_names m' l = Ok f' /\ subset l f' = true /\ subset f' l = true).
  { intros l f Hf Hs.
    assert (B : exists f', found_names m' l = Ok f' /\ (forall x, In x f -> In x f') /\ (forall x, In x f' -> In x l)).
    { clear Hs. revert f Hf. induction l as [|n l IH]; intros f; cbn; [intros [= <-]; exists []; cbn; tauto|].
      unfold found_name. cbn [builtin with_extra m']. destruct (dget (builtin m) n) as [[]|]; cbn; [discriminate| |].
      - destruct (found_names m l) as [f0|]; cbn; [|discriminate]. intros [= <-]. destruct (IH f0 eq_refl) as (f' & -> & A & B). exists f'. cbn. auto.
      - destruct (found_names m l) as [f0|]; cbn; [|discriminate]. intros [= <-]. destruct (IH f0 eq_refl) as (f' & -> & A & B). cbn.
        rewrite !full_name_unnamed by auto. destruct (dget (named m) n) as [w|] eqn:E.
        + rewrite (dget_app_some _ _ _ w) by auto. exists (n :: f'). cbn. split; auto. split; intros x [|]; auto.
        + destruct (dget (named m ++ extra)%list n); [exists (n :: f'); cbn|exists f']; split; auto. split; auto. intros x [|]; auto. }
    destruct B as (f' & E & A & B). exists f'. split; auto. unfold subset in *. rewrite !forallb_forall in *. split; intros x Hx; apply smem_in; auto.
    apply A. apply smem_in. apply Hs. auto. }
  exists st1, st2, st3. split; [|split; [|split; [|reflexivity]]].
  - apply insert_rv_ok in H1. destruct H1 as (f & r & s & Hf & S1 & S2 & R & G & ->). apply insert_rv_ok. destruct (FN _ _ Hf S1) as (f' & Hf' & S3 & S4).
    exists f', r, s. split; [exact Hf'|]. repeat split; auto.
  - revert H2. generalize (data_names st1). intros l. generalize st1. induction l as [|n l IH]; intros x; cbn; auto.
    destruct (getitem m n) as [v|] eqn:E; cbn; [|discriminate]. rewrite (GI _ _ E). cbn. apply IH.
  - apply insert_data_ok in H3. destruct H3 as (f & r & s0 & s & Hf & S1 & R & Hs & G & ->). apply insert_data_ok. destruct (FN _ _ Hf S1) as (f' & Hf' & S3 & S4).
    exists f', r, s0, s. split; [exact Hf'|]. repeat split; auto.
Qed.

(** Refuted: a PyMC model with a name (pm.Model(name="...")) holding every parameter is always rejected, with the message
    that the parameters were not found: the prefixed names are compared with the plain ones. *)
Lemma shortest (l : list string) : l <> [] -> exists n, In n l /\ forall k, In k l -> String.length n <= String.length k.
Proof.
  induction l as [|a l IH]; [congruence|]. intros _. destruct l as [|b l]; [exists a; cbn; split; auto; intros k [->|[]]; auto|].
  destruct IH as (n & Hn & H); [congruence|]. destruct (Nat.le_gt_cases (String.length a) (String.length n)) as [L|L].
  - exists a. split; [cbn; auto|]. intros k [->|Hk]; auto. specialize (H k Hk). lia.
  - exists n. split; [cbn in *; auto|]. intros k [->|Hk]; auto. lia.
Qed.
Lemma str_len_app a b : String.length (a ++ b) = String.length a + String.length b.
Proof. induction a; cbn; auto. Qed.
Theorem C80_named_model_refuted st m : prefix m <> "" -> param_names st <> [] ->
  (forall k, In k (param_names st) -> dget (builtin m) k = None) -> build st m = (Err ValueError, st).
Proof.
  intros Hp Hn Hb. unfold build, insert_random_variables.
  assert (F : forall l, (forall k, In k l -> dget (builtin m) k = None) -> exists f, found_names m l = Ok f /\ forall x, In x f -> exists k, In k l /\ x = full_name m k).
  { induction l as [|n l IH]; intros H; cbn; [exists []; cbn; tauto|]. unfold found_name. rewrite H by (cbn; auto). cbn.
    destruct IH as (f & -> & Hf); [intros; apply H; cbn; auto|]. cbn. destruct (dget (named m) (full_name m n)); eexists; (split; [reflexivity|]).
    - intros x [<-|Hx]; [eauto|]. destruct (Hf x Hx) as (k & ? & ?). eauto.
    - intros x Hx. destruct (Hf x Hx) as (k & ? & ?). eauto. }
  destruct (F _ Hb) as (f & -> & Hf). cbn [bind]. destruct (subset (param_names st) f) eqn:E; [exfalso|reflexivity].
  destruct (shortest _ Hn) as (n & Hin & Hmin). unfold subset in E. rewrite forallb_forall in E. apply E, smem_in, Hf in Hin. destruct Hin as (k & Hk & ->).
  specialize (Hmin k Hk). unfold full_name in Hmin. apply String.eqb_neq in Hp. rewrite Hp in Hmin. rewrite !str_len_app in Hmin. cbn in Hmin. lia.
Qed.

(** Refuted: missing exogenous data are reported by the promised ValueError.  It is a KeyError of the PyMC model, raised
    after the parameters have been substituted: the object is left half built. *)
Theorem C80_missing_data_refuted st m st1 n : insert_random_variables st m = Ok st1 -> In n (data_names st) ->
  is_ok (getitem m n) = false -> build st m = (Err KeyError, st1) /\ exists s, subbed st1 = Some s.
Proof.
  intros H Hn Hg. unfold build. rewrite H. destruct (insert_rv_frame _ _ _ H) as (s & ->). cbn [data_names with_subbed].
  split; [|exists s; reflexivity]. destruct (save_exogenous (with_subbed st s) m (data_names st)) as [x|e] eqn:E.
  - assert (O : is_ok (save_exogenous (with_subbed st s) m (data_names st)) = true) by (rewrite E; auto). rewrite save_exog_ok in O. rewrite (O n Hn) in Hg. discriminate.
  - f_equal. f_equal. clear -E. revert E. generalize (with_subbed st s). generalize (data_names st). induction l as [|a l IH]; intros x; cbn; [discriminate|].
    destruct (getitem m a) eqn:E; cbn; [apply IH|]. intros [= <-]. unfold getitem in E. destruct (dget (named m) a); [discriminate|]. destruct dget; congruence.
Qed.

(** ** A concrete model: parameters rho and sigma, exogenous data; T = [[rho]], Q = [[sigma]], Z depends on the data. *)
Definition ex0 : ssmod :=
  {| param_names := ["rho"; "sigma"]; data_names := ["data_exog"]; name_to_variable := []; name_to_data := []; static := fun _ => []; fresh := 0;
     mats := [(App 0 [], 1); (App 0 [], 2); (App 0 [], 1); (App 0 [], 1); (App 0 [], 2); (App 0 [], 2); (App 0 [], 2); (App 0 [], 2); (App 0 [], 2)];
     subbed := None; exog := []; fit_coords := None |}.
Definition ok_snd (d : ssmod) (r : res (nat * ssmod)) : ssmod := match r with Ok (_, s) => s | Err _ => d end.
Definition ex1 := ok_snd ex0 (make_and_register_variable ex0 "rho" [Some 1]).
Definition ex2 := ok_snd ex0 (make_and_register_variable ex1 "sigma" []).
Definition ex3 := ok_snd ex0 (make_and_register_data ex2 "data_exog" [None; Some 2]).
Definition ex4 := set_matrix (set_matrix (set_matrix ex3 4 (App 1 [Ph 0], 2)) 8 (App 1 [Ph 1], 2)) 5 (App 2 [Ph 2; App 0 []], 3).
Definition ex_pm : pmodel :=
  {| prefix := ""; named := [("sigma", 11); ("unused", 12); ("rho", 10); ("data_exog", 13)];
     rv_shape := fun i => if Nat.eqb i 10 then [Some 1] else if Nat.eqb i 13 then [Some 100; Some 2] else []; builtin := [("name", false); ("coords", true)]; coords := ["time"; "state"] |}.
Lemma ex4_reachable : reachable ex4.
Proof.
  assert (C : forall n op args, (forall t, In t args -> closed_in n t) -> closed_in n (App op args)).
  { intros n op args H. split; cbn.
    - intros i Hi. apply in_flat_map in Hi. destruct Hi as (t & Ht & Hi). apply (H t Ht); auto.
    - induction args as [|t args IH]; cbn; auto. rewrite (proj2 (H t (or_introl eq_refl))). cbn. apply IH. intros u Hu. apply H. cbn. auto. }
  assert (P : forall n i, i < n -> closed_in n (Ph i)) by (intros n i H; split; cbn; [intros j [<-|[]]; auto|auto]).
  unfold ex4. repeat apply r_set; try lia.
  - apply (r_data ex2 "data_exog" [None; Some 2] 2); [|reflexivity]. apply (r_var ex1 "sigma" [] 1); [|reflexivity]. apply (r_var ex0 "rho" [Some 1] 0); [|reflexivity].
    apply r_init; [reflexivity|]. repeat constructor; cbn; tauto.
  - apply C. cbn. intros t [<-|[]]. apply P. cbn. lia.
  - apply C. cbn. intros t [<-|[]]. apply P. cbn. lia.
  - apply C. cbn. intros t [<-|[<-|[]]]; [apply P; cbn; lia|apply C; cbn; tauto].
Qed.
Example C80_example : fst (build ex4 ex_pm) = Ok tt /\
  (exists ms, subbed (snd (build ex4 ex_pm)) = Some ms /\ nth_error ms 4 = Some (App 1 [Rv 10], 2) /\ nth_error ms 5 = Some (App 2 [Rv 13; App 0 []], 3)).
Proof. split; [reflexivity|]. eexists. split; [reflexivity|]. split; reflexivity. Qed.
Example C80_missing_data_example : exists st1, insert_random_variables ex4 {| prefix := ""; named := [("sigma", 11); ("rho", 10)]; rv_shape := rv_shape ex_pm; builtin := []; coords := [] |} = Ok st1
  /\ is_ok (getitem {| prefix := ""; named := [("sigma", 11); ("rho", 10)]; rv_shape := rv_shape ex_pm; builtin := []; coords := [] |} "data_exog") = false.
Proof. eexists. split; reflexivity. Qed.
Example C80_named_example : fst (build ex4 {| prefix := "sub"; named := [("sub::sigma", 11); ("sub::rho", 10); ("sub::data_exog", 13)]; rv_shape := rv_shape ex_pm; builtin := []; coords := [] |}) = Err ValueError.
Proof. reflexivity. Qed.
