(** Reachable components, their parameters, labels and extraction. *)
From Coq Require Import Reals String Ascii Lra.
From Verif Require Import Common Struct_Model Struct_Spec Struct_Proofs Struct_Season Struct_Freq
  Struct_Trend Struct_Sum.
Open Scope nat_scope.

(** A component made by one constructor call. *)
Inductive leaf : component -> Prop :=
| leaf_trend uid o io name c : level_trend uid o io name = Ok c -> leaf c
| leaf_meas uid name c : measurement_error uid name = Ok c -> leaf c
| leaf_ar uid o name c : autoregressive uid o name = Ok c -> leaf c
| leaf_season uid s inn name sn pop c : time_seasonality uid s inn name sn pop = Ok c -> leaf c
| leaf_freq uid s n name inn c : frequency_seasonality uid s n name inn = Ok c -> leaf c
| leaf_cycle uid name cl est damp inn c : cycle uid name cl est damp inn = Ok c -> leaf c
| leaf_reg uid k name sn inn c : regression uid k name sn inn = Ok c -> leaf c.

(** Any component a user can assemble with + . *)
Inductive assembled : component -> Prop :=
| asm_leaf c : leaf c -> assembled c
| asm_add a b c : assembled a -> assembled b -> comp_add a b = Ok c -> assembled c.

(** Two environments agree on the placeholders held by a component. *)
Definition agree (vars : list var) (e e' : env) : Prop := forall v, In v vars -> forall t i, e v t i = e' v t i.
Definition held (c : component) : list var := (map (fun kv => fst (snd kv)) (c_vars c) ++ map snd (c_data c))%list.

Lemma set_fancy_ext M rows cols v v' i j :
  (forall k, v k = v' k) -> set_fancy M rows cols v i j = set_fancy M rows cols v' i j.
Proof.
  intros H. unfold set_fancy. revert M. 
  assert (forall ps base (M M' : mat), (forall i j, M i j = M' i j) -> 
    fold_left (fun (acc : mat) (kij : nat * (nat * nat)) => let '(k, (i0, j0)) := kij in
               fun i j => if (i =? i0) && (j =? j0) then v k else acc i j)
    (combine (seq base (length rows)) ps) M i j =
    fold_left (fun (acc : mat) (kij : nat * (nat * nat)) => let '(k, (i0, j0)) := kij in
               fun i j => if (i =? i0) && (j =? j0) then v' k else acc i j)
    (combine (seq base (length rows)) ps) M' i j) as G.
  { induction (length rows); intros ps base M M' HM; simpl; [auto|].
    destruct ps as [|[i0 j0] ps]; simpl; auto. apply IHn. intros. rewrite H, HM. auto. }
  intros M. apply G. auto.
Qed.

Lemma leaf_local c : leaf c -> forall e e', agree (held c) e e' -> ssm_eq (c_ssm c) e (c_ssm c) e'.
Proof.
  intros L e e' A. destruct L as [uid o io name c H|uid name c H|uid o name c H|uid s inn name sn pop c H|uid s n name inn c H|uid name cl est damp inn c H|uid k name sn inn c H].
  - apply level_trend_inv in H. destruct H as [mask [_ [_ [_ H]]]]. cbv zeta in H.
    destruct H as (_&_&_&_&E&_&_&_&EP&EV&_). unfold held in A. rewrite E. rewrite EV, EP in A.
    set (kp := bsum (innovation_mask (length mask) o io)) in *.
    assert (A1 : forall i, pv e (uid, "initial_trend"%string) i = pv e' (uid, "initial_trend"%string) i)
      by (intros; apply A; left; auto).
    unfold ssm_eq, trend_ssm; cbn [s_x0 s_P0 s_c s_d s_T s_Z s_R s_H s_Q]. repeat split; auto.
    destruct (0 <? kp) eqn:Ek; auto. intros i j. apply set_fancy_ext. intros q. f_equal.
    apply A. simpl. auto.
  - apply measurement_inv in H. destruct H as (_&_&_&_&_&_&_&EV&E&_). unfold held in A.
    rewrite E, EV in *. unfold ssm_eq; cbn [s_x0 s_P0 s_c s_d s_T s_Z s_R s_H s_Q]. repeat split; auto.
    f_equal. apply A. simpl; auto.
  - apply ar_inv in H. destruct H as [mask H].
    destruct H as (_&_&_&_&_&E&_&_&_&_&_&EV&_). unfold held in A. rewrite E, EV in *.
    unfold ssm_eq, ar_ssm; cbn [s_x0 s_P0 s_c s_d s_T s_Z s_R s_H s_Q]. repeat split; auto.
    + intros i j. apply set_fancy_ext. intros q. apply A. simpl; auto.
    + intros i j. destruct ((i =? 0) && (j =? 0)); auto. f_equal. apply A. simpl; auto.
  - apply ts_inv in H. destruct H as (_&_&_&_&_&E&_&_&_&_&_&EP&EV). unfold held in A.
    rewrite EV, EP in A. rewrite E.
    unfold ssm_eq, ts_ssm; cbn [s_x0 s_P0 s_c s_d s_T s_Z s_R s_H s_Q]. repeat split; auto.
    + intros i. apply A. destruct inn; simpl; auto.
    + intros i j. destruct inn; cbn [andb]; auto. destruct ((i =? 0) && (j =? 0)); auto. f_equal.
      apply A. simpl; auto.
  - apply freq_inv in H. destruct H as [nn H].
    destruct H as (_&_&_&_&_&_&[drop [_ [_ [E EP]]]]&_&_&_&_&EV). unfold held in A.
    rewrite EV, EP in A. rewrite E.
    unfold ssm_eq, freq_ssm; cbn [s_x0 s_P0 s_c s_d s_T s_Z s_R s_H s_Q]. repeat split; auto.
    + intros i. destruct (i <? _); auto. apply A. destruct inn; simpl; auto.
    + intros i j. destruct inn; auto. f_equal. f_equal. apply A. simpl; auto.
  - unfold cycle in H.
    destruct cl as [s|], est; try discriminate.
    + destruct (Req_EM_T s 0); [discriminate|].
      pose proof (cycle_placeholders name false damp inn) as ND.
      rewrite mk_component_ok in H; [|exact ND|apply incl_refl]. inversion H; subst c; clear H.
      unfold held in A. simpl in A.
      unfold ssm_eq; cbn [s_x0 s_P0 s_c s_d s_T s_Z s_R s_H s_Q c_ssm]. repeat split; auto.
      * intros i. apply A. left; auto.
      * intros i j. f_equal. destruct damp; auto. apply A. simpl. auto.
      * intros i j. destruct inn; auto.
        assert (EQ : pv e (uid, ("sigma_" ++ name)%string) 0 = pv e' (uid, ("sigma_" ++ name)%string) 0)
          by (apply A; destruct damp; simpl; auto).
        simpl in EQ. rewrite EQ. auto.
    + pose proof (cycle_placeholders name true damp inn) as ND.
      rewrite mk_component_ok in H; [|exact ND|apply incl_refl]. inversion H; subst c; clear H.
      unfold held in A. simpl in A.
      assert (AL : pv e (uid, (name ++ "_length")%string) 0 = pv e' (uid, (name ++ "_length")%string) 0)
        by (apply A; simpl; auto).
      unfold ssm_eq; cbn [s_x0 s_P0 s_c s_d s_T s_Z s_R s_H s_Q c_ssm]. repeat split; auto.
      * intros i. apply A. left; auto.
      * intros i j. rewrite AL. f_equal. destruct damp; auto. apply A. simpl. auto.
      * intros i j. destruct inn; auto.
        assert (EQ : pv e (uid, ("sigma_" ++ name)%string) 0 = pv e' (uid, ("sigma_" ++ name)%string) 0)
          by (apply A; destruct damp; simpl; auto).
        simpl in EQ. rewrite EQ. auto.
  - apply regression_inv in H. destruct H as [n H].
    destruct H as (_&_&_&_&_&_&E&_&_&EV&ED&_). unfold held in A. rewrite EV, ED in A. rewrite E.
    unfold ssm_eq; cbn [s_x0 s_P0 s_c s_d s_T s_Z s_R s_H s_Q]. repeat split; auto.
    + intros i. apply A. simpl; auto.
    + intros t j. apply A. simpl. destruct inn; simpl; auto.
    + destruct inn; auto. intros i j. apply set_fancy_ext. intros q. f_equal. apply A. simpl; auto.
Qed.

(** placeholders: the k-th parameter has the placeholder of its own name *)
Definition vars_ok (c : component) : Prop :=
  dkeys (c_vars c) = c_param_names c /\
  forall n v sh, In (n, (v, sh)) (c_vars c) -> snd v = n.

Lemma map_vars_keys uid (pi : list (string * list nat)) :
  dkeys (map (fun ns => (fst ns, ((uid, fst ns), snd ns))) pi : dict (var * list nat)) = map fst pi.
Proof. unfold dkeys. rewrite map_map. apply map_ext. auto. Qed.
Lemma map_vars_snd (uid : nat) (pi : list (string * list nat)) n (v : var) sh :
  In (n, (v, sh)) (map (fun ns => (fst ns, ((uid, fst ns), snd ns))) pi) -> snd v = n.
Proof. rewrite in_map_iff. intros [x [E _]]. inversion E; auto. Qed.

Lemma leaf_vars c : leaf c -> vars_ok c /\ NoDup (c_param_names c).
Proof.
  intros L. destruct L as [uid o io name c H|uid name c H|uid o name c H|uid s inn name sn pop c H|uid s n name inn c H|uid name cl est damp inn c H|uid k name sn inn c H].
  - apply level_trend_inv in H. destruct H as [mask [_ [_ [_ H]]]]. cbv zeta in H.
    destruct H as (_&_&_&_&_&_&_&EN&EP&EV&_). split; [split|].
    + rewrite EV, map_vars_keys. auto.
    + intros nm v sh. rewrite EV. apply map_vars_snd.
    + rewrite EN, EP. destruct (0 <? _); simpl; repeat constructor; simpl; intuition discriminate.
  - apply measurement_inv in H. destruct H as (_&_&_&_&_&EN&_&EV&_&_). split; [split|].
    + rewrite EV, EN. auto.
    + intros nm v sh. rewrite EV. simpl. intros [E|[]]. inversion E; auto.
    + rewrite EN. repeat constructor; auto.
  - apply ar_inv in H. destruct H as [mask (_&_&_&_&_&_&_&_&_&EN&_&EV&_)]. split; [split|].
    + rewrite EV, EN. auto.
    + intros nm v sh. rewrite EV. simpl. intros [E|[E|[]]]; inversion E; auto.
    + rewrite EN. repeat constructor; simpl; intuition discriminate.
  - apply ts_inv in H. destruct H as (_&_&_&_&_&_&_&_&_&_&EN&EP&EV). split; [split|].
    + rewrite EV, map_vars_keys, EN, EP. destruct inn; auto.
    + intros nm v sh. rewrite EV. apply map_vars_snd.
    + rewrite EN. destruct inn; repeat constructor; simpl; auto. intros [E|[]]. symmetry in E.
      apply (ts_names_distinct name E).
  - apply freq_inv in H. destruct H as [nn H].
    destruct H as (_&_&_&_&_&_&[drop [_ [_ [_ EP]]]]&_&_&EN&_&EV). split; [split|].
    + rewrite EV, map_vars_keys, EN, EP. destruct inn; auto.
    + intros nm v sh. rewrite EV. apply map_vars_snd.
    + rewrite EN. destruct inn; repeat constructor; simpl; auto. intros [E|[]].
      apply (append_self_neq "sigma_" name) in E; auto. discriminate.
  - apply cycle_inv in H. destruct H as (_&_&_&_&_&_&_&_&_&EN&EV&ND). split; [split|auto].
    + rewrite EV, map_vars_keys. auto.
    + intros nm v sh. rewrite EV. apply map_vars_snd.
  - apply regression_inv in H. destruct H as [n (_&_&_&_&_&_&_&EN&EP&EV&_&_)]. split; [split|].
    + rewrite EV, EN, EP. destruct inn; auto.
    + intros nm v sh. rewrite EV. destruct inn; simpl.
      * intros [E|[E|[]]]; inversion E; auto.
      * intros [E|[]]; inversion E; auto.
    + rewrite EN, EP. destruct inn; simpl; repeat constructor; simpl; intuition discriminate.
Qed.

Lemma comp_add_inv a b c : comp_add a b = Ok c ->
  exists info, combine_info (c_info a) (c_info b) = Ok info /\ c_info c = info /\
  c_k_states c = c_k_states a + c_k_states b /\ c_k_posdef c = c_k_posdef a + c_k_posdef b /\
  c_state_names c = (c_state_names a ++ c_state_names b)%list /\
  c_shock_names c = (c_shock_names a ++ c_shock_names b)%list /\
  c_param_names c = (c_param_names a ++ c_param_names b)%list /\
  c_vars c = dupdate (c_vars a) (c_vars b) /\ c_data c = dupdate (c_data a) (c_data b) /\
  c_param_info c = dupdate (c_param_info a) (c_param_info b) /\
  c_ssm c = combine_ssm (c_k_states a) (c_k_posdef a) (c_ssm a) (c_ssm b).
Proof.
  unfold comp_add. destruct (combine_info (c_info a) (c_info b)) as [info|] eqn:E; [|discriminate].
  simpl. intros H. inversion H; subst c. simpl. exists info. repeat split; auto.
Qed.

Lemma NoDup_app_inv {A} (l1 l2 : list A) : NoDup (l1 ++ l2)%list ->
  NoDup l1 /\ NoDup l2 /\ (forall x, In x l1 -> ~ In x l2).
Proof.
  induction l1; simpl; intros H; [repeat split; auto; constructor|].
  inversion H; subst. destruct (IHl1 H3) as [I1 [I2 I3]]. repeat split; auto.
  - constructor; auto. intros H'. apply H2. apply in_or_app; auto.
  - intros x [<-|Hx]; auto. intros H'. apply H2. apply in_or_app; auto.
Qed.

(** data placeholders: keys are the data names, each component's own *)
Lemma dset_data_In {V} (d : dict V) k v x : In x (dset d k v) -> x = (k, v) \/ In x d.
Proof.
  induction d as [|[k' v'] d IH]; simpl; [intuition|].
  destruct (String.eqb k k'); simpl; intuition.
Qed.

Lemma assembled_params c : assembled c -> NoDup (c_param_names c) ->
  vars_ok c.
Proof.
  induction 1 as [c L|a b c A IHa B IHb E]; intros ND.
  - apply leaf_vars; auto.
  - apply comp_add_inv in E. destruct E as [info (_&_&_&_&_&_&EN&EV&_&_&_)].
    rewrite EN in ND. destruct (NoDup_app_inv _ _ ND) as [N1 [N2 N3]].
    destruct (IHa N1) as [Ka Sa]. destruct (IHb N2) as [Kb Sb].
    assert (EV' : c_vars c = (c_vars a ++ c_vars b)%list).
    { rewrite EV. apply dupdate_disjoint; rewrite ?Ka, ?Kb; auto. }
    split.
    + rewrite EV', dkeys_app, Ka, Kb. auto.
    + intros n v sh H. rewrite EV' in H. apply in_app_or in H. destruct H; eauto.
Qed.

(** the matrices only depend on the held placeholders, when names do not collide *)
Definition data_names_nodup (c : component) := NoDup (dkeys (c_data c)).

Lemma leaf_data c : leaf c -> dkeys (c_data c) = c_data_names c /\ NoDup (c_data_names c).
Proof.
  intros L.
  assert (G : forall uid name ks kp merr comb obs sn dn shn pn en coords pd pi di ph rep c,
    mk_component uid name ks kp merr comb obs sn dn shn pn en coords pd pi di ph rep = Ok c ->
    NoDup dn -> dkeys (c_data c) = c_data_names c /\ NoDup (c_data_names c)).
  { intros until c0. unfold mk_component. destruct (fold_left _ _ _) as [vars|]; [|discriminate].
    simpl. intros E ND. inversion E; subst. simpl. split; auto.
    unfold dkeys. rewrite map_map. simpl. apply map_id. }
  destruct L as [uid o io name c H|uid name c H|uid o name c H|uid s inn name sn pop c H|uid s n name inn c H|uid name cl est damp inn c H|uid k name sn inn c H].
  - unfold level_trend in H. destruct (order_to_mask o); [|discriminate]. simpl in H.
    destruct (max_state_of a); [|discriminate]. simpl in H. destruct (_ <? _); [discriminate|].
    destruct (trend_innovations _ _) as [[im kp]|]; [|discriminate]. simpl in H.
    destruct (negb _); [discriminate|]. destruct (negb _); [discriminate|].
    destruct (triu_indices _). eapply G; eauto. constructor.
  - eapply G; eauto. constructor.
  - unfold autoregressive in H. destruct (order_to_mask o); [|discriminate]. simpl in H.
    destruct (first_obs_idx _); [|discriminate]. simpl in H. eapply G; eauto. constructor.
  - unfold time_seasonality in H.
    destruct (match sn with Some _ => _ | None => _ end); [|discriminate]. simpl in H.
    destruct (negb pop); [discriminate|].
    destruct (match a with [] => _ | _ => _ end); [|discriminate]. simpl in H.
    destruct (first_obs_idx _); [|discriminate]. simpl in H. eapply G; eauto. constructor.
  - unfold frequency_seasonality in H.
    destruct (_ =? _)%Z; [discriminate|]. destruct (_ <? _)%Z; [discriminate|].
    destruct (Req_EM_T s 0); [discriminate|]. eapply G; eauto. constructor.
  - unfold cycle in H. destruct cl as [s|], est; try discriminate.
    + destruct (Req_EM_T s 0); [discriminate|]. eapply G; eauto. constructor.
    + eapply G; eauto. constructor.
  - unfold regression in H. destruct (regression_state_names _ _ _) as [[n names]|]; [|discriminate].
    simpl in H. eapply G; eauto. repeat constructor; auto.
Qed.

Lemma assembled_local c : assembled c ->
  NoDup (c_param_names c) -> NoDup (c_data_names c) ->
  dkeys (c_data c) = c_data_names c /\
  forall e e', agree (held c) e e' -> ssm_eq (c_ssm c) e (c_ssm c) e'.
Proof.
  induction 1 as [c L|a b c A IHa B IHb E]; intros ND NDd.
  - split; [apply leaf_data; auto|apply leaf_local; auto].
  - pose proof E as E0.
    apply comp_add_inv in E. destruct E as [info (_&_&_&_&_&_&EN&EV&ED&_&ES)].
    assert (EDN : c_data_names c = (c_data_names a ++ c_data_names b)%list).
    { unfold comp_add in E0. destruct (combine_info _ _); [|discriminate]. simpl in E0.
      inversion E0; auto. }
    rewrite EN in ND. destruct (NoDup_app_inv _ _ ND) as [N1 [N2 N3]].
    rewrite EDN in NDd. destruct (NoDup_app_inv _ _ NDd) as [D1 [D2 D3]].
    destruct (IHa N1 D1) as [Ka La]. destruct (IHb N2 D2) as [Kb Lb].
    destruct (assembled_params a A N1) as [Va _]. destruct (assembled_params b B N2) as [Vb _].
    assert (EV' : c_vars c = (c_vars a ++ c_vars b)%list)
      by (rewrite EV; apply dupdate_disjoint; rewrite ?Va, ?Vb; auto).
    assert (ED' : c_data c = (c_data a ++ c_data b)%list)
      by (rewrite ED; apply dupdate_disjoint; rewrite ?Ka, ?Kb; auto).
    split; [rewrite ED', dkeys_app, Ka, Kb, EDN; auto|].
    intros e e' AG. rewrite ES. apply combine_ssm_ext.
    + apply La. intros v Hv. apply AG. unfold held in *. rewrite EV', ED', !map_app.
      rewrite !in_app_iff in *. tauto.
    + apply Lb. intros v Hv. apply AG. unfold held in *. rewrite EV', ED', !map_app.
      rewrite !in_app_iff in *. tauto.
Qed.

(** *** labels *)
Definition labels_ok (c : component) : Prop :=
  length (c_state_names c) = c_k_states c /\ length (c_shock_names c) = c_k_posdef c /\
  NoDup (dkeys (c_param_info c)) /\ NoDup (dkeys (c_vars c)) /\
  forall n, dget (c_param_info c) n = option_map snd (dget (c_vars c) n).

Lemma labels_add a b c : labels_ok a -> labels_ok b -> comp_add a b = Ok c -> labels_ok c.
Proof.
  intros (A1&A2&A3&A4&A5) (B1&B2&B3&B4&B5) E. apply comp_add_inv in E.
  destruct E as [info (_&_&K1&K2&S1&S2&_&EV&_&EP&_)].
  unfold labels_ok. rewrite S1, S2, K1, K2, EV, EP, !app_length.
  repeat split; try lia; auto using dupdate_NoDup.
  intros n. rewrite !dget_dupdate by auto. rewrite A5, B5.
  destruct (dget (c_vars b) n); simpl; auto.
Qed.

(** shapes of placeholders made from the same table as param_info *)
Lemma dget_map_vars uid (pi : list (string * list nat)) n :
  dget pi n = option_map snd (dget (map (fun ns => (fst ns, ((uid, fst ns), snd ns))) pi : dict (var * list nat)) n).
Proof.
  induction pi as [|[k v] pi IH]; simpl; auto. destruct (String.eqb n k); auto.
Qed.

(** *** extraction *)
Lemma slices_from_app start l1 l2 :
  slices_from start (l1 ++ l2)%list
  = (slices_from start l1 ++ slices_from (start + fold_right (fun ci s => ci_k_states ci + s) 0 l1) l2)%list.
Proof.
  revert start. induction l1; intros start; simpl; [rewrite Nat.add_0_r; auto|].
  rewrite IHl1, Nat.add_assoc. auto.
Qed.
Lemma slices_from_length start l : length (slices_from start l) = length l.
Proof. revert start. induction l; intros; simpl; auto. Qed.
Lemma slices_from_shift start d l :
  slices_from (start + d) l = map (fun ij => (fst ij + d, snd ij + d)) (slices_from start l).
Proof.
  revert start. induction l; intros start; simpl; auto. f_equal.
  - f_equal. lia.
  - replace (start + d + ci_k_states a) with (start + ci_k_states a + d) by lia. apply IHl.
Qed.

Definition total_states (info : dict cinfo) : nat :=
  fold_right (fun ci s => ci_k_states ci + s) 0 (map snd info).
Lemma total_app a b : total_states (a ++ b)%list = total_states a + total_states b.
Proof.
  unfold total_states. rewrite map_app. induction (map snd a); simpl; auto. rewrite IHl. lia.
Qed.

Lemma combine_app {A B} (l1 l2 : list A) (r1 r2 : list B) : length l1 = length r1 ->
  combine (l1 ++ l2) (r1 ++ r2) = (combine l1 r1 ++ combine l2 r2)%list.
Proof.
  revert r1. induction l1; intros [|y r1] H; simpl in *; try discriminate; auto. f_equal. apply IHl1. lia.
Qed.

Lemma state_slices_app a b :
  state_slices (a ++ b)%list
  = (state_slices a ++ map (fun ij => (fst ij + total_states a, snd ij + total_states a)) (state_slices b))%list.
Proof.
  unfold state_slices. rewrite map_app, slices_from_app. f_equal.
  rewrite <- slices_from_shift. auto.
Qed.
Lemma state_slices_length a : length (state_slices a) = length a.
Proof. unfold state_slices. rewrite slices_from_length, map_length. auto. Qed.

(** slices stay within the total *)
Lemma slices_bound start l i j : In (i, j) (slices_from start l) ->
  start <= i <= j /\ j <= start + fold_right (fun ci s => ci_k_states ci + s) 0 l.
Proof.
  revert start. induction l; intros start; simpl; [tauto|]. intros [E|H].
  - inversion E; subst. lia.
  - apply IHl in H. lia.
Qed.

Lemma pyslice_app_l {A} (l1 l2 : list A) i j : i <= j -> j <= length l1 -> pyslice (l1 ++ l2) i j = pyslice l1 i j.
Proof.
  intros H1 H2. unfold pyslice. rewrite skipn_app, firstn_app, skipn_length.
  replace (j - i - (length l1 - i)) with 0 by lia. simpl. now rewrite app_nil_r.
Qed.
Lemma pyslice_app_r {A} (l1 l2 : list A) i j d : d = length l1 -> pyslice (l1 ++ l2) (i + d) (j + d) = pyslice l2 i j.
Proof.
  intros ->. unfold pyslice. rewrite skipn_app. replace (j + length l1 - (i + length l1)) with (j - i) by lia.
  rewrite skipn_all2 by lia. simpl. f_equal. f_equal. lia.
Qed.

Lemma flat_map_app' {A B} (f : A -> list B) l1 l2 : flat_map f (l1 ++ l2) = (flat_map f l1 ++ flat_map f l2)%list.
Proof. apply flat_map_app. Qed.

Lemma flat_map_ext_in' {A B} (f g : A -> list B) l : (forall x, In x l -> f x = g x) -> flat_map f l = flat_map g l.
Proof. induction l; simpl; intros H; auto. rewrite H by auto. rewrite IHl; auto. Qed.

Lemma combine_map_r {A B C} (f : B -> C) (l : list A) r :
  combine l (map f r) = map (fun xy => (fst xy, f (snd xy))) (combine l r).
Proof. revert r. induction l; intros [|y r]; simpl; auto. f_equal. apply IHl. Qed.

Lemma extract_names_app na nb ia ib :
  length na = total_states ia ->
  subcomponent_names (na ++ nb)%list (ia ++ ib)%list = (subcomponent_names na ia ++ subcomponent_names nb ib)%list.
Proof.
  intros HL. unfold subcomponent_names. rewrite state_slices_app.
  rewrite combine_app by (rewrite state_slices_length; auto). rewrite flat_map_app'. f_equal.
  - apply flat_map_ext_in'. intros [[name ci] [i j]] Hin. destruct (ci_combine ci); auto.
    apply in_combine_r in Hin. apply slices_bound in Hin. rewrite pyslice_app_l; auto; try lia.
    rewrite HL. unfold total_states. lia.
  - rewrite combine_map_r, !flat_map_concat_map, map_map. f_equal. apply map_ext.
    intros [[name ci] [i j]]. simpl. rewrite pyslice_app_r; auto.
Qed.

Lemma extract_columns_app na nb ia ib x :
  length na = total_states ia ->
  hidden_columns (na ++ nb)%list (ia ++ ib)%list x
  = (hidden_columns na ia x ++ hidden_columns nb ib (fun i => x (total_states ia + i)))%list.
Proof.
  intros HL. unfold hidden_columns. rewrite state_slices_app.
  rewrite combine_app by (rewrite state_slices_length; auto). rewrite flat_map_app'. f_equal.
  - apply flat_map_ext_in'. intros [[name ci] [i j]] Hin. destruct (ci_obs ci); auto.
    destruct (ci_combine ci); auto.
    apply in_combine_r in Hin. apply slices_bound in Hin. rewrite pyslice_app_l; auto; try lia.
    rewrite HL. unfold total_states. lia.
  - rewrite combine_map_r, !flat_map_concat_map, map_map. f_equal. apply map_ext.
    intros [[name ci] [i j]]. simpl. destruct (ci_obs ci) as [obs|]; auto.
    destruct (ci_combine ci).
    + f_equal. f_equal. apply map_ext. intros k. f_equal. lia.
    + rewrite pyslice_app_r by auto. apply map_ext. intros k. f_equal. lia.
Qed.

Lemma leaf_info c : leaf c -> exists ci, c_info c = [(c_name c, ci)] /\ ci_k_states ci = c_k_states c.
Proof.
  intros L. destruct L as [uid o io name c H|uid name c H|uid o name c H|uid s inn name sn pop c H|uid s n name inn c H|uid name cl est damp inn c H|uid k name sn inn c H].
  - apply level_trend_inv in H. destruct H as [mask [_ [_ [_ H]]]]. cbv zeta in H.
    destruct H as (_&EN&EK&_&_&_&_&_&_&_&EI). rewrite EN, EK. eauto.
  - apply measurement_inv in H. destruct H as (EN&EK&_&_&_&_&_&_&_&EI). rewrite EN, EK. eauto.
  - apply ar_inv in H. destruct H as [mask (_&_&EN&EK&_&_&_&_&_&_&_&_&EI)]. rewrite EN, EK. eauto.
  - apply ts_inv in H. destruct H as (_&_&EN&EK&_&_&_&_&_&EI&_). rewrite EN, EK. eauto.
  - apply freq_inv in H. destruct H as [nn (_&_&_&EN&EK&_&_&_&_&_&EI&_)]. rewrite EN, EK. eauto.
  - apply cycle_inv in H. destruct H as (_&_&EN&EK&_&_&_&_&EI&_). rewrite EN, EK. eauto.
  - apply regression_inv in H. destruct H as [n (_&_&EN&EK&_&_&_&_&_&_&_&EI)]. rewrite EN, EK. eauto.
Qed.

(** no leaf was given a name that looks like a sum *)
Inductive plain_names : component -> Prop :=
| plain_leaf c : leaf c -> is_sum_name (c_name c) = false -> plain_names c
| plain_add a b c : plain_names a -> plain_names b -> comp_add a b = Ok c -> plain_names c.

Lemma plain_assembled c : plain_names c -> assembled c.
Proof. induction 1 as [|a b c A IHa B IHb E]; [apply asm_leaf; auto|exact (asm_add a b c IHa IHb E)]. Qed.

Lemma own_info_all d : (forall k, In k (dkeys d) -> is_sum_name k = false) -> own_info d = d.
Proof.
  induction d as [|[k v] d IH]; simpl; auto. intros H. unfold own_info in *. simpl.
  rewrite (H k) by auto. simpl. rewrite IH; auto.
Qed.

Lemma plain_info c : plain_names c ->
  total_states (c_info c) = c_k_states c /\ (forall k, In k (dkeys (c_info c)) -> is_sum_name k = false).
Proof.
  induction 1 as [c L N|a b c A [Ta Pa] B [Tb Pb] E].
  - destruct (leaf_info c L) as [ci [EI EK]]. rewrite EI. unfold total_states. simpl. rewrite EK.
    split; [lia|]. intros k [<-|[]]. auto.
  - apply comp_add_inv in E. destruct E as [info (EC&EI&EK&_)].
    apply combine_info_ok in EC. destruct EC as [EC _]. rewrite EI, EC.
    rewrite !own_info_all by auto. rewrite total_app, Ta, Tb, EK. split; auto.
    intros k Hk. rewrite dkeys_app in Hk. apply in_app_or in Hk. destruct Hk; auto.
Qed.
Lemma plain_sum_info a b c : plain_names a -> plain_names b -> comp_add a b = Ok c ->
  c_info c = (c_info a ++ c_info b)%list.
Proof.
  intros A B E. apply comp_add_inv in E. destruct E as [info (EC&EI&_)].
  apply combine_info_ok in EC. destruct EC as [EC _]. rewrite EI, EC.
  rewrite !own_info_all; auto; apply plain_info; auto.
Qed.
