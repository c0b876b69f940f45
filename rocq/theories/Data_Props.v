(** C40 (missing values) and C74 (alignment of the data with the model). *)
From Verif Require Import Common Dict.
Import List ListNotations.
From Verif Require Import Data_Model.
Open Scope nat_scope.

(** * C40 *)

Definition entry (m : matrix) (t i : nat) : option val := match nth_error m t with Some r => nth_error r i | None => None end.
Definition flag (b : list (list bool)) (t i : nat) : option bool := match nth_error b t with Some r => nth_error r i | None => None end.
Definition contains (m : matrix) (v : val) : Prop := exists t i, entry m t i = Some v.
Definition chosen (o : option val) : val := match o with Some v => v | None => MISSING_FILL end.

Lemma entry_mmap f m t i : entry (mmap f m) t i = option_map f (entry m t i).
Proof. unfold entry, mmap. rewrite nth_error_map. destruct (nth_error m t) as [r|]; simpl; auto. rewrite nth_error_map. auto. Qed.
Lemma flag_mmap f m t i : flag (mmap f m) t i = option_map f (entry m t i).
Proof. unfold flag, entry, mmap. rewrite nth_error_map. destruct (nth_error m t) as [r|]; simpl; auto. rewrite nth_error_map. auto. Qed.
Lemma any_spec p m : any p m = true <-> exists v, contains m v /\ p v = true.
Proof.
  unfold any, contains, entry. rewrite existsb_exists. split.
  - intros (r&Hr&H). apply existsb_exists in H as (v&Hv&Hp). exists v. split; auto. apply In_nth_error in Hr as (t&Ht).
    apply In_nth_error in Hv as (i&Hi). exists t, i. rewrite Ht. auto.
  - intros (v&(t&i&H)&Hp). destruct (nth_error m t) as [r|] eqn:E; [|discriminate]. exists r. split; [eapply nth_error_In; eauto|].
    apply existsb_exists. exists v. split; auto. eapply nth_error_In; eauto.
Qed.
Lemma val_eq_spec a x : val_eq a (Fin x) = true <-> a = Fin x.
Proof. destruct a; simpl; split; try congruence; try discriminate; intros H; [apply Z.eqb_eq in H; subst; auto|inversion H; apply Z.eqb_refl]. Qed.

(** Data without infinities and without the (finite) marker: the filter takes as missing exactly the NaN entries, and all
    other entries reach it unchanged. *)
Theorem C40_missing_exactly_nan m fill x : chosen fill = Fin x ->
  ~ contains m (Fin x) -> ~ contains m PInf -> ~ contains m NInf ->
  exists y missing, fit_data m fill = Ok (y, missing) /\
    forall t i v, entry m t i = Some v ->
      (flag missing t i = Some true <-> v = NaN) /\ (v <> NaN -> entry y t i = Some v).
Proof.
  intros Hc H1 H2 H3. unfold fit_data, mask_missing_values_in_data. fold (chosen fill). rewrite Hc.
  replace (any (fun v => val_eq v (Fin x)) m) with false.
  2:{ symmetry. destruct (any _ m) eqn:E; auto. apply any_spec in E as (v&C&P). apply val_eq_spec in P. subst. tauto. }
  rewrite andb_false_r. cbn [bind]. do 2 eexists. split; [reflexivity|]. intros t i v E. unfold filter_missing. fold (chosen fill). rewrite Hc.
  rewrite flag_mmap, !entry_mmap, E. cbn [option_map].
  assert (C : contains m v) by (exists t, i; auto). destruct v as [y| | |]; cbn [invalid]; try tauto.
  - assert (y <> x) by (intros ->; tauto). cbn. destruct (Z.eqb_spec y x); [congruence|]. split; [split; discriminate|auto].
  - cbn. rewrite Z.eqb_refl. split; [tauto|congruence].
Qed.
(** With at least one NaN, a collision of the marker with an observation is rejected; the check is exact. *)
(** the mask returned with the data (the masked array handed to pymc) marks exactly the invalid entries, and only those are replaced *)
Theorem C40_mask m fill y mask : mask_missing_values_in_data m fill = Ok (y, mask) -> forall t i v, entry m t i = Some v ->
  flag mask t i = Some (invalid v) /\ entry y t i = Some (if invalid v then chosen fill else v).
Proof.
  unfold mask_missing_values_in_data. fold (chosen fill). destruct (_ && _); [discriminate|]. intros H. injection H as <- <-. intros t i v E.
  rewrite flag_mmap, entry_mmap, E. split; reflexivity.
Qed.
Theorem C40_collision m fill x : chosen fill = Fin x -> contains m NaN ->
  (contains m (Fin x) -> fit_data m fill = Err ValueError) /\ (~ contains m (Fin x) -> is_ok (fit_data m fill) = true).
Proof.
  intros Hc Hn. unfold fit_data, mask_missing_values_in_data. fold (chosen fill). rewrite Hc.
  replace (any invalid m) with true by (symmetry; apply any_spec; exists NaN; auto). cbn [andb]. split; intros H.
  - replace (any (fun v => val_eq v (Fin x)) m) with true; auto. symmetry. apply any_spec. exists (Fin x). split; auto. cbn. apply Z.eqb_refl.
  - replace (any (fun v => val_eq v (Fin x)) m) with false; auto.
    symmetry. destruct (any _ m) eqn:E; auto. apply any_spec in E as (v&C&P). apply val_eq_spec in P. subst. tauto.
Qed.
(** Without NaN there is no check: every observation equal to the marker is silently dropped. *)
Theorem C40_no_nan_collision_refuted m fill x : chosen fill = Fin x -> (forall v, contains m v -> invalid v = false) ->
  exists missing, fit_data m fill = Ok (m, missing) /\ forall t i, entry m t i = Some (Fin x) -> flag missing t i = Some true.
Proof.
  intros Hc H. unfold fit_data, mask_missing_values_in_data. fold (chosen fill). rewrite Hc.
  replace (any invalid m) with false.
  2:{ symmetry. destruct (any invalid m) eqn:E; auto. apply any_spec in E as (v&C&P). rewrite (H v C) in P. discriminate. }
  cbn [andb bind].
  assert (Id : mmap (fun v => if invalid v then Fin x else v) m = m).
  { unfold mmap. rewrite <- (map_id m) at 2. apply map_ext_in. intros r Hr. rewrite <- (map_id r) at 2. apply map_ext_in. intros v Hv.
    rewrite H; auto. apply In_nth_error in Hr as (t&Ht). apply In_nth_error in Hv as (i&Hi). exists t, i. unfold entry. rewrite Ht. auto. }
  rewrite Id. eexists. split; [reflexivity|]. intros t i E. unfold filter_missing. fold (chosen fill). rewrite Hc, flag_mmap, E. cbn.
  rewrite Z.eqb_refl. auto.
Qed.
(** Infinite observations are dropped as if they were missing. *)
Theorem C40_infinite_refuted m fill x t i v : chosen fill = Fin x -> ~ contains m (Fin x) -> entry m t i = Some v -> v = PInf \/ v = NInf ->
  exists y missing, fit_data m fill = Ok (y, missing) /\ flag missing t i = Some true.
Proof.
  intros Hc H1 E Hv. unfold fit_data, mask_missing_values_in_data. fold (chosen fill). rewrite Hc.
  replace (any (fun v => val_eq v (Fin x)) m) with false.
  2:{ symmetry. destruct (any _ m) eqn:Q; auto. apply any_spec in Q as (w&C&P). apply val_eq_spec in P. subst. tauto. }
  rewrite andb_false_r. cbn [bind]. do 2 eexists. split; [reflexivity|]. unfold filter_missing. fold (chosen fill).
  rewrite Hc, flag_mmap, entry_mmap, E. cbn [option_map]. destruct Hv; subst v; cbn; rewrite Z.eqb_refl; auto.
Qed.
(** Conditional sampling and forecasting see the data as the fit did, provided the default marker is not in the data, whatever
    marker was chosen. *)
Theorem C40_conditional_agrees m fill x : chosen fill = Fin x -> ~ contains m (Fin x) -> ~ contains m MISSING_FILL ->
  exists y y' missing, fit_data m fill = Ok (y, missing) /\ conditional_data m = Ok (y', missing) /\
    forall t i v, entry m t i = Some v -> invalid v = false -> entry y t i = Some v /\ entry y' t i = Some v.
Proof.
  intros Hc H1 H2. unfold conditional_data, fit_data, mask_missing_values_in_data. fold (chosen fill). rewrite Hc.
  assert (Z1 : forall z, ~ contains m (Fin z) -> any (fun v => val_eq v (Fin z)) m = false).
  { intros z Hz. destruct (any _ m) eqn:Q; auto. apply any_spec in Q as (w&C&P). apply val_eq_spec in P. subst. tauto. }
  unfold MISSING_FILL in *. rewrite (Z1 x), (Z1 (-9999)%Z) by auto. rewrite !andb_false_r. cbn [bind]. do 3 eexists. split; [reflexivity|].
  assert (E : forall z, ~ contains m (Fin z) -> mmap (fun v : val => match v with NaN => true | _ => false end || val_eq v (Fin z)) (mmap (fun v : val => if invalid v then Fin z else v) m) = mmap invalid m).
  { intros z Hz. unfold mmap. rewrite map_map. apply map_ext_in. intros r Hr. rewrite map_map. apply map_ext_in. intros v Hv.
    assert (C : contains m v) by (apply In_nth_error in Hr as (t&Ht); apply In_nth_error in Hv as (i&Hi); exists t, i; unfold entry; rewrite Ht; auto).
    destruct v as [y| | |]; cbn; rewrite ?Z.eqb_refl; auto. destruct (Z.eqb_spec y z); auto. subst. tauto. }
  split.
  - f_equal. f_equal. unfold filter_missing. fold (chosen fill). rewrite Hc. unfold MISSING_FILL. rewrite !E by auto. auto.
  - intros t i v Ev Iv. rewrite !entry_mmap, Ev. cbn. rewrite Iv. auto.
Qed.
(** But the marker chosen by the user is forgotten after the fit: data that contain -9999 and a NaN, correctly fitted with
    another marker, are then rejected; without NaN, the -9999 observations the fit used are taken as missing. *)
Theorem C40_marker_forgotten_refuted m x : (x <> -9999)%Z -> ~ contains m (Fin x) -> contains m MISSING_FILL ->
  is_ok (fit_data m (Some (Fin x))) = true /\
  (contains m NaN -> conditional_data m = Err ValueError) /\
  ((forall v, contains m v -> invalid v = false) -> exists missing, conditional_data m = Ok (m, missing) /\
     forall t i, entry m t i = Some MISSING_FILL -> flag missing t i = Some true).
Proof.
  intros Hx H1 H2. split; [|split].
  - unfold fit_data, mask_missing_values_in_data. replace (any (fun v => val_eq v (Fin x)) m) with false; [rewrite andb_false_r; auto|].
    symmetry. destruct (any _ m) eqn:Q; auto. apply any_spec in Q as (w&C&P). apply val_eq_spec in P. subst. tauto.
  - intros Hn. exact (proj1 (C40_collision m None (-9999)%Z eq_refl Hn) H2).
  - intros Hv. exact (C40_no_nan_collision_refuted m None (-9999)%Z eq_refl Hv).
Qed.
Example C40_example : fit_data [[Fin 1; NaN]; [Fin (-9999); Fin 3]] (Some (Fin 77))
    = Ok ([[Fin 1; Fin 77]; [Fin (-9999); Fin 3]], [[false; true]; [false; false]])
  /\ fit_data [[Fin 1; NaN]; [Fin (-9999); Fin 3]] None = Err ValueError
  /\ conditional_data [[Fin 1; NaN]; [Fin (-9999); Fin 3]] = Err ValueError.
Proof. repeat split. Qed.

(** * C74 *)

(** What is accepted: two-dimensional data (a Series counts as one column) with the model's number of series, and a range or
    date index. *)
Definition shape_of (d : data) : list nat :=
  match d with Tensor s _ | Array s _ => s | Frame c _ v => [length v; length c] | Series _ v => [length v; 1] | OtherData => [] end.
Definition values_of (d : data) : matrix :=
  match d with Tensor _ v | Array _ v | Frame _ _ v => v | Series _ v => map (fun x => [x]) v | OtherData => [] end.
Definition time_of (d : data) : option (list Z) :=
  match d with
  | Tensor s _ | Array s _ => Some (map Z.of_nat (seq 0 (hd 0 s)))
  | Frame _ ix v => match ix with Range => Some (map Z.of_nat (seq 0 (length v))) | Dates l => Some l | OtherIndex => None end
  | Series ix v => match ix with Range => Some (map Z.of_nat (seq 0 (length v))) | Dates l => Some l | OtherIndex => None end
  | OtherData => None
  end.
Theorem C74_accepted d n_obs obs_coords : 
  match preprocess d n_obs obs_coords with
  | Ok (v, ix) => (exists n, shape_of d = [n; n_obs]) /\ v = values_of d /\ time_of d = Some ix
  | Err _ => ~ (exists n, shape_of d = [n; n_obs]) \/ time_of d = None
  end.
Proof.
  assert (S : forall shape o c, match validate_data_shape shape n_obs o false c with Ok _ => exists n, shape = [n; n_obs] | Err _ => ~ exists n, shape = [n; n_obs] end).
  { intros shape o c. unfold validate_data_shape. destruct (Nat.eqb_spec (length shape) 2); cbn [negb].
    - destruct shape as [|a [|b [|? ?]]]; try discriminate. cbn [last]. destruct (Nat.eqb_spec b n_obs); cbn [negb].
      + subst. eauto.
      + intros (k&E). inversion E. congruence.
    - intros (k&E). subst. match goal with H : _ <> _ |- _ => apply H end. auto. }
  destruct d as [s v|s v|c ix v|ix v|]; cbn [preprocess preprocess_pandas shape_of values_of time_of].
  - specialize (S s obs_coords []). destruct (validate_data_shape s n_obs obs_coords false []); cbn; auto.
  - specialize (S s obs_coords []). destruct (validate_data_shape s n_obs obs_coords false []); cbn; auto.
  - unfold preprocess_pandas. pose proof (S [length v; length c] obs_coords c) as S1. specialize (S [length v; length c] obs_coords []).
    destruct (validate_data_shape _ n_obs obs_coords false c); cbn [bind]; auto. destruct ix; cbn [bind]; auto.
    destruct (validate_data_shape _ n_obs obs_coords false []); cbn; auto.
  - unfold preprocess_pandas. rewrite map_length. cbn [length].
    pose proof (S [length v; 1] obs_coords ["data"%string]) as S1. specialize (S [length v; 1] obs_coords []).
    destruct (validate_data_shape _ n_obs obs_coords false ["data"%string]); cbn [bind]; auto. destruct ix; cbn [bind]; auto.
    destruct (validate_data_shape _ n_obs obs_coords false []); cbn; auto.
  - auto.
Qed.
(** Time labels: an unlabelled model takes those of the data; a labelled one must agree with them exactly. *)
Theorem C74_time coord ix : 
  match add_time coord ix with
  | Ok t => t = ix /\ (coord = None \/ coord = Some None \/ coord = Some (Some ix))
  | Err _ => exists found, coord = Some (Some found) /\ found <> ix
  end.
Proof.
  destruct coord as [[found|]|]; cbn; auto. destruct (list_eq_dec Z.eq_dec found ix) as [->|N]; [|eauto]. auto.
Qed.
(** Column names play no role: a DataFrame whose columns are not in the model's order (or are not its series at all) is taken
    as it is, so values end up in the wrong series. *)
Theorem C74_columns_ignored_refuted columns columns' ix values n_obs obs_coords fill time : length columns = length columns' ->
  register_data_with_pymc (Frame columns ix values) n_obs obs_coords fill time
  = register_data_with_pymc (Frame columns' ix values) n_obs obs_coords fill time.
Proof.
  intros L. unfold register_data_with_pymc, preprocess, preprocess_pandas, validate_data_shape. cbn [length last]. rewrite L. reflexivity.
Qed.
Example C74_swapped_example :
  register_data_with_pymc (Frame ["b"; "a"]%string Range [[Fin 1; Fin 2]]) 2 (Some ["a"; "b"]%string) None None
  = Ok ([[Fin 1; Fin 2]], [[false; false]], [0%Z])
  /\ register_data_with_pymc (Array [2] [[Fin 1]; [Fin 2]]) 1 None None None = Err ValueError.
Proof. split; reflexivity. Qed.
