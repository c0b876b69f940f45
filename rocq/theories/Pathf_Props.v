(** C52, the Pathfinder part: convert_flat_trace_to_idata. *)
From Verif Require Import Common Dict.
Import List ListNotations.
From Verif Require Import Flat_Model FindMap_Model Laplace_Model Smc_Model Flat_Props FindMap_Props.
Open Scope nat_scope.

Section Pathfinder.
Context {V : Type} (evaluate : dict (arr V) -> string -> arr V).
Lemma dupdate_head {A} (b : dict A) : forall a k v, ~ In k (dkeys b) -> dupdate ((k, v) :: a) b = (k, v) :: dupdate a b.
Proof.
  induction b as [|[k' v'] b IH]; intros a k v H; auto. rewrite !dupdate_cons. cbn [dset]. cbn in H.
  destruct (String.eqb_spec k' k); [exfalso; subst; tauto|]. apply IH. tauto.
Qed.
Lemma dupdate_same_keys {A} (b : dict A) : forall a, NoDup (dkeys b) -> dkeys a = dkeys b -> dupdate a b = b.
Proof.
  induction b as [|[k v] b IH]; intros a ND Hk; destruct a as [|[k' v'] a]; try discriminate; auto. cbn in Hk. injection Hk as -> Hk. inversion ND; subst.
  rewrite dupdate_cons. cbn [dset]. rewrite String.eqb_refl. rewrite dupdate_head by auto. f_equal. apply IH; auto.
Qed.
Definition put (acc : dict (list (arr V))) (kv : string * arr V) : dict (list (arr V)) :=
  dset acc (fst kv) (match dget acc (fst kv) with Some l => l ++ [snd kv] | None => [snd kv] end).
Lemma append_unfold t p : append_point t p = fold_left put p t. Proof. reflexivity. Qed.
Lemma put_new (p : dict (arr V)) : forall acc, NoDup (dkeys p) -> (forall k, In k (dkeys p) -> ~ In k (dkeys acc)) ->
  fold_left put p acc = acc ++ map (fun kv => (fst kv, [snd kv])) p.
Proof.
  induction p as [|[k v] p IH]; intros acc ND H; [now rewrite app_nil_r|]. cbn [fold_left map]. inversion ND; subst.
  assert (Hk : ~ In k (dkeys acc)) by (apply H; left; auto).
  unfold put at 2; cbn [fst snd]. pose proof Hk as Hg. apply dget_none in Hg. rewrite Hg. rewrite dset_app_new by auto. rewrite IH; auto.
  - rewrite <- app_assoc. reflexivity.
  - intros k' Hk' Hin. unfold dkeys in Hin. rewrite map_app in Hin. apply in_app_or in Hin. destruct Hin as [Hin|[<-|[]]]; [|auto]. apply (H k'); [right; auto|auto].
Qed.
Lemma put_head (p : dict (arr V)) : forall t k l, ~ In k (dkeys p) -> fold_left put p ((k, l) :: t) = (k, l) :: fold_left put p t.
Proof.
  induction p as [|[k' v] p IH]; intros t k l H; auto. cbn [fold_left]. cbn in H. rewrite <- IH by tauto. f_equal. unfold put; cbn [fst snd dset dget].
  destruct (String.eqb_spec k' k); [exfalso; subst; tauto|]. reflexivity.
Qed.
Lemma put_same (p : dict (arr V)) : forall t, NoDup (dkeys p) -> dkeys t = dkeys p ->
  fold_left put p t = map (fun q => (fst (fst q), snd (fst q) ++ [snd (snd q)])) (combine t p).
Proof.
  induction p as [|[k v] p IH]; intros t ND Hk; destruct t as [|[k' l] t]; try discriminate; auto. cbn in Hk. injection Hk as -> Hk. inversion ND; subst.
  cbn [fold_left combine map fst snd]. unfold put at 2; cbn [fst snd dset dget]. rewrite String.eqb_refl. rewrite put_head by auto. f_equal. apply IH; auto.
Qed.

Lemma nth_map' {A B} (f : A -> B) l i d d' : i < length l -> nth i (map f l) d = f (nth i l d').
Proof. intros H. rewrite (nth_indep _ d (f d')) by (rewrite map_length; auto). apply map_nth. Qed.
(** columns: for every variable of the layout the list of its blocks over the samples *)
Definition column (ip : dict (arr V)) (samples : list (list V)) (j : nat) : list (arr V) :=
  map (fun x => nth j (blocks (layout_of ip) x) {| ashape := []; adata := [] |}) samples.
Definition columns (ip : dict (arr V)) (samples : list (list V)) : dict (list (arr V)) :=
  combine (dkeys ip) (map (column ip samples) (seq 0 (length ip))).
Lemma combine_seq_nth {A} (l : list A) d : l = map (fun j => nth j l d) (seq 0 (length l)).
Proof.
  apply nth_ext with d d; [now rewrite map_length, seq_length|]. intros i Hi.
  rewrite (nth_indep (map _ _) d ((fun j => nth j l d) 0)) by (now rewrite map_length, seq_length). rewrite (map_nth (fun j => nth j l d)), seq_nth by auto. reflexivity.
Qed.
Lemma layout_length (ip : dict (arr V)) : length (layout_of ip) = length ip.
Proof. apply map_length. Qed.
Lemma dkeys_length {A} (d : dict A) : length (dkeys d) = length d. Proof. apply map_length. Qed.
Lemma dkeys_columns ip samples : dkeys (columns ip samples) = dkeys ip.
Proof.
  unfold columns, dkeys. generalize (column ip samples). intros c. generalize (seq 0 (length ip)), (seq_length (length ip) 0). intros s. revert s. induction ip as [|[k a] r IH]; intros [|j s] H; cbn in *; auto; try discriminate.
  f_equal. apply IH. lia.
Qed.
Lemma flat_trace_step ip done x : NoDup (dkeys ip) -> append_point (columns ip done) (combine (dkeys ip) (blocks (layout_of ip) x)) =
  match done with [] => append_point (columns ip []) (combine (dkeys ip) (blocks (layout_of ip) x)) | _ => columns ip (done ++ [x]) end.
Proof.
  intros ND. destruct done as [|y done]; auto. rewrite append_unfold. rewrite put_same.
  2: { destruct (point_of ip x) as [-> _]. auto. }
  2: { destruct (point_of ip x) as [-> _]. apply dkeys_columns. }
  unfold columns. rewrite (combine_seq_nth (blocks (layout_of ip) x) {| ashape := []; adata := [] |}). rewrite blocks_length, layout_length.
  assert (G : forall (ks : list string) s, map (fun q : (string * list (arr V)) * (string * arr V) => (fst (fst q), snd (fst q) ++ [snd (snd q)]))
     (combine (combine ks (map (column ip (y :: done)) s)) (combine ks (map (fun j => nth j (blocks (layout_of ip) x) {| ashape := []; adata := [] |}) s)))
     = combine ks (map (column ip ((y :: done) ++ [x])) s)).
  { induction ks as [|k ks IH]; intros [|j s]; cbn [combine map]; auto. cbn [fst snd]. rewrite IH. f_equal. f_equal. unfold column. rewrite map_app. reflexivity. }
  rewrite <- G. reflexivity.
Qed.
Lemma first_point ip x : NoDup (dkeys ip) -> append_point [] (combine (dkeys ip) (blocks (layout_of ip) x)) = columns ip [x].
Proof.
  intros ND. rewrite append_unfold, put_new; [|destruct (point_of ip x) as [-> _]; auto|cbn; tauto]. cbn [app]. unfold columns.
  rewrite (combine_seq_nth (blocks (layout_of ip) x) {| ashape := []; adata := [] |}) at 1. rewrite blocks_length, layout_length.
  generalize (seq 0 (length ip)). generalize (dkeys ip) at 1 2. induction l as [|k ks IH]; intros [|j s]; cbn [combine map]; auto. rewrite IH. reflexivity.
Qed.
Lemma flat_trace_ok ip (ND : NoDup (dkeys ip)) (Hw : all_wf ip) samples : forall done, (forall x, In x samples -> length x = total (layout_of ip)) ->
  samples <> [] \/ done <> [] -> flat_trace ip samples (match done with [] => [] | _ => columns ip done end) = Ok (columns ip (done ++ samples)).
Proof.
  induction samples as [|x r IH]; intros done Hl Hne; cbn [flat_trace].
  - rewrite app_nil_r. destruct done; [destruct Hne; congruence|reflexivity].
  - rewrite rmap_ok by (auto; apply Hl; left; auto). cbn [bind].
    rewrite dupdate_same_keys; [|destruct (point_of ip x) as [-> _]; auto|destruct (point_of ip x) as [-> _]; auto].
    replace (done ++ x :: r) with ((done ++ [x]) ++ r) by (rewrite <- app_assoc; reflexivity). rewrite <- IH; [| intros y Hy; apply Hl; right; auto|right; destruct done; discriminate].
    f_equal. destruct done as [|y done].
    + apply first_point; auto.
    + rewrite flat_trace_step by auto. reflexivity.
Qed.
(** Every sample is read variable by variable, each its own block with its own shape, and every default variable is reported under its name, evaluated at that point *)
Theorem C52_pathfinder m (ip : dict (arr V)) samples include_transformed :
  good_start m ip -> NoDup (unobserved_value_vars m) -> samples <> [] -> (forall x, In x samples -> length x = total (layout_of ip)) ->
  exists result point, convert_flat_trace evaluate m ip samples include_transformed = Ok result /\
    dkeys result = get_default_varnames (unobserved_value_vars m) include_transformed /\
    (forall x, In x samples -> is_point ip x (point x)) /\
    (forall n, In n (dkeys result) -> dget result n = Some (map (fun x => evaluate (point x) n) samples)).
Proof.
  intros [Hk Hnd Hw] NDu Hne Hl. assert (ND : NoDup (dkeys ip)) by (rewrite Hk; auto).
  set (names := get_default_varnames (unobserved_value_vars m) include_transformed).
  assert (NDn : NoDup names). { unfold names, get_default_varnames. destruct include_transformed; auto. apply NoDup_filter; auto. }
  set (point := fun x : list V => combine (dkeys ip) (blocks (layout_of ip) x)).
  set (out := fun name => (name, map (fun x => evaluate (point x) name) samples)).
  assert (K : dkeys (map out names) = names). { unfold dkeys. rewrite map_map. apply map_id. }
  exists (map out names), point. split; [|split; [exact K|split; [intros; apply point_of|]]].
  - unfold convert_flat_trace. rewrite (flat_trace_ok ip ND Hw samples []) by auto. cbn [bind app]. fold names.
    assert (Ea : map snd (columns ip samples) = map (column ip samples) (seq 0 (length ip))).
    { unfold columns. generalize (seq 0 (length ip)), (seq_length (length ip) 0). rewrite <- (dkeys_length ip). generalize (dkeys ip). clear.
      intros ks. generalize (column ip samples). intros c. induction ks as [|k ks IH]; intros [|j s] H; cbn in *; auto; try discriminate. f_equal. apply IH. lia. }
    rewrite Ea. rewrite map_length, seq_length. rewrite <- Hk, dkeys_length, Nat.eqb_refl. cbn [negb]. f_equal.
    rewrite dupdate_nil_l. 2: { unfold dkeys. rewrite map_map. rewrite map_id. exact NDn. }
    apply map_ext. intros name. unfold out. f_equal.
    apply nth_ext with (evaluate (point []) name) (evaluate (point []) name); [rewrite !map_length, seq_length; auto|]. rewrite !map_length, seq_length. intros i Hi.
    rewrite map_map. rewrite (nth_map' _ (seq 0 (length samples)) i _ 0) by (rewrite seq_length; auto). rewrite seq_nth by auto. cbn [Nat.add].
    rewrite (nth_map' _ samples i _ []) by auto. unfold point. f_equal. f_equal.
    rewrite (combine_seq_nth (blocks (layout_of ip) (nth i samples [])) {| ashape := []; adata := [] |}). rewrite blocks_length, layout_length.
    rewrite map_map. apply map_ext. intros j. unfold column. rewrite (nth_map' _ samples i _ []) by auto. reflexivity.
  - rewrite K. intros n Hn. apply in_dget; [rewrite K; auto|]. apply in_map_iff. exists n. auto.
Qed.
End Pathfinder.
Example C52_pathfinder_case : convert_flat_trace (fun p n => match dget p n with Some a => a | None => {| ashape := []; adata := [] |} end) two_vars two_start [[1; 2; 3]; [4; 5; 6]] true
  = Ok [("sigma_log__", [{| ashape := []; adata := [1] |}; {| ashape := []; adata := [4] |}]); ("mu", [{| ashape := [2]; adata := [2; 3] |}; {| ashape := [2]; adata := [5; 6] |}]);
        ("sigma", [{| ashape := []; adata := [] |}; {| ashape := []; adata := [] |}]); ("total", [{| ashape := []; adata := [] |}; {| ashape := []; adata := [] |}])]%string.
Proof. reflexivity. Qed.
