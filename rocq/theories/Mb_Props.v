(** C41 (save/load), C42 (id), C43 (fit options), C76 (training data). *)
From Verif Require Import Common Dict.
Import List ListNotations.
From Verif Require Import Mb_Model.
Open Scope string_scope.

(** * Specification: the values that survive a file unchanged *)
(** plain JSON values *)
Fixpoint plain (v : pv) : bool :=
  match v with
  | PNum _ | PStr _ | PBool _ | PNone => true
  | PList l => forallb plain l
  | PDict d => forallb (fun kv => match fst kv with KStr _ => true | KInt _ => false end && plain (snd kv)) d
  | PTuple _ | PArr _ => false
  end.
(** an entry of a nested dictionary: arrays of plain values, tuples under "dims", and plain values other than lists *)
Definition sub_ok (kv : key * pv) : bool :=
  match kv with
  | (KInt _, _) => false
  | (KStr k, PArr l) => negb (String.eqb k "dims") && forallb plain l
  | (KStr k, PTuple l) => String.eqb k "dims" && forallb plain l
  | (KStr k, PList _) => false
  | (KStr k, v) => plain v
  end.
Definition value_ok (v : pv) : bool := match v with PDict d => forallb sub_ok d | _ => plain v end.
Definition survives (c : config) : Prop := forall k v, In (k, v) c -> value_ok v = true.

Section Props.
Context (show_int : Z -> string) (show : list pv -> string) (sha : string -> string).
Notation json := (json show_int).
Notation json_config := (json_config show_int).
Notation id := (id show sha).
Notation save := (save show_int show sha).
Notation load := (load show sha).

(** nested induction *)
Lemma pv_ind' (P : pv -> Prop) : (forall z, P (PNum z)) -> (forall s, P (PStr s)) -> (forall b, P (PBool b)) -> P PNone ->
  (forall l, Forall P l -> P (PList l)) -> (forall l, Forall P l -> P (PTuple l)) -> (forall l, Forall P l -> P (PArr l)) ->
  (forall d, Forall (fun kv => P (snd kv)) d -> P (PDict d)) -> forall v, P v.
Proof.
  intros H1 H2 H3 H4 H5 H6 H7 H8. fix IH 1. destruct v as [z|s|b| |l|l|l|d]; [apply H1|apply H2|apply H3|apply H4| | | |].
  - apply H5. induction l as [|x l IHl]; constructor; [apply IH|exact IHl].
  - apply H6. induction l as [|x l IHl]; constructor; [apply IH|exact IHl].
  - apply H7. induction l as [|x l IHl]; constructor; [apply IH|exact IHl].
  - apply H8. induction d as [|x d IHd]; constructor; [apply IH|exact IHd].
Qed.
(** what a value becomes in the file *)
Definition fkey (k : key) : key := match k with KStr s => KStr s | KInt z => KStr (show_int z) end.
Fixpoint filed (v : pv) : pv :=
  match v with
  | PList l | PTuple l | PArr l => PList (map filed l)
  | PDict d => PDict (map (fun kv => (fkey (fst kv), filed (snd kv))) d)
  | _ => v
  end.
Lemma json_serializable v : json (serializable v) = Ok (filed v).
Proof.
  induction v using pv_ind'; cbn [serializable filed Mb_Model.json]; auto.
  1-3: match goal with HF : Forall _ ?l0 |- bind (?f (map serializable ?l0)) _ = _ => assert (E : f (map serializable l0) = Ok (map filed l0)) by
    (induction HF as [|x l' Hx _ IH]; cbn [map]; [reflexivity|rewrite Hx; cbn [bind]; rewrite IH; reflexivity]) end; rewrite E; reflexivity.
  match goal with |- (do d' <- ?f ?x; _) = _ => assert (E : f x = Ok (map (fun kv => (fkey (fst kv), filed (snd kv))) d)) end;
    [|rewrite E; reflexivity].
  induction H as [|[k x] d Hx _ IH]; cbn [map fst snd]; [reflexivity|]. cbn [snd] in Hx. rewrite Hx; cbn [bind]. rewrite IH. destruct k; reflexivity.
Qed.
Lemma json_config_serializable c : json_config (serializable_model_config c) = Ok (map (fun kv => (fst kv, filed (snd kv))) c).
Proof.
  induction c as [|[k v] c IH]; cbn; [reflexivity|]. rewrite json_serializable. cbn [bind]. fold (serializable_model_config c). rewrite IH. reflexivity.
Qed.
Lemma map_id_forall {A} (f : A -> A) (l : list A) : map f l = l <-> Forall (fun x => f x = x) l.
Proof.
  induction l as [|x l IH]; cbn; [split; auto|]. split.
  - intros H. injection H as H1 H2. constructor; [exact H1|]. apply IH, H2.
  - intros H. inversion H; subst. f_equal; [auto|]. now apply IH.
Qed.
Lemma filed_plain v : filed v = v <-> plain v = true.
Proof.
  induction v using pv_ind'; cbn [filed plain]; try tauto; try (split; [discriminate|discriminate]).
  - rewrite forallb_forall, Forall_forall in *. split.
    + intros E. injection E as E1. rewrite map_id_forall, Forall_forall in E1. intros x Hx. apply H; auto.
    + intros E. f_equal. apply map_id_forall, Forall_forall. intros x Hx. apply H; auto.
  - rewrite forallb_forall, Forall_forall in *. split.
    + intros E. injection E as E1. rewrite map_id_forall, Forall_forall in E1. intros [k x] Hx. specialize (E1 _ Hx). cbn [fst snd] in *.
      injection E1 as E2 E3. apply andb_true_intro. split; [destruct k; [reflexivity|discriminate]|]. apply (H _ Hx). exact E3.
    + intros E. f_equal. apply map_id_forall, Forall_forall. intros [k x] Hx. specialize (E _ Hx). cbn [fst snd] in *.
      apply andb_true_iff in E as (E1 & E2). f_equal; [destruct k; [reflexivity|discriminate]|]. now apply (H _ Hx).
Qed.
Lemma map_filed_plain l : map filed l = l <-> forallb plain l = true.
Proof.
  rewrite map_id_forall, Forall_forall, forallb_forall. split; intros H x Hx; apply filed_plain; auto.
Qed.
Lemma format_sub_ok kv : format_sub (fkey (fst kv), filed (snd kv)) = kv <-> sub_ok kv = true.
Proof.
  destruct kv as [[k|z] v]; cbn [fst snd fkey].
  - destruct v; unfold format_sub; cbn [fst snd filed sub_ok plain]; try (split; [reflexivity|reflexivity]).
    + destruct (String.eqb k "dims"); split; discriminate.
    + destruct (String.eqb k "dims") eqn:E; cbn [negb andb]; [|split; discriminate]. split.
      * intros H. injection H as H1. now apply map_filed_plain.
      * intros H. f_equal. f_equal. now apply map_filed_plain.
    + destruct (String.eqb k "dims") eqn:E; cbn [negb andb]; [split; discriminate|]. split.
      * intros H. injection H as H1. now apply map_filed_plain.
      * intros H. f_equal. f_equal. now apply map_filed_plain.
    + change (forallb (fun kv => match fst kv with KStr _ => true | KInt _ => false end && plain (snd kv)) d) with (plain (PDict d)).
      rewrite <- filed_plain. cbn [filed]. split; [intros H; injection H as H1; rewrite H1; reflexivity|congruence].
  - cbn [sub_ok]. split; [|discriminate]. unfold format_sub. cbn [fst snd]. destruct (filed v); discriminate.
Qed.
Lemma format_value_ok v : format_value (filed v) = v <-> value_ok v = true.
Proof.
  destruct v; cbn [filed format_value value_ok]; try (split; [reflexivity|reflexivity]).
  - change (forallb plain l) with (plain (PList l)). rewrite <- filed_plain. reflexivity.
  - split; discriminate.
  - split; discriminate.
  - rewrite map_map. rewrite forallb_forall. split.
    + intros H. injection H as H1. rewrite map_id_forall, Forall_forall in H1. intros kv Hk. apply format_sub_ok, H1, Hk.
    + intros H. f_equal. apply map_id_forall, Forall_forall. intros kv Hk. now apply format_sub_ok, H.
Qed.

(** ** C41 *)
(** the configuration found in the file after formatting is the original one exactly for the values described above *)
Definition reloaded (c : config) : config := map (fun kv => (fst kv, format_value (filed (snd kv)))) c.
Theorem C41_reloaded_iff c : reloaded c = c <-> survives c.
Proof.
  unfold reloaded, survives, config in *. rewrite map_id_forall, Forall_forall. split.
  - intros H k v Hk. specialize (H _ Hk). cbn in H. injection H as H1. now apply format_value_ok.
  - intros H [k v] Hk. cbn. f_equal. apply format_value_ok. eauto.
Qed.
Lemma save_ok c sampler version ty s : json_config sampler = Ok s -> save c sampler version ty
  = Ok {| at_id := id c version ty; at_type := ty; at_version := version; at_sampler := s; at_model := map (fun kv => (fst kv, filed (snd kv))) c |}.
Proof. intros E. unfold Mb_Model.save. rewrite E. cbn [bind]. rewrite json_config_serializable. reflexivity. Qed.
Lemma load_saved c s version ty version' ty' :
  load {| at_id := id c version ty; at_type := ty; at_version := version; at_sampler := s; at_model := map (fun kv => (fst kv, filed (snd kv))) c |} version' ty'
  = if String.eqb (id (reloaded c) version' ty') (id c version ty) then Ok (reloaded c, s) else Err ValueError.
Proof. unfold Mb_Model.load. cbn [at_model at_id at_sampler]. unfold model_config_formatting. rewrite map_map. reflexivity. Qed.
Theorem C41_roundtrip_partial c sampler version ty : survives c -> (forall k v, In (k, v) sampler -> plain v = true) ->
  exists f, save c sampler version ty = Ok f /\ load f version ty = Ok (c, sampler).
Proof.
  intros Hc Hs. assert (E : json_config sampler = Ok sampler).
  { induction sampler as [|[k v] l IH]; cbn; [reflexivity|]. assert (Hv : plain v = true) by (eapply Hs; left; eauto).
    assert (Ev : json v = Ok v).
    { clear -Hv. induction v using pv_ind'; cbn [Mb_Model.json plain] in *; try reflexivity; try discriminate.
      - match goal with |- (do l' <- ?f l; _) = _ => assert (E : f l = Ok l) end; [|rewrite E; reflexivity].
        induction H as [|x l Hx _ IH]; [reflexivity|]. cbn [forallb] in Hv. apply andb_true_iff in Hv as (H1 & H2).
        rewrite (Hx H1). cbn [bind]. rewrite (IH H2). reflexivity.
      - match goal with |- (do d' <- ?f d; _) = _ => assert (E : f d = Ok d) end; [|rewrite E; reflexivity].
        induction H as [|[k x] d Hx _ IH]; [reflexivity|]. cbn [forallb fst snd] in Hv. apply andb_true_iff in Hv as (H1 & H2).
        apply andb_true_iff in H1 as (H0 & H1). cbn [snd] in Hx. rewrite (Hx H1). cbn [bind]. rewrite (IH H2). destruct k; [reflexivity|discriminate]. }
    rewrite Ev. cbn [bind]. rewrite IH; [reflexivity|]. intros k' v' Hk. apply (Hs k' v'). right; auto. }
  eexists. split; [apply save_ok, E|]. rewrite load_saved. apply C41_reloaded_iff in Hc. rewrite Hc, String.eqb_refl. reflexivity.
Qed.
(** any other configuration is either not loaded at all or loaded with a different configuration *)
Theorem C41_other_values_refuted c sampler version ty : ~ survives c -> forall f c' s', save c sampler version ty = Ok f -> load f version ty = Ok (c', s') -> c' <> c.
Proof.
  intros Hc f c' s'. unfold Mb_Model.save. destruct (json_config sampler) as [s|] eqn:E; [|discriminate]. cbn [bind]. rewrite json_config_serializable. cbn [bind].
  intros H. inversion H; subst f. rewrite load_saved. destruct (String.eqb _ _); [|discriminate]. intros H'. inversion H'; subst.
  intros E'. apply Hc. now apply C41_reloaded_iff.
Qed.
(** unless the hash collides such a file is rejected *)
Theorem C41_rejected_refuted c sampler version ty s : json_config sampler = Ok s -> id (reloaded c) version ty <> id c version ty ->
  exists f, save c sampler version ty = Ok f /\ load f version ty = Err ValueError.
Proof.
  intros E N. eexists. split; [apply save_ok, E|]. rewrite load_saved. destruct (String.eqb_spec (id (reloaded c) version ty) (id c version ty)); [tauto|reflexivity].
Qed.
(** the common cases: a tuple or list where the formatting does not expect one *)
Example C41_survives_example : survives [("a", PDict [(KStr "loc", PNum 7); (KStr "scale", PArr [PNum 1; PNum 2]); (KStr "dims", PTuple [PStr "x"])]); ("obs", PNum 2)] /\
  reloaded [("a", PTuple [PNum 1])] = [("a", PList [PNum 1])] /\
  reloaded [("a", PDict [(KStr "mu", PList [PNum 1])])] = [("a", PDict [(KStr "mu", PArr [PNum 1])])] /\
  reloaded [("a", PDict [(KStr "inner", PDict [(KStr "mu", PArr [PNum 1])])])] = [("a", PDict [(KStr "inner", PDict [(KStr "mu", PList [PNum 1])])])].
Proof.
  split; [|repeat split]. intros k v [H|[H|[]]]; inversion H; reflexivity.
Qed.

(** ** C42 *)
(** Equal text, hence equal id up to collisions, only if values, version and type agree as one text. *)
Theorem C42_text_partial c c' version version' ty ty' : 
  (* the hash does not collide on these two *)
  (substring 0 16 (sha (id_text show c version ty)) = substring 0 16 (sha (id_text show c' version' ty')) -> id_text show c version ty = id_text show c' version' ty') ->
  id c version ty = id c' version' ty' ->
  (show (map snd c) ++ version ++ ty = show (map snd c') ++ version' ++ ty') /\ (version = version' -> ty = ty' -> show (map snd c) = show (map snd c')).
Proof.
  intros Hs H. apply Hs in H. unfold id_text in H. split; auto. intros -> ->. revert H. generalize (version' ++ ty') as t. generalize (show (map snd c')) as b. generalize (show (map snd c)) as a.
  assert (L : forall a b : string, String.length (a ++ b) = (String.length a + String.length b)%nat) by (induction a; intros; cbn; auto).
  induction a as [|x a IH]; intros b t H.
  - destruct b; auto. exfalso. apply (f_equal String.length) in H. cbn in H. rewrite L in H. lia.
  - destruct b as [|y b].
    + exfalso. apply (f_equal String.length) in H. cbn in H. rewrite L in H. lia.
    + cbn in H. inversion H. f_equal. eapply IH; eauto.
Qed.
(** the names of the parameters play no role *)
Theorem C42_names_ignored_refuted c c' version ty : map snd c = map snd c' -> id c version ty = id c' version ty.
Proof. intros E. unfold Mb_Model.id, id_text. now rewrite E. Qed.
(** version and type are not separated *)
Theorem C42_version_type_refuted c version version' ty ty' : version ++ ty = version' ++ ty' -> id c version ty = id c version' ty'.
Proof. intros E. unfold Mb_Model.id, id_text. now rewrite E. Qed.
Example C42_example version ty : id [("mu", PNum 1); ("sigma", PNum 2)] version ty = id [("sigma", PNum 1); ("mu", PNum 2)] version ty /\
  id [] "1" "2Model" = id [] "12" "Model".
Proof. split; reflexivity. Qed.

(** ** C43 *)
Lemma nth_put h a c : (a < length h)%nat -> deref (put h a c) a = c.
Proof. revert a. induction h as [|x h IH]; intros [|a] H; cbn in *; try lia; auto. apply IH. lia. Qed.
Lemma nth_put_other h a b c : a <> b -> deref (put h a c) b = deref h b.
Proof. revert a b. induction h as [|x h IH]; intros [|a] [|b] H; cbn; auto; try congruence. apply IH. congruence. Qed.
Lemma put_length h a c : length (put h a c) = length h.
Proof. revert a. induction h as [|x h IH]; intros [|a]; cbn; auto. Qed.
Lemma deref_old h x a : (a < length h)%nat -> deref (h ++ [x])%list a = deref h a.
Proof. intros H. unfold deref. now rewrite app_nth1. Qed.
Lemma deref_new h x : deref (h ++ [x])%list (length h) = x.
Proof. unfold deref. rewrite app_nth2, Nat.sub_diag; auto. Qed.
Lemma fit_args_eq h self progressbar random_seed kwargs : (self < length h)%nat ->
  fst (fit_sampler_args h self progressbar random_seed kwargs)
  = dupdate (deref h self) (dupdate (dset (dset (deref h self) "progressbar" progressbar) "random_seed" random_seed) kwargs)
  /\ forall a, (a < length h)%nat -> deref (snd (fit_sampler_args h self progressbar random_seed kwargs)) a = deref h a.
Proof.
  intros Hs. unfold fit_sampler_args, copy. cbn [fst snd].
  assert (Hl : (length h < length (h ++ [deref h self])%list)%nat) by (rewrite app_length; cbn; lia). split.
  - rewrite !nth_put by (rewrite ?put_length; auto). rewrite deref_new. rewrite !nth_put_other by lia. rewrite deref_old by auto. reflexivity.
  - intros a Ha. rewrite !nth_put_other by lia. now apply deref_old.
Qed.
Theorem C43_precedence_partial h self progressbar random_seed kwargs k : (self < length h)%nat ->
  let sampler_config := deref h self in NoDup (dkeys sampler_config) -> NoDup (dkeys kwargs) ->
  dget (fst (fit_sampler_args h self progressbar random_seed kwargs)) k
  = match dget kwargs k with
    | Some v => Some v
    | None => if String.eqb k "random_seed" then Some random_seed else if String.eqb k "progressbar" then Some progressbar else dget sampler_config k
    end.
Proof.
  intros Hs c H1 H2. rewrite (proj1 (fit_args_eq h self progressbar random_seed kwargs Hs)). fold c.
  rewrite dget_dupdate by (apply NoDup_dupdate, NoDup_dset, NoDup_dset, H1).
  rewrite dget_dupdate by auto. destruct (dget kwargs k); auto. rewrite !dget_dset.
  destruct (String.eqb k "random_seed"); auto. destruct (String.eqb k "progressbar"); auto. destruct (dget c k); auto.
Qed.
(** no dictionary that existed before, in particular the stored sampler_config, is changed *)
Theorem C43_config_unchanged h self progressbar random_seed kwargs a : (self < length h)%nat -> (a < length h)%nat ->
  deref (snd (fit_sampler_args h self progressbar random_seed kwargs)) a = deref h a.
Proof. intros H. now apply fit_args_eq. Qed.
(** a seed stored in sampler_config is never used: fit without random_seed samples without a seed *)
Theorem C43_stored_seed_refuted h self progressbar kwargs v : (self < length h)%nat -> NoDup (dkeys (deref h self)) -> NoDup (dkeys kwargs) ->
  dget (deref h self) "random_seed" = Some v -> dget kwargs "random_seed" = None ->
  dget (fst (fit_sampler_args h self progressbar PNone kwargs)) "random_seed" = Some PNone.
Proof. intros H0 H1 H2 _ E. rewrite C43_precedence_partial by auto. rewrite E. reflexivity. Qed.
Example C43_example : fit_sampler_args [[("draws", PNum 10); ("tune", PNum 5); ("random_seed", PNum 42)]] 0 (PBool true) PNone [("tune", PNum 7)]
  = ([("draws", PNum 10); ("tune", PNum 7); ("random_seed", PNone); ("progressbar", PBool true)],
     [[("draws", PNum 10); ("tune", PNum 5); ("random_seed", PNum 42)]; [("draws", PNum 10); ("tune", PNum 7); ("random_seed", PNone); ("progressbar", PBool true)]]).
Proof. reflexivity. Qed.
End Props.

(** ** C76 *)
Section FitDataProps.
Context {Row Val : Type} (zero : Val).
Open Scope Z_scope.
Notation fit_data := (fit_data (Row := Row) zero).
Notation target_frame := (target_frame (Row := Row) zero).
(** the labels and values of the outputs given to fit: a plain array or nothing is numbered 0, 1, ...; a labelled one keeps its labels *)
Definition given_targets (n : nat) (y : target) (out : list (Z * Val)) : Prop :=
  match y with
  | Labelled l => out = l
  | Plain l => length out = length l /\ forall i v, nth_error l i = Some v -> nth_error out i = Some (Z.of_nat i, v)
  | NoTarget => length out = n /\ forall i, (i < n)%nat -> nth_error out i = Some (Z.of_nat i, zero)
  end.
Lemma number_nth (l : list Val) i v : nth_error l i = Some v -> nth_error (combine (map Z.of_nat (seq 0 (length l))) l) i = Some (Z.of_nat i, v).
Proof.
  intros H. assert (G : forall b j w (l : list Val), nth_error l j = Some w -> nth_error (combine (map Z.of_nat (seq b (length l))) l) j = Some (Z.of_nat (b + j), w)).
  { clear. intros b j w l. revert b j. induction l as [|x l IH]; intros b [|j] H; cbn in *; try discriminate.
    - injection H as ->. now rewrite Nat.add_0_r.
    - rewrite (IH (S b) j H). do 2 f_equal. lia. }
  apply (G 0%nat i v l H).
Qed.
Lemma target_frame_given (X : list (Z * Row)) (y : target) : given_targets (length X) y (target_frame X y).
Proof.
  destruct y as [|l|l]; cbn [given_targets Mb_Model.target_frame]; [| |reflexivity].
  - split; [rewrite combine_length, !map_length, seq_length; lia|]. intros i Hi. apply number_nth. 
    destruct (nth_error X i) as [x|] eqn:E; [|apply nth_error_None in E; lia]. now rewrite (map_nth_error _ _ _ E).
  - split; [rewrite combine_length, map_length, seq_length; lia|]. intros i v. apply number_nth.
Qed.
(** with the same labels on inputs and outputs, load gets back exactly the training data *)
Theorem C76_same_labels_partial (X : list (Z * Row)) (y : target) : map fst X = map fst (target_frame X y) ->
  exists d out, given_targets (length X) y out /\ fit_data X y = Ok d /\ load_data d = (map (fun r => (fst r, Some (snd r))) X, map (fun r => (fst r, Some (snd r))) out).
Proof.
  intros E. enough (H : exists d, fit_data X y = Ok d /\ load_data d = (map (fun r => (fst r, Some (snd r))) X, map (fun r => (fst r, Some (snd r))) (target_frame X y)))
    by (destruct H as (d & H1 & H2); exists d, (target_frame X y); split; [apply target_frame_given|auto]). unfold Mb_Model.fit_data, combined_data. destruct (list_eq_dec _ _ _) as [_|N]; [|tauto]. eexists; split; [reflexivity|].
  unfold load_data. rewrite !map_map. cbn [fst snd]. revert E. generalize (target_frame X y) as Y. induction X as [|[k r] X IH]; intros [|[k' v] Y] E; try discriminate; [reflexivity|].
  cbn [map fst] in E. inversion E; subst. cbn [combine map fst snd]. specialize (IH _ H1). inversion IH as [[A B]]. f_equal; f_equal; auto.
Qed.
Lemma zin_in z l : zin z l = true <-> In z l.
Proof.
  unfold zin. rewrite existsb_exists. split; [intros (x & H & E); apply Z.eqb_eq in E; now subst|]. intros H. exists z. split; auto. apply Z.eqb_refl.
Qed.
Lemma lookup_none {A} z (l : list (Z * A)) : lookup z l = None <-> ~ In z (map fst l).
Proof.
  induction l as [|[k a] l IH]; cbn; [tauto|]. destruct (Z.eqb_spec z k).
  - split; [discriminate|]. intros H. exfalso. apply H. auto.
  - rewrite IH. split; intros H; [intros [E|E]; [congruence|tauto]|tauto].
Qed.
(** otherwise rows are matched by label: every label of either side gets a row, with holes *)
Theorem C76_labels_matched_refuted (X : list (Z * Row)) (y : target) d z : map fst X <> map fst (target_frame X y) -> fit_data X y = Ok d ->
  In z (map fst (target_frame X y)) -> ~ In z (map fst X) -> In (z, (None, lookup z (target_frame X y))) d /\ (length X < length d)%nat.
Proof.
  intros N. unfold Mb_Model.fit_data, combined_data. destruct (list_eq_dec _ _ _) as [E|_]; [tauto|]. destruct (_ || _); [discriminate|]. intros H. inversion H; subst d. clear H.
  intros H1 H2. assert (Hin : In z (filter (fun z => negb (zin z (map fst X))) (map fst (target_frame X y)))).
  { apply filter_In. split; auto. destruct (zin z (map fst X)) eqn:E; auto. apply zin_in in E. tauto. }
  split.
  - apply in_map_iff. exists z. split; [|apply in_or_app; auto]. f_equal. f_equal. now apply lookup_none.
  - rewrite map_length, app_length, map_length. destruct (filter _ _); [easy|cbn [length]; lia].
Qed.
(** inputs with their own labels (here: the rows from position s on) and unlabelled outputs *)
Example C76_example (a b : Row) (v w : Val) : 
  fit_data [(5, a); (6, b)] (Plain [v; w]) = Ok [(5, (Some a, None)); (6, (Some b, None)); (0, (None, Some v)); (1, (None, Some w))] /\
  fit_data [(0, a); (1, b)] (Plain [v; w]) = Ok [(0, (Some a, Some v)); (1, (Some b, Some w))].
Proof. split; reflexivity. Qed.
End FitDataProps.
