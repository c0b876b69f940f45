From Coq Require Import Permutation.
From Verif Require Import Common MargState_Model MargState_Spec.

Lemma mem_In x l : mem x l = true <-> In x l.
Proof.
  unfold mem. rewrite existsb_exists. split.
  - intros [y [Hy He]]. apply Nat.eqb_eq in He. now subst.
  - intros H. exists x. split; [exact H | apply Nat.eqb_refl].
Qed.
Lemma mem_nIn x l : mem x l = false <-> ~ In x l.
Proof. rewrite <- mem_In. destruct (mem x l); split; intros H; congruence. Qed.

Lemma remove_first_perm n l : In n l -> Permutation l (n :: remove_first n l).
Proof.
  induction l as [|x l IH]; intros H; [easy|]. simpl.
  destruct (Nat.eqb_spec x n) as [->|Hne]; [apply Permutation_refl|].
  destruct H as [H|H]; [contradiction|].
  apply Permutation_trans with (x :: n :: remove_first n l); [apply perm_skip; now apply IH | apply perm_swap].
Qed.

Lemma h_set_same h a d : h_set h a d a = d.
Proof. unfold h_set. now rewrite Nat.eqb_refl. Qed.
Lemma h_set_other h a d b : b <> a -> h_set h a d b = h b.
Proof. intros H. unfold h_set. apply Nat.eqb_neq in H. now rewrite H. Qed.
Lemma d_set_same d n v : d_set d n v n = v.
Proof. unfold d_set. now rewrite Nat.eqb_refl. Qed.
Lemma d_set_other d n v k : k <> n -> d_set d n v k = d k.
Proof. intros H. unfold d_set. apply Nat.eqb_neq in H. now rewrite H. Qed.

(** The invariant of a history starting from (h0, m0). *)
Record Inv (h0 : heap) (m0 : mmodel) (h : heap) (m : mmodel) : Prop := {
  iv_perm : Permutation (free m ++ marged m) (free m0);
  iv_obs : observed m = observed m0;
  iv_oth : others m = others m0;
  iv_nvd : nvd m = nvd m0;
  iv_mnvd : mnvd m = mnvd m0;
  iv_free : forall n, In n (free m) -> h (nvd m0) n = h0 (nvd m0) n /\ h (mnvd m0) n = None;
  iv_marg : forall n, In n (marged m) -> h (mnvd m0) n = h0 (nvd m0) n /\ h (nvd m0) n = None;
  iv_rest : forall n, ~ In n (free m0) -> h (nvd m0) n = h0 (nvd m0) n;
  iv_restm : forall n, ~ In n (free m0) -> h (mnvd m0) n = None;
}.

Lemma inv_init h m : fresh_model h m -> Inv h m h m.
Proof.
  intros [Hm [_ [_ He]]]. constructor; auto.
  - now rewrite Hm, app_nil_r.
  - intros n H. rewrite Hm in H. easy.
Qed.

Section H.
Context (h0 : heap) (m0 : mmodel) (Hf : fresh_model h0 m0).

Lemma nodup0 : NoDup (free m0).
Proof.
  destruct Hf as [_ [H _]]. revert H. generalize (observed m0 ++ others m0). generalize (free m0).
  intros l r. induction l as [|x l IH]; simpl; intros H; [constructor|].
  inversion H as [|? ? Hn Hd]; subst. constructor; [|now apply IH]. intros Hx. apply Hn. apply in_app_iff. now left.
Qed.

Lemma disj0 n : In n (free m0) -> ~ In n (observed m0) /\ ~ In n (others m0).
Proof.
  destruct Hf as [_ [H _]]. revert H. generalize (free m0). intros l.
  induction l as [|x l IH]; simpl; intros H; [easy|]. inversion H as [|? ? Hn Hd]; subst.
  intros [->|Hin]; [|now apply IH]. split; intros Hc; apply Hn; rewrite !in_app_iff; auto.
Qed.

Lemma inv_nodup h m : Inv h0 m0 h m -> NoDup (free m ++ marged m).
Proof. intros H. apply (Permutation_NoDup (Permutation_sym (iv_perm _ _ _ _ H))). apply nodup0. Qed.

Lemma inv_disj h m n : Inv h0 m0 h m -> In n (free m) -> In n (marged m) -> False.
Proof.
  intros H Ha Hb. pose proof (inv_nodup h m H) as Hn. revert Ha Hb Hn. generalize (free m) (marged m).
  intros l r. induction l as [|x l IH]; simpl; intros Ha Hb Hn; [easy|]. inversion Hn as [|? ? Hx Hd]; subst.
  destruct Ha as [->|Ha]; [apply Hx; apply in_app_iff; now right | now apply IH].
Qed.

Lemma inv_in h m n : Inv h0 m0 h m -> In n (free m) \/ In n (marged m) <-> In n (free m0).
Proof.
  intros H. rewrite <- in_app_iff. split; intros Hn.
  - now apply (Permutation_in _ (iv_perm _ _ _ _ H)).
  - now apply (Permutation_in _ (Permutation_sym (iv_perm _ _ _ _ H))).
Qed.

Lemma inv_delete h m n :
  Inv h0 m0 h m -> In n (free m) ->
  let h1 := match h (nvd m) n with
            | Some d => h_set h (mnvd m) (d_set (h (mnvd m)) n (Some d))
            | None => h end in
  Inv h0 m0 (fst (delete_rv h1 m n))
    {| free := remove_first n (free m); observed := observed m; others := others m; marged := marged m ++ [n];
       nvd := nvd m; mnvd := mnvd m;
       initvals := fun k => if Nat.eqb k n then None else initvals m k;
       transforms := fun k => if Nat.eqb k n then 0 else transforms m k |}.
Proof.
  intros H Hin h1. pose proof (iv_nvd _ _ _ _ H) as En. pose proof (iv_mnvd _ _ _ _ H) as Em.
  assert (Hne : nvd m0 <> mnvd m0) by apply Hf.
  assert (Hne' : mnvd m0 <> nvd m0) by (intro; now apply Hne).
  assert (Hh1n : h1 (nvd m0) = h (nvd m0)).
  { unfold h1. rewrite En, Em. destruct (h (nvd m0) n); [|reflexivity]. now apply h_set_other. }
  assert (Hh1m : forall k, k <> n -> h1 (mnvd m0) k = h (mnvd m0) k).
  { intros k Hk. unfold h1. rewrite En, Em. destruct (h (nvd m0) n); [|reflexivity].
    rewrite h_set_same. now apply d_set_other. }
  assert (Hh1mn : h1 (mnvd m0) n = h0 (nvd m0) n).
  { destruct (iv_free _ _ _ _ H n Hin) as [H1 H2]. unfold h1. rewrite En, Em. rewrite <- H1.
    destruct (h (nvd m0) n) eqn:E.
    - rewrite h_set_same, d_set_same. reflexivity.
    - exact H2. }
  pose proof (remove_first_perm n (free m) Hin) as Hrp.
  assert (Hsub : forall k, In k (remove_first n (free m)) -> In k (free m) /\ k <> n).
  { intros k Hk. split.
    - apply (Permutation_in _ (Permutation_sym Hrp)). now right.
    - intros ->. pose proof (inv_nodup h m H) as Hnd.
      assert (Hnf : NoDup (free m)).
      { revert Hnd. generalize (marged m). generalize (free m). intros l r. induction l as [|x l IH]; simpl; intros Hd; [constructor|].
        inversion Hd as [|? ? Hx Hd']; subst. constructor; [intros Hc; apply Hx; apply in_app_iff; now left | now apply IH]. }
      apply (Permutation_NoDup Hrp) in Hnf. inversion Hnf; contradiction. }
  constructor; cbn [free observed others marged nvd mnvd initvals transforms delete_rv fst];
    try (apply H); rewrite ?En, ?Em.
  - rewrite app_assoc. apply Permutation_trans with (n :: remove_first n (free m) ++ marged m).
    + apply Permutation_sym. apply Permutation_cons_append.
    + apply Permutation_trans with (free m ++ marged m); [|apply H].
      apply (Permutation_app_tail (marged m)) in Hrp. apply Permutation_sym. exact Hrp.
  - intros k Hk. destruct (Hsub k Hk) as [Hk1 Hk2]. destruct (iv_free _ _ _ _ H k Hk1) as [H1 H2].
    rewrite h_set_same, d_set_other by exact Hk2. rewrite (h_set_other _ _ _ _ Hne'), Hh1n.
    split; [exact H1|]. rewrite Hh1m by exact Hk2. exact H2.
  - intros k Hk. rewrite h_set_same, (h_set_other _ _ _ _ Hne').
    apply in_app_iff in Hk. destruct Hk as [Hk|[<-|[]]].
    + assert (Hkn : k <> n) by (intros ->; apply (inv_disj h m n H Hin Hk)).
      destruct (iv_marg _ _ _ _ H k Hk) as [H1 H2].
      rewrite d_set_other by exact Hkn. rewrite Hh1m by exact Hkn. rewrite Hh1n. auto.
    + rewrite d_set_same. auto.
  - intros k Hk. assert (Hkn : k <> n) by (intros ->; apply Hk; apply (inv_in h m n H); now left).
    rewrite h_set_same, d_set_other by exact Hkn. rewrite Hh1n. now apply (iv_rest _ _ _ _ H).
  - intros k Hk. assert (Hkn : k <> n) by (intros ->; apply Hk; apply (inv_in h m n H); now left).
    rewrite (h_set_other _ _ _ _ Hne'), Hh1m by exact Hkn. now apply (iv_restm _ _ _ _ H).
Qed.

Lemma inv_marg_loop w ns : forall h m, Inv h0 m0 h m ->
  Inv h0 m0 (fst (fst (marginalize_loop w h m ns))) (snd (fst (marginalize_loop w h m ns))).
Proof.
  induction ns as [|n ns IH]; intros h m H; [exact H|].
  cbn [marginalize_loop]. destruct (mem n (free m)) eqn:E; [|exact H]. cbn [negb].
  destruct (unsupported w n); [exact H|]. apply mem_In in E.
  unfold delete_rv. cbv beta iota zeta. apply IH. apply (inv_delete h m n H E).
Qed.

Lemma inv_marginalize w h m rs : Inv h0 m0 h m ->
  Inv h0 m0 (fst (fst (marginalize w h m rs))) (snd (fst (marginalize w h m rs))).
Proof.
  intros H. unfold marginalize. destruct (resolve_all m rs) as [ns|]; [|exact H].
  pose proof (inv_marg_loop w ns h m H) as Hl.
  destruct (marginalize_loop w h m ns) as [[h' m'] [e|]]; exact Hl.
Qed.

Lemma inv_unmarg rs : forall h m, Inv h0 m0 h m ->
  Inv h0 m0 (fst (fst (unmarginalize h m rs))) (snd (fst (unmarginalize h m rs))).
Proof.
  induction rs as [|r rs IH]; intros h m H; [exact H|].
  cbn [unmarginalize]. destruct (resolve m r) as [n|]; [|exact H].
  destruct (mem n (marged m)) eqn:E; [|exact H]. cbn [negb]. apply mem_In in E.
  unfold register. cbn [free observed others marged nvd mnvd initvals transforms named].
  assert (Hnamed : named {| free := free m; observed := observed m; others := others m;
                           marged := remove_first n (marged m); nvd := nvd m; mnvd := mnvd m;
                           initvals := initvals m; transforms := transforms m |} n = false).
  { unfold named. cbn [free observed others].
    rewrite (iv_obs _ _ _ _ H), (iv_oth _ _ _ _ H).
    assert (Hn0 : In n (free m0)) by (apply (inv_in h m n H); now right).
    destruct (disj0 n Hn0) as [Ho Ht].
    assert (Hnf : ~ In n (free m)) by (intros Hc; apply (inv_disj h m n H Hc E)).
    apply mem_nIn in Ho, Ht, Hnf. now rewrite Ho, Ht, Hnf. }
  rewrite Hnamed. apply IH. clear IH Hnamed.
  pose proof (iv_nvd _ _ _ _ H) as En. pose proof (iv_mnvd _ _ _ _ H) as Em.
  assert (Hne : nvd m0 <> mnvd m0) by apply Hf.
  assert (Hne' : mnvd m0 <> nvd m0) by (intro; now apply Hne).
  pose proof (remove_first_perm n (marged m) E) as Hrp.
  assert (Hsub : forall k, In k (remove_first n (marged m)) -> In k (marged m) /\ k <> n).
  { intros k Hk. split.
    - apply (Permutation_in _ (Permutation_sym Hrp)). now right.
    - intros ->. pose proof (inv_nodup h m H) as Hnd.
      assert (Hnf : NoDup (marged m)).
      { revert Hnd. generalize (free m). intros l. induction l as [|x l IH]; simpl; intros Hd; [exact Hd|].
        inversion Hd; subst. now apply IH. }
      apply (Permutation_NoDup Hrp) in Hnf. inversion Hnf; contradiction. }
  destruct (iv_marg _ _ _ _ H n E) as [Hmd Hnd].
  rewrite En, Em.
  set (hp := h_set h (mnvd m0) (d_set (h (mnvd m0)) n None)).
  assert (Hpn : hp (nvd m0) = h (nvd m0)) by (unfold hp; now apply h_set_other).
  assert (Hpm : hp (mnvd m0) = d_set (h (mnvd m0)) n None) by (unfold hp; now apply h_set_same).
  set (h2 := match h (mnvd m0) n with
             | Some x => h_set hp (nvd m0) (d_set (hp (nvd m0)) n (Some x)) | None => hp end).
  assert (H2m : h2 (mnvd m0) = d_set (h (mnvd m0)) n None).
  { unfold h2. destruct (h (mnvd m0) n); [|exact Hpm]. rewrite h_set_other by exact Hne'. exact Hpm. }
  assert (H2n : forall k, k <> n -> h2 (nvd m0) k = h (nvd m0) k).
  { intros k Hk. unfold h2. destruct (h (mnvd m0) n); [|now rewrite Hpn].
    rewrite h_set_same, d_set_other by exact Hk. now rewrite Hpn. }
  assert (H2nn : h2 (nvd m0) n = h0 (nvd m0) n).
  { unfold h2. rewrite <- Hmd. destruct (h (mnvd m0) n) eqn:Ed.
    - now rewrite h_set_same, d_set_same.
    - rewrite Hpn. exact Hnd. }
  constructor; cbn [free observed others marged nvd mnvd initvals transforms]; try (apply H).
  - rewrite <- app_assoc. simpl. apply Permutation_trans with (free m ++ marged m); [|apply H].
    apply Permutation_app_head. now apply Permutation_sym.
  - reflexivity.
  - reflexivity.
  - intros k Hk. rewrite H2m. apply in_app_iff in Hk. destruct Hk as [Hk|[<-|[]]].
    + assert (Hkn : k <> n) by (intros ->; apply (inv_disj h m n H Hk E)).
      rewrite H2n, d_set_other by exact Hkn. now apply (iv_free _ _ _ _ H).
    + rewrite d_set_same. auto.
  - intros k Hk. destruct (Hsub k Hk) as [Hk1 Hkn]. rewrite H2m, H2n, d_set_other by exact Hkn. now apply (iv_marg _ _ _ _ H).
  - intros k Hk. assert (Hkn : k <> n) by (intros ->; apply Hk; apply (inv_in h m n H); now right).
    rewrite H2n by exact Hkn. now apply (iv_rest _ _ _ _ H).
  - intros k Hk. assert (Hkn : k <> n) by (intros ->; apply Hk; apply (inv_in h m n H); now right).
    rewrite H2m, d_set_other by exact Hkn. now apply (iv_restm _ _ _ _ H).
Qed.

Lemma inv_run w cs : forall s, Inv h0 m0 (fst s) (snd s) ->
  Inv h0 m0 (fst (run w s cs)) (snd (run w s cs)).
Proof.
  induction cs as [|c cs IH]; intros [h m] H; [exact H|].
  cbn [run fold_left]. apply IH. destruct c as [rs|rs]; cbn [do_call fst snd].
  - apply (inv_marginalize w h m rs H).
  - apply (inv_unmarg rs h m H).
Qed.
End H.

(** *** C10: failures before any mutation *)
Lemma marginalize_lookup_error w h m rs e :
  resolve_all m rs = Err e -> marginalize w h m rs = (h, m, Some e).
Proof. intros H. unfold marginalize. now rewrite H. Qed.

Lemma marginalize_first_error w h m n rs ns h' m' e : resolve_all m (n :: rs) = Ok ns ->
  (~ In (ref_name n) (free m) \/ unsupported w (ref_name n) <> None) ->
  marginalize w h m (n :: rs) = (h', m', e) -> (h', m') = (h, m) /\ e <> None.
Proof.
  intros Hr Hbad H. unfold marginalize in H. rewrite Hr in H. simpl in Hr.
  destruct (resolve m n) as [x|] eqn:Ex; [|discriminate]. cbn [bind] in Hr.
  destruct (resolve_all m rs) as [xs|]; [|discriminate]. cbn [bind] in Hr. injection Hr as <-.
  assert (x = ref_name n) as ->.
  { destruct n as [k|k]; simpl in *; [destruct (named m k)|]; congruence. }
  cbn [marginalize_loop] in H. destruct (mem (ref_name n) (free m)) eqn:Em.
  - cbn [negb] in H. destruct (unsupported w (ref_name n)) eqn:Eu.
    + injection H as <- <- <-. split; [reflexivity | discriminate].
    + apply mem_In in Em. destruct Hbad; contradiction.
  - cbn [negb] in H. injection H as <- <- <-. split; [reflexivity | discriminate].
Qed.

(** *** C11: what operations on a copy can never touch *)
Lemma marg_loop_heap w ns : forall h m a,
  a <> nvd m -> a <> mnvd m -> fst (fst (marginalize_loop w h m ns)) a = h a.
Proof.
  induction ns as [|n ns IH]; intros h m a Ha Hb; [reflexivity|]. cbn [marginalize_loop].
  destruct (mem n (free m)); [|reflexivity]. cbn [negb]. destruct (unsupported w n); [reflexivity|].
  unfold delete_rv. cbv beta iota zeta. rewrite IH by assumption.
  rewrite h_set_other by assumption. destruct (h (nvd m) n); [|reflexivity]. now rewrite h_set_other.
Qed.

Lemma marg_loop_dims w ns : forall h m a k, a = nvd m -> a <> mnvd m -> ~ In k ns ->
  fst (fst (marginalize_loop w h m ns)) a k = h a k.
Proof.
  induction ns as [|n ns IH]; intros h m a k Ha Hne Hk; [reflexivity|]. cbn [marginalize_loop].
  destruct (mem n (free m)); [|reflexivity]. cbn [negb]. destruct (unsupported w n); [reflexivity|].
  unfold delete_rv. cbv beta iota zeta.
  rewrite IH; [|exact Ha | exact Hne | intros Hc; apply Hk; now right].
  subst a. rewrite h_set_same, d_set_other by (intros ->; apply Hk; now left).
  destruct (h (nvd m) n); [|reflexivity]. now rewrite h_set_other.
Qed.

Lemma resolve_all_names m rs ns : resolve_all m rs = Ok ns -> ns = map ref_name rs.
Proof.
  revert ns. induction rs as [|r rs IH]; intros ns H; simpl in H; [now injection H as <-|].
  destruct (resolve m r) as [x|] eqn:Ex; [|discriminate]. cbn [bind] in H.
  destruct (resolve_all m rs) as [xs|]; [|discriminate]. cbn [bind] in H. injection H as <-.
  simpl. f_equal; [|now apply IH]. destruct r as [k|k]; simpl in *; [destruct (named m k)|]; congruence.
Qed.

Lemma fmarginalize_others w h m fresh rs h' m' e k :
  fresh <> nvd m ->
  fmarginalize w h m fresh rs = (h', m', e) ->
  ~ In k (map ref_name rs) -> h' (nvd m) k = h (nvd m) k.
Proof.
  intros Hfr H Hk. unfold fmarginalize, from_plain in H. unfold marginalize in H.
  set (h1 := h_set h fresh (fun _ => None)) in *.
  set (m1 := {| free := free m; observed := observed m; others := others m; marged := [];
      nvd := nvd m; mnvd := fresh; initvals := initvals m; transforms := transforms m |}) in *.
  assert (E1 : h1 (nvd m) k = h (nvd m) k) by (unfold h1; rewrite h_set_other by (intro; now apply Hfr); reflexivity).
  destruct (resolve_all m1 _) as [ns|] eqn:Er; [|injection H as <- _ _; exact E1].
  apply resolve_all_names in Er. rewrite map_map in Er. cbn [ref_name] in Er.
  pose proof (marg_loop_dims w ns h1 m1 (nvd m) k eq_refl) as Hl. cbn [nvd mnvd m1] in Hl.
  destruct (marginalize_loop w h1 m1 ns) as [[h2 m2] [x|]]; injection H as <- _ _;
    cbn [fst snd] in Hl; rewrite <- E1; (apply Hl; [intro; now apply Hfr | now rewrite Er]).
Qed.

(** *** C12 *)
Lemma filter_filter_nil {A} (p q : A -> bool) l : (forall x, In x l -> q x = true) ->
  filter (fun v => negb (q v)) (filter p l) = [].
Proof.
  induction l as [|x l IH]; intros H; simpl; [reflexivity|].
  assert (IH' : filter (fun v => negb (q v)) (filter p l) = []) by (apply IH; intros y Hy; apply H; now right).
  destruct (p x); simpl; [|exact IH']. now rewrite (H x (or_introl eq_refl)).
Qed.

Lemma recover_ignores_unknown w h m names unknown :
  (forall n, In n unknown -> ~ In n (marged m)) ->
  recover_marginals w h m (Some (names ++ unknown)) = recover_marginals w h m (Some names).
Proof.
  intros Hu. unfold recover_marginals.
  assert (E : filter (fun v => mem v (names ++ unknown)) (marged m) = filter (fun v => mem v names) (marged m)).
  { apply filter_ext_in. intros x Hx. apply eq_iff_eq_true. rewrite !mem_In, in_app_iff. split; [|now left].
    intros [|Hc]; [assumption | exfalso; now apply (Hu x)]. }
  now rewrite E.
Qed.

(** *** C13 *)
Lemma marg_loop_marged w ns : forall h m h' m', marginalize_loop w h m ns = (h', m', None) ->
  marged m' = marged m ++ ns /\ observed m' = observed m /\ others m' = others m.
Proof.
  induction ns as [|n ns IH]; intros h m h' m' H; cbn [marginalize_loop] in H.
  - injection H as <- <-. now rewrite app_nil_r.
  - destruct (mem n (free m)); [|discriminate]. cbn [negb] in H.
    destruct (unsupported w n); [discriminate|]. unfold delete_rv in H. cbv beta iota zeta in H.
    apply IH in H. cbn [marged observed others] in H. rewrite <- app_assoc in H. exact H.
Qed.
