(** Further consequences for C76 (data stored by fit) and C39 (tensors given at construction), found missing by mutation testing. *)
From Coq Require Import String FinFun.
From Verif Require Import Common Dict.
From Verif Require Mb_Model Mb_Props Repr_Model Repr_Props.
Import List ListNotations.

Section Fit.
Import Mb_Model.
Context {Row Val : Type} (zero : Val).
Lemma zin_spec z l : zin z l = true <-> In z l.
Proof. apply Mb_Props.zin_in. Qed.
Lemma has_dup_spec l : has_dup l = false <-> NoDup l.
Proof.
  induction l as [|x l IH]; cbn; [split; [constructor|reflexivity]|]. rewrite Bool.orb_false_iff, IH. split.
  - intros [H1 H2]. constructor; auto. intros H. apply zin_spec in H. congruence.
  - intros H. inversion H; subst. split; auto. destruct (zin x l) eqn:E; auto. apply zin_spec in E. tauto.
Qed.
Lemma number_labels (l : list Val) : map fst (combine (map Z.of_nat (seq 0 (length l))) l) = map Z.of_nat (seq 0 (length l)).
Proof. enough (G : forall b, map fst (combine (map Z.of_nat (seq b (length l))) l) = map Z.of_nat (seq b (length l))) by apply G.
  induction l as [|x l IH]; intros b; cbn; [reflexivity|]. now rewrite IH. Qed.
Lemma number_nodup n : NoDup (map Z.of_nat (seq 0 n)).
Proof. apply FinFun.Injective_map_NoDup; [intros a b; lia|apply seq_NoDup]. Qed.
(** Inputs with a repeated label and an unlabelled output of as many values: nothing is stored, fit ends with an exception (after sampling). *)
Theorem C76_duplicate_labels_refuted : forall (X : list (Z * Row)) (ys : list Val),
  length ys = length X -> ~ NoDup (map fst X) -> fit_data zero X (Plain ys) = Err ValueError.
Proof.
  intros X ys _ D. unfold fit_data, combined_data. cbn [target_frame]. rewrite number_labels. destruct (list_eq_dec _ _ _) as [E|_].
  - exfalso. apply D. rewrite E. apply number_nodup.
  - destruct (has_dup (map fst X)) eqn:E; [reflexivity|]. apply has_dup_spec in E. tauto.
Qed.
(** Distinct labels on both sides: something is always stored, with every label of either side exactly once. *)
Theorem C76_distinct_labels : forall (X : list (Z * Row)) (y : target),
  NoDup (map fst X) -> NoDup (map fst (target_frame zero X y)) ->
  exists d, fit_data zero X y = Ok d /\ NoDup (map fst d) /\
    (forall z, In z (map fst d) <-> In z (map fst X) \/ In z (map fst (target_frame zero X y))) /\
    (forall z r, In (z, r) d -> fst r = lookup z X /\ snd r = lookup z (target_frame zero X y)).
Proof.
  intros X y DX DY. unfold fit_data, combined_data. set (Y := target_frame zero X y) in *. destruct (list_eq_dec _ _ _) as [E|N].
  - eexists; split; [reflexivity|]. set (f := fun _ => _).
    assert (Ef : map fst (map f (combine X Y)) = map fst X). { subst f. clear -E. revert E. generalize Y. induction X as [|[k r] X IH]; intros [|[k' v] Y'] E; try discriminate; [reflexivity|]. cbn in *. f_equal. apply IH. congruence. }
    rewrite Ef. split; auto. split; [intros z; rewrite <- E; tauto|]. subst f. clear Ef. revert E DX DY. generalize Y. clear. induction X as [|[k r] X IH]; intros [|[k' v] Y'] E DX DY z w H; try discriminate; [contradiction|].
    cbn [map fst] in *. injection E as <- E. inversion DX; inversion DY; subst. cbn [combine map In fst snd] in H. cbn [lookup]. destruct H as [H|H].
    + injection H as <- <-. cbn. rewrite Z.eqb_refl. auto.
    + assert (z <> k). { intros ->. apply H2. clear -H. apply in_map_iff in H. destruct H as ([p q] & E & H). apply in_combine_l in H. apply in_map_iff. exists p. injection E as <- _. auto. }
      apply Z.eqb_neq in H0. rewrite H0. apply (IH Y' E); auto.
  - destruct (_ || _) eqn:B. { apply Bool.orb_true_iff in B. destruct B as [B|B]; [apply has_dup_spec in DX|apply has_dup_spec in DY]; congruence. }
    eexists; split; [reflexivity|]. rewrite map_map. cbn [fst]. rewrite map_id. split; [|split].
    + assert (G : forall l m : list Z, NoDup l -> NoDup m -> (forall z, In z l -> ~ In z m) -> NoDup (l ++ m)).
      { clear. induction l as [|x l IH]; intros m Hl Hm D; cbn; auto. inversion Hl; subst. constructor; [|apply IH; auto; intros z Hz; apply D; now right].
        rewrite in_app_iff. intros [H|H]; [tauto|]. apply (D x); [now left|auto]. }
      apply G; auto; [now apply NoDup_filter|]. intros z Hz H. apply filter_In in H. destruct H as [_ H]. apply zin_spec in Hz. rewrite Hz in H. discriminate.
    + intros z. rewrite in_app_iff, filter_In. split; [tauto|]. intros [H|H]; auto. destruct (zin z (map fst X)) eqn:E; [left; now apply zin_spec|right; auto].
    + intros z r H. apply in_map_iff in H. destruct H as (z' & E & _). injection E as <- <-. auto.
Qed.
End Fit.
Example C76_duplicate_example (a b : nat) : ~ NoDup (map fst [(3%Z, a); (3%Z, b)]) /\ Mb_Model.fit_data 0 [(3%Z, a); (3%Z, b)] (Mb_Model.Plain [1; 2]) = Err ValueError /\
  exists d, Mb_Model.fit_data 0 [(3%Z, a); (4%Z, b)] (Mb_Model.Plain [1; 2]) = Ok d /\ length d = 4.
Proof. split; [intros H; inversion H; subst; cbn in *; tauto|]. split; [reflexivity|]. eexists; split; reflexivity. Qed.
Print Assumptions C76_duplicate_labels_refuted.
Print Assumptions C76_distinct_labels.

Section Init.
Import Repr_Model Repr_Props.
Context {V : Type} (zero : V).
(** the shape of a matrix without a time axis *)
Definition core_of (n : string) (sh : list nat) : list nat := if never n then sh else tl sh.
(** A symbolic tensor given to the constructor: of the matrix's own shape, it is stored with its values (behind a time axis of length one, except
    for the initial state and its covariance); with a number of axes that is neither that nor one more, it is refused. *)
Theorem C39_init_tensor : forall ke ks kp n sh (t : @tensor V) f,
  dget (shapes0 ke ks kp) n = Some sh -> tval t = Ok f ->
  (tsh t = core_of n sh -> exists t' g, init_one zero n sh (Some (Pt t)) = Ok t' /\ tsh t' = sh /\ tval t' = Ok g /\
     forall idx, g idx = f (if never n then idx else tl idx)) /\
  (length (tsh t) <> length (core_of n sh) -> (length (tsh t) <> S (length (core_of n sh)) \/ never n = true) -> init_one zero n sh (Some (Pt t)) = Err ValueError).
Proof.
  intros ke ks kp n sh t f G Ev. apply dget_in in G. cbn in G.
  assert (SE : forall l, shape_eqb l l = true) by (intros l; unfold shape_eqb; destruct (list_eq_dec _ l l); congruence).
  repeat (destruct G as [G|G]; [injection G as <- <-|]); try contradiction; unfold core_of; cbn [never smem existsb NEVER_TIME_VARYING String.eqb Ascii.eqb Bool.eqb orb tl];
    (split; [intros E; destruct t as [s v]; cbn in E, Ev; subst s v; cbn; unfold check_provided_tensor, validate_matrix_shape, specify_shape; cbn; rewrite ?SE; cbn; do 2 eexists; repeat split; reflexivity
            |intros L1 L2; destruct t as [s v]; cbn [tsh length] in *; unfold init_one, check_provided_tensor, validate_matrix_shape; cbn [tsh]]);
    destruct s as [|a [|b [|c [|d s]]]]; cbn in *; try reflexivity; try (exfalso; intuition (try discriminate; lia)).
Qed.
Example C39_init_tensor_example : exists t' g, init_one 0 "obs_intercept" [1; 2] (Some (Pt (@T nat [2] (Ok (fun idx => 10 + nth 0 idx 0))))) = Ok t' /\
  tsh t' = [1; 2] /\ tval t' = Ok g /\ g [0; 1] = 11.
Proof. do 2 eexists. repeat split. Qed.
End Init.
Print Assumptions C39_init_tensor.
