(** C33, continued: which structural models count as having measurement error. *)
From Coq Require Import String ZArith Reals.
From Verif Require Import Common Struct_Model.
Import List ListNotations.
Open Scope nat_scope.

Lemma mk_meas uid name ks kp merr comb obs sn dn shn pn en coords pd pi di ph rep c :
  mk_component uid name ks kp merr comb obs sn dn shn pn en coords pd pi di ph rep = Ok c -> c_meas_err c = merr.
Proof. unfold mk_component. destruct (fold_left _ _ _); [|discriminate]. cbn. now intros [= <-]. Qed.

(** Only the measurement error and the autoregressive component are flagged; a sum is flagged exactly when a summand is; building keeps the flag. *)
Theorem C33_measurement_error_flag :
  (forall uid name c, measurement_error uid name = Ok c -> c_meas_err c = true) /\
  (forall uid o name c, autoregressive uid o name = Ok c -> c_meas_err c = true) /\
  (forall uid o io name c, level_trend uid o io name = Ok c -> c_meas_err c = false) /\
  (forall uid s inn name sn pop c, time_seasonality uid s inn name sn pop = Ok c -> c_meas_err c = false) /\
  (forall uid s n name inn c, frequency_seasonality uid s n name inn = Ok c -> c_meas_err c = false) /\
  (forall uid name cl est damp inn c, cycle uid name cl est damp inn = Ok c -> c_meas_err c = false) /\
  (forall uid k name sn inn c, regression uid k name sn inn = Ok c -> c_meas_err c = false) /\
  (forall a b c, comp_add a b = Ok c -> (c_meas_err c = true <-> c_meas_err a = true \/ c_meas_err b = true)) /\
  (forall uid c name c' m, build uid c name = Ok (c', m) -> c_meas_err c' = c_meas_err c).
Proof.
  repeat split.
  - intros uid name c H. eapply mk_meas; exact H.
  - intros uid o name c H. unfold autoregressive in H. destruct (order_to_mask o); [|discriminate]. simpl in H.
    destruct (first_obs_idx _); [|discriminate]. simpl in H. eapply mk_meas; exact H.
  - intros uid o io name c H. unfold level_trend in H. destruct (order_to_mask o); [|discriminate]. simpl in H.
    destruct (max_state_of a); [|discriminate]. simpl in H. destruct (_ <? _); [discriminate|].
    destruct (trend_innovations _ _) as [[im kp]|]; [|discriminate]. simpl in H.
    destruct (negb _); [discriminate|]. destruct (negb _); [discriminate|]. destruct (triu_indices _). eapply mk_meas; exact H.
  - intros uid s inn name sn pop c H. unfold time_seasonality in H.
    destruct (match sn with Some _ => _ | None => _ end); [|discriminate]. simpl in H. destruct (negb pop); [discriminate|].
    destruct (match a with [] => _ | _ => _ end); [|discriminate]. simpl in H. destruct (first_obs_idx _); [|discriminate]. simpl in H. eapply mk_meas; exact H.
  - intros uid s n name inn c H. unfold frequency_seasonality in H.
    destruct (_ =? _)%Z; [discriminate|]. destruct (_ <? _)%Z; [discriminate|]. destruct (Req_EM_T s 0); [discriminate|]. eapply mk_meas; exact H.
  - intros uid name cl est damp inn c H. unfold cycle in H. destruct cl as [s|], est; try discriminate.
    + destruct (Req_EM_T s 0); [discriminate|]. eapply mk_meas; exact H.
    + eapply mk_meas; exact H.
  - intros uid k name sn inn c H. unfold regression in H. destruct (regression_state_names _ _ _) as [[n names]|]; [|discriminate].
    simpl in H. eapply mk_meas; exact H.
  - unfold comp_add in H. destruct (combine_info _ _); [|discriminate]. cbn in H. injection H as <-. cbn. apply Bool.orb_true_iff.
  - unfold comp_add in H. destruct (combine_info _ _); [|discriminate]. cbn in H. injection H as <-. cbn. apply Bool.orb_true_iff.
  - intros uid c name c' m H. unfold build in H. cbv zeta in H.
    match type of H with bind ?x _ = _ => destruct x; [|discriminate] end. cbn [bind] in H. injection H as <- _. reflexivity.
Qed.
Print Assumptions C33_measurement_error_flag.
