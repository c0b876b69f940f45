(** C99, exponential smoothing: parameter names, dimensions, coordinates and placeholders. *)
From Coq Require Import String.
From Verif Require Import Common Struct_Model Multi_Model Multi_Props Meta_Model Meta_Spec Meta_Props.
Open Scope nat_scope.

(** ETS *)
Lemma ets_names_len a k0 endog k : ets_names a k0 = (endog, k) -> 0 < k -> length endog = k.
Proof.
  unfold ets_names. destruct a; intros H K; injection H as <- <-; auto.
  destruct (Nat.ltb_spec 1 k0); [rewrite map_length, seq_length; auto|cbn; lia].
Qed.
Lemma ets_state_len o endog k : length endog = k -> 0 < k -> (e_se o = true -> 0 < e_m o) ->
  length (ets_state_names (e_tr o) (e_se o) (e_m o) endog) = ets_k_states o k.
Proof.
  intros LE Hk Hs. unfold ets_state_names, ets_k_states, ets_each.
  set (st := (["innovation"; "level"]%string ++ _)%list).
  assert (LS : length st = 2 + b2n (e_tr o) + b2n (e_se o) * e_m o).
  { unfold st. rewrite !app_length. destruct (e_se o); cbn [length b2n].
    - specialize (Hs eq_refl). rewrite map_length, seq_length. destruct (e_tr o); cbn [length b2n]; lia.
    - destruct (e_tr o); simpl; lia. }
  destruct (Nat.ltb_spec 1 (length endog)).
  - rewrite (length_flat_map_const _ (2 + b2n (e_tr o) + b2n (e_se o) * e_m o)).
    + rewrite LE. apply Nat.mul_comm.
    + intros. rewrite map_length. auto.
  - rewrite LS. replace k with 1 by lia. lia.
Qed.
Lemma ets_shock_len endog : length (ets_shock_names endog) = length endog.
Proof.
  unfold ets_shock_names. destruct (Nat.eqb_spec (length endog) 1); [cbn; auto|apply map_length].
Qed.

(** Exactly the parameters are registered, for every combination of options; the dims shown by param_info give a prior
    of the right shape for every parameter; the dims of param_dims do so for every parameter, except that with one
    series the smoothing parameters have no entry at all. *)
Theorem C99_ets_tables_partial o arg k0 endog k :
  ets_names arg k0 = (endog, k) -> 0 < k -> (e_se o = true -> 0 < e_m o) -> (e_dense o = true -> k <> 1) ->
  exists names pd reg,
    ets_param_names o = Ok names /\ ets_param_dims o k = Ok pd /\
    register_all names [] (ets_calls o k) = Ok reg /\
    all_registered names reg /\
    (forall x, In x names -> exists sh, dget reg x = Some sh /\
       prior_shape (ets_coords o endog) (ets_info_dims pd x) = Some sh) /\
    (forall x, In x names -> k <> 1 \/ ~ In x ["alpha"; "beta"; "gamma"; "phi"]%string ->
       prior_fits pd (ets_coords o endog) reg x) /\
    (k = 1 -> forall x, In x ["alpha"; "beta"; "gamma"; "phi"]%string -> dget pd x = None).
Proof.
  intros HN Hk Hs Hd. pose proof (ets_names_len _ _ _ _ HN Hk) as L.
  unfold ets_coords, ets_calls. rewrite (ets_state_len o endog k L Hk Hs), ets_shock_len, L, lseq.
  generalize (ets_k_states o k). intros ks. clear HN L Hs. revert Hd. unfold ets_param_names, ets_param_dims.
  assert (E1 : (1 <? k) = negb (k =? 1)).
  { destruct (Nat.ltb_spec 1 k), (Nat.eqb_spec k 1); cbn; auto; lia. }
  rewrite E1. clear E1.
  destruct o as [tr da se m merr dense stat]; cbn [e_tr e_da e_se e_m e_merr e_dense e_stat].
  destruct (Nat.eqb_spec k 1) as [->|N].
  - destruct dense; intros Hd; [exfalso; apply Hd; reflexivity|]. clear Hd Hk.
    destruct tr, da, se, merr, stat;
    (eexists; eexists; eexists; split; [cbn; reflexivity|split; [cbn; reflexivity|split; [cbn; reflexivity|
      split; [regd|split; [|split]]]]];
     [apply (allP_ok (fun x => exists sh, dget _ x = Some sh /\ prior_shape _ (ets_info_dims _ x) = Some sh)); cbn;
      repeat (split; [eexists; split; [reflexivity|]; reflexivity|]); exact I
     |intros x Hx; rewrite fitP_iff; revert x Hx;
      apply (allP_ok (fun x => 1 <> 1 \/ ~ In x ["alpha"; "beta"; "gamma"; "phi"]%string -> fitP _ _ _ x)); cbn;
      repeat (split; [intros [NE|NI]; [exfalso; apply NE; reflexivity|];
               first [reflexivity|exfalso; apply NI; tauto]|]); exact I
     |intros _; apply (allP_ok (fun x => dget _ x = None)); cbn; repeat (split; [reflexivity|]); exact I]).
  - clear Hk. intros _.
    destruct tr, da, se, merr, stat, dense;
    (eexists; eexists; eexists; split; [cbn; reflexivity|split; [cbn; reflexivity|split; [cbn; reflexivity|
      split; [regd|split; [|split]]]]];
     [apply (allP_ok (fun x => exists sh, dget _ x = Some sh /\ prior_shape _ (ets_info_dims _ x) = Some sh)); cbn;
      repeat (split; [eexists; split; [reflexivity|]; reflexivity|]); exact I
     |intros x Hx _; rewrite fitP_iff; revert x Hx; apply (allP_ok (fun x => fitP _ _ _ x)); cbn;
      repeat (split; [reflexivity|]); exact I
     |intros E; contradiction]).
Qed.

(** one series: param_dims["alpha"] is a KeyError although alpha is a parameter *)
Theorem C99_ets_missing_dims_refuted :
  let o := EOpts false false false 0 false false false in
  exists names pd, ets_param_names o = Ok names /\ ets_param_dims o 1 = Ok pd /\
    In "alpha"%string names /\ dget pd "alpha" = None.
Proof.
  eexists. eexists. split; [vm_compute; reflexivity|]. split; [vm_compute; reflexivity|].
  split; [right; right; left; reflexivity|reflexivity].
Qed.
(** and param_dims describes names that are no parameters, with a dimension the model has no coordinate for *)
Theorem C99_ets_extra_dims_refuted :
  let o := EOpts false false false 0 false false true in
  exists names pd, ets_param_names o = Ok names /\ ets_param_dims o 2 = Ok pd /\
    ~ In "initial_seasonal"%string names /\
    dget pd "initial_seasonal" = Some (Some ["observed_state"; "seasonal_lag"]%string) /\
    prior_shape (ets_coords o ["a"; "b"]%string) (Some ["observed_state"; "seasonal_lag"]%string) = None /\
    ~ In "P0"%string names /\ dget pd "P0" = Some (Some ["state"; "state_aux"]%string).
Proof.
  eexists. eexists. split; [vm_compute; reflexivity|]. split; [vm_compute; reflexivity|].
  split; [cbn; intros K; repeat (destruct K as [K|K]; [discriminate K|]); exact K|].
  split; [reflexivity|]. split; [reflexivity|].
  split; [cbn; intros K; repeat (destruct K as [K|K]; [discriminate K|]); exact K|reflexivity].
Qed.

(** A concrete case: a bivariate seasonal, damped ETS model. *)
Example C99_ets_example :
  let o := EOpts true true true 4 true true false in
  exists names pd reg, ets_param_names o = Ok names /\ ets_param_dims o 2 = Ok pd /\
    register_all names [] (ets_calls o 2) = Ok reg /\
    dget reg "initial_seasonal" = Some [2; 4] /\ dget reg "P0" = Some [14; 14] /\
    prior_shape (ets_coords o ["a"; "b"]%string) (ets_info_dims pd "initial_seasonal") = Some [2; 4] /\
    prior_shape (ets_coords o ["a"; "b"]%string) (ets_info_dims pd "P0") = Some [14; 14].
Proof.
  eexists. eexists. eexists. split; [vm_compute; reflexivity|]. split; [vm_compute; reflexivity|].
  split; [vm_compute; reflexivity|]. repeat split; vm_compute; reflexivity.
Qed.
