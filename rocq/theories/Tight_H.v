(** C74 / C40: what the model holds after the data are registered. *)
From Verif Require Import Common Dict.
Import List ListNotations.
From Verif Require Import Data_Model Data_Props.
Open Scope nat_scope.

(** Registered data: entry by entry the user's values with the marker in place of invalid ones, the mask marks exactly those,
    the time coordinate is the data's own; and data are refused exactly when the shape, the index, the time coordinate or a
    collision with the marker forbids it. *)
Theorem C74_registered d n_obs obs_coords fill time :
  match register_data_with_pymc d n_obs obs_coords fill time with
  | Ok (y, mask, t) => (exists n, shape_of d = [n; n_obs]) /\ time_of d = Some t /\
      (time = None \/ time = Some None \/ time = Some (Some t)) /\
      forall s i v, entry (values_of d) s i = Some v ->
        entry y s i = Some (if invalid v then chosen fill else v) /\ flag mask s i = Some (invalid v)
  | Err _ => ~ (exists n, shape_of d = [n; n_obs]) \/ time_of d = None \/
      (exists found, time = Some (Some found) /\ Some found <> time_of d) \/
      ((exists v, contains (values_of d) v /\ invalid v = true) /\ exists v, contains (values_of d) v /\ val_eq v (chosen fill) = true)
  end.
Proof.
  unfold register_data_with_pymc. pose proof (C74_accepted d n_obs obs_coords) as A. destruct (preprocess d n_obs obs_coords) as [[v ix]|e]; cbn [bind].
  2:{ destruct A; auto. }
  destruct A as (Sh & -> & T). destruct (mask_missing_values_in_data (values_of d) fill) as [[y mask]|e] eqn:M; cbn [bind].
  - pose proof (C74_time time ix) as Ti. destruct (add_time time ix) as [t|e]; cbn [bind].
    + destruct Ti as (-> & Ti). split; [auto|]. split; [auto|]. split; [auto|]. intros s i x E. pose proof (C40_mask _ _ _ _ M s i x E) as [F1 F2]. auto.
    + destruct Ti as (found & -> & N). right. right. left. exists found. split; auto. rewrite T. congruence.
  - right. right. right. unfold mask_missing_values_in_data in M. fold (chosen fill) in M. destruct (any invalid (values_of d)) eqn:I; cbn [andb] in M; [|discriminate].
    destruct (any (fun v => val_eq v (chosen fill)) (values_of d)) eqn:C; [|discriminate]. split; apply any_spec; auto.
Qed.
Print Assumptions C74_registered.
Example C74_registered_example : register_data_with_pymc (Frame ["a"; "b"]%string (Dates [10; 11]%Z) [[Fin 1; NaN]; [Fin 2; Fin 3]]) 2 None (Some (Fin 77)) (Some None)
  = Ok ([[Fin 1; Fin 77]; [Fin 2; Fin 3]], [[false; true]; [false; false]], [10; 11]%Z).
Proof. reflexivity. Qed.

(** C25: initial_seasonal of ETS: the advertised shape is the registered one exactly for a single series (one entry per season). *)
From Verif Require Import Multi_Model.
Theorem C25_ets_seasonal_shape k m : 1 <= k -> (ets_info_seasonal k m = ets_placeholder_seasonal k m <-> k = 1) /\ ets_placeholder_seasonal 1 m = [m] /\ ets_info_seasonal 1 m = [m].
Proof.
  intros H. unfold ets_info_seasonal, ets_placeholder_seasonal. split; [|split; reflexivity]. destruct (Nat.eqb_spec k 1); split; intros E; auto; try discriminate. lia.
Qed.
