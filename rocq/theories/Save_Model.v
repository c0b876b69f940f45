(** Model of what PyMCStateSpace.build_statespace_graph leaves in the PyMC model besides the likelihood, and of the settings with which the later
    calls rerun the filter (statespace/core/statespace.py).
    Parameters: the tensors (V), the filter and the smoother as functions of their settings.  Left out: the compile mode, the registration of the
    data (Data_Model), of the parameters (Build_Model). *)
From Verif Require Import Common Dict.
Import List ListNotations.
Open Scope nat_scope.

(** utils/constants.py:34-71 *)
Definition TIME_DIM : string := "time".
Definition ALL_STATE_DIM : string := "state".
Definition ALL_STATE_AUX_DIM : string := "state_aux".
Definition OBS_STATE_DIM : string := "observed_state".
Definition OBS_STATE_AUX_DIM : string := "observed_state_aux".
Definition FILTER_OUTPUT_DIMS : dict (list string) := [
  ("filtered_state", [TIME_DIM; ALL_STATE_DIM]); ("smoothed_state", [TIME_DIM; ALL_STATE_DIM]); ("predicted_state", [TIME_DIM; ALL_STATE_DIM]);
  ("filtered_covariance", [TIME_DIM; ALL_STATE_DIM; ALL_STATE_AUX_DIM]); ("smoothed_covariance", [TIME_DIM; ALL_STATE_DIM; ALL_STATE_AUX_DIM]);
  ("predicted_covariance", [TIME_DIM; ALL_STATE_DIM; ALL_STATE_AUX_DIM]); ("predicted_observed_state", [TIME_DIM; OBS_STATE_DIM]);
  ("predicted_observed_covariance", [TIME_DIM; OBS_STATE_DIM; OBS_STATE_AUX_DIM])]%string.

Section Save.
Context {V J F : Type}.
(** MISSING_FILL and JITTER_DEFAULT, utils/constants.py:16-18 *)
Variables (MISSING_FILL : F) (JITTER_DEFAULT : J).
(** the filter's scan and post-processing with a marker and a jitter, kalman_filter.py:223-238: the list of seven outputs
    (filtered states, predicted states, observed states, filtered, predicted, observed covariances, log-likelihoods) *)
Variable run_filter : F -> J -> list V.
(** the smoother's scan with a jitter, kalman_smoother.py:81-109, on filtered states and covariances *)
Variable run_smoother : J -> V -> V -> V * V.

(** BaseFilter.build_graph, kalman_filter.py:197-203: None means the default *)
Definition filter_build_graph (missing_fill_value : option F) (cov_jitter : option J) : list V :=
  run_filter (match missing_fill_value with Some f => f | None => MISSING_FILL end) (match cov_jitter with Some j => j | None => JITTER_DEFAULT end).
(** _build_smoother_graph, statespace.py:903-951: cov_jitter is a default argument *)
Definition build_smoother_graph (filtered_states filtered_covariances : V) (cov_jitter : option J) : V * V :=
  run_smoother (match cov_jitter with Some j => j | None => JITTER_DEFAULT end) filtered_states filtered_covariances.
(** filter_outputs.pop(-1), [:3], [3:] and the two unpackings, statespace.py:876-879; ValueError when a length is wrong *)
Definition unpack3 (l : list V) : res (V * V * V) := match l with [x; y; z] => Ok (x, y, z) | _ => Err ValueError end.
Definition pop_last (l : list V) : res (list V * V) := match rev l with [] => Err IndexError | x :: r => Ok (rev r, x) end.

(** _register_kalman_filter_outputs_with_pymc_model, statespace.py:772-795: name, value and dims of each Deterministic; a dim without coordinates is None *)
Definition state_names : list string := ["filtered_state"; "predicted_state"; "predicted_observed_state"; "smoothed_state"]%string.
Definition cov_names : list string := ["filtered_covariance"; "predicted_covariance"; "predicted_observed_covariance"; "smoothed_covariance"]%string.
Definition register_outputs (coords : list string) (outputs : list V) : list (string * (V * list (option string))) :=
  let states := firstn 4 outputs in let covs := skipn 4 outputs in
  map (fun vn => (snd vn, (fst vn, map (fun d => if smem d coords then Some d else None) (match dget FILTER_OUTPUT_DIMS (snd vn) with Some l => l | None => [] end))))
      (combine (states ++ covs) (state_names ++ cov_names)).

(** what build_statespace_graph leaves: the Deterministics and the observed variable's means, covariances, log-likelihood and dims, statespace.py:868-899 *)
Record built := { saved : list (string * (V * list (option string))); obs_mus : V; obs_covs : V; obs_logp : V; obs_dims : option (list string) }.
Definition build_statespace_graph (coords : list string) (missing_fill_value : option F) (cov_jitter : option J) (save : bool) : res built :=
  do (outs, logp) <- pop_last (filter_build_graph missing_fill_value cov_jitter);
  do (fs, ps, os) <- unpack3 (firstn 3 outs);
  do (fc, pc, oc) <- unpack3 (skipn 3 outs);
  let sv := if save then let (ss, sc) := build_smoother_graph fs fc None in register_outputs coords [fs; ps; os; ss; fc; pc; oc; sc] else [] in
  let od := [TIME_DIM; OBS_STATE_DIM] in
  Ok {| saved := sv; obs_mus := os; obs_covs := oc; obs_logp := logp; obs_dims := if forallb (fun d => smem d coords) od then Some od else None |}.

(** _kalman_filter_outputs_from_dummy_graph, statespace.py:1029-1059, on which sample_conditional_* and forecast are built: the filter and the smoother are rerun
    without the settings given when the model was built *)
Definition outputs_from_dummy_graph : res (list (V * V)) :=
  do (outs, _) <- pop_last (filter_build_graph None None);
  do (fs, ps, _) <- unpack3 (firstn 3 outs);
  do (fc, pc, _) <- unpack3 (skipn 3 outs);
  let (ss, sc) := build_smoother_graph fs fc None in
  Ok [(fs, fc); (ps, pc); (ss, sc)].
End Save.
