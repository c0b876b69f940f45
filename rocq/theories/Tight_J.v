(** Statements added after mutation testing (batch auto3): C25 label texts. *)
From Coq Require Import String Ascii List Arith Lia ZArith. From Coq Require FinFun.
Import ListNotations.
From Verif Require Import Common.
From Verif Require Struct_Model Struct_Trend Multi_Model Filt_Model.
Local Open Scope string_scope.

Module Trend.
Import Struct_Model.
(** the state a trend of some order has at a position: the documented derivative names *)
Definition derivative_name (i : nat) : string :=
  match i with 0 => "level" | 1 => "trend" | 2 => "acceleration" | 3 => "jerk" | 4 => "snap" | 5 => "crackle" | 6 => "pop" | _ => "" end%nat.
(** positions where the mask is true, in increasing order *)
Fixpoint chosen (i : nat) (mask : list bool) : list nat :=
  match mask with [] => [] | b :: r => if b then i :: chosen (S i) r else chosen (S i) r end.
Lemma select_chosen names mask : forall i n, (forall j, j < length names -> nth j names "" = derivative_name (i + j))%nat -> (length mask <= length names)%nat -> n = i ->
  select_names names mask = map derivative_name (chosen n mask).
Proof.
  revert names. induction mask as [|b mask IH]; intros [|x names] i n H L ->; try reflexivity; cbn in L; [lia|].
  unfold select_names. cbn. assert (Hx : x = derivative_name i). { rewrite <- (Nat.add_0_r i). apply (H 0%nat). cbn. lia. }
  assert (R : select_names names mask = map derivative_name (chosen (S i) mask)).
  { apply (IH names (S i)); [|lia|auto]. intros j Hj. replace (S i + j)%nat with (i + S j)%nat by lia. apply (H (S j)). cbn. lia. }
  unfold select_names in R. destruct b; cbn; rewrite R; [now rewrite Hx|reflexivity].
Qed.
(** C25: a trend with at most seven states labels each state, and each shock, with the name of its derivative: level, trend, ..., pop. *)
Theorem C25_trend_labels uid o io name c : level_trend uid o io name = Ok c -> (c_k_states c <= 7)%nat -> exists mask,
  order_to_mask o = Ok mask /\ length mask = c_k_states c /\
  c_state_names c = map derivative_name (chosen 0 mask) /\
  c_shock_names c = if (0 <? c_k_posdef c)%nat then map derivative_name (chosen 0 (Struct_Trend.innovation_mask (c_k_states c) o io)) else [].
Proof.
  intros H H7. apply Struct_Trend.level_trend_inv in H. destruct H as (mask & Em & Hl & _ & H). cbv zeta in H. destruct H as (Hi & _ & Hk & Hp & _ & Hs & Hsh & _).
  assert (Hn : forall j, (j < length (firstn (length mask) position_derivative_names))%nat -> nth j (firstn (length mask) position_derivative_names) "" = derivative_name (0 + j)).
  { rewrite Hk in H7. destruct mask as [|? [|? [|? [|? [|? [|? [|? [|? m]]]]]]]]; cbn in *; intros j Hj; try lia; do 7 (destruct j as [|j]; [reflexivity|]; try lia). }
  assert (Ln : length (firstn (length mask) position_derivative_names) = length mask). { rewrite firstn_length. cbn. lia. }
  exists mask. split; auto. split; [congruence|]. split.
  - rewrite Hs. apply (select_chosen _ _ 0); auto. lia.
  - rewrite Hsh, Hk, <- Hp. destruct (0 <? c_k_posdef c)%nat; auto. apply (select_chosen _ _ 0); auto. lia.
Qed.
Example C25_trend_labels_example : exists c, level_trend 0 (OMask [true; false; true]) (Some (OMask [false; false; true])) "t" = Ok c /\
  c_state_names c = ["level"; "acceleration"] /\ c_shock_names c = ["acceleration"].
Proof. eexists. split; [reflexivity|]. split; reflexivity. Qed.
End Trend.

Module Ets.
Import Multi_Model.
(** C25: the shock of an exponential smoothing model is called "innovation"; with several series, each shock carries the name of its series. *)
Theorem C25_ets_shock_labels (endog : list string) :
  match endog with
  | [_] => ets_shock_names endog = ["innovation"]
  | _ => length (ets_shock_names endog) = length endog /\ forall i s, nth_error endog i = Some s -> nth_error (ets_shock_names endog) i = Some (s ++ "_innovation")
  end.
Proof.
  assert (G : forall l, length (map (fun n => fstr [n; "_innovation"]) l) = length l /\ forall i s, nth_error l i = Some s -> nth_error (map (fun n => fstr [n; "_innovation"]) l) i = Some (s ++ "_innovation")).
  { intros l. split; [apply map_length|]. intros i s Hi. rewrite nth_error_map, Hi. reflexivity. }
  destruct endog as [|a [|b r]]; [apply (G [])|reflexivity|apply (G (a :: b :: r))].
Qed.
(** distinct series have distinct shock labels *)
Theorem C25_ets_shock_labels_distinct (endog : list string) : NoDup endog -> NoDup (ets_shock_names endog).
Proof.
  intros H. unfold ets_shock_names. destruct (length endog =? 1)%nat; [repeat constructor; cbn; tauto|].
  apply FinFun.Injective_map_NoDup; auto. intros a b E. cbn in E. revert b E. induction a as [|x a IH]; intros [|y b] E; cbn in E; auto.
  - exfalso. injection E as _ E. assert (L : forall u v : string, (String.length (u ++ v) = String.length u + String.length v)%nat) by (intros u v; induction u; cbn; congruence).
    apply (f_equal String.length) in E. cbn in E. rewrite L in E. cbn in E. lia.
  - exfalso. injection E as _ E. assert (L : forall u v : string, (String.length (u ++ v) = String.length u + String.length v)%nat) by (intros u v; induction u; cbn; congruence).
    apply (f_equal String.length) in E. cbn in E. rewrite L in E. cbn in E. lia.
  - injection E as -> E. f_equal. auto.
Qed.
Example C25_ets_shock_labels_example : ets_shock_names ["gdp"; "cpi"] = ["gdp_innovation"; "cpi_innovation"].
Proof. reflexivity. Qed.
End Ets.

Module Groups.
Import Filt_Model.
(** C106: a sampling method asked for a group that the data do not have fails with AttributeError (nothing is sampled from another group). *)
Theorem C106_missing_group A (group : string) (groups : list (string * A)) : group = "prior" \/ group = "posterior" -> ~ In group (map fst groups) ->
  pick_group group groups = Err AttributeError.
Proof.
  intros H N. unfold pick_group. replace (String.eqb group "prior" || String.eqb group "posterior")%bool with true by (destruct H as [-> | ->]; reflexivity).
  unfold lookup. destruct (find _ groups) as [p|] eqn:E; [|reflexivity]. apply find_some in E. destruct E as [E1 E2]. apply String.eqb_eq in E2. exfalso. apply N. rewrite <- E2. now apply in_map.
Qed.
Example C106_missing_group_example : pick_group "prior" [("posterior", 1%nat)] = Err AttributeError.
Proof. reflexivity. Qed.
End Groups.
