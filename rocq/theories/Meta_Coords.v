(** C99, continued: which coordinates the packaged models offer, and of which length. *)
From Coq Require Import String.
From Verif Require Import Common Struct_Model Multi_Model Meta_Model.
Open Scope nat_scope.

(** A lag coordinate exists exactly when its order is positive, and then it has that many labels; the other coordinates
    are the six default ones. *)
Theorem C99_sarima_coords fast p d q P D Q S0 :
  let c := sarima_coords fast p d q P D Q S0 in
  (forall x n, In (x, n) [("ar_lag", p); ("ma_lag", q); ("seasonal_ar_lag", P); ("seasonal_ma_lag", Q)]%string ->
     dget c x = if n =? 0 then None else Some n) /\
  NoDup (map fst c) /\
  length c = 6 + length (filter (fun n => negb (n =? 0)) [p; q; P; Q]).
Proof.
  cbn zeta. unfold sarima_coords. generalize (length (sarimax_state_names fast p d q P D Q S0)). intros k. rewrite !seq_length.
  destruct p, q, P, Q; (split; [cbn; intros x n [H|[H|[H|[H|[]]]]]; injection H as <- <-; reflexivity|split; [|reflexivity]]);
    cbn; repeat constructor; cbn; intuition discriminate.
Qed.
Theorem C99_varmax_coords p q endog :
  let c := varmax_coords p q endog in
  (forall x n, In (x, n) [("ar_lag", p); ("ma_lag", q)]%string -> dget c x = if n =? 0 then None else Some n) /\
  (dget c "observed_state" = Some (length endog) /\ dget c "shock" = Some (length endog))%string /\
  NoDup (map fst c) /\ length c = 6 + length (filter (fun n => negb (n =? 0)) [p; q]).
Proof.
  cbn zeta. unfold varmax_coords. generalize (length (varmax_state_names p q endog)). intros k. rewrite !seq_length.
  destruct p, q; (split; [cbn; intros x n [H|[H|[]]]; injection H as <- <-; reflexivity|split; [split; reflexivity|split; [|reflexivity]]]);
    cbn; repeat constructor; cbn; intuition discriminate.
Qed.
(** ETS: the seasonal coordinate exists exactly for seasonal models and has one label per season. *)
Theorem C99_ets_coords o endog :
  let c := ets_coords o endog in
  dget c "seasonal_lag"%string = (if e_se o then Some (e_m o) else None) /\
  dget c "observed_state"%string = Some (length endog) /\ NoDup (map fst c) /\ length c = (if e_se o then 7 else 6).
Proof.
  cbn zeta. unfold ets_coords. generalize (length (ets_state_names (e_tr o) (e_se o) (e_m o) endog)), (length (ets_shock_names endog)).
  intros k l. rewrite !seq_length. destruct (e_se o); (split; [reflexivity|split; [reflexivity|split; [|reflexivity]]]);
    cbn; repeat constructor; cbn; intuition discriminate.
Qed.
Example C99_coords_example : dget (sarima_coords true 2 1 0 1 0 0 4) "ar_lag"%string = Some 2 /\ dget (sarima_coords true 2 1 0 1 0 0 4) "ma_lag"%string = None.
Proof. split; reflexivity. Qed.
