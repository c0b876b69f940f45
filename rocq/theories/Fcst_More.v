(** C35, continued: use_scenario_index with scenarios that carry no index of their own. *)
From Verif Require Import Common Dict.
Import List ListNotations.
From Verif Require Import Fcst_Model Fcst_Props.
Open Scope Z_scope.

Section More.
Context {V : Type}.
(** the scenario contains an object with an index *)
Definition has_index (sc : scenario V) : Prop :=
  match sc with
  | NoScenario => False
  | Single i => (exists f, i = Df f) \/ (exists ix l, i = Ser ix l)
  | Many d => exists name i, In (name, i) d /\ ((exists f, i = Df f) \/ (exists ix l, i = Ser ix l))
  end.
Lemma is_pandas_spec (i : item V) : is_pandas i = true <-> (exists f, i = Df f) \/ (exists ix l, i = Ser ix l).
Proof.
  destruct i as [f|ix l|n m|l|]; cbn; split; try discriminate; auto.
  - intros _. left. exists f. reflexivity.
  - intros _. right. exists ix, l. reflexivity.
  - intros [(?&H)|(?&?&H)]; discriminate.
  - intros [(?&H)|(?&?&H)]; discriminate.
  - intros [(?&H)|(?&?&H)]; discriminate.
Qed.
(** use_scenario_index is refused unless some part of the scenario has an index *)
Theorem C35_scenario_needs_index vs ix start end_ periods (sc : scenario V) verbose t0 fx sc' :
  forecast_index vs ix start end_ periods sc true verbose = Ok (t0, fx, sc') -> has_index sc'.
Proof.
  unfold forecast_index. destruct (wrap vs sc) as [sc1|]; [|discriminate]. cbn [bind].
  match goal with |- context [bind ?r _] => destruct r as [sc2|]; [|discriminate] end. cbn [bind].
  destruct (validate_forecast_args ix _ periods end_ sc2 true) eqn:E; [|discriminate]. cbn [bind].
  destruct (build_forecast_index _ _ _ _ _ _) as [[x l]|]; [|discriminate]. cbn [bind]. intros H. injection H as _ _ <-.
  revert E. unfold validate_forecast_args. match goal with |- context [bind ?r _] => destruct r; [|discriminate] end. cbn [bind].
  assert (K : match sc2 with NoScenario => Err ValueError | Single i => if is_pandas i then Ok tt else Err ValueError | Many d => if existsb (fun x0 : string * item V => is_pandas (snd x0)) d then Ok tt else Err ValueError end = Ok tt -> has_index sc2).
  { destruct sc2 as [|i|d]; [discriminate| |].
    - destruct (is_pandas i) eqn:P; [|discriminate]. intros _. apply is_pandas_spec, P.
    - destruct (existsb _ d) eqn:P; [|discriminate]. intros _. apply existsb_exists in P as ([name i] & Hin & P). exists name, i. split; [exact Hin | apply is_pandas_spec, P]. }
  destruct a. destruct periods, end_; try discriminate; intros E; apply K; destruct sc2; exact E || (destruct u; exact E).
Qed.
(** the label of a start that is already a label: what start=None stands for *)
Definition label_start (ix : tindex) (s : Z) : point := match ix with IntIx _ => NpInt s | DateIx _ _ => Stamp s end.
(** When the first part of the scenario is an array, an index is made for it that begins AT the start label: the first
    forecast carries the label of the start itself, an observed time, the initial state is taken one step too early,
    and the index of the other parts is ignored. *)
Theorem C35_array_first_scenario_refuted ix s end_ periods name n (m : list (list V)) rest : fit_index ix -> m <> [] -> In (s - spacing ix) (tlabels ix) ->
  build_forecast_index ix (Some (label_start ix s)) end_ periods true (Many ((name, Arr n m) :: rest))
    = Ok (s - spacing ix, s :: labels_after s (spacing ix) (length m - 1)).
Proof.
  intros Hix Hm Hin. assert (Hf : 0 < spacing ix) by (destruct ix; cbn; [lia | apply Hix]).
  assert (E : exists k, length m = S k) by (destruct m; [congruence | eexists; reflexivity]). destruct E as [k Ek].
  assert (Z1 : zmem (s - spacing ix) (s :: labels_after s (spacing ix) (S k - 1)) = false).
  { destruct (zmem _ _) eqn:E; [|reflexivity]. apply zmem_in in E. destruct E as [E|E]; [lia|]. unfold labels_after in E. apply in_map_iff in E as (i & E & _). nia. }
  assert (Z2 : zmem (s - spacing ix) (tlabels ix) = true) by (apply zmem_in, Hin).
  assert (P : forall f, progression s f (length m) = s :: labels_after s f (S k - 1)) by (intros f; rewrite Ek, progression_S; do 2 f_equal; lia).
  unfold build_forecast_index. cbn [scenario_index item_index]. destruct ix as [l|l f]; cbn [label_start bind spacing tlabels] in *.
  - unfold range_index. replace (Z.to_nat (Z.of_nat (length m) + s - s)) with (length m) by lia. rewrite P. cbn [bind]. rewrite Z1, Z2, Ek. reflexivity.
  - unfold date_range_n. destruct (Z.ltb_spec (Z.of_nat (length m)) 0); [lia|]. rewrite Nat2Z.id. cbn [bind]. rewrite P, Z.eqb_refl. cbn [bind]. rewrite Z1, Z2, Ek. reflexivity.
Qed.
End More.

(** a model with two data variables, ten days of data, a table with an index for one variable and an array for the other:
    the same data given in the other order are forecast one day later *)
Definition df_ (l : list Z) : frame nat := {| columns := ["c"%string]; fidx := SDate l (Some 1); rows := [[7%nat]; [8%nat]] |}.
Example C35_mixed_scenario_example :
  let vs := [("a"%string, ["c"%string]); ("b"%string, ["c"%string])] in
  let ix := DateIx [100; 101; 102; 103] 1 in
  let arr := ("a"%string, Arr 1 [[5%nat]; [6%nat]]) in let tab := ("b"%string, Df (df_ [104; 105])) in
  forecast_index vs ix None None (Some 2) (Many [arr; tab]) true true = Ok (102, [103; 104], Many [arr; tab]) /\
  forecast_index vs ix None None (Some 2) (Many [tab; arr]) true true = Ok (103, [104; 105], Many [tab; arr]) /\
  fit_index ix /\ In (103 - spacing ix) (tlabels ix) /\ has_index (Many [arr; tab]).
Proof.
  cbn zeta. split; [reflexivity|]. split; [reflexivity|]. split; [split; [discriminate|]; split; [|cbn; lia]|].
  - repeat constructor; cbn; intuition discriminate.
  - split; [cbn; tauto|]. exists "b"%string, (Df (df_ [104; 105])). split; [cbn; tauto|]. left. eexists. reflexivity.
Qed.
