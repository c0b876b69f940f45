(** C35 (forecast horizon) and C36 (scenario data). *)
From Coq Require Import FinFun.
From Verif Require Import Common Dict.
Import List ListNotations.
From Verif Require Import Fcst_Model.
Open Scope Z_scope.

(** * Specification *)
(** the n labels after t, with the given spacing *)
Definition labels_after (t step : Z) (n : nat) : list Z := map (fun i => t + Z.of_nat (S i) * step) (seq 0 n).
Definition spacing (ix : tindex) : Z := match ix with IntIx _ => 1 | DateIx _ f => f end.
(** indices of the data a model can be fit on: 0..n-1 (data without dates, see data_tools.py:61-106), or distinct dates with a positive frequency *)
Definition fit_index (ix : tindex) : Prop :=
  match ix with
  | IntIx l => l <> [] /\ l = map Z.of_nat (seq 0 (length l))
  | DateIx l f => l <> [] /\ NoDup l /\ 0 < f
  end.
(** which label a start designates: a label or, counted from the end (or from any end for dates), a position *)
Inductive designates (ix : tindex) : option point -> bool -> Z -> Prop :=
| D_default s : nth_error (tlabels ix) (length (tlabels ix) - 1) = Some s -> designates ix None true s
| D_label z v : match ix with IntIx l => In z l | DateIx _ _ => False end -> designates ix (Some (PyInt z)) v z
| D_back j s v : (1 <= j <= length (tlabels ix))%nat -> nth_error (tlabels ix) (length (tlabels ix) - j) = Some s ->
    designates ix (Some (PyInt (- Z.of_nat j))) v s
| D_date z v : match ix with DateIx l _ => In z l | IntIx _ => False end -> designates ix (Some (Stamp z)) v z
| D_position i s v : match ix with DateIx l _ => nth_error l i = Some s | IntIx _ => False end -> designates ix (Some (PyInt (Z.of_nat i))) v s.

Lemma zmem_in z l : zmem z l = true <-> In z l.
Proof.
  unfold zmem. rewrite existsb_exists. split.
  - intros (x & H & E). apply Z.eqb_eq in E. now subst.
  - intros H. exists z. split; auto. apply Z.eqb_refl.
Qed.
Lemma progression_after n : forall s f, progression (s + f) f n = labels_after s f n.
Proof.
  unfold labels_after. induction n as [|n IH]; intros s f; [reflexivity|]. cbn [progression seq map]. f_equal; [lia|].
  rewrite IH. rewrite <- seq_shift, map_map. apply map_ext. intros i. lia.
Qed.
Lemma progression_S n s f : progression s f (S n) = s :: labels_after s f n.
Proof. cbn [progression]. now rewrite progression_after. Qed.
Lemma progression_split n s f x rest : progression s f n = x :: rest -> x = s /\ rest = labels_after s f (n - 1) /\ n = S (n - 1).
Proof. destruct n; [discriminate|]. rewrite progression_S. intros E. inversion E. replace (S n - 1)%nat with n by lia. auto. Qed.
Lemma labels_after_length s f n : length (labels_after s f n) = n.
Proof. unfold labels_after. now rewrite map_length, seq_length. Qed.
Lemma labels_after_not_start s f n : 0 < f -> zmem s (labels_after s f n) = false.
Proof.
  intros Hf. destruct (zmem _ _) eqn:E; auto. apply zmem_in in E. unfold labels_after in E. apply in_map_iff in E as (i & E & _). nia.
Qed.
Lemma py_nth_ok l i s : py_nth l i = Ok s -> In s l.
Proof. unfold py_nth. destruct (_ && _); [|discriminate]. destruct (nth_error _ _) eqn:E; [|discriminate]. intros H; inversion H; subst. now apply nth_error_In in E. Qed.
Lemma py_nth_pos l i s : nth_error l i = Some s -> py_nth l (Z.of_nat i) = Ok s.
Proof.
  intros E. unfold py_nth. assert (i < length l)%nat by (apply nth_error_Some; congruence).
  destruct (Z.ltb_spec (Z.of_nat i) 0); [lia|].
  destruct (Z.leb_spec 0 (Z.of_nat i)); [|lia]. destruct (Z.ltb_spec (Z.of_nat i) (Z.of_nat (length l))); [|lia]. cbn [andb].
  now rewrite Nat2Z.id, E.
Qed.
Lemma py_nth_neg l j s : (1 <= j <= length l)%nat -> nth_error l (length l - j) = Some s -> py_nth l (- Z.of_nat j) = Ok s.
Proof.
  intros Hj E. unfold py_nth. destruct (Z.ltb_spec (- Z.of_nat j) 0); [|lia].
  destruct (Z.leb_spec 0 (- Z.of_nat j + Z.of_nat (length l))); [|lia].
  destruct (Z.ltb_spec (- Z.of_nat j + Z.of_nat (length l)) (Z.of_nat (length l))); [|lia]. cbn [andb].
  replace (Z.to_nat (- Z.of_nat j + Z.of_nat (length l))) with (length l - j)%nat by lia. now rewrite E.
Qed.
Lemma last_nth (l : list Z) : l <> [] -> nth_error l (length l - 1) = Some (last l 0).
Proof.
  induction l as [|a l IH]; intros H; [congruence|]. destruct l as [|b l]; [reflexivity|].
  replace (length (a :: b :: l) - 1)%nat with (S (length (b :: l) - 1)) by (cbn [length]; lia). cbn [nth_error]. rewrite IH by discriminate. reflexivity.
Qed.

Section C35.
Context {V : Type}.
Notation item := (item V).
Notation scenario := (scenario V).

(** ** what is returned is right: the initial state is at a label of the data and the forecast labels follow it without gap; the number of periods is
    the one asked for *)
Lemma build_sound ix start end_ periods (sc : scenario) t0 fx : fit_index ix -> build_forecast_index ix start end_ periods false sc = Ok (t0, fx) ->
  In t0 (tlabels ix) /\ fx = labels_after t0 (spacing ix) (length fx) /\ (forall n, periods = Some n -> n = Z.of_nat (length fx)).
Proof.
  intros Hix. unfold build_forecast_index.
  assert (K : forall (r : res (list Z)) , (forall l, r = Ok l -> exists s m, l = progression s (spacing ix) m /\ (forall n, periods = Some n -> Z.of_nat m = n + 1 \/ m = O)) ->
     (do (x0, fx0) <- (do fx0 <- r; match fx0 with x :: rest => Ok (x, rest) | [] => Err IndexError end);
      if zmem x0 fx0 then Err ValueError else if zmem x0 (tlabels ix) then Ok (x0, fx0) else Err ValueError) = Ok (t0, fx) ->
     In t0 (tlabels ix) /\ fx = labels_after t0 (spacing ix) (length fx) /\ (forall n, periods = Some n -> n = Z.of_nat (length fx))).
  { intros [l|e] Hr; [|discriminate]. destruct (Hr l eq_refl) as (s & m & -> & Hp). cbn [bind].
    destruct (progression s (spacing ix) m) as [|x rest] eqn:E; [discriminate|]. apply progression_split in E as (-> & -> & Em). cbn [bind].
    destruct (zmem s (labels_after _ _ _)); [discriminate|]. destruct (zmem s (tlabels ix)) eqn:Hm; [|discriminate].
    intros H. inversion H; subst. rewrite labels_after_length. apply zmem_in in Hm. repeat split; auto.
    intros n Hn. specialize (Hp n Hn). destruct m; lia. }
  apply K. clear K. intros l. destruct ix as [tl|tl f]; cbn [spacing].
  - destruct start as [[z|z|z]|]; try discriminate; cbn [bind].
    all: destruct (if z <? 0 then py_nth tl z else Ok z) as [s|]; [|discriminate]; cbn [bind].
    all: destruct end_ as [[e|e|e]|]; destruct periods as [n|]; try discriminate; intros H; inversion H; unfold range_index;
      exists s; eexists; (split; [reflexivity|]); intros n' Hn'; inversion Hn'; subst; lia.
  - destruct Hix as (_ & _ & Hf). destruct start as [[z|z|z]|]; try discriminate; cbn [bind].
    1: destruct (py_nth tl z) as [s|]; [|discriminate]; cbn [bind].
    2: set (s := z).
    all: destruct end_ as [[e|e|e]|]; destruct periods as [n|]; try discriminate; unfold date_range_n, date_range_e;
      try (destruct (Z.ltb_spec (n + 1) 0); [discriminate|]); intros H'; inversion H'; 
      exists s; eexists; (split; [reflexivity|]); intros n' Hn'; inversion Hn'; subst; lia.
Qed.
Theorem C35_horizon_sound vs ix start end_ periods (sc : scenario) verbose t0 fx sc' : fit_index ix ->
  forecast_index vs ix start end_ periods sc false verbose = Ok (t0, fx, sc') ->
  In t0 (tlabels ix) /\ fx = labels_after t0 (spacing ix) (length fx) /\ (forall n, periods = Some n -> n = Z.of_nat (length fx)).
Proof.
  intros Hix. unfold forecast_index. destruct (wrap vs sc) as [sc1|]; [|discriminate]. cbn [bind].
  match goal with |- context [bind ?r _] => destruct r as [sc2|]; [|discriminate] end. cbn [bind].
  destruct (validate_forecast_args _ _ _ _ _ _) as [|]; [|discriminate]. cbn [bind].
  destruct (build_forecast_index ix _ end_ periods false sc2) as [[t fx']|] eqn:E; [|discriminate]. cbn [bind].
  intros H. inversion H; subst. eapply build_sound; eauto.
Qed.

(** ** every valid request is served *)
Lemma int_range l x : l = map Z.of_nat (seq 0 (length l)) -> In x l -> 0 <= x < Z.of_nat (length l).
Proof. generalize (length l) as n. intros n -> H. apply in_map_iff in H as (i & <- & Hs). apply in_seq in Hs. lia. Qed.
Lemma start_ok ix start verbose s : fit_index ix -> designates ix start verbose s ->
  exists p, default_start ix start verbose = Some p /\ In s (tlabels ix) /\
    (forall (sc : scenario) periods end_ use, validate_forecast_args ix (Some p) periods end_ sc use = validate_forecast_args ix None periods end_ sc use) /\
    match ix with
    | IntIx l => match p with PyInt z | NpInt z => (if z <? 0 then py_nth l z else Ok z) = Ok s | Stamp _ => False end
    | DateIx l _ => match p with PyInt z => py_nth l z = Ok s | Stamp z => z = s | NpInt _ => False end
    end.
Proof.
  intros Hix Hd. destruct Hd as [s Hn|z v Hz|j s v Hj Hn|z v Hz|i s v Hi].
  - destruct ix as [l|l f]; cbn [tlabels default_start] in *.
    + destruct Hix as (Hne & Hl). rewrite (last_nth _ Hne) in Hn. inversion Hn; subst s. exists (NpInt (last l 0)).
      assert (In (last l 0) l) by (eapply nth_error_In, last_nth; auto). repeat split; auto.
      destruct (Z.ltb_spec (last l 0) 0); auto. pose proof (int_range _ _ Hl H). lia.
    + destruct Hix as (Hne & _). rewrite (last_nth _ Hne) in Hn. inversion Hn; subst s. exists (Stamp (last l 0)).
      assert (In (last l 0) l) by (eapply nth_error_In, last_nth; auto). repeat split; auto.
      intros. unfold validate_forecast_args. apply zmem_in in H. now rewrite H.
  - destruct ix as [l|]; [|tauto]. destruct Hix as (Hne & Hl). cbn [default_start tlabels]. exists (PyInt z). pose proof Hz as Hz'.
    pose proof (int_range _ _ Hl Hz).
    repeat split; auto.
    + intros. unfold validate_forecast_args. cbn [tlabels]. destruct (Z.ltb_spec (Z.of_nat (length l)) (Z.abs z)); [lia|reflexivity].
    + destruct (Z.ltb_spec z 0); [lia|reflexivity].
  - exists (PyInt (- Z.of_nat j)). cbn [default_start]. repeat split; auto.
    + now apply nth_error_In in Hn.
    + intros. unfold validate_forecast_args. destruct (Z.ltb_spec (Z.of_nat (length (tlabels ix))) (Z.abs (- Z.of_nat j))); [lia|reflexivity].
    + destruct ix as [l|l f]; cbn [tlabels] in *; [|now apply py_nth_neg].
      destruct (Z.ltb_spec (- Z.of_nat j) 0); [now apply py_nth_neg|lia].
  - destruct ix as [|l f]; [tauto|]. exists (Stamp z). cbn [default_start tlabels]. repeat split; auto.
    intros. unfold validate_forecast_args. apply zmem_in in Hz. now rewrite Hz.
  - destruct ix as [|l f]; [tauto|]. exists (PyInt (Z.of_nat i)). cbn [default_start tlabels]. repeat split; auto.
    + now apply nth_error_In in Hi.
    + intros. assert (i < length l)%nat by (apply nth_error_Some; congruence).
      unfold validate_forecast_args. cbn [tlabels]. destruct (Z.ltb_spec (Z.of_nat (length l)) (Z.abs (Z.of_nat i))); [lia|reflexivity].
    + now apply py_nth_pos.
Qed.
Lemma spacing_pos ix : fit_index ix -> 0 < spacing ix.
Proof. destruct ix; cbn; [lia|tauto]. Qed.

(** n periods after any valid start *)
Theorem C35_periods ix start verbose s n : fit_index ix -> designates ix start verbose s ->
  forecast_index [] ix start None (Some (Z.of_nat n)) (@NoScenario V) false verbose = Ok (s, labels_after s (spacing ix) n, NoScenario).
Proof.
  intros Hix Hd. destruct (start_ok _ _ _ _ Hix Hd) as (p & Ep & Hin & Hv & Hs). unfold forecast_index. rewrite Ep. cbn [wrap bind].
  rewrite Hv. cbn [validate_forecast_args bind]. unfold build_forecast_index.
  assert (N : zmem s (labels_after s (spacing ix) n) = false) by (apply labels_after_not_start, spacing_pos; auto).
  assert (M : zmem s (tlabels ix) = true) by (apply zmem_in; auto).
  destruct ix as [l|l f]; cbn [spacing tlabels] in *.
  - assert (E : range_index s (s + Z.of_nat n + 1) = s :: labels_after s 1 n).
    { unfold range_index. replace (Z.to_nat _) with (S n) by lia. apply progression_S. }
    destruct p as [z|z|z]; [| |tauto]; rewrite Hs; cbn [bind]; rewrite E; cbn [bind]; rewrite N, M; reflexivity.
  - assert (E : date_range_n s (Z.of_nat n + 1) f = Ok (s :: labels_after s f n)).
    { unfold date_range_n. destruct (Z.ltb_spec (Z.of_nat n + 1) 0); [lia|]. replace (Z.to_nat _) with (S n) by lia. now rewrite progression_S. }
    destruct p as [z|z|z]; [|tauto|]; cbn [bind]; [rewrite Hs|subst z]; cbn [bind]; rewrite E; cbn [bind]; rewrite N, M; reflexivity.
Qed.
(** dates: up to and including the end date *)
Theorem C35_end_date l f start verbose s e : fit_index (DateIx l f) -> designates (DateIx l f) start verbose s -> s <= e ->
  exists fx, forecast_index [] (DateIx l f) start (Some (Stamp e)) None (@NoScenario V) false verbose = Ok (s, fx, NoScenario) /\
    forall x, In x fx <-> (s < x <= e /\ exists i, x = s + i * f).
Proof.
  intros Hix Hd He. destruct (start_ok _ _ _ _ Hix Hd) as (p & Ep & Hin & Hv & Hs). unfold forecast_index. rewrite Ep. cbn [wrap bind].
  rewrite Hv. cbn [validate_forecast_args bind]. unfold build_forecast_index. pose proof (spacing_pos _ Hix) as Hf. cbn [spacing tlabels] in *.
  set (n := Z.to_nat ((e - s) / f)).
  assert (E : date_range_e s e f = s :: labels_after s f n).
  { unfold date_range_e. assert (0 <= (e - s) / f) by (apply Z.div_pos; lia). replace (Z.to_nat _) with (S n) by (unfold n; lia). apply progression_S. }
  exists (labels_after s f n). split.
  - assert (N : zmem s (labels_after s f n) = false) by (apply labels_after_not_start; auto).
    assert (M : zmem s l = true) by (apply zmem_in; auto).
    destruct p as [z|z|z]; [|tauto|]; cbn [bind]; [rewrite Hs|subst z]; cbn [bind]; rewrite E; cbn [bind]; rewrite N, M; reflexivity.
  - intros x. unfold labels_after. rewrite in_map_iff. assert (0 <= (e - s) / f) by (apply Z.div_pos; lia). split.
    + intros (i & <- & Hi). apply in_seq in Hi. split; [|eexists; reflexivity].
      assert (Z.of_nat (S i) <= (e - s) / f) by (unfold n in Hi; lia).
      assert (f * ((e - s) / f) <= e - s) by (apply Z.mul_div_le; auto). nia.
    + intros (Hx & i & ->). exists (Z.to_nat (i - 1)). assert (1 <= i) by nia. split; [f_equal; f_equal; lia|].
      apply in_seq. unfold n. assert (i <= (e - s) / f) by (apply Z.div_le_lower_bound; nia). lia.
Qed.
(** integers: the end is left out, so forecasting up to the next step gives no forecast at all *)
Theorem C35_end_integer_excluded_refuted l start verbose s e : fit_index (IntIx l) -> designates (IntIx l) start verbose s -> s < e ->
  exists fx, forecast_index [] (IntIx l) start (Some (PyInt e)) None (@NoScenario V) false verbose = Ok (s, fx, NoScenario) /\
    (forall x, In x fx <-> s < x < e) /\ ~ In e fx.
Proof.
  intros Hix Hd He. destruct (start_ok _ _ _ _ Hix Hd) as (p & Ep & Hin & Hv & Hs). unfold forecast_index. rewrite Ep. cbn [wrap bind].
  rewrite Hv. cbn [validate_forecast_args bind]. unfold build_forecast_index. cbn [tlabels] in *.
  set (n := Z.to_nat (e - s - 1)).
  assert (E : range_index s e = s :: labels_after s 1 n).
  { unfold range_index. replace (Z.to_nat _) with (S n) by (unfold n; lia). apply progression_S. }
  assert (I : forall x, In x (labels_after s 1 n) <-> s < x < e).
  { intros x. unfold labels_after. rewrite in_map_iff. split.
    - intros (i & <- & Hi). apply in_seq in Hi. unfold n in Hi. lia.
    - intros Hx. exists (Z.to_nat (x - s - 1)). split; [lia|]. apply in_seq. unfold n. lia. }
  exists (labels_after s 1 n). split; [|split; [exact I|rewrite I; lia]].
  assert (N : zmem s (labels_after s 1 n) = false) by (apply labels_after_not_start; lia).
  assert (M : zmem s l = true) by (apply zmem_in; auto).
  destruct p as [z|z|z]; [| |tauto]; rewrite Hs; cbn [bind]; rewrite E; cbn [bind]; rewrite N, M; reflexivity.
Qed.
(** the forecast starts from the filter output of the start label *)
Theorem C35_initial_state ix t0 : fit_index ix -> In t0 (tlabels ix) -> exists i, position t0 (tlabels ix) = Some i /\ nth_error (tlabels ix) i = Some t0 /\
  forall j, nth_error (tlabels ix) j = Some t0 -> j = i.
Proof.
  intros Hix Hin. assert (ND : NoDup (tlabels ix)).
  { destruct ix as [l|l f]; cbn [tlabels]; [|apply Hix]. destruct Hix as (_ & ->). apply FinFun.Injective_map_NoDup; [intros a b; lia|apply seq_NoDup]. }
  revert Hin ND. generalize (tlabels ix) as l. clear. induction l as [|a l IH]; intros Hin ND; [easy|]. cbn [position].
  destruct (Z.eqb_spec a t0) as [->|Hne].
  - exists O. repeat split; auto. intros [|j] Hj; auto. inversion ND; subst. cbn in Hj. apply nth_error_In in Hj. tauto.
  - destruct Hin as [->|Hin]; [tauto|]. inversion ND; subst. destruct (IH Hin) as (i & E1 & E2 & E3); auto. rewrite E1. exists (S i). repeat split; auto.
    intros [|j] Hj; cbn in Hj; [congruence|]. f_equal. auto.
Qed.
(** ** rejections *)
Theorem C35_periods_xor_end vs ix start end_ periods (sc : scenario) use verbose out :
  forecast_index vs ix start end_ periods sc use verbose = Ok out -> (exists n, periods = Some n /\ end_ = None) \/ (exists e, periods = None /\ end_ = Some e).
Proof.
  unfold forecast_index. destruct (wrap vs sc) as [sc1|]; [|discriminate]. cbn [bind].
  match goal with |- context [bind ?r _] => destruct r as [sc2|]; [|discriminate] end. cbn [bind].
  unfold validate_forecast_args. match goal with |- context [bind (bind ?r _) _] => destruct r; [|discriminate] end. cbn [bind].
  destruct periods, end_; try discriminate; eauto.
Qed.
(** with verbose=False the documented default start does not work *)
Theorem C35_quiet_default_start_refuted vs ix end_ periods (sc : scenario) out :
  forecast_index vs ix None end_ periods sc false false <> Ok out.
Proof.
  unfold forecast_index. destruct (wrap vs sc) as [sc1|]; [|discriminate]. cbn [bind].
  match goal with |- context [bind ?r _] => destruct r as [sc2|]; [|discriminate] end. cbn [bind default_start].
  destruct (validate_forecast_args _ _ _ _ _ _); [|discriminate]. cbn [bind]. unfold build_forecast_index. destruct ix; cbn; discriminate.
Qed.
(** use_scenario_index alone is not enough, although start, end and periods are then ignored *)
Theorem C35_scenario_index_alone_refuted vs ix start (sc : scenario) verbose out : forecast_index vs ix start None None sc true verbose <> Ok out.
Proof.
  intros H. apply C35_periods_xor_end in H as [(n & H & _)|(e & _ & H)]; discriminate.
Qed.
(** with it, the forecast has the labels of the scenario and starts one step before them *)
Theorem C35_scenario_index ix start end_ periods (f : frame V) verbose t0 fx sc' : fit_index ix ->
  forecast_index [] ix start end_ periods (Single (Df f)) true verbose = Ok (t0, fx, sc') ->
  fx = slabels (fidx f) /\ In t0 (tlabels ix) /\ ~ In t0 fx /\
  match fidx f with
  | SDate (x :: _) (Some g) => t0 + g = x /\ g = spacing ix
  | SInt (x :: _) => t0 + 1 = x
  | _ => False
  end.
Proof.
  intros Hix. unfold forecast_index. cbn [wrap bind]. destruct (validate_forecast_args _ _ _ _ _ _); [|discriminate]. cbn [bind].
  unfold build_forecast_index. cbn [scenario_index item_index bind].
  assert (K : forall x l, (do (t, fx0) <- (if zmem x l then Err ValueError else if zmem x (tlabels ix) then Ok (x, l) else Err ValueError); Ok (t, fx0, Single (Df f))) = Ok (t0, fx, sc') ->
    fx = l /\ t0 = x /\ In t0 (tlabels ix) /\ ~ In t0 fx).
  { intros x l. destruct (zmem x l) eqn:E1; [discriminate|]. destruct (zmem x (tlabels ix)) eqn:E2; [|discriminate]. cbn [bind].
    intros H; inversion H; subst. apply zmem_in in E2. repeat split; auto. intros Hi. apply zmem_in in Hi. congruence. }
  destruct (fidx f) as [[|x l]|[|x l] [g|]]; try discriminate; cbn [bind slabels].
  - intros H. apply K in H as (-> & -> & H1 & H2). repeat split; auto. lia.
  - destruct ix as [|tl h]; [discriminate|]. destruct (Z.eqb_spec g h) as [->|]; [|discriminate]. cbn [bind].
    intros H. apply K in H as (-> & -> & H1 & H2). repeat split; auto. lia.
Qed.
End C35.

Example C35_example :
  fit_index (IntIx [0; 1; 2; 3]) /\ designates (IntIx [0; 1; 2; 3]) (Some (PyInt (-2))) true 2 /\
  forecast_index [] (IntIx [0; 1; 2; 3]) (Some (PyInt (-2))) None (Some 3) (@NoScenario nat) false true = Ok (2, [3; 4; 5], NoScenario) /\
  fit_index (DateIx [100; 107; 114] 7) /\ designates (DateIx [100; 107; 114] 7) None true 114 /\
  forecast_index [] (DateIx [100; 107; 114] 7) None (Some (Stamp 130)) None (@NoScenario nat) false true = Ok (114, [121; 128], NoScenario) /\
  forecast_index [] (IntIx [0; 1; 2; 3]) (Some (PyInt 3)) (Some (PyInt 4)) None (@NoScenario nat) false true = Ok (3, [], NoScenario).
Proof.
  repeat split; try discriminate; try reflexivity.
  - apply (D_back _ 2 2); cbn; [lia|reflexivity].
  - repeat constructor; cbn; intuition discriminate.
  - constructor. reflexivity.
Qed.

(** * C36 *)
Section C36.
Context {V : Type}.
Notation item := (item V).
Notation frame := (frame V).
(** the value in row t of the column with a given name (the first one) *)
Fixpoint position_of (c : string) (l : list string) : option nat :=
  match l with [] => None | x :: l' => if String.eqb x c then Some O else option_map S (position_of c l') end.
Definition named (f : frame) (c : string) (t : nat) : option V :=
  match position_of c (columns f), nth_error (rows f) t with Some i, Some row => nth_error row i | _, _ => None end.
(** what the model reads for its column c once a table of values has replaced the data variable *)
Definition used (expected : list string) (m : list (list V)) (c : string) (t : nat) : option V :=
  match position_of c expected, nth_error m t with Some i, Some row => nth_error row i | _, _ => None end.

Lemma set_minus_nil a b : set_minus a b = [] <-> forall c, In c a -> In c b.
Proof.
  unfold set_minus. split.
  - intros H c Hc. destruct (smem c b) eqn:E; [now apply smem_in|]. assert (In c (filter (fun x => negb (smem x b)) a)) by (apply filter_In; rewrite E; auto).
    rewrite H in H0. easy.
  - induction a as [|x a IH]; intros H; [reflexivity|]. cbn [filter]. assert (E : smem x b = true) by (apply smem_in, H; left; auto).
    rewrite E. cbn. apply IH. intros c Hc. apply H. right; auto.
Qed.
(** a DataFrame is accepted exactly if its column names are those of the model (as sets); nothing is changed *)
Theorem C36_columns_checked expected (f : frame) :
  match validate_item expected (Df f) with
  | Ok i => i = Df f /\ (forall c, In c expected <-> In c (columns f))
  | Err _ => ~ (forall c, In c expected <-> In c (columns f))
  end.
Proof.
  cbn [validate_item]. destruct (set_minus expected (columns f)) as [|x l] eqn:E1.
  - rewrite set_minus_nil in E1. destruct (set_minus (columns f) expected) as [|y l] eqn:E2.
    + rewrite set_minus_nil in E2. split; auto. intros c; split; auto.
    + intros H. assert (E : set_minus (columns f) expected = []) by (apply set_minus_nil; intros c; apply H). congruence.
  - intros H. assert (E : set_minus expected (columns f) = []) by (apply set_minus_nil; intros c; apply H). congruence.
Qed.
Theorem C36_array_width expected n (m : list (list V)) : is_ok (validate_item expected (Arr n m)) = true <-> n = length expected.
Proof. cbn. destruct (Nat.eqb_spec n (length expected)); cbn; split; congruence. Qed.
(** the values used are those of the scenario, by position *)
Lemma replacement_df vs fx d name expected (f : frame) : dget vs name = Some expected -> dget d name = Some (Df f) ->
  length (rows f) = length (slabels fx) -> @replacement V vs fx d name = Ok (rows f).
Proof.
  intros E1 E2 E3. unfold replacement. rewrite E1, E2. cbn [finalize_item]. destruct (same_index _ _); [reflexivity|]. rewrite E3, Nat.eqb_refl. reflexivity.
Qed.
Theorem C36_same_order_partial vs fx d name expected (f : frame) : dget vs name = Some expected -> dget d name = Some (Df f) -> length (rows f) = length (slabels fx) ->
  columns f = expected -> exists m, @replacement V vs fx d name = Ok m /\ forall c t, used expected m c t = named f c t.
Proof.
  intros E1 E2 E3 E4. exists (rows f). split; [eapply replacement_df; eauto|]. intros c t. unfold used, named. now rewrite E4.
Qed.
(** columns in another order are accepted, and the model then reads its column c from the scenario's column that merely has the same position *)
Theorem C36_order_refuted vs fx d name expected (f : frame) c i j : dget vs name = Some expected -> dget d name = Some (Df f) -> length (rows f) = length (slabels fx) ->
  position_of c expected = Some i -> position_of c (columns f) = Some j ->
  exists m, @replacement V vs fx d name = Ok m /\ forall t row, nth_error (rows f) t = Some row ->
    used expected m c t = nth_error row i /\ named f c t = nth_error row j.
Proof.
  intros E1 E2 E3 Ei Ej. exists (rows f). split; [eapply replacement_df; eauto|]. intros t row Hr. unfold used, named. now rewrite Ei, Ej, Hr.
Qed.
(** names: a variable the model does not have is rejected at once, a missing one when its data are needed *)
Theorem C36_unknown_variable vs (d : list (string * item)) name i : In (name, i) d -> dget vs name = None -> is_ok (validate_scenario vs d) = false.
Proof.
  intros Hin Hn. assert (E : is_ok (validate_items vs d) = false).
  { induction d as [|[k x] d IH]; [easy|]. cbn [validate_items]. destruct Hin as [H|H].
    - inversion H; subst. now rewrite Hn.
    - destruct (dget vs k); [|reflexivity]. destruct (validate_item _ x); [|reflexivity]. cbn [bind].
      specialize (IH H). destruct (validate_items vs d); [discriminate|reflexivity]. }
  unfold validate_scenario. destruct (validate_items vs d); [discriminate|reflexivity].
Qed.
(** a dictionary of scenarios is accepted only if all its items have the same number of rows and all its tables the same labels *)
Theorem C36_consistent vs (d d' : list (string * item)) : validate_scenario vs d = Ok d' ->
  (exists n, forall name i, In (name, i) d' -> item_len i = Some n) /\
  (forall a f b g, In (a, Df f) d' -> In (b, Df g) d' -> slabels (fidx f) = slabels (fidx g)).
Proof.
  unfold validate_scenario. destruct (validate_items vs d) as [r|]; [|discriminate]. cbn [bind]. destruct r as [|[k0 i0] r0] eqn:Er; [discriminate|]. rewrite <- Er in *. clear Er.
  destruct (item_len i0) as [n|]; [|discriminate]. destruct (existsb _ r) eqn:Ex; [discriminate|]. intros H.
  assert (L : forall name i, In (name, i) r -> item_len i = Some n).
  { intros name i Hin. apply not_true_iff_false in Ex. destruct (item_len i) as [m|] eqn:El.
    - destruct (Nat.eqb_spec m n) as [->|Hne]; [reflexivity|]. exfalso. apply Ex. apply existsb_exists. exists (name, i). split; auto. cbn [snd]. rewrite El. apply negb_true_iff. now apply Nat.eqb_neq.
    - exfalso. apply Ex. apply existsb_exists. exists (name, i). split; auto. cbn [snd]. now rewrite El. }
  assert (S : forall a b, same_index a b = true -> slabels a = slabels b).
  { intros a b. unfold same_index. destruct (list_eq_dec _ _ _); congruence. }
  assert (I : forall a f, In (a, Df f) r -> In (fidx f) (frame_indices r)).
  { intros a f Hin. apply in_flat_map. exists (a, Df f). split; auto. now left. }
  destruct (frame_indices r) as [|ix0 ixs] eqn:Ef.
  - injection H as <-. split; [exists n; exact L|]. intros a f b g Ha _. destruct (I _ _ Ha).
  - destruct (forallb _ ixs) eqn:Ea; [|discriminate]. injection H as <-. split; [exists n; exact L|].
    rewrite forallb_forall in Ea. assert (J : forall a f, In (a, Df f) r -> slabels (fidx f) = slabels ix0).
    { intros a f Hin. destruct (I _ _ Hin) as [<-|Hi]; auto. }
    intros a f b g Ha Hb. rewrite (J _ _ Ha), (J _ _ Hb). reflexivity.
Qed.
Theorem C36_missing_variable vs fx (d : list (string * item)) name : dget d name = None -> is_ok (replacement vs fx d name) = false.
Proof. intros E. unfold replacement. rewrite E. now destruct (dget vs name). Qed.
(** the replaced values cover the forecast exactly *)
Theorem C36_values_cover_forecast vs fx (d : list (string * item)) name m :
  (forall n f, dget d n = Some (Df f) -> length (slabels (fidx f)) = length (rows f)) -> (forall n jx l, dget d n = Some (Ser jx l) -> length (slabels jx) = length l) ->
  replacement vs fx d name = Ok m -> length m = length (slabels fx).
Proof.
  intros W1 W2. unfold replacement. destruct (dget vs name) as [expected|]; [|discriminate]. destruct (dget d name) as [i|] eqn:Ed; [|discriminate].
  assert (S : forall a, same_index a fx = true -> slabels a = slabels fx).
  { intros a. unfold same_index. destruct (list_eq_dec _ _ _); congruence. }
  destruct i as [f|jx l|n a|l|]; cbn [finalize_item]; try discriminate.
  - destruct (same_index (fidx f) fx) eqn:E; cbn [bind].
    + intros H; inversion H; subst. rewrite <- (S _ E). symmetry. eauto.
    + destruct (Nat.eqb_spec (length (rows f)) (length (slabels fx))); [|discriminate]. intros H; inversion H; subst. auto.
  - destruct expected; [discriminate|]. destruct (same_index jx fx) eqn:E; cbn [bind].
    + intros H; inversion H; subst. cbn [rows]. rewrite map_length, <- (S _ E). symmetry. eauto.
    + destruct (Nat.eqb_spec (length l) (length (slabels fx))); [|discriminate]. intros H; inversion H; subst. cbn. now rewrite map_length.
  - destruct (Nat.eqb_spec (length a) (length (slabels fx))); [|discriminate]. intros H; inversion H; subst. auto.
Qed.
(** the caller's DataFrame gets the labels of the forecast *)
Theorem C36_caller_modified_refuted expected fx (f : frame) : slabels (fidx f) <> slabels fx -> length (rows f) = length (slabels fx) ->
  exists used_ f', finalize_item expected fx (Df f) = Ok (used_, Df f') /\ fidx f' = fx /\ Df f' <> Df f.
Proof.
  intros Hne Hl. cbn [finalize_item]. unfold same_index. destruct (list_eq_dec _ _ _); [tauto|]. rewrite Hl, Nat.eqb_refl.
  eexists; eexists; split; [reflexivity|]. split; [reflexivity|]. intros H; inversion H as [H1]. rewrite <- H1 in Hne. cbn in Hne. tauto.
Qed.
End C36.
(** a swapped pair of columns, and a repeated column that makes the table too wide *)
Example C36_example :
  let f := {| columns := ["b"; "a"]%string; fidx := SInt [10]; rows := [[1; 2]] |} in
  let g := {| columns := ["a"; "a"; "b"]%string; fidx := SInt [10]; rows := [[1; 2; 3]] |} in
  let vs := [("x", ["a"; "b"])]%string in
  validate_scenario vs [("x"%string, Df f)] = Ok [("x"%string, Df f)] /\
  replacement vs (SInt [10]) [("x"%string, Df f)] "x" = Ok [[1; 2]] /\
  used ["a"; "b"]%string [[1; 2]] "a" 0 = Some 1 /\ named f "a" 0 = Some 2 /\
  validate_scenario vs [("x"%string, Df g)] = Ok [("x"%string, Df g)].
Proof. repeat split. Qed.
