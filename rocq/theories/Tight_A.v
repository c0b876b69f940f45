(** Three small facts that pin down helpers the other theorems use only on part of their domain: C40 for fill markers that are
    not finite numbers, C05 for negative and non-negative integer keys, and the names pymc's default selection hides. *)
From Verif Require Import Common Dict.
From Verif Require Import Data_Model Data_Props.
From Verif Require FindMap_Model Dims_Model.
Require Import Ascii String.
Import List ListNotations.
Open Scope nat_scope.

(** * C40: fill markers that are infinities or NaN *)
(** With an infinite marker, data are refused exactly when they contain that infinity; accepted data have exactly their NaN
    and infinite entries taken as missing, and nothing is lost at the finite ones.  In particular the collision check
    then also works without a NaN in the data. *)
Theorem C40_infinite_marker m fill : chosen fill = PInf \/ chosen fill = NInf ->
  (contains m (chosen fill) -> fit_data m fill = Err ValueError) /\
  (~ contains m (chosen fill) -> exists y missing, fit_data m fill = Ok (y, missing) /\
     forall t i v, entry m t i = Some v ->
       (flag missing t i = Some true <-> (v = NaN \/ v = PInf \/ v = NInf)) /\
       (forall z, v = Fin z -> entry y t i = Some v)).
Proof.
  intros Hc. unfold fit_data, mask_missing_values_in_data. fold (chosen fill).
  assert (Heq : forall v, val_eq v (chosen fill) = true <-> v = chosen fill).
  { intros v. destruct Hc as [-> | ->]; destruct v; simpl; split; congruence. }
  assert (Hinv : invalid (chosen fill) = true) by (destruct Hc as [-> | ->]; auto).
  split; intros C.
  - replace (any invalid m) with true by (symmetry; apply any_spec; eauto).
    replace (any (fun v => val_eq v (chosen fill)) m) with true; auto.
    symmetry. apply any_spec. exists (chosen fill). split; auto. apply Heq. auto.
  - replace (any (fun v => val_eq v (chosen fill)) m) with false.
    2:{ symmetry. destruct (any _ m) eqn:E; auto. apply any_spec in E as (v&Cv&P). apply Heq in P. subst v. tauto. }
    rewrite andb_false_r. cbn [bind]. do 2 eexists. split; [reflexivity|]. intros t i v E. unfold filter_missing. fold (chosen fill).
    rewrite flag_mmap, !entry_mmap, E. cbn [option_map]. split.
    + destruct Hc as [-> | ->]; destruct v; cbn; split; auto; try discriminate; intros [?|[?|?]]; discriminate.
    + intros z ->. reflexivity.
Qed.
(** With NaN as the marker nothing is ever refused, and the NaN and infinite entries are taken as missing. *)
Theorem C40_nan_marker m : exists y missing, fit_data m (Some NaN) = Ok (y, missing) /\
  forall t i v, entry m t i = Some v ->
    (flag missing t i = Some true <-> (v = NaN \/ v = PInf \/ v = NInf)) /\ (forall z, v = Fin z -> entry y t i = Some v).
Proof.
  unfold fit_data, mask_missing_values_in_data.
  replace (any (fun v => val_eq v NaN) m) with false.
  2:{ symmetry. destruct (any _ m) eqn:E; auto. apply any_spec in E as (v&Cv&P). destruct v; discriminate. }
  rewrite andb_false_r. cbn [bind]. do 2 eexists. split; [reflexivity|]. intros t i v E. unfold filter_missing.
  rewrite flag_mmap, !entry_mmap, E. cbn [option_map]. split.
  - destruct v; cbn; split; auto; try discriminate; intros [?|[?|?]]; discriminate.
  - intros z ->. reflexivity.
Qed.
Example C40_infinite_marker_example :
  fit_data [[Fin 1; PInf]] (Some PInf) = Err ValueError /\
  fit_data [[Fin 1; NInf]] (Some PInf) = Ok ([[Fin 1; PInf]], [[false; true]]).
Proof. split; reflexivity. Qed.

(** * C05: integer keys *)
(** An integer key in range addresses the position it has modulo the length of the axis. *)
Theorem C05_integer_key n z : (- Z.of_nat n <= z < Z.of_nat n)%Z -> Z.of_nat (Dims_Model.to_index n z) = (z mod Z.of_nat n)%Z.
Proof.
  intros H. unfold Dims_Model.to_index. destruct (Z.ltb_spec z 0).
  - rewrite Z2Nat.id by lia. rewrite <- (Z.mod_small (z + Z.of_nat n) (Z.of_nat n)) by lia.
    rewrite <- (Z.mul_1_l (Z.of_nat n)) at 1. apply Z.mod_add. lia.
  - rewrite Z2Nat.id by lia. symmetry. apply Z.mod_small. lia.
Qed.
Example C05_integer_key_example : Dims_Model.to_index 5 (-2) = 3 /\ Dims_Model.to_index 5 0 = 0.
Proof. split; reflexivity. Qed.

(** * C77: which names the default selection hides *)
(** Exactly the names that end in two underscores and contain at least three. *)
Theorem C77_hidden_names s : FindMap_Model.is_transformed_name s = true <->
  (exists r, s = (r ++ "__")%string) /\ 3 <= count_occ Ascii.ascii_dec (list_ascii_of_string s) "_"%char.
Proof.
  unfold FindMap_Model.is_transformed_name. rewrite andb_true_iff, Nat.leb_le.
  assert (C : FindMap_Model.count_us s = count_occ Ascii.ascii_dec (list_ascii_of_string s) "_"%char).
  { induction s as [|c r IH]; auto. cbn -[Ascii.eqb]. rewrite IH. destruct (Ascii.ascii_dec c "_"%char) as [->|N].
    - rewrite Ascii.eqb_refl. reflexivity.
    - apply Ascii.eqb_neq in N. rewrite N. reflexivity. }
  rewrite C. apply and_iff_compat_r. clear C. split.
  - induction s as [|c r IH]; [discriminate|]. destruct r as [|c' r'].
    + discriminate.
    + destruct r' as [|c'' r''].
      * cbn -[Ascii.eqb]. rewrite andb_true_iff, !Ascii.eqb_eq. intros [-> ->]. exists ""%string. reflexivity.
      * intros H. destruct IH as (q&Hq); [exact H|]. exists (String c q). rewrite Hq. reflexivity.
  - intros (q&->). induction q as [|c q IH]; [reflexivity|]. cbn [append]. destruct q as [|c' q].
    + reflexivity.
    + destruct q; exact IH.
Qed.
(** So the value variable of a transformed random variable is always hidden: its name is the variable's, an underscore, the
    transform's name and two underscores. *)
Theorem C77_transformed_hidden rv t : FindMap_Model.is_transformed_name (rv ++ "_" ++ t ++ "__") = true.
Proof.
  apply C77_hidden_names. split.
  - exists (rv ++ "_" ++ t)%string.
    assert (As : forall a b c : string, ((a ++ b) ++ c = a ++ (b ++ c))%string) by (induction a as [|x a IH]; intros b c; cbn; [auto|rewrite IH; auto]).
    rewrite !As. reflexivity.
  - assert (App : forall a b, list_ascii_of_string (a ++ b) = (list_ascii_of_string a ++ list_ascii_of_string b)%list)
      by (induction a as [|c a IH]; intros b; cbn; [auto|rewrite IH; auto]).
    rewrite !App, !count_occ_app. cbn. lia.
Qed.
Example C77_hidden_example : FindMap_Model.is_transformed_name "sigma_log__" = true /\ FindMap_Model.is_transformed_name "sigma_log_" = false
  /\ FindMap_Model.is_transformed_name "sigma__" = false.
Proof. repeat split; reflexivity. Qed.
