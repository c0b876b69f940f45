(** C105: StandardScalerDF standardizes every column and keeps the labels. *)
From Coq Require Import String Reals List Lra Lia Psatz.
From Verif Require Import Common Scaler_Model.
Import ListNotations.
Open Scope R_scope.

(** * Specification *)
(** [numbers c]: the entries of a column that are not NaN, in order *)
Definition numbers (c : list (option R)) : list R := flat_map (fun v => match v with Some x => [x] | None => [] end) c.
Fixpoint total (l : list R) : R := match l with [] => 0 | v :: r => v + total r end.
Definition mean_of (l : list R) : R := total l / INR (length l).
Definition variance_of (l : list R) : R := mean_of (map (fun v => (v - mean_of l)²) l).
Definition constant (l : list R) : Prop := exists v, forall w, In w l -> w = v.
(** every column has one entry per row label, and there is one column per column label *)
Definition well_formed {L} (X : frame L) : Prop :=
  length (f_cols X) = length (f_columns X) /\ Forall (fun c => length c = length (f_index X)) (f_cols X).
(** the number a value becomes, given the numbers of the training column *)
Definition standardized (l : list R) (x : R) : R := (x - mean_of l) / (if Req_EM_T (variance_of l) 0 then 1 else sqrt (variance_of l)).

(** * Proofs *)
Lemma present_numbers c : present c = numbers c.
Proof. induction c as [|[v|] c IH]; cbn; [easy|now rewrite IH|easy]. Qed.
Lemma lsum_total l : lsum l = total l.
Proof. induction l; cbn; [easy|]. unfold lsum in IHl. now rewrite IHl. Qed.
Lemma mean_E l : np_mean l = mean_of l.
Proof. unfold np_mean, mean_of. now rewrite lsum_total. Qed.
Lemma var_E l : np_var l = variance_of l.
Proof. unfold np_var, variance_of, mean_of at 1. rewrite lsum_total, map_length, mean_E. reflexivity. Qed.
Lemma total_nonneg l : (forall v, In v l -> 0 <= v) -> 0 <= total l.
Proof. induction l as [|a l IH]; cbn; intros H; [lra|]. assert (0 <= a) by auto. assert (0 <= total l) by (apply IH; auto). lra. Qed.
Lemma total_zero l : (forall v, In v l -> 0 <= v) -> total l = 0 -> forall v, In v l -> v = 0.
Proof.
  induction l as [|a l IH]; cbn; [easy|]; intros H E v [<-|I]; assert (0 <= a) by auto; assert (0 <= total l) by (apply total_nonneg; auto).
  - lra.
  - apply IH; auto; lra.
Qed.
Lemma len_pos {A} (l : list A) : l <> [] -> 0 < INR (length l).
Proof. destruct l; [easy|]. intros _. apply lt_0_INR. cbn. lia. Qed.
Lemma var_nonneg l : l <> [] -> 0 <= variance_of l.
Proof.
  intros N. unfold variance_of, mean_of at 1. apply Rmult_le_pos.
  - apply total_nonneg. intros v H. apply in_map_iff in H as (w & <- & _). apply Rle_0_sqr.
  - left. apply Rinv_0_lt_compat, len_pos. destruct l; easy.
Qed.
Lemma total_map_affine (f : R -> R) a b l : (forall x, f x = a * x + b) -> total (map f l) = a * total l + INR (length l) * b.
Proof.
  intros F. induction l as [|v l IH]; [cbn; lra|]. cbn [map total]. rewrite IH, F. cbn [length]. rewrite S_INR. lra.
Qed.
Lemma mean_map_affine (f : R -> R) a b l : l <> [] -> (forall x, f x = a * x + b) -> mean_of (map f l) = a * mean_of l + b.
Proof.
  intros N F. unfold mean_of. rewrite (total_map_affine f a b l F), map_length. pose proof (len_pos l N). field. lra.
Qed.
Lemma variance_map_affine (f : R -> R) a b l : l <> [] -> (forall x, f x = a * x + b) -> variance_of (map f l) = a * a * variance_of l.
Proof.
  intros N F. unfold variance_of at 1. rewrite (mean_map_affine f a b l N F), map_map.
  unfold variance_of. set (m := mean_of l). unfold mean_of at 1 2. rewrite !map_length.
  assert (H : total (map (fun x => (f x - (a * m + b))²) l) = a * a * total (map (fun v => (v - m)²) l)).
  { clear N. generalize m. clear m. intros m. induction l as [|v l IH]; [cbn; lra|]. cbn [map total]. rewrite IH, F. unfold Rsqr. lra. }
  rewrite H. pose proof (len_pos l N). field. lra.
Qed.
Lemma var_zero_const l : l <> [] -> (variance_of l = 0 <-> forall w, In w l -> w = mean_of l).
Proof.
  intros N. pose proof (len_pos l N) as P. unfold variance_of, mean_of at 1. rewrite map_length. split.
  - intros E w I. assert (Z : total (map (fun v => (v - mean_of l)²) l) = 0).
    { apply Rmult_integral in E as [E|E]; [exact E|]. apply Rinv_neq_0_compat in E; [easy|lra]. }
    assert (Q : (w - mean_of l)² = 0).
    { apply (total_zero _) with (2 := Z). - intros v H. apply in_map_iff in H as (u & <- & _). apply Rle_0_sqr. - apply in_map_iff. eauto. }
    apply Rsqr_0_uniq in Q. lra.
  - intros C. replace (total (map (fun v => (v - mean_of l)²) l)) with 0; [lra|].
    symmetry. revert C. generalize (mean_of l). clear. intros m C. induction l as [|a l IH]; cbn; [easy|]. rewrite IH by (intros; apply C; cbn; auto).
    rewrite (C a) by (cbn; auto). unfold Rsqr. lra.
Qed.
Lemma constant_mean l : l <> [] -> constant l -> forall w, In w l -> w = mean_of l.
Proof.
  intros N [v C] w I. rewrite (C w I). unfold mean_of. pose proof (len_pos l N).
  assert (E : total l = INR (length l) * v).
  { clear N I H. induction l as [|a l IH]; [cbn; lra|]. cbn [total length]. rewrite IH by (intros; apply C; cbn; auto). rewrite (C a) by (cbn; auto). rewrite S_INR. lra. }
  rewrite E. field. lra.
Qed.
Lemma fit_col_E c : fit_col c = match numbers c with [] => None | l => Some (mean_of l, if Req_EM_T (variance_of l) 0 then 1 else sqrt (variance_of l)) end.
Proof.
  unfold fit_col. rewrite present_numbers. destruct (numbers c) as [|v l] eqn:E; [easy|]. rewrite <- E in *. rewrite mean_E, var_E.
  assert (N : numbers c <> []) by (rewrite E; easy). pose proof (var_nonneg _ N). f_equal. f_equal.
  destruct (Req_EM_T (sqrt (variance_of (numbers c))) 0) as [Z|Z], (Req_EM_T (variance_of (numbers c)) 0) as [Z'|Z']; auto.
  - exfalso. apply Z'. now apply sqrt_eq_0.
  - exfalso. apply Z. now rewrite Z', sqrt_0.
Qed.
Lemma entry_E c v : numbers c <> [] -> entry true true (fit_col c) v = option_map (standardized (numbers c)) v.
Proof.
  intros N. rewrite fit_col_E. destruct (numbers c) as [|a l] eqn:E; [easy|]. rewrite <- E. destruct v; [|easy]. reflexivity.
Qed.
Lemma numbers_map f c : numbers (map (option_map f) c) = map f (numbers c).
Proof. unfold numbers. induction c as [|[v|] c IH]; cbn; [reflexivity|now rewrite IH|exact IH]. Qed.
Lemma standardized_affine l : l <> [] -> exists a, a = / (if Req_EM_T (variance_of l) 0 then 1 else sqrt (variance_of l)) /\ forall x, standardized l x = a * x + - a * mean_of l.
Proof. intros N. eexists. split; [reflexivity|]. intros x. unfold standardized, Rdiv. lra. Qed.
Lemma combine_fst_snd {A B C} (g : A -> B -> C) (la : list A) (lb : list B) k a b :
  nth_error la k = Some a -> nth_error lb k = Some b -> nth_error (map (fun p => g (fst p) (snd p)) (combine la lb)) k = Some (g a b).
Proof. revert lb k. induction la as [|x la IH]; intros [|y lb] [|k]; cbn; try easy. - congruence. - apply IH. Qed.

(** * Theorems *)
(** Any frame X with at least one row and column (with or without NaN): fit_transform succeeds; the frame it returns has X's row and column
    labels, in X's order; NaN exactly where X has NaN; and each column that has a number has mean 0, and variance 1 (0 if the column is constant). *)
Theorem C105_standardized : forall (L : Type) (s : scaler) (X : frame L),
  with_mean s = true -> with_std s = true -> well_formed X -> f_index X <> [] -> f_columns X <> [] ->
  exists s' Z, fit_transform s X = Ok (s', Z) /\ f_index Z = f_index X /\ f_columns Z = f_columns X /\ well_formed Z /\
  forall k c, nth_error (f_cols X) k = Some c -> exists z, nth_error (f_cols Z) k = Some z /\
    (forall i, nth_error z i = Some None <-> nth_error c i = Some None) /\
    (numbers c <> [] -> mean_of (numbers z) = 0 /\ (~ constant (numbers c) -> variance_of (numbers z) = 1) /\ (constant (numbers c) -> forall v, In v (numbers z) -> v = 0)).
Proof.
  intros L s X M S [W1 W2] NI NC. unfold fit_transform, fit.
  destruct (f_index X) as [|i0 ix] eqn:EI; [easy|]. destruct (f_columns X) as [|c0 cx] eqn:EC; [easy|]. rewrite M, S.
  unfold transform, sk_transform. cbn [fitted with_mean with_std]. rewrite EI, EC. destruct (list_eq_dec _ _ _) as [_|N]; [|easy].
  eexists _, _. split; [reflexivity|]. cbn [f_index f_columns f_cols]. split; [easy|]. split; [easy|].
  set (zs := map _ (combine _ _)).
  assert (K : forall k c, nth_error (f_cols X) k = Some c -> nth_error zs k = Some (map (entry true true (fit_col c)) c)).
  { intros k c E. unfold zs. apply (combine_fst_snd (fun ms c => map (entry true true ms) c)); [|easy]. now apply map_nth_error. }
  split.
  - split; cbn [f_index f_columns f_cols].
    + unfold zs. rewrite map_length, combine_length, map_length, Nat.min_id. now rewrite W1, ?EC.
    + apply Forall_forall. intros z I. unfold zs in I. apply in_map_iff in I as ((ms & c) & <- & I). cbn. rewrite map_length.
      apply in_combine_r in I. rewrite Forall_forall in W2. now apply W2.
  - intros k c E. exists (map (entry true true (fit_col c)) c). split; [now apply K|].
    destruct (numbers c) as [|a l] eqn:EN.
    + split; [|easy]. intros i. rewrite nth_error_map. destruct (nth_error c i) as [[v|]|] eqn:Ei; cbn; try easy.
      exfalso. apply nth_error_In in Ei. assert (I : In v (numbers c)) by (apply in_flat_map; exists (Some v); cbn; auto). rewrite EN in I. easy.
    + rewrite <- EN. assert (N : numbers c <> []) by (rewrite EN; easy).
      assert (EM : map (entry true true (fit_col c)) c = map (option_map (standardized (numbers c))) c) by (apply map_ext; intros; now apply entry_E).
      rewrite EM, numbers_map. split.
      * intros i. rewrite nth_error_map. destruct (nth_error c i) as [[v|]|]; cbn; split; congruence.
      * intros _. destruct (standardized_affine _ N) as (q & Eq & F). rewrite (mean_map_affine _ _ _ _ N F), (variance_map_affine _ _ _ _ N F).
        split; [lra|]. split.
        -- intros NK. pose proof (var_nonneg _ N) as V. destruct (Req_EM_T (variance_of (numbers c)) 0) as [Z|Z].
           ++ exfalso. apply NK. exists (mean_of (numbers c)). now apply var_zero_const.
           ++ assert (0 < variance_of (numbers c)) by lra. pose proof (sqrt_lt_R0 _ H) as P. rewrite Eq.
              rewrite <- (sqrt_sqrt (variance_of (numbers c))) at 3 by lra. field. lra.
        -- intros KK v I. apply in_map_iff in I as (w & <- & I). unfold standardized. rewrite <- (constant_mean _ N KK w I). unfold Rdiv. lra.
Qed.
Print Assumptions C105_standardized.

(** A scaler fitted on X and applied to any other frame Y: an error unless Y's columns carry X's names in X's order; otherwise a frame with Y's labels in
    which entry x of column k is (x - mean) / sd with the mean and standard deviation of column k of X (sd 1 for a constant column), NaN staying NaN.
    It depends on nothing else: not on the other rows of Y, nor on a previous fit. *)
Theorem C105_transform_uses_training_moments : forall (L M : Type) (s s' : scaler) (X : frame L) (Y : frame M),
  with_mean s = true -> with_std s = true -> well_formed X -> well_formed Y -> fit s X = Ok s' -> f_index Y <> [] ->
  (f_columns Y <> f_columns X -> transform s' Y = Err ValueError) /\
  (f_columns Y = f_columns X -> exists Z, transform s' Y = Ok Z /\ f_index Z = f_index Y /\ f_columns Z = f_columns Y /\ well_formed Z /\
   forall k c y, nth_error (f_cols X) k = Some c -> nth_error (f_cols Y) k = Some y -> exists z, nth_error (f_cols Z) k = Some z /\
   (numbers c <> [] -> z = map (option_map (standardized (numbers c))) y) /\ (numbers c = [] -> forall v, In v z -> v = None)).
Proof.
  intros L M s s' X Y Em Es [WX _] [WY WY2] F NI. unfold fit in F.
  destruct (f_index X) as [|i0 ix]; [easy|]. destruct (f_columns X) as [|c0 cx] eqn:EC; [easy|]. injection F as <-. rewrite Em, Es.
  unfold transform, sk_transform. cbn [fitted with_mean with_std]. destruct (f_index Y) as [|j0 jx] eqn:EJ; [easy|]. split.
  - intros N. destruct (list_eq_dec _ _ _) as [E|_]; [|easy]. now rewrite E in N.
  - intros E. destruct (list_eq_dec _ _ _) as [_|N]; [|now rewrite E in N]. eexists. split; [reflexivity|]. cbn [f_index f_columns f_cols].
    split; [easy|]. split; [easy|]. split.
    + split; cbn [f_index f_columns f_cols].
      * rewrite map_length, combine_length, map_length, WX, WY, E. apply Nat.min_id.
      * apply Forall_forall. intros z I. apply in_map_iff in I as ((ms & c) & <- & I). cbn. rewrite map_length.
        apply in_combine_r in I. rewrite Forall_forall in WY2. now apply WY2.
    + intros k c y Ec Ey. exists (map (entry true true (fit_col c)) y). split.
      * apply (combine_fst_snd (fun ms c => map (entry true true ms) c)); [|easy]. now apply map_nth_error.
      * split.
        -- intros N. apply map_ext. intros v. now apply entry_E.
        -- intros N v I. apply in_map_iff in I as (w & <- & _). rewrite fit_col_E, N. now destruct w.
Qed.
Print Assumptions C105_transform_uses_training_moments.

(** The standardized values do not depend on the unit of measurement: x -> a x + b with a > 0 changes nothing (unless the column is constant). *)
Theorem C105_unit_free : forall (l : list R) (a b x : R), ~ constant l -> 0 < a ->
  standardized (map (fun v => a * v + b) l) (a * x + b) = standardized l x.
Proof.
  intros l a b x K A. assert (N : l <> []) by (intros ->; apply K; exists 0; easy).
  unfold standardized. rewrite (mean_map_affine _ a b l N) by reflexivity. rewrite (variance_map_affine _ a b l N) by reflexivity.
  destruct (Req_EM_T (variance_of l) 0) as [Z|Z].
  - exfalso. apply K. exists (mean_of l). now apply var_zero_const.
  - destruct (Req_EM_T (a * a * variance_of l) 0) as [Z'|Z'].
    + exfalso. apply Rmult_integral in Z' as [Z'|]; [|easy]. assert (0 < a * a) by (apply Rmult_lt_0_compat; lra). lra.
    + rewrite sqrt_mult_alt by (apply Rle_0_sqr). rewrite sqrt_square by lra. assert (V : 0 < variance_of l) by (pose proof (var_nonneg _ N); lra).
      pose proof (sqrt_lt_R0 _ V). field. split; lra.
Qed.
Print Assumptions C105_unit_free.

(** The options: without with_std the values are only centred, without with_mean only rescaled, without both they are X's own. *)
Theorem C105_options : forall (L : Type) (s s' : scaler) (X Z : frame L) k c z, well_formed X ->
  fit_transform s X = Ok (s', Z) -> nth_error (f_cols X) k = Some c -> nth_error (f_cols Z) k = Some z -> numbers c <> [] ->
  numbers z = map (fun x => (if with_mean s then x - mean_of (numbers c) else x) /
                           (if with_std s then (if Req_EM_T (variance_of (numbers c)) 0 then 1 else sqrt (variance_of (numbers c))) else 1)) (numbers c).
Proof.
  intros L s s' X Z k c z [W1 W2] E Ec Ez N. unfold fit_transform, fit in E. destruct (f_index X) eqn:EI; [easy|]. destruct (f_columns X) eqn:EC; [easy|].
  unfold transform, sk_transform in E. cbn [fitted with_mean with_std] in E. rewrite EI, EC in E. destruct (list_eq_dec _ _ _) as [_|]; [|easy].
  injection E as <- <-. cbn [f_cols] in Ez.
  rewrite (combine_fst_snd (fun ms c => map (entry (with_mean s) (with_std s) ms) c) _ _ k (fit_col c) c) in Ez; [|now apply map_nth_error|easy].
  injection Ez as <-. assert (NE : fit_col c = Some (mean_of (numbers c), if Req_EM_T (variance_of (numbers c)) 0 then 1 else sqrt (variance_of (numbers c)))) by (rewrite fit_col_E; destruct (numbers c); easy).
  rewrite NE. set (d := if Req_EM_T _ _ then _ else _).
  set (f := fun x => _ / _). replace (map (entry (with_mean s) (with_std s) (Some (mean_of (numbers c), d))) c) with (map (option_map f) c); [apply numbers_map|].
  apply map_ext. intros [v|]; [|easy]. unfold entry, f, option_map. destruct (with_mean s), (with_std s); cbn; unfold Rdiv; try reflexivity; f_equal; lra.
Qed.
Print Assumptions C105_options.

(** fit_transform leaves the scaler in the state fit would, and returns what transform would then return: later transforms of any
    frame are those of the fitted scaler, whatever the scaler was fitted on before. *)
Theorem C105_fit_transform : forall (L : Type) (s s' : scaler) (X Z : frame L),
  fit_transform s X = Ok (s', Z) <-> fit s X = Ok s' /\ transform s' X = Ok Z.
Proof.
  intros L s s' X Z. unfold fit_transform. destruct (fit s X) as [t|e] eqn:F; [|split; [easy|intros [? _]; easy]].
  unfold transform. destruct (sk_transform t X) as [z|e] eqn:T; cbn [f_cols].
  - split; [intros [= <- <-]; now rewrite T|]. intros [[= <-] E]. rewrite T in E. now injection E as <-.
  - split; [easy|]. intros [[= <-] E]. now rewrite T in E.
Qed.
Print Assumptions C105_fit_transform.

(** before fit, transform raises *)
Theorem C105_not_fitted : forall (L : Type) wm ws (X : frame L), transform (init wm ws) X = Err ValueError.
Proof. reflexivity. Qed.
Print Assumptions C105_not_fitted.

(** The hypotheses can be met: one column with the values 1, NaN, 3 becomes -1, NaN, 1. *)
Example C105_small : let X := Frame [10%nat; 11%nat; 12%nat] ["a"%string] [[Some 1; None; Some 3]] in
  well_formed X /\ ~ constant (numbers [Some 1; None; Some 3]) /\
  exists s', fit_transform (init true true) X = Ok (s', Frame [10%nat; 11%nat; 12%nat] ["a"%string] [[Some (-1); None; Some 1]]).
Proof.
  assert (V : variance_of (numbers [Some 1; None; Some 3]) = 1) by (unfold variance_of, mean_of; cbn; unfold Rsqr; lra).
  assert (K : mean_of (numbers [Some 1; None; Some 3]) = 2) by (unfold mean_of; cbn; lra).
  split; [split; cbn; auto|]. split.
  - intros [v H]. assert (1 = v) by (apply H; cbn; auto). assert (3 = v) by (apply H; cbn; auto). lra.
  - eexists. unfold fit_transform, fit, transform, sk_transform. cbn [f_index f_columns f_cols fitted with_mean with_std init].
    destruct (list_eq_dec _ _ _) as [_|]; [|easy]. cbn [map combine fst snd].
    rewrite fit_col_E. cbn [numbers flat_map app] in *. rewrite V, K. destruct (Req_EM_T 1 0); [lra|]. rewrite sqrt_1. cbn [entry orb].
    replace ((1 - 2) / 1) with (-1) by lra. replace ((3 - 2) / 1) with 1 by lra. reflexivity.
Qed.
