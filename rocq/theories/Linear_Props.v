(** C82: predictions of the linear model. *)
From Coq Require Import Reals Lra.
From Verif Require Import Common Linear_Model.
Open Scope R_scope.

(** sum of [f 0 .. f (n-1)] *)
Fixpoint rsum (n : nat) (f : nat -> R) : R := match n with O => 0 | S n => rsum n f + f n end.
(** a frame with one column holding [xs] *)
Definition column (xs : list R) : frame := {| rows := map (fun v => [v]) xs; p := 1 |}.
(** a posterior of [C] chains with [D] draws each *)
Definition rectangular (q : list (list draw)) (C D : nat) : Prop :=
  length q = C /\ Forall (fun c => length c = D) q /\ (0 < C)%nat /\ (0 < D)%nat.
Definition d0 : draw := {| intercept := 0; slope := 0; sigma := 0 |}.
Definition at_ (q : list (list draw)) (c d : nat) : draw := nth d (nth c q []) d0.

Lemma combine_seq_map {A B} (d : A) (f : nat * A -> B) l : forall b, map f (combine (seq b (length l)) l) = map (fun i => f (i, nth (i - b) l d)) (seq b (length l)).
Proof.
  induction l as [|a l IH]; intros b; cbn; auto. rewrite Nat.sub_diag. f_equal. rewrite IH. apply map_ext_in. intros i Hi. apply in_seq in Hi.
  replace (i - b)%nat with (S (i - S b)) by lia. reflexivity.
Qed.
Lemma combine_seq_map0 {A B} (d : A) (f : nat * A -> B) l : map f (combine (seq 0 (length l)) l) = map (fun i => f (i, nth i l d)) (seq 0 (length l)).
Proof. rewrite (combine_seq_map d). apply map_ext. intros i. rewrite Nat.sub_0_r. auto. Qed.
Lemma fold_app a b : fold_right Rplus 0 (a ++ b) = fold_right Rplus 0 a + fold_right Rplus 0 b.
Proof. induction a as [|x a IH]; cbn; [lra|]. rewrite IH. lra. Qed.
Lemma rsum_seq (f : nat -> R) n : fold_right Rplus 0 (map f (seq 0 n)) = rsum n f.
Proof. induction n as [|n IH]; cbn [rsum]; auto. rewrite seq_S, map_app, fold_app, IH. cbn. lra. Qed.
Lemma rsum_ext n f g : (forall i, (i < n)%nat -> f i = g i) -> rsum n f = rsum n g.
Proof. induction n as [|n IH]; intros H; cbn; auto. rewrite IH, H by (intros; try apply H; lia). auto. Qed.
Lemma rsum_plus n f g : rsum n (fun i => f i + g i) = rsum n f + rsum n g.
Proof. induction n as [|n IH]; cbn; [lra|]. rewrite IH. lra. Qed.
Lemma rsum_scal n f k : rsum n (fun i => k * f i) = k * rsum n f.
Proof. induction n as [|n IH]; cbn; [lra|]. rewrite IH. lra. Qed.
Lemma fold_concat (ll : list (list R)) : fold_right Rplus 0 (concat ll) = fold_right Rplus 0 (map (fold_right Rplus 0) ll).
Proof. induction ll as [|l ll IH]; cbn; auto. rewrite fold_app, IH. auto. Qed.
Lemma y_hat_len q x n : length (y_hat q x n) = length x.
Proof. unfold y_hat. rewrite map_length, combine_length, seq_length. lia. Qed.
Lemma y_hat_nth q x n i : (i < length x)%nat -> nth i (y_hat q x n) 0 = intercept q + slope q * nth i x 0 + sigma q * n i.
Proof.
  intros H. unfold y_hat. rewrite (combine_seq_map0 0). set (f := fun i0 : nat => _). rewrite (nth_indep _ 0 (f 0%nat)) by (rewrite map_length, seq_length; auto).
  rewrite map_nth, seq_nth by auto. reflexivity.
Qed.
Lemma predictive_eq q C D x noise : rectangular q C D ->
  predictive q x noise = map (fun c => map (fun d => y_hat (at_ q c d) x (noise c d)) (seq 0 D)) (seq 0 C).
Proof.
  intros (H1 & H2 & _). unfold predictive. rewrite (combine_seq_map0 []). rewrite H1. apply map_ext_in. intros c Hc. apply in_seq in Hc. cbn [fst snd].
  rewrite (combine_seq_map0 d0). rewrite Forall_forall in H2. rewrite (H2 (nth c q [])) by (apply nth_In; lia). reflexivity.
Qed.
Lemma squeeze_column xs : length xs <> 1%nat -> squeeze (column xs) = Vector xs.
Proof.
  intros H. unfold squeeze, column. cbn [rows p]. destruct xs as [|a [|b xs]]; cbn; auto; [cbn in H; lia|]. f_equal. f_equal. f_equal.
  rewrite map_map. cbn. apply map_id.
Qed.

(** One prediction per row, the average over all chains and draws of intercept + slope * x + sigma * noise; nothing else
    of the object matters. *)
Theorem C82_predict o q C D xs extend noise : model o <> None -> post o = Some q -> rectangular q C D -> length xs <> 1%nat ->
  exists ys, fst (predict o (column xs) extend noise) = Ok ys /\ length ys = length xs /\
  forall i, (i < length xs)%nat ->
    nth i ys 0 = rsum C (fun c => rsum D (fun d => intercept (at_ q c d) + slope (at_ q c d) * nth i xs 0 + sigma (at_ q c d) * noise c d i)) / (INR C * INR D).
Proof.
  intros Hm Hp Hq Hn. unfold predict, sample_posterior_predictive, data_setter. destruct (model o) as [m|]; [|congruence].
  rewrite squeeze_column by auto. cbn [as_vector]. cbn [model post with_model mx]. rewrite Hp. cbn [fst].
  assert (LH : length (hd [] (hd [] (predictive q xs noise))) = length xs).
  { rewrite (predictive_eq q C D) by auto. destruct Hq as (_ & _ & HC & HD). destruct C; [lia|]. destruct D; [lia|]. cbn [seq map hd]. apply y_hat_len. }
  rewrite LH. eexists. split; [reflexivity|]. split; [rewrite map_length, seq_length; auto|]. intros i Hi.
  set (f := fun i => mean _). rewrite (nth_indep _ 0 (f 0%nat)) by (rewrite map_length, seq_length; auto). rewrite map_nth, seq_nth by auto. unfold f, mean. cbn [Nat.add].
  rewrite (predictive_eq q C D) by auto. rewrite concat_map, fold_concat. rewrite !map_map. f_equal.
  - rewrite rsum_seq. apply rsum_ext. intros c Hc. rewrite map_map, rsum_seq. apply rsum_ext. intros d Hd. apply y_hat_nth; auto.
  - f_equal. rewrite <- mult_INR. f_equal. rewrite <- (map_map (fun c => map (fun d => y_hat (at_ q c d) xs (noise c d)) (seq 0 D)) (map (fun d => nth i d 0))).
    rewrite <- concat_map, map_length. clear. rewrite <- (seq_length C 0) at 2. induction (seq 0 C) as [|c l IH]; cbn; auto. rewrite app_length, map_length, seq_length, IH. lia.
Qed.
(** In particular the point prediction is the posterior mean line plus averaged noise. *)
Theorem C82_mean_line o q C D xs extend noise : model o <> None -> post o = Some q -> rectangular q C D -> length xs <> 1%nat ->
  exists ys A B, fst (predict o (column xs) extend noise) = Ok ys /\
  A = rsum C (fun c => rsum D (fun d => intercept (at_ q c d))) / (INR C * INR D) /\
  B = rsum C (fun c => rsum D (fun d => slope (at_ q c d))) / (INR C * INR D) /\
  forall i, (i < length xs)%nat -> nth i ys 0 = A + B * nth i xs 0 + rsum C (fun c => rsum D (fun d => sigma (at_ q c d) * noise c d i)) / (INR C * INR D).
Proof.
  intros Hm Hp Hq Hn. destruct (C82_predict o q C D xs extend noise Hm Hp Hq Hn) as (ys & E & L & V). exists ys. do 2 eexists. split; [exact E|]. split; [reflexivity|]. split; [reflexivity|].
  intros i Hi. rewrite V by auto. destruct Hq as (_ & _ & HC & HD). assert (INR C * INR D <> 0) by (apply Rmult_integral_contrapositive; split; apply not_0_INR; lia).
  rewrite (rsum_ext C _ (fun c => (rsum D (fun d => intercept (at_ q c d)) + nth i xs 0 * rsum D (fun d => slope (at_ q c d))) + rsum D (fun d => sigma (at_ q c d) * noise c d i))).
  - rewrite !rsum_plus, rsum_scal. field. split; apply not_0_INR; lia.
  - intros c Hc. rewrite !rsum_plus. f_equal. f_equal. rewrite <- rsum_scal. apply rsum_ext. intros. lra.
Qed.
(** predict_posterior: the full table, rows by (chain, draw) pairs in order. *)
Theorem C82_predict_posterior o q C D xs extend noise : model o <> None -> post o = Some q -> rectangular q C D -> length xs <> 1%nat ->
  exists t, fst (predict_posterior o (column xs) extend noise) = Ok t /\ length t = length xs /\
  forall i, (i < length xs)%nat -> length (nth i t []) = (C * D)%nat /\ forall c d, (c < C)%nat -> (d < D)%nat ->
    nth (c * D + d) (nth i t []) 0 = intercept (at_ q c d) + slope (at_ q c d) * nth i xs 0 + sigma (at_ q c d) * noise c d i.
Proof.
  intros Hm Hp Hq Hn. unfold predict_posterior, sample_posterior_predictive, data_setter. destruct (model o) as [m|]; [|congruence].
  rewrite squeeze_column by auto. cbn [as_vector]. cbn [model post with_model mx]. rewrite Hp. cbn [fst].
  assert (LH : length (hd [] (hd [] (predictive q xs noise))) = length xs).
  { rewrite (predictive_eq q C D) by auto. destruct Hq as (_ & _ & HC & HD). destruct C; [lia|]. destruct D; [lia|]. cbn [seq map hd]. apply y_hat_len. }
  rewrite LH. eexists. split; [reflexivity|]. split; [rewrite map_length, seq_length; auto|]. intros i Hi.
  set (f := fun i => map _ _). rewrite (nth_indep _ [] (f 0%nat)) by (rewrite map_length, seq_length; auto). rewrite map_nth, seq_nth by auto. unfold f. cbn [Nat.add].
  rewrite (predictive_eq q C D) by auto. rewrite concat_map, map_map.
  assert (G : forall (g : nat -> nat -> R) n b, length (concat (map (fun c => map (g c) (seq 0 D)) (seq b n))) = (n * D)%nat /\
     forall c d, (c < n)%nat -> (d < D)%nat -> nth (c * D + d) (concat (map (fun c => map (g c) (seq 0 D)) (seq b n))) 0 = g (b + c)%nat d).
  { intros g n. induction n as [|n IH]; intros b; cbn [seq map concat]; [split; [auto|intros; lia]|]. destruct (IH (S b)) as [A B]. split.
    - rewrite app_length, map_length, seq_length, A. lia.
    - intros [|c] d Hc Hd.
      + cbn [Nat.mul Nat.add]. rewrite app_nth1 by (rewrite map_length, seq_length; auto). rewrite (nth_indep _ 0 (g b 0%nat)) by (rewrite map_length, seq_length; auto). rewrite map_nth, seq_nth by auto. rewrite Nat.add_0_r. auto.
      + rewrite app_nth2; rewrite map_length, seq_length; [|lia]. replace (S c * D + d - D)%nat with (c * D + d)%nat by lia. rewrite B by lia. f_equal. lia. }
  destruct (G (fun c d => nth i (y_hat (at_ q c d) xs (noise c d)) 0) C 0%nat) as [A B].
  rewrite (map_ext _ (fun c => map (fun d => nth i (y_hat (at_ q c d) xs (noise c d)) 0) (seq 0 D))) by (intros; apply map_map). split; auto.
  intros c d Hc Hd. rewrite B by auto. rewrite y_hat_nth by auto. auto.
Qed.

(** Calls that do not fit never change the posterior, so predictions do not depend on what was predicted before; without
    extend_idata the stored predictive draws stay as well. *)
Inductive call := CPredict (X : frame) (extend : bool) (noise : nat -> nat -> nat -> R) | CPost (X : frame) (extend : bool) (noise : nat -> nat -> nat -> R)
  | CPrior (X : frame) (y : option (list R)).
Definition run (o : obj) (c : call) : obj :=
  match c with CPredict X e n => snd (predict o X e n) | CPost X e n => snd (predict_posterior o X e n) | CPrior X y => snd (sample_prior_predictive o X y) end.
Lemma setter_post o X y : post (snd (data_setter o X y)) = post o /\ pp (snd (data_setter o X y)) = pp o /\ (model o <> None -> model (snd (data_setter o X y)) <> None).
Proof.
  unfold data_setter. destruct (model o) eqn:E; cbn; [|tauto]. destruct (as_vector (squeeze X)); cbn; [|rewrite E; repeat split; congruence].
  destruct y; cbn; [|repeat split; congruence]. destruct (as_vector (squeeze1 l)); cbn; repeat split; congruence.
Qed.
Lemma spp_post o X e n : post (snd (sample_posterior_predictive o X e n)) = post o /\ (e = false -> pp (snd (sample_posterior_predictive o X e n)) = pp o) /\
  (model o <> None -> model (snd (sample_posterior_predictive o X e n)) <> None).
Proof.
  unfold sample_posterior_predictive. destruct (setter_post o X None) as (A & B & C). destruct (data_setter o X None) as [[u|er] o']; cbn in *; [|auto].
  destruct (model o') as [m|] eqn:E; cbn; auto; [|rewrite E; auto]. destruct (post o') eqn:E2; cbn; auto; [|rewrite E2, E; auto]. destruct e; cbn; [|rewrite E2, E; auto]. rewrite E2, E. split; auto. split; [discriminate|auto].
Qed.
Lemma run_post o c : post (run o c) = post o /\ (model o <> None -> model (run o c) <> None).
Proof.
  destruct c as [X e n|X e n|X y]; cbn [run].
  - unfold predict. destruct (spp_post o X e n) as (A & _ & B). destruct (sample_posterior_predictive o X e n) as [[s|er] o']; cbn in *; auto.
  - unfold predict_posterior. destruct (spp_post o X e n) as (A & _ & B). destruct (sample_posterior_predictive o X e n) as [[s|er] o']; cbn in *; auto.
  - unfold sample_prior_predictive. destruct (model o) eqn:E.
    + set (y' := match y with Some y => y | None => repeat 0 (length (rows X)) end). destruct (setter_post o X (Some y')) as (A & _ & B). rewrite E in B. auto.
    + unfold build_model. set (o' := with_model o _). set (y' := match y with Some y => y | None => repeat 0 (length (rows X)) end). destruct (setter_post o' X (Some y')) as (A & _ & B). split; auto; tauto.
Qed.
Theorem C82_history o calls xs extend noise q C D : model o <> None -> post o = Some q -> rectangular q C D -> length xs <> 1%nat ->
  fst (predict (fold_left run calls o) (column xs) extend noise) = fst (predict o (column xs) extend noise).
Proof.
  intros Hm Hp Hq Hn. revert o Hm Hp. induction calls as [|c calls IH]; intros o Hm Hp; cbn [fold_left]; auto.
  destruct (run_post o c) as [A B]. rewrite IH; [|auto|congruence].
  assert (G : forall o, model o <> None -> post o = Some q -> fst (predict o (column xs) extend noise) =
     Ok (map (fun i => mean (map (fun d => nth i d 0) (concat (predictive q xs noise)))) (seq 0 (length (hd [] (hd [] (predictive q xs noise))))))).
  { clear -Hn. intros o Hm Hp. unfold predict, sample_posterior_predictive, data_setter. destruct (model o); [|congruence]. rewrite squeeze_column by auto. cbn [as_vector model post with_model mx]. rewrite Hp. reflexivity. }
  rewrite !G; auto. congruence.
Qed.
Theorem C82_extend_off o X noise : pp (snd (predict o X false noise)) = pp o /\ post (snd (predict o X false noise)) = post o.
Proof.
  unfold predict. destruct (spp_post o X false noise) as (A & B & _). destruct (sample_posterior_predictive o X false noise) as [[s|er] o']; cbn in *; auto.
Qed.

(** Fitting uses exactly the rows given (two or more of them), in order. *)
Theorem C82_fit sampler o xs ys : length xs = length ys -> length xs <> 1%nat ->
  fst (fit sampler o (column xs) (Some ys)) = Ok tt /\ post (snd (fit sampler o (column xs) (Some ys))) = Some (sampler xs ys).
Proof.
  intros H Hn. unfold fit, build_model, data_setter. cbn [model with_model]. rewrite squeeze_column by auto. cbn [as_vector].
  assert (squeeze1 ys = Vector ys) as -> by (destruct ys as [|a [|b ys]]; cbn in *; auto; lia). cbn [as_vector]. unfold sample_model. cbn [model with_model mx my].
  rewrite H, Nat.eqb_refl. auto.
Qed.

(** Refuted: "any number of rows".  One row of one column is squeezed to a scalar: fitting and predicting raise. *)
Theorem C82_single_row_refuted o x extend noise sampler y : model o <> None ->
  fst (predict o (column [x]) extend noise) = Err ValueError /\ fst (fit sampler o (column [x]) (Some [y])) = Err ValueError.
Proof. intros Hm. split; [|reflexivity]. unfold predict, sample_posterior_predictive, data_setter. destruct (model o); [reflexivity|congruence]. Qed.
(** Refuted: one row with several columns is taken as several observations of the single input. *)
Theorem C82_row_as_column_refuted o q C D r extend noise : model o <> None -> post o = Some q -> rectangular q C D -> (2 <= length r)%nat ->
  fst (predict o {| rows := [r]; p := length r |} extend noise) = fst (predict o (column r) extend noise).
Proof.
  intros Hm Hp Hq Hr. unfold predict, sample_posterior_predictive, data_setter. destruct (model o); [|congruence]. rewrite squeeze_column by lia.
  assert (squeeze {| rows := [r]; p := length r |} = Vector r) as -> by (destruct r as [|a [|b r]]; cbn in *; auto; lia). reflexivity.
Qed.
(** Several columns with several rows are rejected. *)
Theorem C82_two_columns o X extend noise : model o <> None -> (2 <= length (rows X))%nat -> (2 <= p X)%nat -> fst (predict o X extend noise) = Err ValueError.
Proof.
  intros Hm H1 H2. unfold predict, sample_posterior_predictive, data_setter. destruct (model o); [|congruence]. destruct X as [[|a [|b rs]] k]; cbn in *; try lia.
  destruct k as [|[|k]]; try lia. destruct a as [|u [|w a]]; reflexivity.
Qed.
(** Refuted: "sampling from the prior does not touch the training data".  It replaces the observed values of the model by
    zeros (or y_pred), so sampling the model again fits those. *)
Theorem C82_prior_overwrites_data_refuted o m xs ys sampler : model o = Some m -> length xs <> 1%nat -> my m = ys ->
  let o' := snd (sample_prior_predictive o (column xs) None) in
  post (snd (sample_model sampler o')) = Some (sampler xs (repeat 0 (length xs))).
Proof.
  intros Hm Hn Hy. unfold sample_prior_predictive. rewrite Hm. unfold data_setter. rewrite Hm, squeeze_column by auto. cbn [as_vector column rows].
  rewrite map_length. assert (squeeze1 (repeat 0 (length xs)) = Vector (repeat 0 (length xs))) as -> by (destruct xs as [|a [|b xs]]; cbn in *; auto; lia).
  cbn [as_vector snd]. unfold sample_model. cbn [model with_model mx my]. rewrite repeat_length, Nat.eqb_refl. reflexivity.
Qed.
(** get_params / set_params *)
Theorem C82_params o : set_params o (get_params o) = (Ok tt, o) /\
  (forall mc sc, get_params (snd (set_params o (Some mc, Some sc))) = (Some mc, Some sc)).
Proof. split; [destruct o|]; reflexivity. Qed.
(** Refuted (scikit-learn's convention): a subset of the parameters cannot be set; worse, model_config alone is changed
    before the KeyError. *)
Theorem C82_set_params_refuted o mc : fst (set_params o (Some mc, None)) = Err KeyError /\ model_config (snd (set_params o (Some mc, None))) = mc /\
  fst (set_params o (None, Some mc)) = Err KeyError.
Proof. repeat split. Qed.

Example C82_example : exists o, model o <> None /\ post o = Some [[{| intercept := 1; slope := 2; sigma := 0 |}]; [{| intercept := 3; slope := 4; sigma := 0 |}]] /\
  rectangular [[{| intercept := 1; slope := 2; sigma := 0 |}]; [{| intercept := 3; slope := 4; sigma := 0 |}]] 2 1 /\
  exists ys, fst (predict o (column [0; 10]) true (fun _ _ _ => 0)) = Ok ys /\ nth 1 ys 0 = 32.
Proof.
  set (q := [[{| intercept := 1; slope := 2; sigma := 0 |}]; [{| intercept := 3; slope := 4; sigma := 0 |}]]).
  exists {| model := Some {| mx := [0]; my := [0] |}; post := Some q; pp := None; model_config := 0; sampler_config := 0 |}.
  assert (R : rectangular q 2 1) by (repeat split; try lia; repeat constructor). split; [discriminate|]. split; [reflexivity|]. split; auto.
  destruct (C82_predict {| model := Some {| mx := [0]; my := [0] |}; post := Some q; pp := None; model_config := 0; sampler_config := 0 |} q 2 1 [0; 10] true (fun _ _ _ => 0)) as (ys & E & L & V); auto; try discriminate.
  exists ys. split; auto. rewrite V by (cbn; lia). cbn. lra.
Qed.
