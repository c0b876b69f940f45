(** C94: R2D2M2CP assembles its arrays entry by entry. *)
From Coq Require Import Reals String Lra Psatz.
From Verif Require Import Common LogR Dist_Model Dist_Props R2D2_Model.
Open Scope R_scope.

(** ** Specification *)
(** the sign of coefficient i is certain *)
Definition certain (p : R) : Prop := p = 0 \/ p = 1.
(** how many coefficients before the i-th have an uncertain sign *)
Fixpoint rank (probs : list R) (i : nat) : nat :=
  match i, probs with O, _ => O | S j, p :: l => ((if free_prob p then 1 else 0) + rank l j)%nat | S _, [] => O end.
Definition n_free (probs : list R) : nat := length (filter free_prob probs).
(** the value of a Normal(mu, sigma) variable driven by independent standard normals z *)
Definition normal_value (mu sigma z : list R) : list R := map (fun t => fst (fst t) + snd (fst t) * snd t) (combine (combine mu sigma) z).
(** the standard normal distribution function, given the error function *)
Definition Phi (erf : R -> R) (x : R) : R := (1 + erf (x / sqrt 2)) / 2.

(** ** Lemmas about masks *)
Lemma free_spec p : free_prob p = true <-> ~ certain p.
Proof. unfold free_prob, certain. destruct (Req_EM_T p 1), (Req_EM_T p 0); simpl; split; intros; try tauto; try discriminate; exfalso; tauto. Qed.
Lemma set_nth_len A (l : list A) i x : length (set_nth l i x) = length l.
Proof. revert i; induction l; intros [|i]; simpl; auto. Qed.
Lemma set_subtensor_len A idx : forall (l : list A) v, length (set_subtensor l idx v) = length l.
Proof. induction idx as [|i idx IH]; intros l [|x v]; simpl; auto. rewrite IH. apply set_nth_len. Qed.
Fixpoint fill {A} (mask : list bool) (base vals : list A) : list A :=
  match mask, base with
  | true :: m, b :: bs => match vals with v :: vs => v :: fill m bs vs | [] => b :: bs end
  | false :: m, b :: bs => b :: fill m bs vals
  | _, _ => base
  end.
Lemma set_nth_app A (pre l : list A) x y : set_nth (pre ++ x :: l) (length pre) y = pre ++ y :: l.
Proof. induction pre; simpl; congruence. Qed.
Lemma scatter_fill A (mask : list bool) : forall (pre base vals : list A), length base = length mask ->
  set_subtensor (pre ++ base) (nonzero (length pre) mask) vals = pre ++ fill mask base vals.
Proof.
  induction mask as [|b mask IH]; intros pre [|x base] vals L; simpl in *; try discriminate; [reflexivity |].
  assert (E : forall (y : A) vs, set_subtensor (pre ++ y :: base) (nonzero (S (length pre)) mask) vs = pre ++ y :: fill mask base vs).
  { intros y vs. specialize (IH (pre ++ [y]) base vs ltac:(lia)). rewrite app_length in IH. simpl in IH. rewrite Nat.add_1_r in IH. rewrite <- !app_assoc in IH. exact IH. }
  destruct b; simpl; [|apply E]. destruct vals as [|v vals]; simpl; [reflexivity |]. rewrite set_nth_app. apply E.
Qed.
Lemma scatter0 A (mask : list bool) (base vals : list A) : length base = length mask -> set_subtensor base (nonzero 0 mask) vals = fill mask base vals.
Proof. exact (scatter_fill A mask [] base vals). Qed.
Lemma fill_nth A (probs : list R) : forall (base vals : list A) i d, length base = length probs -> length vals = n_free probs -> (i < length probs)%nat ->
  nth i (fill (map free_prob probs) base vals) d = if free_prob (nth i probs 0) then nth (rank probs i) vals d else nth i base d.
Proof.
  unfold n_free. induction probs as [|p probs IH]; intros [|b base] vals i d L V Hi; simpl in *; try discriminate; try lia.
  destruct (free_prob p) eqn:F; simpl in *.
  - destruct vals as [|v vals]; [discriminate |]. simpl in V. destruct i as [|i]; simpl; [rewrite F; reflexivity |]. apply IH; lia.
  - destruct i as [|i]; simpl; [rewrite F; reflexivity |]. apply IH; lia.
Qed.
Lemma nonzero_len mask : forall k, length (nonzero k mask) = length (filter (fun b => b) mask).
Proof. induction mask as [|[|] mask IH]; intros k; simpl; auto. Qed.
Lemma n_free_idx probs : length (nonzero 0 (map free_prob probs)) = n_free probs.
Proof. rewrite nonzero_len. unfold n_free. induction probs as [|p probs IH]; simpl; [reflexivity |]. destruct (free_prob p); simpl; congruence. Qed.
Lemma nonzero_nth probs : forall k i, (i < length probs)%nat -> free_prob (nth i probs 0) = true -> nth (rank probs i) (nonzero k (map free_prob probs)) O = (k + i)%nat /\ (rank probs i < n_free probs)%nat.
Proof.
  unfold n_free. induction probs as [|p probs IH]; intros k i Hi F; simpl in *; [lia |]. destruct i as [|i].
  - rewrite F. simpl. split; lia.
  - destruct (free_prob p) eqn:Fp; simpl; destruct (IH (S k) i ltac:(lia) F) as [A B]; rewrite A; split; lia.
Qed.
Lemma rank_all probs : (forall p, In p probs -> free_prob p = true) -> forall i, (i <= length probs)%nat -> rank probs i = i.
Proof. intros H. induction probs as [|p probs IH]; intros [|i] Hi; simpl in *; try lia. rewrite (H p) by auto. rewrite IH; [lia | | lia]. intros; apply H; auto. Qed.
Lemma n_free_all probs : (forall p, In p probs -> free_prob p = true) -> n_free probs = length probs.
Proof. intros H. unfold n_free. induction probs as [|p probs IH]; simpl in *; [reflexivity |]. rewrite (H p) by auto. simpl. rewrite IH; auto. Qed.
Lemma rank_inj probs : forall i j, (i < length probs)%nat -> (j < length probs)%nat -> free_prob (nth i probs 0) = true -> free_prob (nth j probs 0) = true -> rank probs i = rank probs j -> i = j.
Proof. intros i j Hi Hj Fi Fj E. destruct (nonzero_nth probs 0 i Hi Fi) as [A _]. destruct (nonzero_nth probs 0 j Hj Fj) as [B _]. rewrite E, B in A. simpl in A. auto. Qed.

Lemma take_nth base idx k d : (k < length idx)%nat -> nth k (take base idx) d = nth (nth k idx O) base 0.
Proof. intros H. unfold take. rewrite (nth_indep _ d (nth O base 0)) by (rewrite map_length; exact H). apply (map_nth (fun i => nth i base 0)). Qed.
Lemma zip2_len f a b : length a = length b -> length (zip2 f a b) = length a.
Proof. intros H. unfold zip2. rewrite map_length, combine_length, H. apply Nat.min_id. Qed.
Lemma zip2_nth f a : forall b i, length a = length b -> (i < length a)%nat -> nth i (zip2 f a b) 0 = f (nth i a 0) (nth i b 0).
Proof. induction a as [|x a IH]; intros [|y b] [|i] L Hi; simpl in *; try discriminate; try lia; auto. apply IH; lia. Qed.
Lemma nv_len mu sigma z : length mu = length z -> length sigma = length z -> length (normal_value mu sigma z) = length z.
Proof. intros A B. unfold normal_value. rewrite map_length, !combine_length. lia. Qed.
Lemma nv_nth mu : forall sigma z i, length mu = length z -> length sigma = length z -> (i < length z)%nat -> nth i (normal_value mu sigma z) 0 = nth i mu 0 + nth i sigma 0 * nth i z 0.
Proof. induction mu as [|m mu IH]; intros [|s sigma] [|x z] [|i] A B H; simpl in *; try discriminate; try lia; auto. apply IH; lia. Qed.
Lemma anyb_free probs : anyb (map free_prob probs) = false -> forall i, (i < length probs)%nat -> free_prob (nth i probs 0) = false.
Proof. unfold anyb. induction probs as [|p probs IH]; simpl; intros H i Hi; [lia |]. apply orb_false_iff in H. destruct H as [H1 H2]. destruct i; auto. apply IH; [exact H2 | lia]. Qed.
Lemma allb_free probs : allb (map free_prob probs) = true -> forall p, In p probs -> free_prob p = true.
Proof. unfold allb. rewrite forallb_forall. intros H p Hp. apply H. apply in_map, Hp. Qed.
Lemma map_seq_nth (f : nat -> R) n i : (i < n)%nat -> nth i (map f (seq 0 n)) 0 = f i.
Proof. intros H. rewrite (nth_indep _ 0 (f O)) by (rewrite map_length, seq_length; exact H). rewrite map_nth, seq_nth by exact H. reflexivity. Qed.
Lemma map_seq_nth2 (f : nat -> R * R) n i d : (i < n)%nat -> nth i (map f (seq 0 n)) d = f i.
Proof. intros H. rewrite (nth_indep _ d (f O)) by (rewrite map_length, seq_length; exact H). rewrite map_nth, seq_nth by exact H. reflexivity. Qed.

(** ** Theorems *)

(** psi: certain signs are kept, every uncertain one takes the value of its own Beta variable, whose mean and standard deviation are those given for this coefficient. *)
Theorem C94_sign_probabilities : forall env name probs std mask psi regs,
  psi_param env name true true probs (Some std) = Ok (mask, psi, regs) -> length std = length probs ->
  (forall nm mu sg, In (Free nm (Beta mu sg)) regs -> length (env nm) = length mu) ->
  length psi = length probs /\
  forall i, (i < length probs)%nat ->
    (certain (nth i probs 0) -> nth i psi 0 = nth i probs 0 /\ nth i std 0 = 0) /\
    (~ certain (nth i probs 0) -> exists nm mu sg, In (Free nm (Beta mu sg)) regs /\
       nth i psi 0 = nth (rank probs i) (env nm) 0 /\ nth (rank probs i) mu 0 = nth i probs 0 /\ nth (rank probs i) sg 0 = nth i std 0 /\ (rank probs i < length mu)%nat).
Proof.
  intros env name probs std mask psi regs E Ls Len. unfold psi_param, psi_masked in E. simpl negb in E. cbv iota in E.
  destruct (anyb (map (fun bs => negb (fst bs) && negb (if Req_EM_T (snd bs) 0 then true else false)) (combine (map free_prob probs) std))) eqn:A; [discriminate |].
  assert (Z : forall i, (i < length probs)%nat -> free_prob (nth i probs 0) = false -> nth i std 0 = 0).
  { clear E Len. revert std Ls A. induction probs as [|p probs IH]; intros [|s std] Ls A i Hi F; simpl in *; try discriminate; try lia. apply orb_false_iff in A. destruct A as [A1 A2].
    destruct i; [|apply (IH std); auto; lia]. rewrite F in A1. simpl in A1. destruct (Req_EM_T s 0); [assumption | discriminate]. }
  destruct (anyb (map negb (map free_prob probs)) && anyb (map free_prob probs)) eqn:B.
  - injection E as <- <- <-. set (nm := under (under name "psi") "masked") in *.
    assert (Le : length (env nm) = n_free probs). { rewrite (Len nm (take probs (nonzero 0 (map free_prob probs))) (take std (nonzero 0 (map free_prob probs)))) by (left; reflexivity). unfold take. rewrite map_length. apply n_free_idx. }
    rewrite set_subtensor_len. split; [reflexivity |]. intros i Hi. rewrite scatter0 by (rewrite map_length; reflexivity). rewrite fill_nth by auto. split.
    + intros C. destruct (free_prob (nth i probs 0)) eqn:F; [apply free_spec in F; contradiction |]. split; [reflexivity | apply Z; assumption].
    + intros C. apply free_spec in C. rewrite C. exists nm, (take probs (nonzero 0 (map free_prob probs))), (take std (nonzero 0 (map free_prob probs))). destruct (nonzero_nth probs 0 i Hi C) as [N1 N2].
      rewrite !take_nth by (rewrite n_free_idx; exact N2). rewrite N1. simpl. split; [auto | repeat split; auto]. unfold take. rewrite map_length, n_free_idx. exact N2.
  - destruct (allb (map negb (map free_prob probs))) eqn:C.
    + injection E as <- <- <-. split; [reflexivity |]. intros i Hi.
      assert (F : free_prob (nth i probs 0) = false). { unfold allb in C. rewrite forallb_forall in C. rewrite map_map in C. specialize (C (negb (free_prob (nth i probs 0))) (in_map (fun x => negb (free_prob x)) _ _ (nth_In probs 0 Hi))). apply negb_true_iff in C. exact C. }
      split; [intros _; split; [reflexivity | apply Z; assumption] | intros Q; apply free_spec in Q; congruence].
    + injection E as <- <- <-. set (nm := under name "psi") in *. assert (Le : length (env nm) = length probs) by (apply (Len nm probs std); left; reflexivity).
      assert (AF : forall p, In p probs -> free_prob p = true).
      { apply andb_false_iff in B. destruct B as [B | B].
        - intros p Hp. destruct (free_prob p) eqn:F; [reflexivity |]. exfalso. assert (anyb (map negb (map free_prob probs)) = true); [|congruence]. unfold anyb. apply existsb_exists. exists true. split; [|reflexivity]. rewrite map_map. apply in_map_iff. exists p. rewrite F. auto.
        - intros p Hp. exfalso. assert (allb (map negb (map free_prob probs)) = true); [|congruence]. unfold allb. apply forallb_forall. intros b Hb. rewrite map_map in Hb. apply in_map_iff in Hb. destruct Hb as [q [<- Hq]]. apply negb_true_iff. destruct (In_nth probs q 0 Hq) as [j [Hj Ej]]. rewrite <- Ej. apply anyb_free; assumption. }
      split; [exact Le |]. intros i Hi. assert (F := AF _ (nth_In probs 0 Hi)). split; [intros Q; apply free_spec in F; contradiction |]. intros _. exists nm, probs, std. rewrite (rank_all probs AF i) by lia. split; [left; reflexivity | repeat split; auto].
Qed.
Print Assumptions C94_sign_probabilities.

(** what _psi rejects *)
Theorem C94_sign_probability_errors : forall env name cp cs probs std,
  (psi_param env name cp cs probs (Some std) = Err TypeError <-> ~ (cp = true /\ cs = true)) /\
  (length std = length probs -> (psi_param env name true true probs (Some std) = Err ValueError <-> exists i, (i < length probs)%nat /\ certain (nth i probs 0) /\ nth i std 0 <> 0)) /\
  (psi_param env name cp cs probs None = Err TypeError <-> cp = false).
Proof.
  intros env name cp cs probs std. unfold psi_param, psi_masked. split; [|split].
  - destruct cp, cs; simpl; split; intros H; try discriminate; try (intros [? ?]; discriminate); try reflexivity; try (exfalso; apply H; auto; fail).
    repeat match goal with H : (if ?b then _ else _) = _ |- _ => destruct b; try discriminate end.
  - intros Ls. simpl negb. cbv iota.
    assert (Q : anyb (map (fun bs => negb (fst bs) && negb (if Req_EM_T (snd bs) 0 then true else false)) (combine (map free_prob probs) std)) = true <-> exists i, (i < length probs)%nat /\ certain (nth i probs 0) /\ nth i std 0 <> 0).
    { revert std Ls. induction probs as [|p probs IH]; intros [|s std] Ls; simpl in *; try discriminate. { split; [discriminate | intros [i [H _]]; lia]. }
      rewrite orb_true_iff, IH by lia. split.
      - intros [H | [i [H1 [H2 H3]]]]; [|exists (S i); repeat split; auto; lia]. exists O. apply andb_true_iff in H. destruct H as [H1 H2]. split; [lia |]. split.
        + destruct (free_prob p) eqn:F; [discriminate |]. destruct (Req_EM_T p 0); [left; assumption |]. destruct (Req_EM_T p 1); [right; assumption |]. exfalso. assert (free_prob p = true) by (apply free_spec; intros [|]; contradiction). congruence.
        + destruct (Req_EM_T s 0); [discriminate | assumption].
      - intros [[|i] [H1 [H2 H3]]]; [left | right; exists i; repeat split; auto; lia]. apply andb_true_iff. split.
        + destruct (free_prob p) eqn:F; [apply free_spec in F; contradiction | reflexivity].
        + destruct (Req_EM_T s 0); [contradiction | reflexivity]. }
    destruct (anyb (map _ (combine _ _))) eqn:A.
    + split; [intros _; apply Q; reflexivity | reflexivity].
    + split; [|intros H; apply Q in H; discriminate]. intros H. repeat match goal with H : (if ?b then _ else _) = _ |- _ => destruct b; try discriminate end.
  - destruct cp; simpl; split; intros; try discriminate; reflexivity.
Qed.
Print Assumptions C94_sign_probability_errors.

(** the mask that _psi hands on *)
Lemma mask_cases env name cp cs probs std mask psi regs : psi_param env name cp cs probs std = Ok (mask, psi, regs) ->
  (mask = Some (map free_prob probs)) \/ (mask = None /\ forall p, In p probs -> free_prob p = true).
Proof.
  unfold psi_param, psi_masked. destruct std as [std|].
  - destruct (negb (cp && cs)); [discriminate |]. destruct (anyb (map _ (combine _ _))); [discriminate |].
    destruct (anyb (map negb (map free_prob probs)) && anyb (map free_prob probs)) eqn:B; [intros H; injection H as <- _ _; auto |].
    destruct (allb (map negb (map free_prob probs))) eqn:C; intros H; injection H as <- _ _; [auto |]. right. split; [reflexivity |].
    apply andb_false_iff in B. destruct B as [B | B].
    + intros p Hp. destruct (free_prob p) eqn:F; [reflexivity |]. exfalso. assert (anyb (map negb (map free_prob probs)) = true); [|congruence]. unfold anyb. apply existsb_exists. exists true. split; [|reflexivity]. rewrite map_map. apply in_map_iff. exists p. rewrite F. auto.
    + intros p Hp. exfalso. assert (allb (map negb (map free_prob probs)) = true); [|congruence]. unfold allb. apply forallb_forall. intros b Hb. rewrite map_map in Hb. apply in_map_iff in Hb. destruct Hb as [q [<- Hq]]. apply negb_true_iff. destruct (In_nth probs q 0 Hq) as [j [Hj Ej]]. rewrite <- Ej. apply anyb_free; assumption.
  - destruct (negb cp); [discriminate |]. destruct (allb (map free_prob probs)) eqn:A; intros H; injection H as <- _ _; [right; split; [reflexivity | apply allb_free; exact A] | auto].
Qed.

(** the array arithmetic of _R2D2M2CP_beta, entry by entry, both parametrisations *)
Lemma beta_entries erfinv env name ncol os isg r2 phi psi probs mask centered z :
  (mask = Some (map free_prob probs)) \/ (mask = None /\ forall p, In p probs -> free_prob p = true) ->
  length probs = (length os * ncol)%nat -> length isg = length probs -> length z = n_free probs ->
  (forall x, In x isg -> x <> 0) ->
  let '(beta, regs) := beta_coef erfinv env name ncol os isg r2 phi psi mask centered in
  (forall nm mu sg, In (Free nm (Normal mu sg)) regs -> env nm = normal_value mu sg z) ->
  length beta = length probs /\
  forall i, (i < length probs)%nat ->
    let ms := psivar2musigma erfinv (nth i psi 0) (explained (nth (i / ncol) os 0) (nth (i / ncol) r2 0) (nth (i mod length phi) phi 0)) (Some (free_prob (nth i probs 0))) in
    nth i beta 0 = fst ms / nth i isg 0 + (if free_prob (nth i probs 0) then snd ms / nth i isg 0 * nth (rank probs i) z 0 else 0).
Proof.
  intros HM Lp Li Lz Hi0. unfold beta_coef.
  set (ev := explained_variance ncol os r2 phi). set (ms := musigma erfinv psi ev mask).
  assert (Lev : length ev = length probs) by (unfold ev, explained_variance; rewrite map_length, seq_length; auto).
  assert (Lms : length ms = length probs) by (unfold ms, musigma; rewrite map_length, seq_length; auto).
  assert (Nms : forall i, (i < length probs)%nat -> nth i ms (0, 0) = psivar2musigma erfinv (nth i psi 0) (explained (nth (i / ncol) os 0) (nth (i / ncol) r2 0) (nth (i mod length phi) phi 0)) (Some (free_prob (nth i probs 0)))).
  { intros i Hi. unfold ms, musigma. rewrite map_seq_nth2 by (rewrite Lev; exact Hi). unfold ev, explained_variance. rewrite map_seq_nth by (rewrite <- Lp; exact Hi).
    destruct HM as [-> | [-> AF]].
    - rewrite (nth_indep _ false (free_prob 0)) by (rewrite map_length; exact Hi). rewrite map_nth. reflexivity.
    - rewrite (AF _ (nth_In probs 0 Hi)). reflexivity. }
  assert (Nmu : forall i, (i < length probs)%nat -> nth i (map fst ms) 0 = fst (nth i ms (0, 0))) by (intros; apply (map_nth fst ms (0, 0))).
  assert (Nsd : forall i, (i < length probs)%nat -> nth i (map snd ms) 0 = snd (nth i ms (0, 0))) by (intros; apply (map_nth snd ms (0, 0))).
  set (mu := map fst ms) in *. set (sd := map snd ms) in *.
  assert (Lmu : length mu = length probs) by (unfold mu; rewrite map_length; exact Lms). assert (Lsd : length sd = length probs) by (unfold sd; rewrite map_length; exact Lms).
  assert (Si : forall i, (i < length probs)%nat -> nth i isg 0 <> 0) by (intros; apply Hi0, nth_In; lia).
  assert (Z0 : forall i, (i < length probs)%nat -> free_prob (nth i probs 0) = false -> nth i sd 0 = 0). { intros i Hi F. rewrite Nsd, Nms by exact Hi. rewrite F. reflexivity. }
  (* non-centered, from the raw array *)
  assert (NC : forall raw, length raw = length probs -> (forall i, (i < length probs)%nat -> free_prob (nth i probs 0) = true -> nth i raw 0 = nth (rank probs i) z 0) ->
    length (zip2 Rdiv (zip2 Rplus (zip2 Rmult raw sd) mu) isg) = length probs /\
    forall i, (i < length probs)%nat -> nth i (zip2 Rdiv (zip2 Rplus (zip2 Rmult raw sd) mu) isg) 0 = nth i mu 0 / nth i isg 0 + (if free_prob (nth i probs 0) then nth i sd 0 / nth i isg 0 * nth (rank probs i) z 0 else 0)).
  { intros raw Lr Hr. assert (L1 : length (zip2 Rmult raw sd) = length probs) by (rewrite zip2_len; lia). assert (L2 : length (zip2 Rplus (zip2 Rmult raw sd) mu) = length probs) by (rewrite zip2_len; lia).
    split; [rewrite zip2_len; lia |]. intros i Hi. rewrite zip2_nth, zip2_nth, zip2_nth by lia. specialize (Si i Hi). destruct (free_prob (nth i probs 0)) eqn:F.
    - rewrite (Hr i Hi F). field. exact Si.
    - rewrite (Z0 i Hi F). field. exact Si. }
  (* from the mean *)
  assert (Lm : length (zip2 Rdiv mu isg) = length probs) by (rewrite zip2_len; lia). assert (Lsm : length (zip2 Rdiv sd isg) = length probs) by (rewrite zip2_len; lia).
  destruct centered; simpl negb; cbv iota.
  - destruct HM as [-> | [-> AF]].
    + destruct (anyb (map free_prob probs)) eqn:A.
      * intros HE. rewrite scatter0 by (rewrite Lm, map_length; reflexivity). set (idx := nonzero 0 (map free_prob probs)) in *. specialize (HE (under name "masked") (take (zip2 Rdiv mu isg) idx) (take (zip2 Rdiv sd isg) idx) ltac:(left; reflexivity)).
        assert (Lt : forall b, length (take b idx) = length z) by (intros b; unfold take; rewrite map_length; unfold idx; rewrite n_free_idx; auto).
        assert (Le : length (env (under name "masked")) = n_free probs) by (rewrite HE, nv_len; auto).
        split. { rewrite <- (scatter0 R (map free_prob probs)) by (rewrite Lm, map_length; reflexivity). rewrite set_subtensor_len. exact Lm. }
        intros i Hi. cbv zeta. rewrite fill_nth by auto. rewrite <- Nms by exact Hi. rewrite <- Nmu, <- Nsd by exact Hi. destruct (free_prob (nth i probs 0)) eqn:F.
        -- destruct (nonzero_nth probs 0 i Hi F) as [N1 N2]. rewrite HE, nv_nth by (auto; lia). rewrite !take_nth by (unfold idx; rewrite n_free_idx; exact N2). unfold idx. rewrite N1. simpl. rewrite !zip2_nth by lia. reflexivity.
        -- rewrite zip2_nth by lia. ring.
      * intros _. split; [exact Lm |]. intros i Hi. cbv zeta. rewrite <- Nms by exact Hi. rewrite <- Nmu by exact Hi. rewrite (anyb_free probs A i Hi). rewrite zip2_nth by lia. ring.
    + intros HE. specialize (HE name (zip2 Rdiv mu isg) (zip2 Rdiv sd isg) ltac:(left; reflexivity)). rewrite n_free_all in Lz by exact AF.
      split. { rewrite HE, nv_len; lia. } intros i Hi. cbv zeta. rewrite <- Nms by exact Hi. rewrite <- Nmu, <- Nsd by exact Hi. rewrite (AF _ (nth_In probs 0 Hi)). rewrite HE, nv_nth by lia. rewrite !zip2_nth by lia. rewrite (rank_all probs AF) by lia. reflexivity.
  - assert (OZ : forall (l : list nat) k, nth k (map (fun _ => 0) l) 0 = 0) by (induction l; intros [|k]; simpl; auto).
    assert (OO : forall (l : list nat) k, (k < length l)%nat -> nth k (map (fun _ => 1) l) 0 = 1) by (induction l; intros [|k] Hk; simpl in *; auto; try lia; apply IHl; lia).
    assert (OZ' : forall (l : list R) k, nth k (map (fun _ => 0) l) 0 = 0) by (induction l; intros [|k]; simpl; auto).
    assert (OO' : forall (l : list R) k, (k < length l)%nat -> nth k (map (fun _ => 1) l) 0 = 1) by (induction l; intros [|k] Hk; simpl in *; auto; try lia; apply IHl; lia).
    destruct HM as [-> | [-> AF]].
    + destruct (anyb (map free_prob probs)) eqn:A.
      * intros HE. set (idx := nonzero 0 (map free_prob probs)) in *. set (nm := under (under name "raw") "masked") in *. specialize (HE nm (map (fun _ => 0) idx) (map (fun _ => 1) idx) ltac:(left; reflexivity)).
        assert (Lx : length idx = length z) by (unfold idx; rewrite n_free_idx; auto).
        assert (Le : length (env nm) = n_free probs) by (rewrite HE, nv_len; rewrite ?map_length; auto).
        assert (Lz0 : length (map (fun _ : R => 0) mu) = length (map free_prob probs)) by (rewrite !map_length; exact Lmu).
        destruct (NC (set_subtensor (map (fun _ => 0) mu) idx (env nm))) as [K1 K2].
        -- rewrite set_subtensor_len, map_length. exact Lmu.
        -- intros i Hi F. unfold idx. rewrite scatter0 by exact Lz0. rewrite fill_nth by (auto; rewrite map_length; exact Lmu). rewrite F. destruct (nonzero_nth probs 0 i Hi F) as [N1 N2]. rewrite HE, nv_nth by (rewrite ?map_length; lia). rewrite OZ, OO by lia. ring.
        -- split; [exact K1 |]. intros i Hi. cbv zeta. rewrite K2 by exact Hi. rewrite <- Nms by exact Hi. rewrite <- Nmu, <- Nsd by exact Hi. reflexivity.
      * intros _. destruct (NC (map (fun _ => 0) mu)) as [K1 K2]. { rewrite map_length; exact Lmu. } { intros i Hi F. rewrite (anyb_free probs A i Hi) in F. discriminate. }
        split; [exact K1 |]. intros i Hi. cbv zeta. rewrite K2 by exact Hi. rewrite <- Nms by exact Hi. rewrite <- Nmu, <- Nsd by exact Hi. reflexivity.
    + intros HE. rewrite n_free_all in Lz by exact AF. specialize (HE (under name "raw") (map (fun _ => 0) mu) (map (fun _ => 1) mu) ltac:(left; reflexivity)).
      destruct (NC (env (under name "raw"))) as [K1 K2].
      * rewrite HE, nv_len; rewrite ?map_length; lia.
      * intros i Hi F. rewrite HE, nv_nth by (rewrite ?map_length; lia). rewrite OZ', OO' by lia. rewrite (rank_all probs AF) by lia. ring.
      * split; [exact K1 |]. intros i Hi. cbv zeta. rewrite K2 by exact Hi. rewrite <- Nms by exact Hi. rewrite <- Nmu, <- Nsd by exact Hi. reflexivity.
Qed.

(** Every coefficient, centered or not, is a normal variable with its own independent standard normal z_k (or a constant, when its sign is certain): its second moment, in units of its regressor, is
    the variance allotted to it, and the probability of it being positive is the one asked for. *)
Theorem C94_coefficients : forall erf erfinv env name ncol os isg r2 r2_std imp ve conc cp cs probs std centered resid beta regs z,
  r2d2m2cp erfinv env name ncol os isg r2 r2_std imp ve conc cp cs probs std centered = Ok (resid, beta, regs) ->
  length probs = (length os * ncol)%nat -> length isg = length probs -> length z = n_free probs ->
  (forall x, In x isg -> 0 < x) ->
  (forall nm mu sg, In (Free nm (Normal mu sg)) regs -> env nm = normal_value mu sg z) ->
  exists r2v phi psi rp rq mask,
    r2v = (match r2_std with Some _ => env (under name "r2") | None => r2 end) /\
    phi_param env name ncol imp ve conc = Ok (phi, rp) /\ psi_param env name cp cs probs std = Ok (mask, psi, rq) /\ incl rp regs /\ incl rq regs /\
    length beta = length probs /\
    forall i, (i < length probs)%nat -> exists m s,
      let ev := nth (i mod length phi) phi 0 * (nth (i / ncol) r2v 0 * nth (i / ncol) os 0 ^ 2) in
      let p := nth i psi 0 in
      (certain (nth i probs 0) -> nth i beta 0 = m /\ s = 0) /\
      (~ certain (nth i probs 0) -> nth i beta 0 = m + s * nth (rank probs i) z 0) /\
      (0 <= ev -> (certain (nth i probs 0) -> certain p) -> nth i isg 0 ^ 2 * (m ^ 2 + s ^ 2) = ev) /\
      (0 < ev -> ~ certain (nth i probs 0) -> 0 < p < 1 -> (forall x, -1 < x < 1 -> erf (erfinv x) = x) -> 0 < s /\ Phi erf (m / s) = p) /\
      (0 < ev -> certain (nth i probs 0) -> (p = 1 -> 0 < m) /\ (p = 0 -> m < 0)).
Proof.
  intros erf erfinv env name ncol os isg r2 r2_std imp ve conc cp cs probs std centered resid beta regs z E Lp Li Lz Hs HN. unfold r2d2m2cp in E.
  set (r2v := match r2_std with Some _ => env (under name "r2") | None => r2 end).
  assert (ER : exists regs1, (match r2_std with Some s => (env (under name "r2"), [Free (under name "r2") (Beta r2 s)]) | None => (r2, []) end) = (r2v, regs1)) by (unfold r2v; destruct r2_std; eauto).
  destruct ER as [regs1 ER]. rewrite ER in E. unfold bind in E. destruct (phi_param env name ncol imp ve conc) as [[phi rp]|] eqn:EP; [|discriminate].
  destruct (psi_param env name cp cs probs std) as [[[mask psi] rq]|] eqn:EQ; [|discriminate].
  destruct (beta_coef erfinv env name ncol os isg r2v phi psi mask centered) as [b regs4] eqn:EB. injection E as <- <- <-.
  exists r2v, phi, psi, rp, rq, mask. split; [reflexivity |]. split; [reflexivity |]. split; [reflexivity |].
  split. { intros x Hx. apply in_or_app. right. apply in_or_app. auto. } split. { intros x Hx. apply in_or_app. right. apply in_or_app. right. apply in_or_app. auto. }
  assert (K := beta_entries erfinv env name ncol os isg r2v phi psi probs mask centered z (mask_cases _ _ _ _ _ _ _ _ _ EQ) Lp Li Lz (fun x Hx => Rgt_not_eq _ _ (Hs x Hx))). rewrite EB in K. destruct K as [K1 K2].
  { intros nm mu sg Hin. apply HN. apply in_or_app. right. apply in_or_app. right. apply in_or_app. auto. }
  split; [exact K1 |]. intros i Hi. specialize (K2 i Hi). cbv zeta in K2.
  set (ev0 := explained (nth (i / ncol) os 0) (nth (i / ncol) r2v 0) (nth (i mod Datatypes.length phi) phi 0)) in *.
  assert (Hsi : 0 < nth i isg 0) by (apply Hs, nth_In; lia). set (si := nth i isg 0) in *.
  destruct (psivar2musigma erfinv (nth i psi 0) ev0 (Some (free_prob (nth i probs 0)))) as [mu sd] eqn:EM. simpl in K2.
  exists (mu / si), (sd / si). cbv zeta. fold (explained (nth (i / ncol) os 0) (nth (i / ncol) r2v 0) (nth (i mod Datatypes.length phi) phi 0)). fold ev0.
  destruct (free_prob (nth i probs 0)) eqn:F.
  - assert (NC : ~ certain (nth i probs 0)) by (apply free_spec; exact F). split; [intros; contradiction |]. split; [intros _; exact K2 |]. split; [|split; [|intros; contradiction]].
    + intros He _. assert (S := C55_second_moment erfinv (nth i psi 0) ev0 (Some true) He ltac:(discriminate)). rewrite EM in S. rewrite <- S. field. lra.
    + intros He _ Hp Herf. assert (S := C55_sign_probability erf erfinv (nth i psi 0) ev0 (Some true) Herf He Hp ltac:(discriminate)). rewrite EM in S. destruct S as [S1 S2]. split; [apply Rdiv_lt_0_compat; assumption |].
      unfold Phi. rewrite <- S2. do 3 f_equal. field. pose proof (sqrt_lt_R0 2 ltac:(lra)). repeat split; lra.
  - assert (C : certain (nth i probs 0)). { destruct (Req_EM_T (nth i probs 0) 0); [left; assumption |]. destruct (Req_EM_T (nth i probs 0) 1); [right; assumption |]. exfalso. assert (free_prob (nth i probs 0) = true) by (apply free_spec; intros [|]; contradiction). congruence. }
    assert (Sd : sd = 0) by (unfold psivar2musigma in EM; injection EM as _ <-; reflexivity).
    assert (Mu : mu = sign (nth i psi 0 - / 2) * sqrt ev0) by (unfold psivar2musigma in EM; injection EM as <- _; reflexivity).
    split; [intros _; split; [rewrite K2; ring | rewrite Sd; field; lra] |]. split; [intros; contradiction |]. split; [|split; [intros; contradiction |]].
    + intros He Hc. assert (S := C55_second_moment erfinv (nth i psi 0) ev0 (Some false) He ltac:(intros _; exact (Hc C))). rewrite EM in S. rewrite <- S. field. lra.
    + intros He _. pose proof (sqrt_lt_R0 ev0 He). split; intros Q; rewrite Mu, Q; unfold sign.
      * destruct (Rlt_dec (1 - / 2) 0); [lra |]. destruct (Rlt_dec 0 (1 - / 2)); [|lra]. apply Rdiv_lt_0_compat; lra.
      * destruct (Rlt_dec (0 - / 2) 0); [|lra]. replace (-1 * sqrt ev0 / si) with (- (sqrt ev0 / si)) by (field; lra). apply Ropp_lt_gt_0_contravar. apply Rdiv_lt_0_compat; lra.
Qed.
Print Assumptions C94_coefficients.

(** No two coefficients share a standard normal, and none is left over. *)
Theorem C94_own_normal : forall probs,
  (forall i j, (i < length probs)%nat -> (j < length probs)%nat -> ~ certain (nth i probs 0) -> ~ certain (nth j probs 0) -> rank probs i = rank probs j -> i = j) /\
  (forall k, (k < n_free probs)%nat -> exists i, (i < length probs)%nat /\ ~ certain (nth i probs 0) /\ rank probs i = k).
Proof.
  intros probs. split.
  - intros i j Hi Hj Ci Cj. apply rank_inj; auto; apply free_spec; assumption.
  - unfold n_free. induction probs as [|p probs IH]; intros k Hk; simpl in *; [lia |]. destruct (free_prob p) eqn:F; simpl in *.
    + destruct k as [|k]. { exists O. split; [lia |]. split; [apply free_spec; exact F | reflexivity]. } destruct (IH k ltac:(lia)) as [i [H1 [H2 H3]]]. exists (S i). split; [lia |]. split; [exact H2 |]. simpl. rewrite ?F, H3. reflexivity.
    + destruct (IH k Hk) as [i [H1 [H2 H3]]]. exists (S i). split; [lia |]. split; [exact H2 |]. simpl. rewrite ?F, H3. reflexivity.
Qed.
Print Assumptions C94_own_normal.

(** Over each row, the variances allotted to the coefficients add up to r2 * output_sigma^2 when the weights of that row add up to one, and the residual variance is the rest. *)
Theorem C94_row_total : forall ncol os r2 phi row, (row < length os)%nat -> (0 < ncol)%nat ->
  let w := fun j => nth ((row * ncol + j) mod length phi) phi 0 in
  Rsum (map w (seq 0 ncol)) = 1 ->
  Rsum (map (fun j => nth (row * ncol + j) (explained_variance ncol os r2 phi) 0) (seq 0 ncol)) = nth row r2 0 * nth row os 0 ^ 2 /\
  (nth row r2 0 <= 1 -> resid_sigma (nth row os 0) (nth row r2 0) ^ 2 + nth row r2 0 * nth row os 0 ^ 2 = nth row os 0 ^ 2).
Proof.
  intros ncol os r2 phi row Hr Hn w Hw. split; [|apply C55_variance_split].
  assert (E : map (fun j => nth (row * ncol + j) (explained_variance ncol os r2 phi) 0) (seq 0 ncol) = map (fun j => w j * (nth row r2 0 * nth row os 0 ^ 2)) (seq 0 ncol)).
  { apply map_ext_in. intros j Hj. apply in_seq in Hj. unfold explained_variance. rewrite map_seq_nth by nia. unfold explained, w. rewrite Nat.div_add_l, (Nat.div_small j) by lia. rewrite Nat.add_0_r. reflexivity. }
  rewrite E. rewrite (Rsum_map_mult_r (nth row r2 0 * nth row os 0 ^ 2) w). rewrite Hw. ring.
Qed.
Print Assumptions C94_row_total.

(** The variables a single call registers have different names, whatever the options. *)
Lemma str_app_inj (s a b : string) : (s ++ a)%string = (s ++ b)%string -> a = b.
Proof. induction s; simpl; intros H; [exact H | injection H; exact IHs]. Qed.
Lemma str_app_assoc (a b c : string) : ((a ++ b) ++ c)%string = (a ++ (b ++ c))%string.
Proof. induction a; simpl; congruence. Qed.
Lemma str_app_nil (a : string) : (a ++ "")%string = a.
Proof. induction a; simpl; congruence. Qed.
Lemma names_nodup (name : string) (l : list string) : NoDup l -> NoDup (map (fun s => (name ++ s)%string) l).
Proof. intros H. induction H as [|x l Hx H IH]; simpl; constructor; [|exact IH]. intros K. apply in_map_iff in K. destruct K as [y [E Hy]]. apply str_app_inj in E. congruence. Qed.
Theorem C94_names_distinct : forall erfinv env name ncol os isg r2 r2_std imp ve conc cp cs probs std centered resid beta regs,
  r2d2m2cp erfinv env name ncol os isg r2 r2_std imp ve conc cp cs probs std centered = Ok (resid, beta, regs) ->
  NoDup (map reg_name regs).
Proof.
  intros erfinv env name ncol os isg r2 r2_std imp ve conc cp cs probs std centered resid beta regs E.
  assert (Sh : exists l, NoDup l /\ map reg_name regs = map (fun s => (name ++ s)%string) l).
  { unfold r2d2m2cp, bind in E.
    set (a1 := match r2_std with Some _ => _ | None => _ end) in E.
    assert (A1 : map reg_name (snd a1) = map (fun s => (name ++ s)%string) (match r2_std with Some _ => ["::r2"%string] | None => [] end)) by (unfold a1; destruct r2_std; reflexivity).
    destruct a1 as [r2v regs1]. simpl in A1.
    destruct (phi_param env name ncol imp ve conc) as [[phi rp]|] eqn:EP; [|discriminate].
    assert (A2 : map reg_name rp = [] \/ map reg_name rp = [(name ++ "::phi")%string]). { unfold phi_param in EP. destruct (r2_phi ncol imp ve conc (fun a => a)); [|discriminate]. destruct (r2_phi ncol imp ve conc (fun _ => _)); [|discriminate]. injection EP as _ <-. destruct imp; destruct conc; simpl; auto. }
    destruct (psi_param env name cp cs probs std) as [[[mask psi] rq]|] eqn:EQ; [|discriminate].
    assert (A3 : map reg_name rq = [] \/ map reg_name rq = [(name ++ "::psi")%string] \/ map reg_name rq = [(name ++ "::psi::masked")%string; (name ++ "::psi")%string]).
    { unfold psi_param, psi_masked in EQ. destruct std as [std|].
      - repeat match goal with H : (if ?b then _ else _) = _ |- _ => destruct b; try discriminate end; injection EQ as _ _ <-; simpl; unfold under; auto. right. right. rewrite !str_app_assoc. reflexivity.
      - destruct (negb cp); [discriminate |]. injection EQ as _ _ <-. auto. }
    destruct (beta_coef erfinv env name ncol os isg r2v phi psi mask centered) as [b regs4] eqn:EB. injection E as _ _ <-.
    assert (A4 : map reg_name regs4 = [(name ++ "")%string] \/ map reg_name regs4 = [(name ++ "::raw")%string; (name ++ "")%string] \/ map reg_name regs4 = [(name ++ "::masked")%string; (name ++ "")%string] \/ map reg_name regs4 = [(name ++ "::raw::masked")%string; (name ++ "::raw")%string; (name ++ "")%string]).
    { rewrite str_app_nil. unfold beta_coef in EB. destruct centered; simpl negb in EB; cbv iota in EB; destruct mask as [m|]; try destruct (anyb m); injection EB as _ <-; simpl; unfold under; auto. do 3 right. rewrite !str_app_assoc. reflexivity. }
    rewrite !map_app, A1.
    destruct A2 as [-> | ->]; destruct A3 as [-> | [-> | ->]]; destruct A4 as [-> | [-> | [-> | ->]]]; destruct r2_std; cbn [map app];
      match goal with |- exists l, _ /\ ?L = _ => 
        let rec build L := match L with nil => constr:(@nil string) | ((name ++ ?s)%string :: ?T) => let t := build T in constr:(s :: t) end in
        let t := build L in exists t end; (split; [repeat constructor; simpl; intuition discriminate | reflexivity]). }
  destruct Sh as [l [Hl ->]]. apply names_nodup, Hl.
Qed.
Print Assumptions C94_names_distinct.

(** Meets the hypotheses: three regressors with signs uncertain, certainly positive, uncertain; equal weights; non-centered with z = (1, -1). *)
Definition ex_env (nm : string) : list R := if string_dec nm "b::raw::masked" then [0 + 1 * 1; 0 + 1 * -1] else [].
Example r2d2_meets_hypotheses : exists resid beta regs,
  r2d2m2cp (fun x => x) ex_env "b" 3 [2] [1; 1; 4] [1/2] None None (Some [1/2; 1/4; 1/4]) None true true [1/2; 1; 3/4] None false = Ok (resid, beta, regs) /\
  n_free [1/2; 1; 3/4] = 2%nat /\ forall nm mu sg, In (Free nm (Normal mu sg)) regs -> ex_env nm = normal_value mu sg [1; -1].
Proof.
  assert (F1 : free_prob (1/2) = true) by (apply free_spec; unfold certain; lra). assert (F3 : free_prob (3/4) = true) by (apply free_spec; unfold certain; lra).
  assert (F2 : free_prob 1 = false). { destruct (free_prob 1) eqn:F; [|reflexivity]. apply free_spec in F. exfalso. apply F. right. reflexivity. }
  unfold n_free. simpl filter. rewrite F1, F2, F3.
  eexists; eexists; eexists. split; [|split; [reflexivity |]].
  - unfold r2d2m2cp, phi_param, psi_param, beta_coef. cbn [r2_phi Nat.leb bind negb map allb forallb anyb existsb]. rewrite F1, F2, F3. cbn. reflexivity.
  - cbn. intros nm mu sg [H | [H | [H | []]]]; try discriminate H. injection H as <- <- <-. reflexivity.
Qed.
