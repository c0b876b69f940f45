(** C103: draws and logp of SequenceMvNormal. *)
From Coq Require Import FunctionalExtensionality.
From Verif Require Import Common SeqMvn_Model.
Set Implicit Arguments.

Lemma nth_mid A (d : A) l x r : nth (length l) (l ++ x :: r) d = x.
Proof. rewrite app_nth2 by lia. now rewrite Nat.sub_diag. Qed.
Lemma remove_mid A l (x : A) r : remove_axis (length l) (l ++ x :: r) = l ++ r.
Proof.
  unfold remove_axis. rewrite firstn_app, Nat.sub_diag, firstn_all. cbn [firstn]. rewrite app_nil_r. f_equal.
  rewrite skipn_app, skipn_all2 by lia. replace (S (length l) - length l) with 1 by lia. reflexivity.
Qed.
Lemma insert_mid A l (x : A) r : insert_axis (length l) x (l ++ r) = l ++ x :: r.
Proof.
  unfold insert_axis. rewrite firstn_app, Nat.sub_diag, firstn_all. cbn [firstn]. rewrite app_nil_r.
  now rewrite skipn_app, skipn_all, Nat.sub_diag.
Qed.
Lemma nth_mid' A (d : A) l x r k : k = length l -> nth k (l ++ x :: r) d = x.
Proof. intros ->. apply nth_mid. Qed.
Lemma remove_mid' A l (x : A) r k : k = length l -> remove_axis k (l ++ x :: r) = l ++ r.
Proof. intros ->. apply remove_mid. Qed.
Lemma insert_mid' A l (x : A) r k : k = length l -> insert_axis k x (l ++ r) = l ++ x :: r.
Proof. intros ->. apply insert_mid. Qed.
Lemma batch_last b i : batch_of (b ++ [i]) = b /\ last_of (b ++ [i]) = i.
Proof.
  unfold batch_of, last_of. rewrite app_length. cbn [length]. replace (length b + 1 - 1) with (length b) by lia. split.
  - rewrite firstn_app, Nat.sub_diag, firstn_all. cbn [firstn]. apply app_nil_r.
  - apply nth_mid.
Qed.

Section Props.
Variable X : Type.
Variable gauss : (nat -> X) -> (nat -> nat -> X) -> (nat -> X) -> nat -> X.
Variable noise : nat -> list nat -> nat -> X.
Notation rv_op := (rv_op gauss noise).

(** means with any batch dimensions in front of time and state, covariances to match *)
Definition sized (mus covs : tensor X) (batch : list nat) (T k : nat) : Prop :=
  shape mus = batch ++ [T; k] /\ shape covs = batch ++ [T; k; k].

Lemma moved_mus_shape (mus : tensor X) batch T k : shape mus = batch ++ [T; k] -> shape (moved_mus mus) = T :: batch ++ [k].
Proof.
  intros E. unfold moved_mus. rewrite E, app_length. cbn [length]. destruct (Nat.ltb_spec 2 (length batch + 2)).
  - cbn [moveaxis shape]. rewrite E. rewrite nth_mid', remove_mid' by lia. reflexivity.
  - destruct batch; [exact E|cbn in H; lia].
Qed.
Lemma moved_covs_shape (covs : tensor X) batch T k : shape covs = batch ++ [T; k; k] -> shape (moved_covs covs) = T :: batch ++ [k; k].
Proof.
  intros E. unfold moved_covs. rewrite E, app_length. cbn [length]. destruct (Nat.ltb_spec 3 (length batch + 3)).
  - cbn [moveaxis shape]. rewrite E. rewrite nth_mid', remove_mid' by lia. reflexivity.
  - destruct batch; [exact E|cbn in H; lia].
Qed.
Lemma moved_mus_entry (mus : tensor X) batch T k t b i : shape mus = batch ++ [T; k] -> length b = length batch ->
  entry (moved_mus mus) (t :: b ++ [i]) = entry mus (b ++ [t; i]).
Proof.
  intros E L. unfold moved_mus. rewrite E, app_length. cbn [length]. destruct (Nat.ltb_spec 2 (length batch + 2)).
  - cbn [moveaxis entry]. f_equal. cbn [nth]. unfold remove_axis. cbn [firstn skipn app]. rewrite insert_mid' by lia. reflexivity.
  - destruct batch; [|cbn in H; lia]. destruct b; [reflexivity|discriminate].
Qed.
Lemma moved_covs_entry (covs : tensor X) batch T k t b i j : shape covs = batch ++ [T; k; k] -> length b = length batch ->
  entry (moved_covs covs) (t :: b ++ [i; j]) = entry covs (b ++ [t; i; j]).
Proof.
  intros E L. unfold moved_covs. rewrite E, app_length. cbn [length]. destruct (Nat.ltb_spec 3 (length batch + 3)).
  - cbn [moveaxis entry]. f_equal. cbn [nth]. unfold remove_axis. cbn [firstn skipn app]. rewrite insert_mid' by lia. reflexivity.
  - destruct batch; [|cbn in H; lia]. destruct b; [reflexivity|discriminate].
Qed.

(** C103: a draw has the shape of the means, time next to last whatever the batch dimensions, and the vector at batch entry b and time t is a
    draw with the mean and covariance of that entry and time, from normals used for nothing else. *)
Theorem C103_draws mus covs batch T k : sized mus covs batch T k ->
  exists x, rv_op mus covs = Ok x /\ shape x = batch ++ [T; k] /\
    forall b t i, length b = length batch ->
      entry x (b ++ [t; i]) = gauss (fun a => entry mus (b ++ [t; a])) (fun a c => entry covs (b ++ [t; a; c])) (noise t b) i.
Proof.
  intros [E1 E2]. unfold SeqMvn_Model.rv_op. rewrite (moved_mus_shape _ _ _ _ E1), (moved_covs_shape _ _ _ _ E2). cbn [nth skipn].
  rewrite Nat.ltb_irrefl. eexists; split; [reflexivity|].
  assert (Hs : forall b t i, length b = length batch ->
    step gauss noise (moved_mus mus) (moved_covs covs) t (b ++ [i]) =
    gauss (fun a => entry mus (b ++ [t; a])) (fun a c => entry covs (b ++ [t; a; c])) (noise t b) i).
  { intros b t i L. unfold step. destruct (batch_last b i) as [-> ->].
    replace (fun a => entry (moved_mus mus) (t :: b ++ [a])) with (fun a => entry mus (b ++ [t; a])).
    2: { apply functional_extensionality. intros a. symmetry. eapply moved_mus_entry; eauto. }
    replace (fun a c => entry (moved_covs covs) (t :: b ++ [a; c])) with (fun a c => entry covs (b ++ [t; a; c])); [reflexivity|].
    apply functional_extensionality. intros a. apply functional_extensionality. intros c. symmetry. eapply moved_covs_entry; eauto. }
  cbn [shape length]. rewrite app_length. cbn [length]. destruct (Nat.ltb_spec 2 (S (length batch + 1))).
  - cbn [moveaxis shape entry]. split.
    + cbn [nth]. unfold remove_axis. cbn [firstn skipn app]. now rewrite insert_mid' by lia.
    + intros b t i L. replace (S (length batch + 1) - 2) with (length b) by lia.
      rewrite nth_mid, remove_mid. unfold insert_axis. cbn [firstn skipn app nth]. now apply Hs.
  - destruct batch; [|cbn in H; lia]. split; [reflexivity|]. intros b t i L. destruct b; [|discriminate]. cbn [entry app nth skipn].
    now apply (Hs [] t i).
Qed.
(** Fewer covariances than means cannot be drawn from; more are ignored. *)
Theorem C103_short_covariances mus covs batch T T' k : shape mus = batch ++ [T; k] -> shape covs = batch ++ [T'; k; k] -> T' < T ->
  rv_op mus covs = Err ValueError.
Proof.
  intros E1 E2 H. unfold SeqMvn_Model.rv_op. rewrite (moved_mus_shape _ _ _ _ E1), (moved_covs_shape _ _ _ _ E2). cbn [nth].
  now apply Nat.ltb_lt in H as ->.
Qed.

(** Without batch dimensions the logp is the vector supplied by the filter, whatever the data, exactly when the data and both
    parameters have the same number of steps. *)
Theorem C103_logp_partial (L : Type) (values mus covs : tensor X) T T' Tv k rest (l : L) :
  shape mus = [T; k] -> shape covs = [T'; k; k] -> shape values = Tv :: rest ->
  (Tv = T /\ T' = T -> logp values mus covs l = Ok l) /\ (~ (Tv = T /\ T' = T) -> logp values mus covs l = Err ValueError).
Proof.
  intros E1 E2 E3. unfold logp. rewrite (moved_mus_shape mus [] T k E1), (moved_covs_shape covs [] T' k E2), E3. cbn [nth].
  destruct (Nat.eqb_spec Tv T), (Nat.eqb_spec T' T); cbn; split; tauto.
Qed.
(** With batch dimensions the first axis of the data is compared with the number of steps: data of the distribution's own shape are refused
    unless the first batch dimension happens to be as long as time. *)
Theorem C103_logp_batched_refuted (L : Type) (values mus covs : tensor X) B batch T k (l : L) :
  sized mus covs (B :: batch) T k -> shape values = shape mus -> B <> T -> logp values mus covs l = Err ValueError.
Proof.
  intros [E1 E2] E3 H. unfold logp. rewrite (moved_mus_shape _ _ _ _ E1), (moved_covs_shape _ _ _ _ E2), E3, E1. cbn [app nth].
  apply Nat.eqb_neq in H as ->. reflexivity.
Qed.
(** The number of series is not compared: data with the right number of steps and any other shape get the same logp. *)
Theorem C103_logp_shape_unchecked_refuted (L : Type) (values values' mus covs : tensor X) T k rest rest' (l : L) :
  sized mus covs [] T k -> shape values = T :: rest -> shape values' = T :: rest' -> logp values mus covs l = Ok l /\ logp values' mus covs l = Ok l.
Proof. intros [E1 E2] E3 E4. split; eapply C103_logp_partial; eauto. Qed.
End Props.

(** ** Two batches of three steps of two states *)
Definition ex_mus : tensor nat := {| shape := [2; 3; 2]; entry := fun idx => nth 0 idx 0 * 100 + nth 1 idx 0 * 10 + nth 2 idx 0 |}.
Definition ex_covs : tensor nat := {| shape := [2; 3; 2; 2]; entry := fun idx => 1000 * nth 1 idx 0 |}.
Definition ex_gauss (mu : nat -> nat) (cov : nat -> nat -> nat) (z : nat -> nat) (i : nat) : nat := mu i + cov i i.
Example C103_example : sized ex_mus ex_covs [2] 3 2 /\
  (exists x, rv_op ex_gauss (fun _ _ _ => 0) ex_mus ex_covs = Ok x /\ entry x [1; 2; 1] = 2121) /\
  logp ex_mus ex_mus ex_covs tt = Err ValueError.
Proof. split; [split; reflexivity|]. split; [|reflexivity]. eexists. split; reflexivity. Qed.
