(** C58 (Karhunen-Loeve) and the ProjectedProcess argument checks of C73. *)
From Coq Require Import Reals Lra Lia Sorted.
From Verif Require Import Common Cg_Model Cg_Props Pchol_Props Kl_Model.
Open Scope nat_scope.

Definition ascending (vals : list R) : Prop := forall i j, i <= j < length vals -> (nth i vals 0 <= nth j vals 0)%R.

Lemma first_above_spec vals v fuel : forall i k, first_above vals v fuel i = Ok k ->
  i <= k < i + fuel /\ (v < share vals (k + 1))%R /\ forall q, i < q <= k -> (share vals q <= v)%R.
Proof.
  induction fuel; intros i k; cbn [first_above]; [discriminate|]. unfold ltb. destruct (Rlt_dec v (share vals (i + 1))).
  - intros E. inversion E; subst. split; [lia|]. split; auto. intros; lia.
  - intros E. apply IHfuel in E as (H1&H2&H3). split; [lia|]. split; auto. intros q Hq.
    destruct (Nat.eq_dec q (i + 1)); [subst; lra|]. apply H3. lia.
Qed.
Lemma start_pos n k : 0 < k -> slice_start n (Z.of_nat k) = n - k.
Proof. intros. unfold slice_start. replace (0 <? Z.of_nat k)%Z with true by (symmetry; apply Z.ltb_lt; lia). rewrite Nat2Z.id. auto. Qed.

(** An explicit number of eigenpairs between 1 and n is honoured, and the pairs kept are the largest ones. *)
Theorem C58_requested_number mean vals vecs k : ascending vals -> 1 <= k <= length vals ->
  exists f, kl_prior mean vals vecs None (Some (Z.of_nat k)) = Ok (k, length vals - k, f) /\
    forall i j, i < length vals - k -> length vals - k <= j < length vals -> (nth i vals 0 <= nth j vals 0)%R.
Proof.
  intros HA Hk. unfold kl_prior. cbn [kl_n_eigs bind]. rewrite start_pos by lia.
  replace (Z.of_nat k <? 0)%Z with false by (symmetry; apply Z.ltb_ge; lia). rewrite Nat2Z.id.
  replace (length vals - (length vals - k)) with k by lia. rewrite Nat.eqb_refl. eexists. split; [reflexivity|].
  intros i j Hi Hj. apply HA. lia.
Qed.
(** Any other number is rejected (0 would keep every column but draw no coefficient). *)
Theorem C58_other_numbers mean vals vecs k : (k <= 0)%Z \/ (Z.of_nat (length vals) < k)%Z -> vals <> [] ->
  kl_prior mean vals vecs None (Some k) = Err ValueError.
Proof.
  intros H Hne. unfold kl_prior. cbn [kl_n_eigs bind]. destruct (Z.ltb_spec k 0); auto.
  assert (0 < length vals) by (destruct vals; simpl; [congruence|lia]).
  unfold slice_start. destruct (Z.ltb_spec 0 k).
  - destruct (Nat.eqb_spec (Z.to_nat k) (length vals - (length vals - Z.to_nat k))); auto. lia.
  - assert (k = 0%Z) by lia. subst k. simpl. rewrite Nat.min_0_r, Nat.sub_0_r. destruct (length vals); auto; lia.
Qed.

(** variance_limit keeps one eigenpair too few: the pairs kept never explain more than the limit, and the next one would. *)
Theorem C58_variance_limit_refuted mean vals vecs v ne k start f : 
  kl_prior mean vals vecs (Some v) ne = Ok (k, start, f) ->
  1 <= k /\ start = length vals - k /\ (share vals k <= v < share vals (k + 1))%R.
Proof.
  unfold kl_prior, kl_n_eigs. destruct (Req_EM_T v 1); [discriminate|].
  destruct (first_above vals v (length vals) 0) as [i|] eqn:E; [|discriminate]. cbn [bind].
  apply first_above_spec in E as (H1&H2&H3).
  replace (Z.of_nat i <? 0)%Z with false by (symmetry; apply Z.ltb_ge; lia). rewrite Nat2Z.id.
  destruct (Nat.eq_dec i 0) as [->|Hi].
  - change (slice_start (length vals) (Z.of_nat 0)) with (Nat.min (length vals) 0). rewrite Nat.min_0_r, Nat.sub_0_r. destruct (Nat.eqb_spec 0 (length vals)); [lia|discriminate].
  - rewrite start_pos by lia. replace (length vals - (length vals - i)) with i by lia. rewrite Nat.eqb_refl.
    intros E. inversion E; subst. split; [lia|]. split; auto. split; auto. apply H3. lia.
Qed.
(** When the largest eigenvalue alone explains more than the limit the call fails. *)
Theorem C58_dominant_eigenvalue_refuted mean vals vecs v ne : vals <> [] -> v <> 1%R -> (v < share vals 1)%R ->
  kl_prior mean vals vecs (Some v) ne = Err ValueError.
Proof.
  intros Hne H1 Hv. unfold kl_prior, kl_n_eigs. destruct (Req_EM_T v 1); [congruence|].
  destruct vals as [|x r]; [congruence|]. cbn [length first_above Nat.add]. unfold ltb. destruct (Rlt_dec v _); [|lra].
  cbn [bind]. simpl. auto.
Qed.
(** variance_limit = 1 (keep everything) fails. *)
Theorem C58_variance_limit_one_refuted mean vals vecs ne : kl_prior mean vals vecs (Some 1%R) ne = Err TypeError.
Proof. unfold kl_prior, kl_n_eigs. destruct (Req_EM_T 1 1); [auto|congruence]. Qed.

(** Spectral facts used below: [vecs] are orthonormal and diagonalize the covariance matrix. *)
Definition orthonormal (n : nat) (V : nat -> nat -> R) : Prop :=
  forall a b, a < n -> b < n -> sumn n (fun i => V i a * V i b)%R = (if a =? b then 1%R else 0%R).
Definition spectral (n : nat) (K V : nat -> nat -> R) (vals : list R) : Prop :=
  forall i j, i < n -> j < n -> K i j = sumn n (fun c => V i c * nth c vals 0 * V j c)%R.
(** the part of the covariance matrix carried by the kept pairs *)
Definition kept (n start : nat) (V : nat -> nat -> R) (vals : list R) (i j : nat) : R :=
  sumn (n - start) (fun c => V i (start + c)%nat * nth (start + c) vals 0 * V j (start + c)%nat)%R.

(** The prior has the covariance of the kept pairs: its coefficients are independent standard normals, so its covariance is
    the sum of the products of what each unit coefficient contributes. *)
Theorem C58_prior_covariance mean vals vecs vl ne k start f :
  (forall c, c < length vals -> (0 <= nth c vals 0)%R) ->
  kl_prior mean vals vecs vl ne = Ok (k, start, f) ->
  (forall i, f (fun _ => 0%R) i = 0%R) /\
  forall i j, sumn k (fun c => f (e_ c) i * f (e_ c) j)%R = kept (length vals) start vecs vals i j.
Proof.
  intros Hpos. unfold kl_prior. destruct (kl_n_eigs _ _ _) as [z|]; [|discriminate]. cbn [bind].
  destruct (z <? 0)%Z; [discriminate|]. destruct (Z.to_nat z =? _); [|discriminate]. intros E. inversion E; subst. clear E.
  set (st := slice_start (length vals) z). split.
  - intros i. rewrite (sumn_ext _ _ (fun _ => 0%R)) by (intros; lra). apply sumn_zero.
  - intros i j. unfold kept. apply sumn_ext. intros c Hc.
    assert (G : forall i, sumn (length vals - st) (fun c0 => vecs i (st + c0)%nat * sqrt (nth (st + c0) vals 0) * e_ c c0)%R
      = (vecs i (st + c)%nat * sqrt (nth (st + c) vals 0))%R).
    { intros i0. rewrite (sumn_ext _ _ (fun c0 => e_ c c0 * (vecs i0 (st + c0)%nat * sqrt (nth (st + c0) vals 0)))%R) by (intros; lra).
      apply sumn_delta with (f := fun c0 => (vecs i0 (st + c0)%nat * sqrt (nth (st + c0) vals 0))%R). auto. }
    rewrite !G. pose proof (sqrt_sqrt (nth (st + c) vals 0%R) (Hpos (st + c) ltac:(lia))) as Q.
    transitivity (vecs i (st + c)%nat * (sqrt (nth (st + c) vals 0) * sqrt (nth (st + c) vals 0)) * vecs j (st + c)%nat)%R; [ring|].
    rewrite Q. auto.
Qed.
(** ... which is the whole covariance matrix when all pairs are kept. *)
Theorem C58_all_kept n K V vals : spectral n K V vals -> forall i j, i < n -> j < n -> kept n 0 V vals i j = K i j.
Proof. intros H i j Hi Hj. rewrite H by auto. unfold kept. rewrite Nat.sub_0_r. auto. Qed.

Lemma sumn_split n k f : k <= n -> sumn n f = (sumn k f + sumn (n - k) (fun c => f (k + c)%nat))%R.
Proof.
  intros H. induction n.
  - replace k with 0 by lia. simpl. lra.
  - destruct (Nat.eq_dec k (S n)) as [->|Hne].
    + rewrite Nat.sub_diag. simpl. lra.
    + rewrite Nat.sub_succ_l by lia. cbn [sumn]. rewrite IHn by lia. replace (k + (n - k)) with n by lia. lra.
Qed.
(** K pinv is the projection on the kept eigenvectors. *)
Lemma K_pinv n K V vals start : length vals = n -> orthonormal n V -> spectral n K V vals -> start <= n ->
  (forall c, start <= c < n -> nth c vals 0%R <> 0%R) ->
  forall j (g : nat -> R), j < n -> sumn n (fun a => K a j * sumn n (fun b => kl_pinv vals V start a b * g b))%R =
    sumn (n - start) (fun c => V j (start + c)%nat * sumn n (fun b => V b (start + c)%nat * g b))%R.
Proof.
  intros Hl HO HS Hst Hnz j g Hj.
  set (w := fun c => sumn n (fun b => V b c * g b)%R).
  assert (E1 : forall a, sumn n (fun b => kl_pinv vals V start a b * g b)%R =
     sumn (n - start) (fun c => V a (start + c)%nat * (1 / nth (start + c) vals 0 * w (start + c)%nat))%R).
  { intros a. unfold kl_pinv. rewrite Hl.
    rewrite (sumn_ext n _ (fun b => sumn (n - start) (fun c => V a (start + c)%nat * (1 / nth (start + c) vals 0) * V b (start + c)%nat * g b))%R).
    - rewrite sumn_swap. apply sumn_ext. intros c Hc. unfold w. rewrite <- !sumn_scal. apply sumn_ext. intros. ring.
    - intros b Hb. rewrite Rmult_comm, <- sumn_scal. apply sumn_ext. intros. ring. }
  rewrite (sumn_ext n _ (fun a => sumn (n - start) (fun c => K a j * (V a (start + c)%nat * (1 / nth (start + c) vals 0 * w (start + c)%nat))))%R)
    by (intros; rewrite E1, sumn_scal; auto).
  rewrite sumn_swap. apply sumn_ext. intros c Hc. change (sumn n (fun b => V b (start + c)%nat * g b)%R) with (w (start + c)%nat).
  assert (E2 : sumn n (fun a => K a j * V a (start + c)%nat)%R = (nth (start + c) vals 0 * V j (start + c)%nat)%R).
  { rewrite (sumn_ext n _ (fun a => sumn n (fun q => V a q * V a (start + c)%nat * (nth q vals 0 * V j q)))%R).
    - rewrite sumn_swap.
      rewrite (sumn_ext n _ (fun q => e_ (start + c) q * (nth q vals 0 * V j q))%R).
      + apply (sumn_delta n (start + c) (fun q => nth q vals 0 * V j q)%R). lia.
      + intros q Hq. rewrite (sumn_ext n _ (fun a => (nth q vals 0 * V j q) * (V a q * V a (start + c)%nat))%R) by (intros; ring).
        rewrite sumn_scal, HO by lia. unfold e_. ring.
    - intros a Ha. rewrite HS by auto. rewrite Rmult_comm, <- sumn_scal. apply sumn_ext. intros. ring. }
  rewrite (sumn_ext n _ (fun a => (1 / nth (start + c) vals 0 * w (start + c)%nat) * (K a j * V a (start + c)%nat))%R) by (intros; ring).
  rewrite sumn_scal, E2. field. apply Hnz. lia.
Qed.

(** The conditional distribution at the training inputs (jitter aside) has mean f, and the covariance that the kept pairs
    leave unexplained. *)
Theorem C58_conditional_interpolates mean K V vals vl ne k start f coefs : let n := length vals in
  orthonormal n V -> spectral n K V vals -> (forall c, c < n -> (0 < nth c vals 0)%R) ->
  kl_prior mean vals V vl ne = Ok (k, start, f) ->
  forall j, j < n ->
  kl_cond_mean n K (kl_pinv vals V start) (f coefs) j = f coefs j /\
  forall l, l < n -> kl_cond_cov n K K (kl_pinv vals V start) j l = (K j l - kept n start V vals j l)%R.
Proof.
  intros n HO HS Hpos. unfold kl_prior. destruct (kl_n_eigs _ _ _) as [z|]; [|discriminate]. cbn [bind].
  destruct (z <? 0)%Z; [discriminate|]. destruct (Z.to_nat z =? _); [|discriminate]. intros E. inversion E; subst. clear E.
  fold n. set (st := slice_start n z).
  assert (Hst : st <= n) by (unfold st, slice_start; destruct (0 <? z)%Z; lia).
  assert (Hnz : forall c, st <= c < n -> nth c vals 0%R <> 0%R) by (intros; apply Rgt_not_eq, Hpos; lia).
  intros j Hj. split.
  - unfold kl_cond_mean. rewrite (K_pinv n K V vals st) by auto. apply sumn_ext. intros c Hc.
    assert (W : sumn n (fun b => V b (st + c)%nat * sumn (n - st) (fun c0 => V b (st + c0)%nat * sqrt (nth (st + c0) vals 0) * coefs c0))%R
       = (sqrt (nth (st + c) vals 0) * coefs c)%R).
    { rewrite (sumn_ext n _ (fun b => sumn (n - st) (fun c0 => V b (st + c)%nat * (V b (st + c0)%nat * sqrt (nth (st + c0) vals 0) * coefs c0)))%R)
        by (intros; rewrite sumn_scal; auto).
      rewrite sumn_swap.
      rewrite (sumn_ext _ _ (fun c0 => e_ c c0 * (sqrt (nth (st + c0) vals 0) * coefs c0))%R).
      - apply (sumn_delta _ c (fun c0 => sqrt (nth (st + c0) vals 0) * coefs c0)%R). auto.
      - intros c0 Hc0.
        rewrite (sumn_ext n _ (fun b => (sqrt (nth (st + c0) vals 0) * coefs c0) * (V b (st + c0)%nat * V b (st + c)%nat))%R) by (intros; ring).
        rewrite sumn_scal, HO by lia. unfold e_.
        destruct (Nat.eqb_spec (st + c0) (st + c)), (Nat.eqb_spec c0 c); try lia; ring. }
    rewrite W. ring.
  - intros l Hl. unfold kl_cond_cov. rewrite (K_pinv n K V vals st) by auto. f_equal. unfold kept. apply sumn_ext. intros c Hc.
    assert (E2 : sumn n (fun a => V a (st + c)%nat * K a l)%R = (nth (st + c) vals 0 * V l (st + c)%nat)%R).
    { rewrite (sumn_ext n _ (fun a => sumn n (fun q => V a q * V a (st + c)%nat * (nth q vals 0 * V l q)))%R).
      - rewrite sumn_swap.
        rewrite (sumn_ext n _ (fun q => e_ (st + c) q * (nth q vals 0 * V l q))%R).
        + apply (sumn_delta n (st + c) (fun q => nth q vals 0 * V l q)%R). lia.
        + intros q Hq. rewrite (sumn_ext n _ (fun a => (nth q vals 0 * V l q) * (V a q * V a (st + c)%nat))%R) by (intros; ring).
          rewrite sumn_scal, HO by lia. unfold e_. ring.
      - intros a Ha. rewrite HS by auto. rewrite <- sumn_scal. apply sumn_ext. intros. ring. }
    rewrite E2. ring.
Qed.

(** The mean function is ignored. *)
Theorem C58_mean_ignored_refuted mean mean' vals vecs vl ne : kl_prior mean vals vecs vl ne = kl_prior mean' vals vecs vl ne.
Proof. reflexivity. Qed.

(** Example: three eigenvalues 1, 2, 7.  A limit of 0.8 needs two pairs (share 0.9), the code keeps one (share 0.7). *)
Example C58_example : exists f, kl_prior (fun _ => 0%R) [1; 2; 7]%R (fun i j => if i =? j then 1%R else 0%R) (Some (8 / 10)%R) None = Ok (1, 2, f)
  /\ share [1; 2; 7]%R 1 = (7 / 10)%R /\ share [1; 2; 7]%R 2 = (9 / 10)%R /\ ascending [1; 2; 7]%R
  /\ spectral 3 (fun i j => if i =? j then nth i [1; 2; 7] 0 else 0)%R (fun i j => if i =? j then 1%R else 0%R) [1; 2; 7]%R
  /\ orthonormal 3 (fun i j => if i =? j then 1%R else 0%R).
Proof.
  assert (S1 : share [1; 2; 7]%R 1 = (7 / 10)%R) by (unfold share; simpl; lra).
  assert (S2 : share [1; 2; 7]%R 2 = (9 / 10)%R) by (unfold share; simpl; lra).
  eexists. split; [|split; [exact S1|split; [exact S2|split; [|split]]]].
  - unfold kl_prior, kl_n_eigs. destruct (Req_EM_T (8 / 10) 1); [lra|]. cbn [length first_above Nat.add].
    rewrite S1, S2. unfold ltb. destruct (Rlt_dec (8 / 10) (7 / 10)); [lra|]. destruct (Rlt_dec (8 / 10) (9 / 10)); [|lra].
    cbn [bind]. reflexivity.
  - intros i j Hij. simpl in Hij. destruct i as [|[|[|]]], j as [|[|[|]]]; simpl; try lia; lra.
  - intros i j Hi Hj. destruct i as [|[|[|]]], j as [|[|[|]]]; try lia; cbn [sumn Nat.eqb nth]; lra.
  - intros i j Hi Hj. destruct i as [|[|[|]]], j as [|[|[|]]]; try lia; cbn [sumn Nat.eqb nth]; lra.
Qed.

(** ** C73: ProjectedProcess chooses its inducing points as asked, or raises. *)
Theorem C73_inducing_points n k :
  pp_inducing (Some n) true k = Ok Given /\
  (forall q, 1 <= q <= n -> pp_inducing (Some n) false (Some (Some (Z.of_nat q))) = Ok (KMeans q)) /\
  (forall z, (z <= 0 \/ Z.of_nat n < z)%Z -> pp_inducing (Some n) false (Some (Some z)) = Err ValueError) /\
  pp_inducing (Some n) false (Some None) = Err ValueError /\ pp_inducing (Some n) false None = Err ValueError /\
  pp_inducing None true k = Err ValueError /\ pp_inducing None false k = Err ValueError.
Proof.
  repeat split; auto.
  - intros q Hq. simpl. replace (Z.of_nat q <=? 0)%Z with false by (symmetry; apply Z.leb_gt; lia).
    replace (Z.of_nat n <? Z.of_nat q)%Z with false by (symmetry; apply Z.ltb_ge; lia). rewrite Nat2Z.id. auto.
  - intros z Hz. simpl. destruct (Z.leb_spec z 0); auto. destruct (Z.ltb_spec (Z.of_nat n) z); auto. lia.
Qed.
