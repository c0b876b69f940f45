(** Sums of components: superposition, associativity, parameters, labels, extraction. *)
From Coq Require Import Reals String Ascii Lra.
From Verif Require Import Common Struct_Model Struct_Spec Struct_Proofs.
Open Scope nat_scope.

(** *** superposition *)
Lemma rsum_split na nb f g :
  (forall j, j < na -> f j = g j) ->
  rsum (na + nb) f = (rsum na g + rsum nb (fun j => f (na + j)%nat))%R.
Proof. intros H. rewrite rsum_app. f_equal. apply rsum_ext; auto. Qed.

Lemma run_combine na pa nb pb a b e eps t i : i < na + nb ->
  run (na + nb) (pa + pb) (combine_ssm na pa a b) e eps t i
  = if i <? na then run na pa a e eps t i
    else run nb pb b e (fun t j => eps t (pa + j)) t (i - na).
Proof.
  revert i. induction t; intros i Hi.
  - cbn [run]. simpl. unfold concat_vec. destruct (i <? na); auto.
  - cbn [run]. simpl s_c. simpl s_T. simpl s_R. unfold concat_vec, block_diag.
    destruct (Nat.ltb_spec i na) as [L|L].
    + f_equal; [f_equal|].
      * rewrite (rsum_split na nb _ (fun j => (s_T a e i j * run na pa a e eps t j)%R)).
        -- rewrite (rsum_0 nb); [lra|]. intros j Hj.
           destruct (Nat.ltb_spec (na + j) na); [lia|]. lra.
        -- intros j Hj. rewrite IHt by lia. destruct (Nat.ltb_spec j na); [|lia]. auto.
      * rewrite (rsum_split pa pb _ (fun j => (s_R a e i j * eps t j)%R)).
        -- rewrite (rsum_0 pb); [lra|]. intros j Hj.
           destruct (Nat.ltb_spec (pa + j) pa); [lia|]. lra.
        -- intros j Hj. destruct (Nat.ltb_spec j pa); [|lia]. auto.
    + f_equal; [f_equal|].
      * rewrite (rsum_split na nb _ (fun _ => 0%R)).
        -- rewrite (rsum_0 na) by auto. rewrite Rplus_0_l. apply rsum_ext. intros j Hj.
           rewrite IHt by lia. destruct (Nat.ltb_spec (na + j) na); [lia|].
           replace (na + j - na) with j by lia. auto.
        -- intros j Hj. destruct (Nat.ltb_spec j na); [|lia]. lra.
      * rewrite (rsum_split pa pb _ (fun _ => 0%R)).
        -- rewrite (rsum_0 pa) by auto. rewrite Rplus_0_l. apply rsum_ext. intros j Hj.
           destruct (Nat.ltb_spec (pa + j) pa); [lia|].
           replace (pa + j - pa) with j by lia. auto.
        -- intros j Hj. destruct (Nat.ltb_spec j pa); [|lia]. lra.
Qed.

Lemma observe_combine na pa nb pb a b e eps t :
  observe (na + nb) (pa + pb) (combine_ssm na pa a b) e eps t
  = (observe na pa a e eps t + observe nb pb b e (fun t j => eps t (pa + j)%nat) t)%R.
Proof.
  unfold observe. simpl s_d. simpl s_Z. unfold concat_vec.
  rewrite (rsum_split na nb _ (fun j => (s_Z a e t j * run na pa a e eps t j)%R)).
  - rewrite (rsum_ext nb _ (fun j => (s_Z b e t j * run nb pb b e (fun t j => eps t (pa + j)%nat) t j)%R)).
    + lra.
    + intros j Hj. rewrite run_combine by lia. destruct (Nat.ltb_spec (na + j) na); [lia|].
      replace (na + j - na) with j by lia. auto.
  - intros j Hj. rewrite run_combine by lia. destruct (Nat.ltb_spec j na); [|lia]. auto.
Qed.

(** state noise covariance R Q R' *)
Definition noise_cov (p : nat) (m : ssm) (e : env) (i j : nat) : R :=
  rsum p (fun k => rsum p (fun l => (s_R m e i k * s_Q m e k l * s_R m e j l)%R)).

Lemma noise_combine na pa pb a b e i j :
  noise_cov (pa + pb) (combine_ssm na pa a b) e i j
  = if i <? na then (if j <? na then noise_cov pa a e i j else 0%R)
    else (if j <? na then 0%R else noise_cov pb b e (i - na) (j - na)).
Proof.
  unfold noise_cov. simpl s_R. simpl s_Q. unfold block_diag.
  assert (HA : forall k, k < pa -> (k <? pa) = true) by (intros; apply Nat.ltb_lt; auto).
  assert (HB : forall k, (pa + k <? pa) = false) by (intros; apply Nat.ltb_ge; lia).
  assert (HC : forall k, pa + k - pa = k) by (intros; lia).
  destruct (i <? na), (j <? na).
  - rewrite (rsum_split pa pb _ (fun k => rsum pa (fun l => (s_R a e i k * s_Q a e k l * s_R a e j l)%R))).
    + rewrite (rsum_0 pb); [lra|]. intros k Hk. apply rsum_0. intros l Hl. rewrite !HB. lra.
    + intros k Hk. rewrite (rsum_split pa pb _ (fun l => (s_R a e i k * s_Q a e k l * s_R a e j l)%R)).
      * rewrite (rsum_0 pb); [lra|]. intros l Hl. rewrite !HB, !HA by auto. lra.
      * intros l Hl. rewrite !HA by auto. auto.
  - apply rsum_0. intros k Hk. apply rsum_0. intros l Hl.
    destruct (k <? pa), (l <? pa); lra.
  - apply rsum_0. intros k Hk. apply rsum_0. intros l Hl.
    destruct (k <? pa), (l <? pa); lra.
  - rewrite (rsum_split pa pb _ (fun k => 0%R)).
    + rewrite (rsum_0 pa) by auto. rewrite Rplus_0_l. apply rsum_ext. intros k Hk.
      rewrite (rsum_split pa pb _ (fun l => 0%R)).
      * rewrite (rsum_0 pa) by auto. rewrite Rplus_0_l. apply rsum_ext. intros l Hl.
        rewrite !HB, !HC. auto.
      * intros l Hl. rewrite (HA l), !HB by auto. lra.
    + intros k Hk. apply rsum_0. intros l Hl. rewrite (HA k) by auto. lra.
Qed.

(** *** pointwise equality of representations *)
Definition ssm_eq (m : ssm) (e : env) (m' : ssm) (e' : env) : Prop :=
  (forall i, s_x0 m e i = s_x0 m' e' i) /\ (forall i j, s_P0 m e i j = s_P0 m' e' i j) /\
  (forall i, s_c m e i = s_c m' e' i) /\ s_d m e = s_d m' e' /\
  (forall i j, s_T m e i j = s_T m' e' i j) /\ (forall t j, s_Z m e t j = s_Z m' e' t j) /\
  (forall i j, s_R m e i j = s_R m' e' i j) /\ s_H m e = s_H m' e' /\
  (forall i j, s_Q m e i j = s_Q m' e' i j).

Lemma combine_ssm_assoc na pa nb pb a b c e :
  ssm_eq (combine_ssm (na + nb) (pa + pb) (combine_ssm na pa a b) c) e
         (combine_ssm na pa a (combine_ssm nb pb b c)) e.
Proof.
  unfold ssm_eq, combine_ssm, concat_vec, block_diag; cbn [s_x0 s_P0 s_c s_d s_T s_Z s_R s_H s_Q].
  repeat split; intros; try lra;
  repeat match goal with
  | |- context [?x <? ?y] => destruct (Nat.ltb_spec x y)
  end; try lia; auto; rewrite ?Nat.sub_add_distr; auto.
Qed.

Lemma combine_ssm_ext na pa a b e a' b' e' :
  ssm_eq a e a' e' -> ssm_eq b e b' e' ->
  ssm_eq (combine_ssm na pa a b) e (combine_ssm na pa a' b') e'.
Proof.
  intros (A1&A2&A3&A4&A5&A6&A7&A8&A9) (B1&B2&B3&B4&B5&B6&B7&B8&B9).
  unfold ssm_eq, combine_ssm, concat_vec, block_diag; cbn [s_x0 s_P0 s_c s_d s_T s_Z s_R s_H s_Q].
  repeat split; intros; try congruence;
  repeat match goal with |- context [?x <? ?y] => destruct (x <? y) end; auto.
Qed.

(** *** component info *)
Lemma combine_info_fold b acc r :
  fold_left info_add b (Ok acc) = Ok r <->
  r = (acc ++ filter (fun kv => negb (is_sum_name (fst kv))) b)%list /\
  NoDup (dkeys (filter (fun kv => negb (is_sum_name (fst kv))) b)) /\
  (forall k, In k (dkeys acc) -> ~ In k (dkeys (filter (fun kv => negb (is_sum_name (fst kv))) b))).
Proof.
  assert (HE : forall b e, fold_left info_add b (Err e) = Err e).
  { clear. induction b; simpl; auto. }
  revert acc. induction b as [|[k v] b IH]; intros acc; simpl.
  - rewrite app_nil_r. split; [intros H; inversion H; repeat split; auto; constructor|].
    intros [-> _]. auto.
  - destruct (is_sum_name k) eqn:Es; simpl; [apply IH|].
    destruct (dmem acc k) eqn:Em.
    + rewrite HE. split; [discriminate|]. intros [_ [_ H]]. exfalso. apply dmem_In in Em.
      apply (H k Em). left; auto.
    + rewrite IH. rewrite <- app_assoc. simpl. apply dmem_false in Em. split.
      * intros [-> [H1 H2]]. split; auto. split.
        -- constructor; auto. apply H2. rewrite dkeys_app. apply in_or_app. right. left; auto.
        -- intros k' Hk' [<-|H]; [contradiction|]. revert H. apply H2. rewrite dkeys_app.
           apply in_or_app. auto.
      * intros [-> [H1 H2]]. inversion H1; subst. split; auto. split; auto.
        intros k' Hk'. rewrite dkeys_app in Hk'. apply in_app_or in Hk'.
        destruct Hk' as [Hk'|[<-|[]]]; auto. intros H. apply (H2 k' Hk'). right; auto.
Qed.

Definition own_info (d : dict cinfo) : dict cinfo := filter (fun kv => negb (is_sum_name (fst kv))) d.

Lemma combine_info_ok a b r :
  combine_info a b = Ok r <->
  r = (own_info a ++ own_info b)%list /\ NoDup (dkeys (own_info a ++ own_info b)%list).
Proof.
  unfold combine_info, own_info.
  destruct (fold_left info_add a (Ok [])) as [d|x] eqn:Ea.
  - apply combine_info_fold in Ea. destruct Ea as [-> [A1 A2]]. simpl.
    rewrite combine_info_fold. simpl. rewrite dkeys_app. split.
    + intros [-> [B1 B2]]. split; auto.
      revert A1 B1 B2. generalize (dkeys (filter (fun kv => negb (is_sum_name (fst kv))) b)) as lb.
      generalize (dkeys (filter (fun kv => negb (is_sum_name (fst kv))) a)) as la.
      induction la; simpl; intros; auto. inversion A1; subst. constructor.
      * rewrite in_app_iff. intros [H|H]; auto. apply (B2 a0); auto.
      * apply IHla; auto.
    + intros [-> ND]. split; auto.
      revert ND. generalize (dkeys (filter (fun kv => negb (is_sum_name (fst kv))) b)) as lb.
      generalize (dkeys (filter (fun kv => negb (is_sum_name (fst kv))) a)) as la.
      induction la; simpl; intros; [split; auto|]. inversion ND; subst.
      destruct (IHla lb H2) as [I1 I2]. split; auto. intros k [<-|Hk]; auto.
      intros Hk. apply H1. apply in_or_app; auto.
  - assert (HE : forall b e, fold_left info_add b (Err e) = Err e).
    { clear. induction b; simpl; auto. }
    rewrite HE. split; [discriminate|]. intros [_ ND]. exfalso.
    assert (fold_left info_add a (Ok []) = Ok (filter (fun kv => negb (is_sum_name (fst kv))) a)).
    { apply combine_info_fold. simpl. split; auto. split; auto. rewrite dkeys_app in ND.
      revert ND. generalize (dkeys (filter (fun kv => negb (is_sum_name (fst kv))) a)) as la.
      induction la; simpl; intros; [constructor|]. inversion ND; subst. constructor; auto.
      intros H. apply H1. apply in_or_app; auto. }
    congruence.
Qed.

Lemma own_info_app a b : own_info (a ++ b)%list = (own_info a ++ own_info b)%list.
Proof. apply filter_app. Qed.
Lemma own_info_idem a : own_info (own_info a) = own_info a.
Proof.
  unfold own_info. induction a as [|x a IH]; simpl; auto.
  destruct (negb (is_sum_name (fst x))) eqn:E; simpl; auto. rewrite E. congruence.
Qed.

(** *** dict updates *)
Lemma dget_dset {V} (d : dict V) k v k' :
  dget (dset d k v) k' = if String.eqb k' k then Some v else dget d k'.
Proof.
  induction d as [|[k0 v0] d IH]; simpl; auto.
  destruct (String.eqb_spec k k0); simpl.
  - subst. destruct (String.eqb_spec k' k0); auto.
  - rewrite IH. destruct (String.eqb_spec k' k0); auto.
    subst. destruct (String.eqb_spec k0 k); auto. congruence.
Qed.

Lemma dkeys_dset {V} (d : dict V) k v :
  dkeys (dset d k v) = if smem k (dkeys d) then dkeys d else (dkeys d ++ [k])%list.
Proof.
  induction d as [|[k0 v0] d IH]; simpl; auto.
  unfold smem in *. simpl. destruct (String.eqb_spec k k0); simpl; [subst; auto|].
  rewrite IH. destruct (existsb _ _); auto.
Qed.

Lemma dget_none {V} (d : dict V) k : dget d k = None <-> ~ In k (dkeys d).
Proof. rewrite <- dmem_false. unfold dmem. destruct (dget d k); intuition congruence. Qed.

Lemma dget_dupdate {V} (a b : dict V) k :
  NoDup (dkeys b) ->
  dget (dupdate a b) k = match dget b k with Some v => Some v | None => dget a k end.
Proof.
  unfold dupdate. revert a. induction b as [|[k0 v0] b IH]; intros a ND; simpl; auto.
  inversion ND; subst. rewrite IH by auto. rewrite dget_dset.
  destruct (String.eqb_spec k k0); auto. subst.
  apply dget_none in H1. rewrite H1. auto.
Qed.

Lemma NoDup_snoc {A} (l : list A) x : NoDup l -> ~ In x l -> NoDup (l ++ [x])%list.
Proof.
  intros H Hx. induction H; simpl; [repeat constructor; auto|].
  constructor.
  - rewrite in_app_iff. simpl. intros [H'|[<-|[]]]; auto. apply Hx; left; auto.
  - apply IHNoDup. intros H'; apply Hx; right; auto.
Qed.

Lemma dset_NoDup {V} (d : dict V) k v : NoDup (dkeys d) -> NoDup (dkeys (dset d k v)).
Proof.
  intros H. rewrite dkeys_dset. destruct (smem k (dkeys d)) eqn:E; auto.
  apply NoDup_snoc; auto. intros H'. apply smem_In in H'. congruence.
Qed.

Lemma dupdate_NoDup {V} (a b : dict V) : NoDup (dkeys a) -> NoDup (dkeys (dupdate a b)).
Proof.
  unfold dupdate. revert a. induction b as [|[k0 v0] b IH]; intros a H; simpl; auto.
  apply IH, dset_NoDup; auto.
Qed.

Lemma dkeys_dupdate {V} (a b : dict V) :
  dkeys (dupdate a b) = fold_left (fun l k => if smem k l then l else (l ++ [k])%list) (dkeys b) (dkeys a).
Proof.
  unfold dupdate. revert a. induction b as [|[k0 v0] b IH]; intros a; simpl; auto.
  rewrite IH, dkeys_dset. auto.
Qed.

(** a dict with distinct keys is determined by its keys and its lookups *)
Lemma dict_ext {V} (a b : dict V) :
  NoDup (dkeys a) -> dkeys a = dkeys b -> (forall k, dget a k = dget b k) -> a = b.
Proof.
  revert b. induction a as [|[k v] a IH]; intros [|[k' v'] b] ND HK HG; simpl in *; try discriminate; auto.
  injection HK as EK HK'. subst k'. inversion ND as [|? ? ND1 ND2]; subst.
  pose proof (HG k) as Hv. rewrite String.eqb_refl in Hv. inversion Hv; subst v'.
  f_equal. apply IH; auto. intros q. specialize (HG q).
  destruct (String.eqb_spec q k); auto. subst.
  rewrite (proj2 (dget_none a k)) by auto. symmetry. apply dget_none. unfold dkeys in *. rewrite <- HK'. auto.
Qed.

Lemma fold_keys_assoc (c b a : list string) :
  fold_left (fun l k => if smem k l then l else (l ++ [k])%list)
    (fold_left (fun l k => if smem k l then l else (l ++ [k])%list) c b) a =
  fold_left (fun l k => if smem k l then l else (l ++ [k])%list) c
    (fold_left (fun l k => if smem k l then l else (l ++ [k])%list) b a).
Proof.
  revert b a. induction c as [|k c IH]; intros b a; simpl; auto.
  assert (IN : forall l a, forall q, In q (fold_left (fun l k => if smem k l then l else (l ++ [k])%list) l a) <-> In q l \/ In q a).
  { clear. induction l as [|x l IH]; intros a q; simpl; [tauto|]. rewrite IH.
    destruct (smem x a) eqn:E.
    - apply smem_In in E. intuition. subst; auto.
    - rewrite in_app_iff. simpl. intuition. }
  destruct (smem k b) eqn:Eb.
  - rewrite IH. assert (smem k (fold_left (fun l k => if smem k l then l else (l ++ [k])%list) b a) = true) as ->.
    { apply smem_In. apply IN. left. apply smem_In; auto. }
    auto.
  - rewrite IH. rewrite fold_left_app. simpl. auto.
Qed.

Lemma dupdate_assoc {V} (a b c : dict V) :
  NoDup (dkeys a) -> NoDup (dkeys b) -> NoDup (dkeys c) ->
  dupdate (dupdate a b) c = dupdate a (dupdate b c).
Proof.
  intros Ha Hb Hc. apply dict_ext.
  - apply dupdate_NoDup, dupdate_NoDup; auto.
  - rewrite !dkeys_dupdate. symmetry. apply fold_keys_assoc.
  - intros k. rewrite !dget_dupdate; auto using dupdate_NoDup.
    destruct (dget c k); auto.
Qed.
