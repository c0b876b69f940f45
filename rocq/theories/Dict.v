(** Python dicts with string keys, in insertion order (shared by several models). *)
From Coq Require Export String.
From Verif Require Import Common.
Open Scope nat_scope.

Definition dict (V : Type) := list (string * V).
Fixpoint dget {V} (d : dict V) (k : string) : option V :=
  match d with [] => None | (k', v) :: r => if String.eqb k k' then Some v else dget r k end.
(** d[k] = v: replaces in place or appends *)
Fixpoint dset {V} (d : dict V) (k : string) (v : V) : dict V :=
  match d with [] => [(k, v)] | (k', v') :: r => if String.eqb k k' then (k, v) :: r else (k', v') :: dset r k v end.
(** d | d2, {**d, **d2}, d.update(d2) *)
Definition dupdate {V} (d d2 : dict V) : dict V := fold_left (fun acc kv => dset acc (fst kv) (snd kv)) d2 d.
Definition dkeys {V} (d : dict V) : list string := map fst d.
(** d.pop(k, default): the value and the remaining dict *)
Definition dremove {V} (d : dict V) (k : string) : dict V := filter (fun kv => negb (String.eqb k (fst kv))) d.
Definition dpop {V} (d : dict V) (k : string) (default : V) : V * dict V :=
  (match dget d k with Some v => v | None => default end, dremove d k).
Definition smem (k : string) (l : list string) : bool := existsb (String.eqb k) l.
Definition dmem {V} (d : dict V) (k : string) : bool := match dget d k with Some _ => true | None => false end.

Lemma dget_dset {V} (d : dict V) k v k' : dget (dset d k v) k' = if String.eqb k' k then Some v else dget d k'.
Proof.
  induction d as [|[a b] r IH]; simpl; auto.
  destruct (String.eqb_spec k a); simpl.
  - subst. destruct (String.eqb_spec k' a); auto.
  - rewrite IH. destruct (String.eqb_spec k' a); auto. subst. destruct (String.eqb_spec a k); congruence.
Qed.
Lemma dget_none {V} (d : dict V) k : dget d k = None <-> ~ In k (dkeys d).
Proof.
  induction d as [|[a b] r IH]; simpl; [tauto|]. destruct (String.eqb_spec k a).
  - split; [discriminate|]. intros H. exfalso. apply H. auto.
  - rewrite IH. split; intros H; [intros [E|E]; [congruence|tauto]|tauto].
Qed.
Lemma dget_in {V} (d : dict V) k v : dget d k = Some v -> In (k, v) d.
Proof.
  induction d as [|[a b] r IH]; simpl; [discriminate|]. destruct (String.eqb_spec k a); [|auto].
  intros E. inversion E; subst. auto.
Qed.
Lemma in_dget {V} (d : dict V) k v : NoDup (dkeys d) -> In (k, v) d -> dget d k = Some v.
Proof.
  induction d as [|[a b] r IH]; simpl; [tauto|]. intros ND [E|H].
  - inversion E; subst. rewrite String.eqb_refl. auto.
  - inversion ND; subst. destruct (String.eqb_spec k a); auto. subst. exfalso. apply H2. unfold dkeys.
    apply in_map_iff. exists (a, v). auto.
Qed.
Lemma dkeys_dset {V} (d : dict V) k v : dkeys (dset d k v) = if smem k (dkeys d) then dkeys d else (dkeys d ++ [k])%list.
Proof.
  induction d as [|[a b] r IH]; simpl; auto. destruct (String.eqb_spec k a); simpl; [subst; auto|].
  unfold dkeys in *. rewrite IH. unfold smem. destruct (existsb (String.eqb k) (map fst r)); auto.
Qed.
Lemma smem_in k l : smem k l = true <-> In k l.
Proof.
  unfold smem. rewrite existsb_exists. split.
  - intros (x&H&E). apply String.eqb_eq in E. subst; auto.
  - intros H. exists k. split; auto. apply String.eqb_refl.
Qed.
Lemma smem_false k l : smem k l = false <-> ~ In k l.
Proof. rewrite <- smem_in. destruct (smem k l); split; congruence. Qed.
Lemma NoDup_dset {V} (d : dict V) k v : NoDup (dkeys d) -> NoDup (dkeys (dset d k v)).
Proof.
  intros H. rewrite dkeys_dset. destruct (smem k (dkeys d)) eqn:E; auto. apply smem_false in E.
  apply NoDup_rev in H. rewrite <- (rev_involutive (dkeys d ++ [k])). apply NoDup_rev. rewrite rev_app_distr. simpl.
  constructor; auto. rewrite <- in_rev. auto.
Qed.
Lemma dupdate_cons {V} (a : dict V) k v b : dupdate a ((k, v) :: b) = dupdate (dset a k v) b.
Proof. reflexivity. Qed.
Lemma NoDup_dupdate {V} (b a : dict V) : NoDup (dkeys a) -> NoDup (dkeys (dupdate a b)).
Proof. revert a. induction b as [|[k v] b IH]; intros a H; auto. rewrite dupdate_cons. apply IH, NoDup_dset, H. Qed.
(** the right-hand dict wins *)
Lemma dget_dupdate {V} (b a : dict V) k : NoDup (dkeys b) ->
  dget (dupdate a b) k = match dget b k with Some v => Some v | None => dget a k end.
Proof.
  revert a. induction b as [|[k' v] b IH]; intros a ND; auto. rewrite dupdate_cons. inversion ND; subst. rewrite IH by auto. simpl.
  destruct (dget b k) eqn:E.
  - destruct (String.eqb_spec k k'); auto. subst. apply dget_in in E. exfalso. apply H1. unfold dkeys. apply in_map_iff.
    exists (k', v0). auto.
  - rewrite dget_dset. destruct (String.eqb k k'); auto.
Qed.
Lemma dget_dremove {V} (d : dict V) k k' : dget (dremove d k) k' = if String.eqb k' k then None else dget d k'.
Proof.
  unfold dremove. induction d as [|[a b] r IH]; simpl; [destruct (String.eqb k' k); auto|].
  destruct (String.eqb_spec k a); simpl.
  - subst. rewrite IH. destruct (String.eqb_spec k' a); auto.
  - rewrite IH. destruct (String.eqb_spec k' a); auto. subst. destruct (String.eqb_spec a k); congruence.
Qed.
Lemma NoDup_dremove {V} (d : dict V) k : NoDup (dkeys d) -> NoDup (dkeys (dremove d k)).
Proof.
  unfold dremove, dkeys. induction d as [|[a b] r IH]; simpl; auto. intros H. inversion H; subst.
  destruct (negb (String.eqb k a)); simpl; auto. constructor; auto. intros Hin. apply H2.
  apply in_map_iff in Hin as (x&E&Hx). apply filter_In in Hx as (Hx&_). apply in_map_iff. eauto.
Qed.
