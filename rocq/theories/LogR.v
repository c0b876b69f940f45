(** Log-probabilities: a real number or minus infinity (Python's [-np.inf]).
    NaN and +inf are not modelled. *)
From Coq Require Export Reals Lra Lia List.
Export ListNotations.
Local Open Scope R_scope.

Inductive lr := NInf | Fin (r : R).

(** [np.exp] on log-probabilities. *)
Definition lexp (a : lr) : R := match a with NInf => 0 | Fin r => exp r end.
(** [np.log] on probabilities (non-negative numbers); log 0 = -inf. *)
Definition lln (x : R) : lr := if Rle_dec x 0 then NInf else Fin (ln x).
(** Addition of log-probabilities: -inf absorbs. *)
Definition ladd (a b : lr) : lr :=
  match a, b with Fin x, Fin y => Fin (x + y) | _, _ => NInf end.
Definition lsum (l : list lr) : lr := fold_right ladd (Fin 0) l.
Definition Rsum (l : list R) : R := fold_right Rplus 0 l.
Definition Rprod (l : list R) : R := fold_right Rmult 1 l.
(** [pt.logsumexp] along one axis. *)
Definition logsumexp (l : list lr) : lr := lln (Rsum (map lexp l)).

Lemma lexp_nonneg a : 0 <= lexp a.
Proof. destruct a; simpl; [lra | left; apply exp_pos]. Qed.

Lemma lexp_lln x : 0 <= x -> lexp (lln x) = x.
Proof.
  intros H. unfold lln. destruct (Rle_dec x 0) as [Hle|Hgt]; simpl.
  - lra.
  - apply exp_ln. lra.
Qed.

Lemma lln_lexp a : lln (lexp a) = a.
Proof.
  unfold lln. destruct a; simpl.
  - destruct (Rle_dec 0 0); [reflexivity | lra].
  - destruct (Rle_dec (exp r) 0) as [Hle|Hgt].
    + pose proof (exp_pos r); lra.
    + now rewrite ln_exp.
Qed.

Lemma lexp_inj a b : lexp a = lexp b -> a = b.
Proof. intros H. rewrite <- (lln_lexp a), <- (lln_lexp b). now rewrite H. Qed.

Lemma lexp_ladd a b : lexp (ladd a b) = lexp a * lexp b.
Proof. destruct a, b; simpl; try ring. apply exp_plus. Qed.

Lemma ladd_comm a b : ladd a b = ladd b a.
Proof. destruct a, b; simpl; auto. f_equal; ring. Qed.
Lemma ladd_assoc a b c : ladd a (ladd b c) = ladd (ladd a b) c.
Proof. destruct a, b, c; simpl; auto. f_equal; ring. Qed.
Lemma ladd_0_l a : ladd (Fin 0) a = a.
Proof. destruct a; simpl; auto. f_equal; ring. Qed.
Lemma ladd_0_r a : ladd a (Fin 0) = a.
Proof. rewrite ladd_comm. apply ladd_0_l. Qed.

Lemma lexp_lsum l : lexp (lsum l) = Rprod (map lexp l).
Proof.
  induction l as [|a l IH]; simpl.
  - apply exp_0.
  - rewrite lexp_ladd. now rewrite IH.
Qed.

Lemma Rsum_app l1 l2 : Rsum (l1 ++ l2) = Rsum l1 + Rsum l2.
Proof. induction l1 as [|a l IH]; simpl; [ring | rewrite IH; ring]. Qed.
Lemma Rprod_app l1 l2 : Rprod (l1 ++ l2) = Rprod l1 * Rprod l2.
Proof. induction l1 as [|a l IH]; simpl; [ring | rewrite IH; ring]. Qed.
Lemma lsum_app l1 l2 : lsum (l1 ++ l2) = ladd (lsum l1) (lsum l2).
Proof.
  induction l1 as [|a l IH]; simpl.
  - symmetry. apply ladd_0_l.
  - rewrite IH. apply ladd_assoc.
Qed.

Lemma Rsum_nonneg l : Forall (fun x => 0 <= x) l -> 0 <= Rsum l.
Proof. induction 1; simpl; [lra | lra]. Qed.

Lemma Rsum_map_lexp_nonneg l : 0 <= Rsum (map lexp l).
Proof.
  apply Rsum_nonneg. apply Forall_forall. intros x Hx.
  apply in_map_iff in Hx. destruct Hx as [a [<- _]]. apply lexp_nonneg.
Qed.

Lemma lexp_logsumexp l : lexp (logsumexp l) = Rsum (map lexp l).
Proof. unfold logsumexp. apply lexp_lln. apply Rsum_map_lexp_nonneg. Qed.

Lemma Rsum_map_mult_l {A} (c : R) (f : A -> R) l :
  Rsum (map (fun a => c * f a) l) = c * Rsum (map f l).
Proof. induction l as [|a l IH]; simpl; [ring | rewrite IH; ring]. Qed.
Lemma Rsum_map_mult_r {A} (c : R) (f : A -> R) l :
  Rsum (map (fun a => f a * c) l) = Rsum (map f l) * c.
Proof. induction l as [|a l IH]; simpl; [ring | rewrite IH; ring]. Qed.
Lemma Rsum_map_plus {A} (f g : A -> R) l :
  Rsum (map (fun a => f a + g a) l) = Rsum (map f l) + Rsum (map g l).
Proof. induction l as [|a l IH]; simpl; [ring | rewrite IH; ring]. Qed.
Lemma Rsum_map_ext {A} (f g : A -> R) l :
  (forall a, In a l -> f a = g a) -> Rsum (map f l) = Rsum (map g l).
Proof.
  intros H; f_equal. apply map_ext_in. exact H.
Qed.
Lemma Rsum_flat_map {A B} (f : A -> list B) (g : B -> R) l :
  Rsum (map g (flat_map f l)) = Rsum (map (fun a => Rsum (map g (f a))) l).
Proof.
  induction l as [|a l IH]; simpl; [reflexivity|].
  rewrite map_app, Rsum_app, IH. reflexivity.
Qed.
Lemma Rsum_swap {A B} (f : A -> B -> R) la lb :
  Rsum (map (fun a => Rsum (map (f a) lb)) la)
  = Rsum (map (fun b => Rsum (map (fun a => f a b) la)) lb).
Proof.
  induction la as [|a la IH]; simpl.
  - induction lb as [|b lb IHb]; simpl; [reflexivity | rewrite <- IHb; ring].
  - rewrite IH. rewrite <- Rsum_map_plus. reflexivity.
Qed.
Lemma Rsum_zero {A} (l : list A) : Rsum (map (fun _ => 0) l) = 0.
Proof. induction l as [|a l IH]; simpl; [reflexivity | rewrite IH; ring]. Qed.
Lemma Rprod_map_mult {A} (f g : A -> R) l :
  Rprod (map (fun a => f a * g a) l) = Rprod (map f l) * Rprod (map g l).
Proof. induction l as [|a l IH]; simpl; [ring | rewrite IH; ring]. Qed.
