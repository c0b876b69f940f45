(** More about [bspline_interpolation] (pymc_extras/utils/spline.py) that follows from C79_weights:
    the curve cannot amplify a perturbation of the data, it is monotone in the data, and it commutes with
    shifting and scaling the data. *)
From Coq Require Import Reals List Lia Lra Arith.
From Verif Require Import Common Spline_Model Spline_Props.
Import ListNotations.
Open Scope R_scope.

Lemma Forall2_len {A B} (P : A -> B -> Prop) l l' : Forall2 P l l' -> length l = length l'.
Proof. induction 1; cbn; auto. Qed.

Lemma weighted_le e : forall w x x', Forall2 (fun a b => a <= b + e) x x' -> length w = length x -> Forall (Rle 0) w ->
  weighted w x <= weighted w x' + e * fold_right Rplus 0 w.
Proof.
  induction w as [|a w IH]; intros x x' H L F; inversion H; subst; cbn in L; try lia; unfold weighted in *; cbn; [lra|].
  inversion F; subst. specialize (IH _ _ H1 ltac:(lia) H5).
  assert (a * x0 <= a * (y + e)) by (apply Rmult_le_compat_l; auto). lra.
Qed.

Lemma weighted_affine a b : forall w x, length w = length x ->
  weighted w (map (fun v => a * v + b) x) = a * weighted w x + b * fold_right Rplus 0 w.
Proof.
  induction w as [|u w IH]; intros [|v x] L; cbn in L; try lia; unfold weighted in *; cbn; [lra|]. rewrite IH by lia. lra.
Qed.

Lemma curve_le degree e x x' pts y y' : (degree < length x)%nat -> Forall2 (fun a b => a <= b + e) x x' ->
  Forall (fun p => 0 <= p <= 1) pts ->
  bspline_interpolation x None (Some pts) degree = Ok y -> bspline_interpolation x' None (Some pts) degree = Ok y' ->
  Forall2 (fun a b => a <= b + e) y y'.
Proof.
  intros Hk H Hp E E'. pose proof (Forall2_len _ _ _ H) as L.
  destruct (C79_weights (length x) degree Hk) as (W & HW & _ & HE & _).
  rewrite (HE x pts eq_refl) in E. rewrite (HE x' pts (eq_sym L)) in E'. injection E as <-. injection E' as <-.
  induction Hp as [|p pts Pp Hp IH]; cbn; constructor; auto.
  destruct (HW p) as (A & B & C). destruct (C Pp) as (C1 & _).
  pose proof (weighted_le e (W p) x x' H A C1) as K. rewrite B in K. lra.
Qed.

(** Raising values of the data never lowers the curve. *)
Theorem C79_monotone_in_data : forall degree x x' pts y y', (degree < length x)%nat -> Forall2 Rle x x' ->
  Forall (fun p => 0 <= p <= 1) pts ->
  bspline_interpolation x None (Some pts) degree = Ok y -> bspline_interpolation x' None (Some pts) degree = Ok y' ->
  Forall2 Rle y y'.
Proof.
  intros degree x x' pts y y' Hk H Hp E E'.
  assert (G : Forall2 (fun a b => a <= b + 0) x x') by (clear -H; induction H; constructor; auto; lra).
  pose proof (curve_le degree 0 x x' pts y y' Hk G Hp E E') as K. clear -K. induction K; constructor; auto; lra.
Qed.

(** An error of at most eps in every value of the data moves the curve by at most eps anywhere. *)
Theorem C79_no_amplification : forall degree eps x x' pts y y', (degree < length x)%nat ->
  Forall2 (fun a b => Rabs (a - b) <= eps) x x' -> Forall (fun p => 0 <= p <= 1) pts ->
  bspline_interpolation x None (Some pts) degree = Ok y -> bspline_interpolation x' None (Some pts) degree = Ok y' ->
  Forall2 (fun a b => Rabs (a - b) <= eps) y y'.
Proof.
  intros degree eps x x' pts y y' Hk H Hp E E'.
  assert (S : forall u v, Rabs (u - v) <= eps -> u <= v + eps /\ v <= u + eps)
    by (intros u v K; apply Rabs_le_between in K || (unfold Rabs in K; destruct (Rcase_abs (u - v))); lra).
  assert (G : Forall2 (fun a b => a <= b + eps) x x') by (clear -H S; induction H as [|? ? ? ? Hh]; constructor; auto; destruct (S _ _ Hh); auto).
  assert (G' : Forall2 (fun a b => a <= b + eps) x' x) by (clear -H S; induction H as [|? ? ? ? Hh]; constructor; auto; destruct (S _ _ Hh); auto).
  pose proof (curve_le degree eps x x' pts y y' Hk G Hp E E') as K.
  rewrite (Forall2_len _ _ _ H) in Hk.
  pose proof (curve_le degree eps x' x pts y' y Hk G' Hp E' E) as K'.
  clear -K K'. induction K; inversion K'; subst; constructor; auto. unfold Rabs. destruct (Rcase_abs (x - y)); lra.
Qed.

(** Changing the units or the origin of the data changes the curve the same way, at every point. *)
Theorem C79_affine : forall degree a b x pts y, (degree < length x)%nat ->
  bspline_interpolation x None (Some pts) degree = Ok y ->
  bspline_interpolation (map (fun v => a * v + b) x) None (Some pts) degree = Ok (map (fun v => a * v + b) y).
Proof.
  intros degree a b x pts y Hk E.
  destruct (C79_weights (length x) degree Hk) as (W & HW & _ & HE & _).
  rewrite (HE x pts eq_refl) in E. injection E as <-.
  rewrite HE by apply map_length. f_equal. rewrite map_map. apply map_ext. intros p.
  destruct (HW p) as (A & B & _). rewrite weighted_affine by auto. rewrite B. lra.
Qed.

(** Four values, degree two: the hypotheses are met. *)
Example C79_more_case : exists y y', bspline_interpolation [0; 1; 3; 2] None (Some [1/4; 1/2]) 2 = Ok y /\
  bspline_interpolation [1; 1; 4; 3] None (Some [1/4; 1/2]) 2 = Ok y' /\ Forall2 Rle y y'.
Proof.
  destruct (C79_weights 4 2 ltac:(lia)) as (W & _ & _ & HE & _).
  eexists _, _. split; [apply HE; reflexivity|]. split; [apply HE; reflexivity|].
  eapply (C79_monotone_in_data 2 [0;1;3;2] [1;1;4;3] [1/4;1/2]); [cbn; lia| | |apply HE; reflexivity|apply HE; reflexivity].
  - repeat constructor; lra.
  - repeat constructor; lra.
Qed.
