(** Specification for C91: linear estimates of a random vector from a series, the values they take on numbers, and their mean square error.
    Random vectors and the state space model are those of Joint_Spec.v. *)
From mathcomp Require Import all_ssreflect all_algebra.
From Verif Require Import Kalman_Model Kalman_Spec Joint_Spec.
Set Implicit Arguments.
Unset Strict Implicit.
Unset Printing Implicit Defensive.
Import Order.Theory GRing.Theory Num.Theory.
Local Open Scope ring_scope.

Section Spec.
Context (R : realFieldType) (N : nat).
(** the estimate b + B 0 y 0 + ... + B (m-1) y (m-1): on numbers, and as a random vector *)
Definition on_values k p (b : 'cV[R]_k) (m : nat) (B : nat -> 'M[R]_(k, p)) (v : nat -> 'cV[R]_p) : 'cV[R]_k := b + \sum_(s < m) B s *m v s.
Definition estimator k p (b : 'cV[R]_k) (m : nat) (B : nat -> 'M[R]_(k, p)) (y : nat -> rv R N p) : rv R N k :=
  RV (b + \sum_(s < m) B s *m mean (y s)) (\sum_(s < m) B s *m load (y s)).
(** expectation of (X - Xhat)(X - Xhat)^T *)
Definition mse_of k (X Xhat : rv R N k) : 'M[R]_k :=
  let err := RV (mean X - mean Xhat) (load X - load Xhat) in cov err err + mean err *m (mean err)^T.
(** the estimate does not look at missing entries *)
Definition observed_only n p r k (us : seq (inputs R n p r)) (m : nat) (B : nat -> 'M[R]_(k, p)) : Prop :=
  forall s u i, (s < m)%N -> List.nth_error us s = Some u -> in_y u i = None -> col i (B s) = 0.
(** other numbers in the observed entries, same missing entries, same matrices *)
Definition with_row n p r (u : inputs R n p r) (w : 'cV[R]_p) : inputs R n p r :=
  Inputs (fun i => omap (fun _ => w i 0) (in_y u i)) (in_c u) (in_d u) (in_T u) (in_Z u) (in_R u) (in_H u) (in_Q u).
Fixpoint with_values n p r (us : seq (inputs R n p r)) (v : nat -> 'cV[R]_p) : seq (inputs R n p r) :=
  if us is u :: us' then with_row u (v 0%N) :: with_values us' (fun s => v s.+1) else [::].
Fixpoint with_numbers p (ys : seq (obs R p)) (v : nat -> 'cV[R]_p) : seq (obs R p) :=
  if ys is o :: ys' then (fun i => omap (fun _ => v 0%N i 0) (o i)) :: with_numbers ys' (fun s => v s.+1) else [::].
(** no observed number equals the value that stands for "missing" *)
Definition avoids n p r (fill : R) (us : seq (inputs R n p r)) (v : nat -> 'cV[R]_p) : Prop :=
  forall s u i, List.nth_error us s = Some u -> in_y u i <> None -> v s i 0 != fill.
(** a covariance that does not understate the error of an unbiased estimate made from what was observed before time m *)
Definition covers n p r k (us : seq (inputs R n p r)) (y : nat -> rv R N p) (m : nat) (X : rv R N k) (b : 'cV[R]_k) (B : nat -> 'M[R]_(k, p)) (P : 'M[R]_k) : Prop :=
  [/\ observed_only us m B, mean (estimator b m B y) = mean X & psd (P - mse_of X (estimator b m B y))].
End Spec.
