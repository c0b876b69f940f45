(** Specification for C14, C15, C18-C21, C62: positive semidefiniteness, the textbook Gaussian update, selection of
    the observed rows. *)
From mathcomp Require Import all_ssreflect all_algebra.
Set Implicit Arguments.
Unset Strict Implicit.
Unset Printing Implicit Defensive.
Import Order.Theory GRing.Theory Num.Theory.
Local Open Scope ring_scope.

Section Spec.
Context (R : realFieldType).

Definition psd n (A : 'M[R]_n) : Prop := A^T = A /\ forall x : 'cV[R]_n, 0 <= (x^T *m A *m x) 0 0.

(** Textbook (Durbin and Koopman 2012, sec. 4.3; docstring of the filter): y = d + Z x + noise, x ~ N(a, P),
    noise ~ N(0, H); moments of x given y. *)
Definition innov_cov n p (P : 'M[R]_n) (Z : 'M[R]_(p, n)) (H : 'M[R]_p) := Z *m P *m Z^T + H.
Definition gain n p (P : 'M[R]_n) (Z : 'M[R]_(p, n)) (H : 'M[R]_p) := P *m Z^T *m invmx (innov_cov P Z H).
Definition cond_mean n p (a : 'cV[R]_n) (P : 'M[R]_n) (Z : 'M[R]_(p, n)) (H : 'M[R]_p) (y d : 'cV[R]_p) :=
  a + gain P Z H *m (y - d - Z *m a).
Definition cond_cov n p (P : 'M[R]_n) (Z : 'M[R]_(p, n)) (H : 'M[R]_p) := P - gain P Z H *m Z *m P.

(** log-density of N(0, F) at v, [l2pi] = log (2 pi) *)
Definition gauss_ll (log : R -> R) (l2pi : R) p (F : 'M[R]_p) (v : 'cV[R]_p) : R :=
  - 2%:R^-1 * (p%:R * l2pi + log (\det F) + (v^T *m invmx F *m v) 0 0).

(** noise of observed and missing series uncorrelated *)
Definition decoupled p (missing : 'I_p -> bool) (H : 'M[R]_p) : Prop :=
  forall i j, missing i != missing j -> H i j = 0.

(** [f] lists the observed series, each once *)
Definition lists_observed p q (missing : 'I_p -> bool) (f : 'I_q -> 'I_p) : Prop :=
  injective f /\ forall i, ~~ missing i <-> exists k, f k = i.
End Spec.
