(** What the docstring of BetaNegativeBinomial promises (discrete.py:185-250). *)
From Coq Require Import Reals.
From Coquelicot Require Import Coquelicot.
From Verif Require Import Chi_Spec.
Local Open Scope R_scope.

(** Gm is the Gamma function: at every s > 0 the value of its integral *)
Definition gamma_function (Gm : R -> R) : Prop := forall s, 0 < s -> is_Gamma s (Gm s).
(** the Beta function, by Euler's formula *)
Definition Beta (Gm : R -> R) (x y : R) : R := Gm x * Gm y / Gm (x + y).
(** discrete.py:191-193 *)
Definition bnb_pmf (Gm : R -> R) (alpha beta r : R) (x : nat) : R :=
  Beta Gm (r + INR x) (alpha + beta) / Beta Gm r alpha * (Gm (INR x + beta) / (INR (fact x) * Gm beta)).
(** moments of a distribution on the natural numbers *)
Definition sums_to (f : nat -> R) (l : R) : Prop := is_series f l.
Definition diverges (f : nat -> R) : Prop := is_lim_seq (fun n => sum_n f n) p_infty.
(** discrete.py:232-233 *)
Definition bnb_mean (alpha beta r : R) : R := r * beta / (alpha - 1).
Definition bnb_variance (alpha beta r : R) : R := r * beta * (r + alpha - 1) * (beta + alpha - 1) / ((alpha - 2) * (alpha - 1) ^ 2).
