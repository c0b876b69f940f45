(** Specification vocabulary for structural models: how a linear state space
    model runs, and the equations documented for each component. *)
From Coq Require Import Reals String.
From Verif Require Import Common Struct_Model.
Open Scope nat_scope.

(** A run of the linear state space model
      x_0 = x0,  x_{t+1} = c + T x_t + R e_t,   y_t = d + Z_t x_t
    with [n] states and [p] shocks; [eps t j] is shock j at time t. *)
Fixpoint run (n p : nat) (m : ssm) (e : env) (eps : nat -> vec) (t : nat) : vec :=
  match t with
  | O => s_x0 m e
  | S t' => fun i => (s_c m e i + rsum n (fun j => s_T m e i j * run n p m e eps t' j)
                      + rsum p (fun j => s_R m e i j * eps t' j))%R
  end.

Definition observe (n p : nat) (m : ssm) (e : env) (eps : nat -> vec) (t : nat) : R :=
  (s_d m e + rsum n (fun j => s_Z m e t j * run n p m e eps t j))%R.

(** The observed series and the hidden states of one component on its own. *)
Definition y_of (c : component) := observe (c_k_states c) (c_k_posdef c) (c_ssm c).
Definition x_of (c : component) := run (c_k_states c) (c_k_posdef c) (c_ssm c).

Definition no_shocks : nat -> vec := fun _ _ => 0%R.

(** structural.py:1109-1120: "given a list initial_conditions of length s-1, the effects will be
    Period 1: -sum(init); Period 2: init[-1]; ...; Period s: init[0]; Period s+1: -sum(init)". *)
Definition documented_season (s : nat) (init : vec) (t : nat) : R :=
  match t mod s with
  | 0 => init 0
  | 1 => (- rsum (s - 1) init)%R
  | r => init (s - r)
  end.

(** structural.py:1273-1280: a sum of sinusoids, frequency 2 pi j / s for the j-th harmonic. *)
Definition harmonic_sum (s : R) (n : nat) (a b : vec) (t : nat) : R :=
  rsum n (fun j => let w := (2 * PI * INR (j + 1) * INR t / s)%R in
                   (a j * cos w + b j * sin w)%R).

(** The documented trend system (structural.py:711-735): each derivative is moved by the next one. *)
Definition documented_trend (k : nat) (x : nat -> vec) (shock : nat -> vec) : Prop :=
  forall t i, i < k ->
    x (S t) i = (x t i + (if (i + 1 <? k)%nat then x t (i + 1)%nat else 0) + shock t i)%R.

(** Position [i] of a mask: the rank of an enabled entry among the enabled ones. *)
Definition rank (m : list bool) (i : nat) : nat := bsum (firstn i m).
