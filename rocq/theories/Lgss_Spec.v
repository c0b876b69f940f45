(** Specification of the forward simulation: the state space equations. *)
From Verif Require Common KalmanScan_Model.
From mathcomp Require Import all_ssreflect all_algebra.
From Verif Require Import Lgss_Model.
Set Implicit Arguments.
Unset Strict Implicit.
Unset Printing Implicit Defensive.
Import GRing.Theory.
Import Common(res, Ok, Err, bind, ValueError, IndexError, TypeError, AssertionError).
Import KalmanScan_Model(pname, Pc, Pd, PT, PZ, PR, PH, PQ, PARAM_NAMES, pname_eqb).
Local Open Scope ring_scope.

Section Spec.
Context (R : ringType) (k p r : nat) (Rng : Type) (normal : Rng -> forall n, 'cV[R]_n * Rng) (factor : forall n, 'M[R]_n -> 'M[R]_n).
(** N(0, cov) noise drawn with a given generator, and the generator afterwards *)
Definition noise (g : Rng) n (cov : 'M[R]_n) : 'cV[R]_n := factor cov *m (normal g n).1.
Definition after (g : Rng) (n : nat) : Rng := (normal g n).2.
(** matrix of time t *)
Definition at_time A (x : param A) (t : nat) : option A := match x with Const a => Some a | Vary l => List.nth_error l t end.
Definition matrices_at (s : system R k p r) (t : nat) (m : mats R k p r) : Prop :=
  [/\ at_time (s_c s) t = Some (m_c m), at_time (s_d s) t = Some (m_d m), at_time (s_T s) t = Some (m_T m)
    & at_time (s_Z s) t = Some (m_Z m)] /\
  [/\ at_time (s_R s) t = Some (m_R m), at_time (s_H s) t = Some (m_H m) & at_time (s_Q s) t = Some (m_Q m)].
(** every time-varying matrix covers n steps *)
Definition long_enough A (n : nat) (x : param A) : Prop := match x with Const _ => True | Vary l => (n <= size l)%N end.
Definition covers (s : system R k p r) (n : nat) : Prop :=
  [/\ long_enough n (s_c s), long_enough n (s_d s), long_enough n (s_T s) & long_enough n (s_Z s)] /\
  [/\ long_enough n (s_R s), long_enough n (s_H s) & long_enough n (s_Q s)].
(** generator at the start of step t: two draws (shocks, measurement errors) per step *)
Fixpoint gen (g : Rng) (t : nat) : Rng := match t with 0 => g | t'.+1 => after (after (gen g t') r) p end.
End Spec.

