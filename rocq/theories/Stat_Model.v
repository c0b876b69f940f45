(** Model of the stationary initialization of the time series models: pymc_extras/statespace/models/SARIMAX.py:369-381, 533-536,
    VARMAX.py:379-393 and ETS.py:451-464, 661-669.

    Exact arithmetic over a field.  Taken from the documentation of pytensor/scipy: linalg.solve (an error for a singular matrix), kron, and the two
    methods of solve_discrete_lyapunov (scipy.linalg.solve_discrete_lyapunov documents both formulas); the solver of the continuous Lyapunov equation used by
    the bilinear method is a parameter. *)
From mathcomp Require Import all_ssreflect all_algebra.
From mathcomp Require Import mxtens.
Set Implicit Arguments.
Unset Strict Implicit.
Unset Printing Implicit Defensive.
Import GRing.Theory.
Local Open Scope ring_scope.

Section Stat.
Context (F : fieldType).
(** pt.linalg.solve(A, b): None is the error for a singular matrix *)
Definition solve n m (A : 'M[F]_n) (b : 'M[F]_(n, m)) : option 'M[F]_(n, m) := if A \in unitmx then Some (invmx A *m b) else None.
(** pt.linalg.inv *)
Definition inv n (A : 'M[F]_n) : option 'M[F]_n := if A \in unitmx then Some (invmx A) else None.
(** Q.ravel() and x.reshape(Q.shape), row by row *)
Definition ravel n (Q : 'M[F]_n) : 'cV[F]_(n * n) := \col_a Q (mxtens_unindex a).1 (mxtens_unindex a).2.
Definition reshape n (x : 'cV[F]_(n * n)) : 'M[F]_n := \matrix_(i, j) x (mxtens_index (i, j)) 0.
(** np.kron(A, B) *)
Definition kron n (A B : 'M[F]_n) : 'M[F]_(n * n) :=
  \matrix_(a, b) (A (mxtens_unindex a).1 (mxtens_unindex b).1 * B (mxtens_unindex a).2 (mxtens_unindex b).2).

(** solve_discrete_lyapunov(A, Q, method="direct"): solve(I - kron(A, A), Q.ravel()).reshape(Q.shape) *)
Definition lyapunov_direct n (A Q : 'M[F]_n) : option 'M[F]_n := omap (@reshape n) (solve (1%:M - kron A A) (ravel Q)).
(** solve_discrete_lyapunov(A, Q, method="bilinear"):
    B = (A' - I) inv(A' + I), C = 2 inv(A + I) Q inv(A' + I), solve_continuous_lyapunov(B', -C) *)
Context (solve_continuous_lyapunov : forall n, 'M[F]_n -> 'M[F]_n -> option 'M[F]_n).
Definition lyapunov_bilinear n (A Q : 'M[F]_n) : option 'M[F]_n :=
  match inv (A^T + 1%:M), inv (A + 1%:M) with
  | Some AHI_inv, Some AI_inv =>
      let B := (A^T - 1%:M) *m AHI_inv in
      let C := 2%:R *: (AI_inv *m Q *m AHI_inv) in
      solve_continuous_lyapunov B^T (- C)
  | _, _ => None
  end.
Inductive lyap_method := Direct | Bilinear.
Definition solve_discrete_lyapunov n (A Q : 'M[F]_n) (method : lyap_method) : option 'M[F]_n :=
  match method with Direct => lyapunov_direct A Q | Bilinear => lyapunov_bilinear A Q end.

(** SARIMAX.py:369-381; [mode_jax] is mode == "JAX" *)
Definition stationary_initialization (mode_jax : bool) k r (T : 'M[F]_k) (R : 'M[F]_(k, r)) (Q : 'M[F]_r) (c : 'cV[F]_k) : option ('cV[F]_k * 'M[F]_k) :=
  match solve (1%:M - T) c with
  | None => None
  | Some x0 =>
      let method := if (k < 5)%N || mode_jax then Direct else Bilinear in
      omap (fun P0 => (x0, P0)) (solve_discrete_lyapunov T (R *m Q *m R^T) method)
  end.
(** VARMAX.py:379-393 *)
Definition varmax_initialization k r (T : 'M[F]_k) (R : 'M[F]_(k, r)) (Q : 'M[F]_r) (c : 'cV[F]_k) : option ('cV[F]_k * 'M[F]_k) :=
  match solve (1%:M - T) c with
  | None => None
  | Some x0 => omap (fun P0 => (x0, P0)) (solve_discrete_lyapunov T (R *m Q *m R^T) (if (k < 10)%N then Direct else Bilinear))
  end.
(** ETS.py:451-464, 661-663: the covariance only, from the transition matrix with the dampening put in; the default method *)
Definition ets_initialization (default_method : lyap_method) k r (T_stationary : 'M[F]_k) (R : 'M[F]_(k, r)) (Q : 'M[F]_r) : option 'M[F]_k :=
  solve_discrete_lyapunov T_stationary (R *m Q *m R^T) default_method.
End Stat.
