(** Model of the covariance computation of the Laplace approximation: pymc_extras/inference/laplace.py (fit_mvn_to_MAP, lines 308-333) and get_nearest_psd
    (pymc_extras/inference/find_map.py:43-66), over an arbitrary ordered field (exact arithmetic; the spectral cutoff of pinv is left out).

    The three numpy routines are parameters of the model:  pinv;  eig, with the eigenvalues and a matrix whose columns are the eigenvectors;
    chol_ok A: whether numpy.linalg.cholesky(A) succeeds. *)
From mathcomp Require Import all_ssreflect all_algebra.
Set Implicit Arguments. Unset Strict Implicit. Unset Printing Implicit Defensive.
Import Order.Theory GRing.Theory Num.Theory.
Local Open Scope ring_scope.

Inductive on_bad := BadWarn | BadError | BadIgnore.
Inductive outcome (A : Type) := Done (a : A) (warned : bool) | LinAlgError.
Arguments LinAlgError {A}.

Section Model.
Context (R : realFieldType) (n : nat).
Variables (pinv : 'M[R]_n -> 'M[R]_n) (eig : 'M[R]_n -> 'rV[R]_n * 'M[R]_n) (chol_ok : 'M[R]_n -> bool).

(** find_map.py:62-66: C = (A + A.T) / 2; eigval[eigval < 0] = 0; eigvec @ diag(eigval) @ eigvec.T *)
Definition get_nearest_psd (A : 'M[R]_n) : 'M[R]_n :=
  let C := 2%:R^-1 *: (A + A^T) in
  let '(eigval, eigvec) := eig C in
  let eigval := \row_i (if eigval 0 i < 0 then 0 else eigval 0 i) in
  eigvec *m diag_mx eigval *m eigvec^T.

(** laplace.py:308-309: H = -f_hess(mu.data); np.where(np.abs(H) < zero_tol, 0, -H) *)
Definition thresholded (zero_tol : R) (hess : 'M[R]_n) : 'M[R]_n :=
  let H := - hess in \matrix_(i, j) (if `|H i j| < zero_tol then 0 else - H i j).
(** laplace.py:311-314 *)
Definition stabilize (x : 'M[R]_n) (jitter : R) : 'M[R]_n := x + jitter *: 1%:M.
(** laplace.py:308-333, the second component of the result of fit_mvn_to_MAP; hess: the value of f_hess (the Hessian of the negative log-posterior) at the MAP.
    The warning of line 329 is the flag of the result *)
Definition fit_cov (on_bad_cov : on_bad) (zero_tol : R) (diag_jitter : option R) (hess : 'M[R]_n) : outcome 'M[R]_n :=
  let H_inv := pinv (thresholded zero_tol hess) in
  let H_inv := if diag_jitter is Some j then stabilize H_inv j else H_inv in
  if chol_ok H_inv then Done H_inv false
  else match on_bad_cov with
       | BadError => LinAlgError
       | BadWarn => Done (get_nearest_psd H_inv) true
       | BadIgnore => Done (get_nearest_psd H_inv) false
       end.
End Model.
