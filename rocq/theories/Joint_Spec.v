(** Specification for C89: the state space model as random vectors, and Gaussian conditioning on a list of observed numbers.

    A random vector with k components is a mean plus a matrix of loadings on N uncorrelated unit-variance noises; its joint moments with another one are products of
    loadings.  For Gaussian noises the moments below are those of the conditional distribution; in general they are those of the best affine predictor. *)
From mathcomp Require Import all_ssreflect all_algebra.
From Verif Require Import Kalman_Model Kalman_Spec.
Set Implicit Arguments.
Unset Strict Implicit.
Unset Printing Implicit Defensive.
Import Order.Theory GRing.Theory Num.Theory.
Local Open Scope ring_scope.

Section Spec.
Context (R : realFieldType) (N : nat).
Record rv k := RV { mean : 'cV[R]_k; load : 'M[R]_(k, N) }.
Definition cov k l (X : rv k) (Y : rv l) : 'M[R]_(k, l) := load X *m (load Y)^T.
(** an observed number: one component of a random vector, and the value it took *)
Record datum := Datum { d_mean : R; d_load : 'rV[R]_N; d_val : R }.
(** a list of observed numbers as one random vector, and the vector of its values *)
Definition stack (l : seq datum) : rv (size l) :=
  RV (\col_i d_mean (nth (Datum 0 0 0) l i)) (\matrix_(i, j) d_load (nth (Datum 0 0 0) l i) 0 j).
Definition values (l : seq datum) : 'cV[R]_(size l) := \col_i d_val (nth (Datum 0 0 0) l i).
(** no observed number is determined by the others *)
Definition nonsingular (l : seq datum) : Prop := cov (stack l) (stack l) \in unitmx.
(** mean and covariance of X given the observed numbers *)
Definition given_mean k (X : rv k) (l : seq datum) : 'cV[R]_k :=
  mean X + cov X (stack l) *m invmx (cov (stack l) (stack l)) *m (values l - mean (stack l)).
Definition given_cov k (X : rv k) (l : seq datum) : 'M[R]_k :=
  cov X X - cov X (stack l) *m invmx (cov (stack l) (stack l)) *m cov (stack l) X.
(** log-density of the observed numbers under their joint normal distribution; [l2pi] = log (2 pi) *)
Definition joint_ll (log : R -> R) (l2pi : R) (l : seq datum) : R :=
  gauss_ll log l2pi (cov (stack l) (stack l)) (values l - mean (stack l)).
(** mean square error of the affine predictor b + B data of X *)
Definition mse k (X : rv k) (l : seq datum) (b : 'cV[R]_k) (B : 'M[R]_(k, size l)) : 'M[R]_k :=
  let err := RV (mean X - (b + B *m mean (stack l))) (load X - B *m load (stack l)) in cov err err + mean err *m (mean err)^T.

(** The linear Gaussian state space model: x[0] has mean a0 and covariance P0, y[t] = d + Z x[t] + eps[t], x[t+1] = c + T x[t] + R eta[t],
    with uncorrelated mean-zero shocks of covariance H[t] and Q[t]. *)
Definition affine k m q (c : 'cV[R]_k) (A : 'M[R]_(k, m)) (X : rv m) (B : 'M[R]_(k, q)) (W : rv q) : rv k :=
  RV (c + A *m mean X + B *m mean W) (A *m load X + B *m load W).
Definition model n p r (us : seq (inputs R n p r)) (a0 : 'cV[R]_n) (P0 : 'M[R]_n) (x : nat -> rv n) (y : nat -> rv p) : Prop :=
  exists (eps : nat -> rv p) (eta : nat -> rv r),
  [/\ mean (x 0%N) = a0 /\ cov (x 0%N) (x 0%N) = P0,
      forall t u, List.nth_error us t = Some u ->
        [/\ y t = affine (in_d u) (in_Z u) (x t) 1%:M (eps t), x t.+1 = affine (in_c u) (in_T u) (x t) (in_R u) (eta t),
            mean (eps t) = 0 /\ cov (eps t) (eps t) = in_H u & mean (eta t) = 0 /\ cov (eta t) (eta t) = in_Q u],
      forall t, cov (x 0%N) (eps t) = 0 /\ cov (x 0%N) (eta t) = 0,
      forall s t, cov (eps s) (eta t) = 0 &
      forall s t, s != t -> cov (eps s) (eps t) = 0 /\ cov (eta s) (eta t) = 0].
(** the numbers observed at time t: the entries of row t that are not missing *)
Definition observed p (Y : rv p) (row : obs R p) : seq datum :=
  pmap (fun i => omap (Datum (mean Y i 0) (\row_j load Y i j)) (row i)) (enum 'I_p).
(** everything observed before time t *)
Definition data n p r (us : seq (inputs R n p r)) (y : nat -> rv p) (t : nat) : seq datum :=
  flatten [seq (if List.nth_error us s is Some u then observed (y s) (in_y u) else [::]) | s <- iota 0 t].
End Spec.
