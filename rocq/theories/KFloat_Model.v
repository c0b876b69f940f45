(** The Kalman filters and the smoother in computer arithmetic.
    Sources: /repo/pymc_extras/statespace/filters/kalman_filter.py, kalman_smoother.py, utilities.py.
    Numbers are any type with any operations; matrix products, solvers, determinants and pseudo-inverses are any functions (BLAS and LAPACK may sum in any order and round as they like).
    Only element-by-element operations are spelled out.  Simplification: the graph is executed as written (PyTensor rewrites are not modelled). *)
From mathcomp Require Import all_ssreflect all_algebra.
From Verif Require Common KalmanScan_Model.
Set Implicit Arguments.
Unset Strict Implicit.
Unset Printing Implicit Defensive.
Import GRing.Theory.
Local Open Scope ring_scope.

(** what the hardware and the libraries provide *)
Record arith := Arith {
  num : Type;
  add : num -> num -> num; sub : num -> num -> num; mul : num -> num -> num; div : num -> num -> num;
  zero : num; one : num; half : num; log : num -> num; isnan : num -> bool; eqb : num -> num -> bool;
  matmul : forall m n k, 'M[num]_(m, n) -> 'M[num]_(n, k) -> 'M[num]_(m, k);
  solve : forall m n, 'M[num]_m -> 'M[num]_(m, n) -> 'M[num]_(m, n);
  pinv : forall m, 'M[num]_m -> 'M[num]_m;
  det : forall m, 'M[num]_m -> num }.
Arguments matmul {a m n k}.
Arguments solve {a m n}.
Arguments pinv {a m}.
Arguments det {a m}.

Section Filter.
Context (A : arith) (jitter jitter_default fill mvn_const : num A).
Local Notation F := (num A).
Local Notation "a +. b" := (@add A a b) (at level 50, left associativity).
Local Notation "a *. b" := (@mul A a b) (at level 40, left associativity).
Local Notation "X @ Y" := (@matmul A _ _ _ X Y) (at level 40, left associativity).

(** element by element *)
Definition mmap2 m n (op : F -> F -> F) (X Y : 'M[F]_(m, n)) : 'M[F]_(m, n) := \matrix_(i, k) op (X i k) (Y i k).
Definition madd m n := @mmap2 m n (@add A).
Definition msub m n := @mmap2 m n (@sub A).
Definition mscale m n (c : F) (X : 'M[F]_(m, n)) : 'M[F]_(m, n) := \matrix_(i, k) (c *. X i k).
(** pt.eye, pt.identity_like *)
Definition eye n : 'M[F]_n := \matrix_(i, k) (if i == k then one A else zero A).
(** utilities.py:50-54 *)
Definition stabilize n (cov : 'M[F]_n) (j : F) : 'M[F]_n := madd cov (\matrix_(i, k) (eye n i k *. j)).
(** utilities.py:57-59 *)
Definition quad_form_sym m n (X : 'M[F]_(m, n)) (B : 'M[F]_n) : 'M[F]_m :=
  let out := X @ B @ X^T in mscale (half A) (madd out out^T).
(** kalman_filter.py:352-358 *)
Definition nan_mask p (y : 'cV[F]_p) (i : 'I_p) : bool := isnan (y i ord0) || eqb (y i ord0) fill.
Definition maskW p (m : 'I_p -> bool) : 'M[F]_p := \matrix_(i, k) (if i == k then (if m i then zero A else one A) else zero A).
Definition y_masked p (m : 'I_p -> bool) (y : 'cV[F]_p) : 'cV[F]_p := \matrix_(i, k) (if m i then zero A else y i k).

Record inputs n p r := Inputs {
  in_y : 'cV[F]_p; in_c : 'cV[F]_n; in_d : 'cV[F]_p; in_T : 'M[F]_n; in_Z : 'M[F]_(p, n); in_R : 'M[F]_(n, r); in_H : 'M[F]_p; in_Q : 'M[F]_r }.

(** kalman_filter.py:408-409 *)
Definition predict n r (a : 'cV[F]_n) (P : 'M[F]_n) (c : 'cV[F]_n) (T : 'M[F]_n) (Rm : 'M[F]_(n, r)) (Q : 'M[F]_r) : 'cV[F]_n * 'M[F]_n :=
  (madd (T @ a) c, madd (quad_form_sym T P) (quad_form_sym Rm Q)).

(** kalman_filter.py:528-541 and 593-617, StandardFilter *)
Definition std_step n p r (u : inputs n p r) (a : 'cV[F]_n) (P : 'M[F]_n) : @KalmanScan_Model.step_out 'cV[F]_n 'M[F]_n 'cV[F]_p 'M[F]_p F :=
  let m := nan_mask (in_y u) in
  let Z := maskW m @ in_Z u in
  let H := maskW m @ in_H u in
  let y := y_masked m (in_y u) in
  let y_hat := madd (in_d u) (Z @ a) in
  let v := msub y y_hat in
  let PZT := P @ Z^T in
  let Fm := madd (Z @ PZT) (stabilize H jitter) in
  let K := (solve Fm^T PZT^T)^T in
  let I_KZ := msub (eye n) (K @ Z) in
  let a_f := madd a (K @ v) in
  let P_f0 := madd (quad_form_sym I_KZ P) (quad_form_sym K H) in
  let inner_term := (v^T @ solve Fm v) ord0 ord0 in
  let ll := if [forall i, m i] then zero A else sub (zero A) (half A *. (mvn_const +. log (det Fm) +. inner_term)) in
  let P_f := stabilize P_f0 jitter in
  let '(a_hat, P_hat) := predict a_f P_f (in_c u) (in_T u) (in_R u) (in_Q u) in
  {| KalmanScan_Model.o_af := a_f; KalmanScan_Model.o_ahat := a_hat; KalmanScan_Model.o_mu := y_hat; KalmanScan_Model.o_Pf := P_f;
     KalmanScan_Model.o_Phat := P_hat; KalmanScan_Model.o_cov := Fm; KalmanScan_Model.o_ll := ll |}.
(** kalman_filter.py:144-238 *)
Definition std_filter n p r (us : seq (inputs n p r)) (a0 : 'cV[F]_n) (P0 : 'M[F]_n) := KalmanScan_Model.build_graph (@std_step n p r) us a0 P0.

(** kalman_filter.py:769-789 *)
Record uni_row n := Row { r_y : F; r_Z : 'rV[F]_n; r_d : F; r_h : F; r_nan : bool }.
Definition uni_inner n (w : uni_row n) (a : 'cV[F]_n) (P : 'M[F]_n) : 'cV[F]_n * 'M[F]_n * F * F * F :=
  let y_hat := (r_Z w @ a) ord0 ord0 +. r_d w in
  let v := sub (r_y w) y_hat in
  let PZT := P @ (r_Z w)^T in
  let F0 := (r_Z w @ PZT) ord0 ord0 +. r_h w in
  let flag := eqb F0 (zero A) || r_nan w in
  let Fj := F0 +. jitter in
  let K : 'cV[F]_n := \matrix_(i, k) (div (PZT i k) Fj *. (if flag then zero A else one A)) in
  let a_f := madd a (\matrix_(i, k) (K i k *. v)) in
  let P_f := msub P (\matrix_(i, k) (K i ord0 *. K k ord0 *. Fj)) in
  (a_f, P_f, y_hat, Fj, if flag then zero A else log Fj +. div (v *. v) Fj).
Fixpoint uni_scan n (ws : seq (uni_row n)) (a : 'cV[F]_n) (P : 'M[F]_n) (last : F * F) : 'cV[F]_n * 'M[F]_n * (F * F) * seq F :=
  if ws is w :: ws' then
    let '(a1, P1, yh, Fj, l) := uni_inner w a P in let '(a2, P2, la, ls) := uni_scan ws' a1 P1 (yh, Fj) in (a2, P2, la, l :: ls)
  else (a, P, last, [::]).
(** kalman_filter.py:791-819; [count] is the number of nonzero terms as a number *)
Definition uni_step (count : seq F -> F) n p r (u : inputs n p r) (a : 'cV[F]_n) (P : 'M[F]_n) : @KalmanScan_Model.step_out 'cV[F]_n 'M[F]_n 'cV[F]_1 'M[F]_1 F :=
  let m := fun i => isnan (in_y u i ord0) in
  let Z := maskW m @ in_Z u in
  let H := maskW m @ in_H u in
  let y := y_masked m (in_y u) in
  let rows := [seq Row (y i ord0) (row i Z) (in_d u i ord0) (H i i) (m i) | i <- enum 'I_p] in
  let '(a_f, P_s, (mu, Fj), ls) := uni_scan rows a P (zero A, zero A) in
  let P_f := stabilize (mscale (half A) (madd P_s P_s^T)) jitter in
  let '(a_hat, P_hat) := predict a_f P_f (in_c u) (in_T u) (in_R u) (in_Q u) in
  let ll := sub (zero A) (half A *. (count ls *. mvn_const +. foldr (@add A) (zero A) ls)) in
  {| KalmanScan_Model.o_af := a_f; KalmanScan_Model.o_ahat := a_hat; KalmanScan_Model.o_mu := \matrix_(i, k) mu; KalmanScan_Model.o_Pf := P_f;
     KalmanScan_Model.o_Phat := P_hat; KalmanScan_Model.o_cov := \matrix_(i, k) Fj; KalmanScan_Model.o_ll := ll |}.
Definition uni_filter (count : seq F -> F) n p r (us : seq (inputs n p r)) (a0 : 'cV[F]_n) (P0 : 'M[F]_n) := KalmanScan_Model.build_graph (@uni_step count n p r) us a0 P0.

(** kalman_smoother.py:121-126 and 107-119 *)
Definition smoother_predict n r (a : 'cV[F]_n) (P : 'M[F]_n) (T : 'M[F]_n) (Rm : 'M[F]_(n, r)) (Q : 'M[F]_r) : 'cV[F]_n * 'M[F]_n :=
  (T @ a, stabilize (madd (quad_form_sym T P) (quad_form_sym Rm Q)) jitter).
Definition smoother_step n r (f s : 'cV[F]_n * 'M[F]_n) (M : 'M[F]_n * 'M[F]_(n, r) * 'M[F]_r) : 'cV[F]_n * 'M[F]_n :=
  let '(a, P) := f in let '(a_s, P_s) := s in let '(T, Rm, Q) := M in
  let '(a_hat, P_hat) := smoother_predict a P T Rm Q in
  let G := (pinv P_hat @ T @ P)^T in
  (madd a (G @ msub a_s a_hat), stabilize (stabilize (madd P (quad_form_sym G (msub P_s P_hat))) jitter) jitter_default).
(** kalman_smoother.py:66-105 *)
Definition smoother n r (filtered : seq ('cV[F]_n * 'M[F]_n)) (Ms : seq ('M[F]_n * 'M[F]_(n, r) * 'M[F]_r)) := KalmanScan_Model.smooth (@smoother_step n r) filtered Ms.
End Filter.
