(** Chi and Maxwell distributions.  Source: /repo/pymc_extras/distributions/continuous.py.
    Simplifications: a random draw is a function of the draws of pm.ChiSquared it is built from; arrays are flat lists; size=None (the default), so that a Maxwell draw has one
    chi-square draw per entry of a. *)
From Coq Require Import Reals List.
Import ListNotations.
From Verif Require Import Common.
Local Open Scope R_scope.

(** continuous.py:270-272, Chi.chi_dist: pt.math.sqrt(ChiSquared.dist(nu=nu, size=size)), as a function of the ChiSquared draw *)
Definition chi_dist (chi_squared_draw : R) : R := sqrt chi_squared_draw.
(** continuous.py:326-333, Maxwell.maxwell_dist: the parameter check pt.all(pt.gt(a, 0)), then Chi.dist(nu=3, size=a.shape) * a *)
Fixpoint all_gt0 (a : list R) : bool := match a with [] => true | x :: l => (if Rlt_dec 0 x then true else false) && all_gt0 l end.
Definition maxwell_nu : R := 3.
Definition maxwell_dist (a : list R) (chi_squared_draws : list R) : res (list R) :=
  if all_gt0 a then Ok (List.map (fun wx => chi_dist (fst wx) * snd wx) (combine chi_squared_draws a)) else Err ValueError.
