(** Model of GeneralizedPoissonRV._branching_rng_fn and of the part of rng_fn that selects it.
    Source: /repo/pymc_extras/distributions/discrete.py:40-63, 93-103.
    Simplifications: arrays (theta and lam already broadcast to dist_size, at least one axis) are flattened and are functions of the index, of length m.
    A call of rng.poisson on an array of rates is [draw k i rate], the number drawn for entry i in the k-th call; rates are exact reals.
    The while loop takes fuel and gives None when it has not ended. *)
From Coq Require Import Reals List Arith.
Import ListNotations.
Open Scope R_scope.

Section Branching.
Context (m : nat) (draw : nat -> nat -> R -> nat) (theta lam : nat -> R).
(** np.any(a[idxs_mask]) *)
Definition any_masked (mask a : nat -> bool) : bool := existsb (fun i => mask i && a i)%bool (seq 0 m).
(** line 95 *)
Definition lam_abs (i : nat) : R := Rabs (lam i).
(** lines 99-102; k counts the calls of the generator so far *)
Fixpoint branch_loop (fuel k : nat) (mask : nat -> bool) (y x : nat -> nat) (higher_than_zero : nat -> bool) : option (nat -> nat) :=
  if any_masked mask higher_than_zero then
    match fuel with
    | O => None
    | S f =>
        let y' i := draw k i (lam_abs i * INR (y i)) in
        let x' i := if higher_than_zero i then (x i + y' i)%nat else x i in
        branch_loop f (S k) mask y' x' (fun i => Nat.ltb 0 (y' i))
    end
  else Some x.
(** lines 93-103; this is the first use of the generator when no lam is negative, otherwise draws are numbered from here on *)
Definition branching_rng_fn (fuel : nat) (mask : nat -> bool) : option (nat -> nat) :=
  let y i := draw 0 i (theta i) in
  branch_loop fuel 1 mask y y (fun i => Nat.ltb 0 (y i)).
(** lines 50-63; [inv] is the result of _inverse_rng_fn *)
Definition rng_fn (fuel : nat) (inv : nat -> nat) : option (nat -> nat) :=
  let neg i := if Rlt_dec (lam i) 0 then true else false in
  let pos i := negb (neg i) in
  let x0 i := if neg i then inv i else 0%nat in
  if existsb pos (seq 0 m) then
    match branching_rng_fn fuel pos with
    | None => None
    | Some b => Some (fun i => if pos i then b i else x0 i)
    end
  else Some x0.
End Branching.
