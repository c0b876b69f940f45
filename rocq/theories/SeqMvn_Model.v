(** Model of the sequence of multivariate normals that carries the Kalman filter's likelihood:
    pymc_extras/statespace/filters/distributions.py:402-459 (SequenceMvNormal and its logp).

    A tensor is its shape with an entry for every index.  One draw of MvNormalSVD is a parameter [gauss] taking a mean, a covariance and
    the normals used for it; the normals used at each step for each batch entry are a parameter.  Covariances are taken to have the batch dimensions
    of the means (broadcasting between them is not modelled). *)
From Verif Require Import Common.
Set Implicit Arguments.

Record tensor (A : Type) := { shape : list nat; entry : list nat -> A }.

(** numpy's moveaxis with one axis: the others keep their order *)
Definition remove_axis (i : nat) {A} (l : list A) : list A := firstn i l ++ skipn (S i) l.
Definition insert_axis (i : nat) {A} (x : A) (l : list A) : list A := firstn i l ++ x :: skipn i l.
Definition moveaxis {A} (x : tensor A) (source destination : nat) : tensor A :=
  {| shape := insert_axis destination (nth source (shape x) 0) (remove_axis source (shape x));
     entry := fun idx => entry x (insert_axis source (nth destination idx 0) (remove_axis destination idx)) |}.

Section Rv.
Variable X : Type.
Definition Vec := nat -> X.
Definition Mat := nat -> nat -> X.
Variable gauss : Vec -> Mat -> Vec -> Vec.
Variable noise : nat -> list nat -> Vec.

(** the last axis and the axes before it *)
Definition batch_of (idx : list nat) : list nat := firstn (length idx - 1) idx.
Definition last_of (idx : list nat) : nat := nth (length idx - 1) idx 0.

(** step, distributions.py:427-429: entry [t] of the two sequences *)
Definition step (mus covs : tensor X) (t : nat) (idx : list nat) : X :=
  let b := batch_of idx in
  gauss (fun i => entry mus (t :: b ++ [i])) (fun i j => entry covs (t :: b ++ [i; j])) (noise t b) (last_of idx).

(** distributions.py:414-418, and 459: what the operator is applied to *)
Definition moved_mus (mus : tensor X) : tensor X :=
  if Nat.ltb 2 (length (shape mus)) then moveaxis mus (length (shape mus) - 2) 0 else mus.
Definition moved_covs (covs : tensor X) : tensor X :=
  if Nat.ltb 3 (length (shape covs)) then moveaxis covs (length (shape covs) - 3) 0 else covs.

(** rv_op, distributions.py:413-446.  A sequence with too few entries stops the scan. *)
Definition rv_op (mus covs : tensor X) : res (tensor X) :=
  let mus_ := moved_mus mus in
  let covs_ := moved_covs covs in
  let n_steps := nth 0 (shape mus_) 0 in
  if Nat.ltb (nth 0 (shape covs_) 0) n_steps then Err ValueError else
  let seq := {| shape := n_steps :: skipn 1 (shape mus_); entry := fun idx => step mus_ covs_ (nth 0 idx 0) (skipn 1 idx) |} in
  Ok (if Nat.ltb 2 (length (shape seq)) then moveaxis seq 0 (length (shape seq) - 2) else seq).

(** sequence_mvnormal_logp, distributions.py:452-459: the arguments are those of the operator's node, so the moved ones *)
Definition logp {L} (values : tensor X) (mus covs : tensor X) (given_logp : L) : res L :=
  let mus_ := moved_mus mus in
  let covs_ := moved_covs covs in
  if Nat.eqb (nth 0 (shape values) 0) (nth 0 (shape mus_) 0) && Nat.eqb (nth 0 (shape covs_) 0) (nth 0 (shape mus_) 0)
  then Ok given_logp else Err ValueError.
End Rv.
