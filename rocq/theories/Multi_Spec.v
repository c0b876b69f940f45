(** Specification vocabulary for vector models: how a state space model runs. *)
From Coq Require Import Reals.
From Verif Require Import Common Struct_Model Multi_Model.
Open Scope nat_scope.

(**  x_0 = x0,  x_{t+1} = c + T x_t + R e_t,   y_t = d + Z x_t. *)
Fixpoint states_at (m : ss) (eps : nat -> vec) (t : nat) : vec :=
  match t with
  | O => ss_x0 m
  | S t' => fun i => (ss_c m i + rsum (n_states m) (fun j => ss_T m i j * states_at m eps t' j)
                      + rsum (n_shocks m) (fun j => ss_R m i j * eps t' j))%R
  end.
Definition observed_at (m : ss) (eps : nat -> vec) (t i : nat) : R :=
  (ss_d m i + rsum (n_states m) (fun j => ss_Z m i j * states_at m eps t j))%R.
