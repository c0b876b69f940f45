(** Specification for C16, C17 and the alignment part of C21. *)
From Verif Require Import Common KalmanScan_Model.

(** value of a parameter at time [t], from its rank alone *)
Definition value_at {V} (x : param V) (n : pname) (t : nat) : option V :=
  if Nat.eqb (ndim x) (if vector_valued n then 1 else 2) then Some (whole x) else nth_error (slices x) t.

(** a legal parameter: static, or time varying with one slice per observation *)
Definition legal {V} (x : param V) (n : pname) (len : nat) : Prop :=
  ndim x = (if vector_valued n then 1 else 2) \/
  (ndim x = (if vector_valued n then 2 else 3) /\ length (slices x) = len).

(** C16: the chain of updates and predictions, one observation after the other *)
Section Chain.
Context {A C Ob OC L Y : Type} (kalman_step : Y -> A -> C -> @step_out A C Ob OC L).
(** [k] observations into [ys]: the state estimate just before observation [k] *)
Fixpoint before (ys : list Y) (a0 : A) (P0 : C) (k : nat) : A * C :=
  match k, ys with
  | O, _ => (a0, P0)
  | S k', y :: ys' => before ys' (o_ahat (kalman_step y a0 P0)) (o_Phat (kalman_step y a0 P0)) k'
  | S _, [] => (a0, P0)
  end.
End Chain.
