(** Specification for C90: the law of the branching sampler, generation by generation. *)
From Coq Require Import Reals List Arith.
From Coquelicot Require Import Series Hierarchy Rcomplements Rbar Lim_seq.
Import ListNotations.
Open Scope R_scope.

(** Poisson probabilities *)
Definition poisson_pmf (rate : R) (k : nat) : R := exp (- rate) * rate ^ k / INR (fact k).
(** A history is the list of the sizes of the nonempty generations.  [follows] says that the numbers a generator returned (its k-th call at rate r is [d k r]) are those of the history:
    each generation is drawn at lam times the size of the one before, and the generation after the last is empty. *)
Fixpoint follows (d : nat -> R -> nat) (lam : R) (k : nat) (rate : R) (h : list nat) : Prop :=
  match h with
  | [] => d k rate = 0%nat
  | y :: h' => d k rate = y /\ follows d lam (S k) (lam * INR y) h'
  end.
Definition history (h : list nat) : Prop := Forall (fun y => 0 < y)%nat h.
(** probability of a history when the draws are independent Poisson variables *)
Fixpoint history_prob (lam rate : R) (h : list nat) : R :=
  match h with
  | [] => poisson_pmf rate 0
  | y :: h' => poisson_pmf rate y * history_prob lam (lam * INR y) h'
  end.
Definition lsum (l : list R) : R := fold_right Rplus 0 l.
(** probability that the loop has ended by generation n *)
Fixpoint ended_by (lam : R) (n : nat) (rate : R) : R :=
  match n with
  | O => poisson_pmf rate 0
  | S n' => Series (fun j => poisson_pmf rate j * match j with O => 1 | _ => ended_by lam n' (lam * INR j) end)
  end.
