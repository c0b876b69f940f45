(** Specification vocabulary for discrete Markov chains. *)
From Coq Require Import Reals.
From Verif Require Import Common LogR.
Open Scope nat_scope.

(** All sequences of length n over the states 0..k-1. *)
Fixpoint seqs (k n : nat) : list (list nat) :=
  match n with O => [[]] | S m => flat_map (fun x => map (cons x) (seqs k m)) (seq 0 k) end.

(** The n+1 consecutive entries of v starting at position t. *)
Definition window (n : nat) (v : list nat) (t : nat) : list nat := firstn (n + 1) (skipn t v).

(** The probability of the chain v: initial probabilities of the first n states, times for every later state the
    transition probability given the n states before it. *)
Definition chain_probability (n : nat) (P : list nat -> R) (init : nat -> R) (v : list nat) : R :=
  (Rprod (map init (firstn n v)) * Rprod (map (fun t => P (window n v t)) (seq 0 (length v - n))))%R.

(** A transition array: non-negative, the probabilities of the next state sum to one. *)
Definition stochastic (k n : nat) (P : list nat -> R) : Prop :=
  (forall w, 0 <= P w)%R /\
  forall h, length h = n -> Forall (fun x => x < k) h -> Rsum (map (fun x => P (h ++ [x])) (seq 0 k)) = 1%R.
