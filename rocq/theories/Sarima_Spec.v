(** Specification for C22-C24: lag polynomials. *)
From mathcomp Require Import all_ssreflect all_algebra.
Set Implicit Arguments.
Unset Strict Implicit.
Unset Printing Implicit Defensive.
Import GRing.Theory.
Local Open Scope ring_scope.

Section Spec.
Context (R : comRingType).
(** A(B) y at time t, for a polynomial A in the lag operator B *)
Definition lagpoly (A : {poly R}) (y : nat -> R) (t : nat) : R := \sum_(j < size A) A`_j * y (t - j)%N.

(** 1 - c_1 B^s - c_2 B^{2s} - ... and 1 + c_1 B^s + ... *)
Definition ar_poly (c : seq R) (s : nat) : {poly R} := 1 - \sum_(i < size c) c`_i *: 'X^(i.+1 * s).
Definition ma_poly (c : seq R) (s : nat) : {poly R} := 1 + \sum_(i < size c) c`_i *: 'X^(i.+1 * s).
(** (1 - B)^d (1 - B^S)^D *)
Definition diff_poly (d D S : nat) : {poly R} := (1 - 'X) ^+ d * (1 - 'X^S) ^+ D.
End Spec.
