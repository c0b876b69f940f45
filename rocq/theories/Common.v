(** Shared vocabulary of the model: Python exceptions as values. *)
From Coq Require Export List Arith ZArith Lia Bool.
Export ListNotations.

(** The Python exception classes raised by the modelled code. *)
Inductive exn :=
| ValueError | NotImplementedError | KeyError | IndexError | AssertionError
| TypeError | AttributeError | RuntimeError | OverflowError | UnboundLocalError
| ZeroDivisionError | UserDefinedError.

(** Outcome of a Python call: a value or a raised exception. *)
Inductive res (A : Type) := Ok (a : A) | Err (e : exn).
Arguments Ok {A} a.
Arguments Err {A} e.

Definition bind {A B} (r : res A) (f : A -> res B) : res B :=
  match r with Ok a => f a | Err e => Err e end.
Notation "'do' x <- r ; k" := (bind r (fun x => k))
  (at level 200, x pattern, right associativity).

Definition is_ok {A} (r : res A) : bool := match r with Ok _ => true | Err _ => false end.
Definition is_err {A} (r : res A) : bool := negb (is_ok r).
