(** Specification: the tables of a model agree. *)
From Coq Require Import String.
From Verif Require Import Common Meta_Model.
Open Scope nat_scope.

(** The shape PyMC gives a prior declared with dims=[ds] in a model with coordinates [co]: one axis per dimension, of
    the number of its labels; None when a dimension has no coordinate. *)
Definition prior_shape (co : pydict nat) (ds : dims) : option (list nat) :=
  match ds with
  | None => Some []
  | Some l => fold_right (fun d acc => match dget co d, acc with Some n, Some r => Some (n :: r) | _, _ => None end)
                         (Some []) l
  end.

(** [names] are the parameters, each listed once; exactly they are registered as placeholders; *)
Definition all_registered (names : list string) (reg : pydict (list nat)) : Prop :=
  NoDup names /\ NoDup (map fst reg) /\ forall x, In x names <-> In x (map fst reg).

(** a prior declared for the parameter [x] with the dims the model advertises has the shape of its placeholder *)
Definition prior_fits (pd : pydict dims) (co : pydict nat) (reg : pydict (list nat)) (x : string) : Prop :=
  exists ds sh, dget pd x = Some ds /\ dget reg x = Some sh /\ prior_shape co ds = Some sh.
