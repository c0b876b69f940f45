(** Specification for C08: paths in a graph. *)
From Verif Require Import Common CondDep_Model.

(** a graph PyTensor can build: finite and acyclic *)
Definition wf_graph (g : graph) : Prop :=
  forall v l u, inputs g v = Some l -> In u l -> u < v /\ v < g_size g.

(** [u] is an input of the node computing [v] *)
Definition edge (g : graph) (v u : nat) : Prop := exists l, inputs g v = Some l /\ In u l.

(** [path g ok v u]: one can walk from [v] back to [u], every variable strictly between satisfying [ok] *)
Inductive path (g : graph) (ok : nat -> Prop) : nat -> nat -> Prop :=
| path_one v u : edge g v u -> path g ok v u
| path_step v w u : edge g v w -> ok w -> path g ok w u -> path g ok v u.

(** a variable that is neither a model variable nor the (constant) static shape of something *)
Definition transparent (g : graph) (all_rvs : list nat) (w : nat) : Prop :=
  ~ In w all_rvs /\ static_shape g w = false.
