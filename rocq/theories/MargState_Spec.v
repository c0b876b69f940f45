(** Specification for C09-C13: what a user sees of a model. *)
From Coq Require Import Permutation.
From Verif Require Import Common MargState_Model.

(** dims a user associates with a variable: [model.named_vars_to_dims] for variables in the model *)
Definition public_dims (h : heap) (m : mmodel) (n : name) : option dimnames := h (nvd m) n.

(** A freshly built model (nothing marginalized yet): variable names are unique, the two dictionaries are
    different objects and the second one is empty. *)
Definition fresh_model (h : heap) (m : mmodel) : Prop :=
  marged m = [] /\ NoDup (free m ++ observed m ++ others m) /\ nvd m <> mnvd m /\
  (forall n, h (mnvd m) n = None).

(** Two states of a model look the same to the user. *)
Definition same_model (s1 s2 : heap * mmodel) : Prop :=
  free (snd s1) = free (snd s2) /\ observed (snd s1) = observed (snd s2) /\ others (snd s1) = others (snd s2) /\
  marged (snd s1) = marged (snd s2) /\
  (forall n, public_dims (fst s1) (snd s1) n = public_dims (fst s2) (snd s2) n) /\
  (forall n, initvals (snd s1) n = initvals (snd s2) n) /\
  (forall n, transforms (snd s1) n = transforms (snd s2) n).
