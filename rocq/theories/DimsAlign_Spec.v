(** Specification of the alignment of dependent log-probabilities (C06) and of the broadcasting of
    known dimensions (C07), written without the helpers of the model (only the tensor type and the
    enumeration of indices are shared). *)
From Coq Require Import Permutation.
From Verif Require Import Common LogR Dims_Model DimsAlign_Model.

(** Entry [i] of a dependent whose axes are labelled by [d] belongs to entry [b] of the marginalized
    variable: every axis labelled [j] carries coordinate [b_j]. *)
Definition connected (d : dims) (b i : list nat) : bool :=
  forallb (fun p => match fst p with Some j => Nat.eqb (snd p) (nth j b 0) | None => true end) (combine d i).

(** The log-probability of everything in the dependent that belongs to entry [b]. *)
Definition connected_logp (d : dims) (logp : ltensor) (b : list nat) : lr :=
  lsum (map (lt_at logp) (filter (connected d b) (all_indices (lt_shape logp)))).

(** [d] labels the axes of a tensor of shape [s] by the axes of a variable of shape [xshape], each used
    exactly once, with equal lengths. *)
Definition full_connection (d : dims) (s xshape : list nat) : Prop :=
  length d = length s /\
  Permutation (known_dims d) (seq 0 (length xshape)) /\
  (forall k j, nth k d None = Some j -> nth k s 0 = nth j xshape 0).

(** the known labels, read in order, form an involution *)
Definition involutive (p : list nat) : Prop :=
  forall k, k < length p -> nth (nth k p 0) p 0 = k.

(** ** C07: labels read from the right *)

(** label of the [k]-th axis from the right, if the input has that axis *)
Definition from_right (d : dims) (k : nat) : option nat := nth k (rev d) None.
