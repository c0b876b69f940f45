(** Model of the alignment of dependent log-probabilities with the marginalized variable.
    Source: /repo/pymc_extras/model/marginal/distributions.py (lines 74-126). *)
From Verif Require Import Common LogR Dims_Model.

(** A tensor of log-probabilities: static shape and entries. *)
Record ltensor := { lt_shape : list nat; lt_at : list nat -> lr }.

(** distributions.py:108-112: [-i for i, dim in enumerate(reversed(dims), start=1)
    if dim is None and -i not in dep_supp_axes], [dep_supp_axes = range(-ndim_supp, 0)]
    (graph_analysis.py:70).  The list holds the positive [i]. *)
Fixpoint supp_axes_from (i : nat) (rdims : dims) (ndim_supp : nat) : list nat :=
  match rdims with
  | [] => []
  | None :: r => if i <=? ndim_supp then supp_axes_from (S i) r ndim_supp
                 else i :: supp_axes_from (S i) r ndim_supp
  | Some _ :: r => supp_axes_from (S i) r ndim_supp
  end.
Definition supp_axes (d : dims) (ndim_supp : nat) : list nat := supp_axes_from 1 (rev d) ndim_supp.

(** keep the entries of [l] whose mask is [keep] *)
Fixpoint select {A} (keep : bool) (mask : list bool) (l : list A) : list A :=
  match mask, l with
  | m :: mask', x :: l' => if Bool.eqb m keep then x :: select keep mask' l' else select keep mask' l'
  | _, _ => []
  end.

(** full index from kept coordinates [idx] and reduced coordinates [red] *)
Fixpoint merge_index (mask : list bool) (idx red : list nat) : list nat :=
  match mask with
  | [] => []
  | true :: m => hd 0 red :: merge_index m idx (tl red)
  | false :: m => hd 0 idx :: merge_index m (tl idx) red
  end.

(** [tensor.sum(axes)] for negative axes [-i]; an axis out of range is numpy's AxisError (a ValueError) *)
Definition sum_axes (t : ltensor) (axes : list nat) : res ltensor :=
  let nd := length (lt_shape t) in
  if forallb (fun i => i <=? nd) axes then
    let mask := map (fun a => existsb (fun i => Nat.eqb a (nd - i)) axes) (seq 0 nd) in
    Ok {| lt_shape := select false mask (lt_shape t);
          lt_at := fun idx => lsum (map (fun red => lt_at t (merge_index mask idx red))
                                        (all_indices (select true mask (lt_shape t)))) |}
  else Err ValueError.

(** index of [k] in a list *)
Fixpoint index_of (k : nat) (l : list nat) : nat :=
  match l with [] => 0 | x :: l' => if Nat.eqb x k then 0 else S (index_of k l') end.

Definition is_perm (p : list nat) (n : nat) : bool :=
  Nat.eqb (length p) n && forallb (fun k => existsb (Nat.eqb k) p) (seq 0 n).

(** NumPy/PyTensor [tensor.transpose( *axes)]: output axis [k] is input axis [axes[k]]; without
    arguments all axes are reversed.  Anything but a permutation is an error (simplification: dropping
    length-one axes is not modelled). *)
Definition transpose (t : ltensor) (axes : list nat) : res ltensor :=
  let nd := length (lt_shape t) in
  let p := match axes with [] => rev (seq 0 nd) | _ => axes end in
  if is_perm p nd
  then Ok {| lt_shape := map (fun a => nth a (lt_shape t) 1) p;
             lt_at := fun idx => lt_at t (map (fun a => nth (index_of a p) idx 0) (seq 0 nd)) |}
  else Err ValueError.

(** distributions.py:96-117: one dependent *)
Definition reduce_dependent (d : dims) (ndim_supp : nat) (logp : ltensor) : res ltensor :=
  match lt_shape logp with
  | [] => Ok logp
  | _ => do s <- sum_axes logp (supp_axes d ndim_supp);
         transpose s (known_dims d)
  end.

(** distributions.py:121-126 [align_logp_dims] *)
Definition align_logp_dims (d : dims) (logp : ltensor) : res ltensor := transpose logp (known_dims d).

(** [pt.add(a, b)] of two log-probability tensors (shapes broadcast right-aligned) *)
Definition lt_add (a b : ltensor) : ltensor :=
  {| lt_shape := bcast_shape [lt_shape a; lt_shape b];
     lt_at := fun idx => ladd (lt_at a (bcoord (lt_shape a) idx)) (lt_at b (bcoord (lt_shape b) idx)) |}.

(** distributions.py:95-119: all dependents; [pt.add( *reduced_logps)] *)
Fixpoint reduce_all (deps : list (dims * nat * ltensor)) : res (list ltensor) :=
  match deps with
  | [] => Ok []
  | (d, k, l) :: rest => do x <- reduce_dependent d k l; do xs <- reduce_all rest; Ok (x :: xs)
  end.
Definition reduce_batch_dependent_logps (deps : list (dims * nat * ltensor)) : res ltensor :=
  do ls <- reduce_all deps;
  match ls with
  | [] => Err TypeError
  | l :: rest => Ok (fold_left lt_add rest l)
  end.
