(** Specification vocabulary for C05: what it means that an axis connection is sound.
    Nothing here refers to how the analysis computes the connection. *)
From Verif Require Import Common Dims_Model.

(** An index inside a shape. *)
Definition inrange (shape idx : list nat) : Prop :=
  length idx = length shape /\ forall k, k < length shape -> nth k idx 0 < nth k shape 0.

(** A tensor of a given shape: its entries outside the shape carry no information. *)
Definition tensor_of (shape : list nat) (T : tensor) : Prop := forall i, ~ inrange shape i -> T i = 0%Z.

(** [same_entries xshape d idx i]: entry [i] of the marginalized variable (shape [xshape]) is one that output entry
    [idx] may use according to the connection [d]: on every output axis [k] connected to the batch dimension [j],
    the two coordinates are equal.  Dimensions of length 1 impose nothing. *)
Definition same_entries (xshape : list nat) (d : dims) (idx i : list nat) : Prop :=
  forall k j, nth k d None = Some j -> nth j xshape 0 <> 1 -> nth j i 0 = nth k idx 0.

(** [V X] is the value of a variable as a function of the marginalized variable. *)
Definition depends_only_on_connected (xshape : list nat) (d : dims) (rank : nat) (V : tensor -> tensor) : Prop :=
  forall X X' idx, tensor_of xshape X -> tensor_of xshape X' -> length idx = rank ->
    (forall i, inrange xshape i -> same_entries xshape d idx i -> X i = X' i) -> V X idx = V X' idx.

Definition independent (V : tensor -> tensor) : Prop := forall X X' idx, V X idx = V X' idx.

(** every batch dimension (of length other than 1) is connected to an axis *)
Definition connects_all (xshape : list nat) (d : dims) : Prop :=
  forall j, j < length xshape -> nth j xshape 0 <> 1 -> exists k, k < length d /\ nth k d None = Some j.

(** no batch dimension is connected to two axes, and connected axes exist in the marginalized variable and have
    its length *)
Definition injective (d : dims) : Prop := forall k k' j, nth k d None = Some j -> nth k' d None = Some j -> k = k'.
Definition fits (xshape : list nat) (d : dims) (shape : list nat) : Prop :=
  length d = length shape /\
  forall k j, nth k d None = Some j -> j < length xshape /\ (nth j xshape 0 <> 1 -> nth k shape 0 = nth j xshape 0).

(** ** Well-formed graphs (what PyTensor's make_node guarantees) *)
Definition somes (order : list (option nat)) : list nat := flat_map (fun o => match o with Some x => [x] | None => [] end) order.

Definition wf_node (shapes : list (list nat)) (nd : node) : Prop :=
  let sh := nth_shape shapes in
  Forall (fun v => v < length shapes) (n_in nd) /\
  match n_op nd with
  | ODimShuffle order =>
      (* a permutation of the axes plus new ones; only axes of length 1 may be dropped *)
      exists v, n_in nd = [v] /\ NoDup (somes order) /\ Forall (fun a => a < length (sh v)) (somes order) /\
        forall a, a < length (sh v) -> ~ In a (somes order) -> nth a (sh v) 0 = 1
  | OBlock bshape core_out core_ins implicit _ =>
      length core_ins = length (n_in nd) /\
      Forall (fun p => let '(core, v) := p in
                core <= length (sh v) /\ length (sh v) - core <= length bshape /\
                (implicit = false -> length (sh v) - core = length bshape) /\
                forall k, k < length (sh v) - core ->
                  nth k (sh v) 0 = 1 \/ nth k (sh v) 0 = nth (length bshape - (length (sh v) - core) + k) bshape 0)
             (combine core_ins (n_in nd))
  | OReduce _ _ _ => exists v, n_in nd = [v]
  | OSub keys => exists v, n_in nd = [v] /\ length keys <= length (sh v)
  | OAdv keys =>
      exists v, n_in nd = v :: tensor_keys keys /\ tensor_keys keys <> [] /\
        length (filter (fun k => negb (is_newaxis k)) keys) <= length (sh v) /\
        let g := bcast_shape (map sh (tensor_keys keys)) in
        Forall (fun u => forall k, k < length (sh u) ->
                  nth k (sh u) 0 = 1 \/ nth k (sh u) 0 = nth (length g - length (sh u) + k) g 0) (tensor_keys keys)
  | OOther _ _ => True
  end.

Fixpoint wf_graph (shapes : list (list nat)) (nodes : list node) : Prop :=
  match nodes with
  | [] => True
  | nd :: rest => wf_node shapes nd /\ wf_graph (shapes ++ [op_shape shapes nd]) rest
  end.

(** ** The two situations the analysis does not handle *)
(** [var_dims] of a variable in the dictionary returned by the analysis *)
Definition reported (shapes : list (list nat)) (env : list (option dims)) (v : nat) : dims :=
  match nth v env None with Some d => d | None => repeat None (length (nth_shape shapes v)) end.

(** a reduction over an axis connected to the first batch dimension (unless it has length 1) *)
Definition reduces_first_dim (xshape : list nat) (shapes : list (list nat)) (env : list (option dims)) (nd : node) : Prop :=
  exists axes f z v a, n_op nd = OReduce axes f z /\ n_in nd = [v] /\ In a axes /\
    nth a (reported shapes env v) None = Some 0 /\ nth 0 xshape 0 <> 1.
(** array indexing, together with a partial slice, of a variable with connected axes *)
Definition slices_connected (shapes : list (list nat)) (env : list (option dims)) (nd : node) : Prop :=
  exists keys f len v, n_op nd = OAdv keys /\ hd_error (n_in nd) = Some v /\ In (ASlice f len) keys /\
    all_none (reported shapes env v) = false.
