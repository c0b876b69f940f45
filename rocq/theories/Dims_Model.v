(** Model of the batch-dimension analysis behind marginalization.
    Source: /repo/pymc_extras/model/marginal/graph_analysis.py (lines 73-372) and
    /repo/pymc_extras/model/marginal/distributions.py (lines 74-126). *)
From Verif Require Import Common.
From Coq Require Import ZArith.

(** [DIMS = tuple[int | None, ...]] (graph_analysis.py:99). *)
Definition dims := list (option nat).

(** ** [_broadcast_dims] (graph_analysis.py:103-130) *)

(** lines 109-111: left-pad with None *)
Definition pad_left (n : nat) (d : dims) : dims := repeat None (n - length d) ++ d.

(** lines 116-122: fold over the inputs' entries for one axis *)
Fixpoint merge_axis (acc : option nat) (col : list (option nat)) : res (option nat) :=
  match col with
  | [] => Ok acc
  | None :: col' => merge_axis acc col'
  | Some x :: col' =>
      match acc with
      | Some y => if Nat.eqb y x then merge_axis (Some x) col' else Err ValueError
      | None => merge_axis (Some x) col'
      end
  end.

Definition max_len (ds : list dims) : nat := fold_right (fun d m => Nat.max (length d) m) 0 ds.

(** lines 115-123: [zip( *inputs_dims)], all inputs having length [n] *)
Fixpoint merge_axes (n : nat) (start : nat) (ds : list dims) : res dims :=
  match n with
  | O => Ok []
  | S n' =>
      do o <- merge_axis None (map (fun d => nth start d None) ds);
      do rest <- merge_axes n' (S start) ds;
      Ok (o :: rest)
  end.

(** line 126 *)
Definition known_dims (d : dims) : list nat :=
  flat_map (fun o => match o with Some x => [x] | None => [] end) d.

Fixpoint nodupb (l : list nat) : bool :=
  match l with [] => true | x :: l' => negb (existsb (Nat.eqb x) l') && nodupb l' end.

Definition broadcast_dims (ds : list dims) : res dims :=
  let n := max_len ds in
  do out <- merge_axes n 0 (map (pad_left n) ds);
  (* lines 125-128: [len(known) > len(set(known))] *)
  if nodupb (known_dims out) then Ok out else Err ValueError.

(** ** Graphs *)

(** Index keys of basic indexing: a full slice, another slice (its effect on a coordinate and the
    resulting length), an integer. *)
Inductive bkey := BFull | BSlice (f : nat -> nat) (len : nat) | BInt (n : nat).
(** Index keys of advanced indexing; [ATensor v]: array index held by variable [v]. *)
Inductive akey := AFull | ASlice (f : nat -> nat) (len : nat) | ANewAxis | ATensor (v : nat) | ABool (v : nat).

(** The ops the analysis distinguishes (one tensor output per node).
    [OBlock bshape core_out core_ins implicit f]: Elemwise / Blockwise / RandomVariable /
    SymbolicRandomVariable with signature; [bshape] is the batch shape of the output (for RVs it may be
    larger than the parameters', through [size]), [core_ins] the number of core dims of each input,
    [implicit] says parameters may miss leading batch dims (SymbolicRandomVariable, lines 187-195).
    [f] gets the batch index (an RV's own noise may depend on it), the core index and the core entries
    of every input.  Not modelled: MarginalRV nodes / SymbolicRandomVariable without signature
    (lines 149-177), non-tensor outputs. *)
Inductive op :=
| ODimShuffle (order : list (option nat))
| OBlock (bshape core_out core_ins : list nat) (implicit : bool) (f : list nat -> list nat -> list (list Z) -> Z)
| OReduce (axes : list nat) (f : Z -> Z -> Z) (z : Z)
| OSub (keys : list bkey)
| OAdv (keys : list akey)
| OOther (f : list nat -> list (list Z) -> Z) (shape : list nat).

Record node := { n_op : op; n_in : list nat }.

(** ** The analysis *)

(** graph_analysis.py:73-96 [_advanced_indexing_axis_and_ndim] *)
Fixpoint adv_axis_loop (axis : nat) (found : option nat) (simple_after : bool) (keys : list akey) : option nat :=
  match keys with
  | [] => found
  | ATensor _ :: ks | ABool _ :: ks =>
      if simple_after then Some 0
      else match found with
           | None => adv_axis_loop (S axis) (Some axis) simple_after ks
           | Some _ => adv_axis_loop (S axis) found simple_after ks
           end
  | _ :: ks =>
      match found with
      | Some _ => adv_axis_loop (S axis) found true ks
      | None => adv_axis_loop (S axis) found simple_after ks
      end
  end.
Definition adv_group_axis (keys : list akey) : nat :=
  match adv_axis_loop 0 None false keys with Some a => a | None => 0 end.
Definition tensor_keys (keys : list akey) : list nat :=
  flat_map (fun k => match k with ATensor v | ABool v => [v] | _ => [] end) keys.
(** line 95; [rank v] is [v.type.ndim] *)
Definition adv_group_ndim (rank : nat -> nat) (keys : list akey) : nat :=
  fold_right (fun v m => Nat.max (rank v) m) 0 (tensor_keys keys).

Definition all_none (d : dims) : bool := forallb (fun o => match o with None => true | _ => false end) d.

(** lines 191-195: SymbolicRandomVariable parameters are left-padded to the batch rank *)
Definition pad_params (implicit : bool) (bnd : nat) (core_ins : list nat) (ds : list dims) : list dims :=
  if implicit
  then map (fun p => repeat None (bnd - (length (snd p) - fst p)) ++ snd p) (combine core_ins ds)
  else ds.

(** lines 236-247; [zip_longest(value_dims, keys, fillvalue=slice(None))] with no more keys than dims *)
Fixpoint sub_dims (d : dims) (keys : list bkey) : res dims :=
  match d, keys with
  | [], _ => Ok []
  | x :: d', [] => do r <- sub_dims d' []; Ok (x :: r)
  | x :: d', BFull :: ks => do r <- sub_dims d' ks; Ok (x :: r)
  | Some _ :: _, _ :: _ => Err ValueError
  | None :: d', BSlice _ _ :: ks => do r <- sub_dims d' ks; Ok (None :: r)
  | None :: d', BInt _ :: ks => sub_dims d' ks
  end.

(** lines 282-293.  The keys of an AdvancedSubtensor node are variables, so a partial slice is never
    [isinstance(idx, slice)] (line 291): nothing is appended for it. *)
Fixpoint adv_value_dims (d : dims) (keys : list akey) : res dims :=
  match d, keys with
  | [], _ => Ok []
  | x :: d', [] => do r <- adv_value_dims d' []; Ok (x :: r)
  | x :: d', AFull :: ks => do r <- adv_value_dims d' ks; Ok (x :: r)
  | Some _ :: _, _ :: _ => Err ValueError
  | None :: d', _ :: ks => adv_value_dims d' ks
  end.

Definition is_newaxis (k : akey) : bool := match k with ANewAxis => true | _ => false end.
Definition is_boolkey (k : akey) : bool := match k with ABool _ => true | _ => false end.

(** One iteration of the loop, lines 140-318, for a node whose inputs have dims [ins];
    [Ok None] is [continue].  [rank]: static ndim of a variable, [out_rank] of the output. *)
Definition node_dims (rank : nat -> nat) (get : nat -> dims) (out_rank : nat) (nd : node) : res (option dims) :=
  let ins := map get (n_in nd) in
  if forallb all_none ins then Ok None
  else
  match n_op nd with
  | ODimShuffle order =>
      match ins with
      | [d] => Ok (Some (map (fun o => match o with None => None | Some i => nth i d None end) order))
      | _ => Err ValueError
      end
  | OBlock bshape core_out core_ins implicit f =>
      let bnd := length bshape in
      let ins' := pad_params implicit bnd core_ins ins in
      (* lines 197-202 *)
      if forallb (fun d => all_none (skipn bnd d)) ins'
      then do b <- broadcast_dims (map (firstn bnd) ins');
           Ok (Some (b ++ repeat None (out_rank - bnd)))
      else Err ValueError
  | OReduce axes _ _ =>
      match ins with
      | [d] =>
          (* line 222: [any(input_dims[axis] for axis in axes)] -- dim 0 is falsy *)
          if existsb (fun a => match nth a d None with None => false | Some 0 => false | Some _ => true end) axes
          then Err ValueError
          else Ok (Some (map snd (filter (fun p => negb (existsb (Nat.eqb (fst p)) axes))
                                         (combine (seq 0 (length d)) d))))
      | _ => Err ValueError
      end
  | OSub keys =>
      match ins with
      | d :: _ => do r <- sub_dims d keys; Ok (Some r)
      | [] => Err ValueError
      end
  | OAdv keys =>
      match ins with
      | vd :: kds =>
          if existsb is_boolkey keys then Err NotImplementedError
          else if negb (all_none vd) && negb (forallb all_none kds) then Err NotImplementedError
          else
            let a := adv_group_axis keys in
            let g := adv_group_ndim rank keys in
            if negb (all_none vd) then
              if existsb is_newaxis keys then Err NotImplementedError
              else do na <- adv_value_dims vd keys;
                   Ok (Some (firstn a na ++ repeat None g ++ skipn a na))
            else
              do ad <- broadcast_dims (map get (tensor_keys keys));
              Ok (Some (repeat None a ++ ad ++ repeat None (out_rank - a - g)))
      | [] => Err ValueError
      end
  | OOther _ _ => Err NotImplementedError
  end.

(** ** Shapes (static in PyTensor); [None] for an ill-formed node. *)
Definition nth_shape (shapes : list (list nat)) (v : nat) : list nat := nth v shapes [].

Fixpoint bkeys_shape (s : list nat) (keys : list bkey) : list nat :=
  match s, keys with
  | [], _ => []
  | n :: s', [] => n :: bkeys_shape s' []
  | n :: s', BFull :: ks => n :: bkeys_shape s' ks
  | _ :: s', BSlice _ len :: ks => len :: bkeys_shape s' ks
  | _ :: s', BInt _ :: ks => bkeys_shape s' ks
  end.

(** non-advanced output axes: full/partial slices keep an axis, newaxis adds one *)
Fixpoint akeys_shape (s : list nat) (keys : list akey) : list nat :=
  match keys with
  | [] => s
  | ANewAxis :: ks => 1 :: akeys_shape s ks
  | AFull :: ks => match s with n :: s' => n :: akeys_shape s' ks | [] => [] end
  | ASlice _ len :: ks => match s with _ :: s' => len :: akeys_shape s' ks | [] => [] end
  | ATensor _ :: ks | ABool _ :: ks => match s with _ :: s' => akeys_shape s' ks | [] => [] end
  end.

(** NumPy broadcasting of shapes, right aligned (length-1 axes stretch). *)
Definition bshape_at (n : nat) (ss : list (list nat)) (k : nat) : nat :=
  fold_right (fun s m => let l := length s in
                if k <? n - l then m
                else let x := nth (k - (n - l)) s 1 in if Nat.eqb x 1 then m else x) 1 ss.
Definition bcast_shape (ss : list (list nat)) : list nat :=
  let n := fold_right (fun s m => Nat.max (length s) m) 0 ss in
  map (bshape_at n ss) (seq 0 n).

(** NumPy: position of the advanced group in the result -- in place when the array indices are
    adjacent, else in front. *)
Definition is_tensorkey (k : akey) : bool := match k with ATensor _ | ABool _ => true | _ => false end.
Fixpoint drop_simple (keys : list akey) : list akey :=
  match keys with k :: ks => if is_tensorkey k then keys else drop_simple ks | [] => [] end.
Fixpoint drop_tensor (keys : list akey) : list akey :=
  match keys with k :: ks => if is_tensorkey k then drop_tensor ks else keys | [] => [] end.
Definition numpy_adv_axis (keys : list akey) : nat :=
  let rest := drop_simple keys in
  if existsb is_tensorkey (drop_tensor rest) then 0 else length keys - length rest.

Definition op_shape (shapes : list (list nat)) (nd : node) : list nat :=
  match n_op nd with
  | ODimShuffle order =>
      map (fun o => match o with None => 1 | Some i => nth i (nth_shape shapes (nth 0 (n_in nd) 0)) 1 end) order
  | OBlock bshape core_out _ _ _ => bshape ++ core_out
  | OReduce axes _ _ =>
      let s := nth_shape shapes (nth 0 (n_in nd) 0) in
      map snd (filter (fun p => negb (existsb (Nat.eqb (fst p)) axes)) (combine (seq 0 (length s)) s))
  | OSub keys => bkeys_shape (nth_shape shapes (nth 0 (n_in nd) 0)) keys
  | OAdv keys =>
      let na := akeys_shape (nth_shape shapes (nth 0 (n_in nd) 0)) keys in
      let a := numpy_adv_axis keys in
      firstn a na ++ bcast_shape (map (nth_shape shapes) (tensor_keys keys)) ++ skipn a na
  | OOther _ shape => shape
  end.

(** lines 133-320: the loop over the nodes.  Variable 0 is the marginalized variable; [env v] is
    [var_dims.get(v)].  [shapes]: static shapes of all variables so far. *)
Fixpoint analyse (shapes : list (list nat)) (env : list (option dims)) (nodes : list node)
  : res (list (list nat) * list (option dims)) :=
  match nodes with
  | [] => Ok (shapes, env)
  | nd :: rest =>
      let rank v := length (nth_shape shapes v) in
      let get v := match nth v env None with Some d => d | None => repeat None (rank v) end in
      let s := op_shape shapes nd in
      do o <- node_dims rank get (length s) nd;
      analyse (shapes ++ [s]) (env ++ [o]) rest
  end.

(** lines 365-372 [subgraph_batch_dim_connection]: [xshape] is the shape of the input variable,
    [roots] the shapes of the other graph roots. *)
Definition connection (xshape : list nat) (roots : list (list nat)) (nodes : list node) (outs : list nat)
  : res (list dims) :=
  do r <- analyse (xshape :: roots) (Some (map Some (seq 0 (length xshape))) :: repeat None (length roots)) nodes;
  let '(shapes, env) := r in
  fold_right (fun v acc =>
      do l <- acc;
      let d := match nth v env None with Some d => d | None => repeat None (length (nth_shape shapes v)) end in
      if Nat.eqb (length d) (length (nth_shape shapes v)) then Ok (d :: l) else Err AssertionError)
    (Ok []) outs.

(** ** Semantics of the graph: tensors as functions of the index. *)
Definition tensor := list nat -> Z.

Fixpoint all_indices (shape : list nat) : list (list nat) :=
  match shape with
  | [] => [[]]
  | n :: s => flat_map (fun k => map (cons k) (all_indices s)) (seq 0 n)
  end.

(** coordinate list of an input of shape [s] at batch index [b] (right aligned; length-1 axes read 0) *)
Definition bcoord (s b : list nat) : list nat :=
  map (fun p => if Nat.eqb (fst p) 1 then 0 else snd p) (combine s (skipn (length b - length s) b)).

(** position of the first [Some a] in a dimshuffle order *)
Fixpoint pos_of (a : nat) (order : list (option nat)) : option nat :=
  match order with
  | [] => None
  | Some i :: o => if Nat.eqb i a then Some 0 else option_map S (pos_of a o)
  | None :: o => option_map S (pos_of a o)
  end.

(** put back the reduced coordinates *)
Fixpoint unreduce (a : nat) (axes : list nat) (rank : nat) (idx red : list nat) : list nat :=
  match rank with
  | O => []
  | S r =>
      if existsb (Nat.eqb a) axes
      then match red with x :: red' => x :: unreduce (S a) axes r idx red'
                        | [] => 0 :: unreduce (S a) axes r idx [] end
      else match idx with x :: idx' => x :: unreduce (S a) axes r idx' red
                        | [] => 0 :: unreduce (S a) axes r [] red end
  end.

Fixpoint bkeys_index (rank : nat) (keys : list bkey) (idx : list nat) : list nat :=
  match rank with
  | O => []
  | S r =>
      match keys with
      | BInt n :: ks => n :: bkeys_index r ks idx
      | BSlice f _ :: ks => f (hd 0 idx) :: bkeys_index r ks (tl idx)
      | BFull :: ks => hd 0 idx :: bkeys_index r ks (tl idx)
      | [] => hd 0 idx :: bkeys_index r [] (tl idx)
      end
  end.

(** integer value used as an index along an axis of length [n] (negative counts from the end) *)
Definition to_index (n : nat) (z : Z) : nat := Z.to_nat (if (z <? 0)%Z then z + Z.of_nat n else z)%Z.

(** index into the value for advanced indexing: [na] the non-advanced coordinates, [key] gives the
    integer selected by an array index *)
Fixpoint akeys_index (s : list nat) (keys : list akey) (key : nat -> Z) (na : list nat) : list nat :=
  match keys with
  | [] => map snd (combine s na)
  | ANewAxis :: ks => akeys_index s ks key (tl na)
  | AFull :: ks => match s with _ :: s' => hd 0 na :: akeys_index s' ks key (tl na) | [] => [] end
  | ASlice f _ :: ks => match s with _ :: s' => f (hd 0 na) :: akeys_index s' ks key (tl na) | [] => [] end
  | ATensor v :: ks | ABool v :: ks =>
      match s with n :: s' => to_index n (key v) :: akeys_index s' ks key na | [] => [] end
  end.

Definition op_eval (shapes : list (list nat)) (vals : list tensor) (nd : node) : tensor :=
  let sh v := nth_shape shapes v in
  let va v := nth v vals (fun _ => 0%Z) in
  fun idx =>
  match n_op nd with
  | ODimShuffle order =>
      let v := nth 0 (n_in nd) 0 in
      va v (map (fun a => match pos_of a order with Some k => nth k idx 0 | None => 0 end) (seq 0 (length (sh v))))
  | OBlock bshape core_out core_ins _ f =>
      let b := firstn (length bshape) idx in
      let c := skipn (length bshape) idx in
      f b c (map (fun p => let '(core, v) := p in
               let bs := firstn (length (sh v) - core) (sh v) in
               let cs := skipn (length (sh v) - core) (sh v) in
               map (fun ci => va v (bcoord bs b ++ ci)) (all_indices cs))
             (combine core_ins (n_in nd)))
  | OReduce axes f z =>
      let v := nth 0 (n_in nd) 0 in
      let s := sh v in
      let rs := map snd (filter (fun p => existsb (Nat.eqb (fst p)) axes) (combine (seq 0 (length s)) s)) in
      fold_right (fun red acc => f (va v (unreduce 0 axes (length s) idx red)) acc) z (all_indices rs)
  | OSub keys =>
      let v := nth 0 (n_in nd) 0 in
      va v (bkeys_index (length (sh v)) keys idx)
  | OAdv keys =>
      let v := nth 0 (n_in nd) 0 in
      let a := numpy_adv_axis keys in
      let g := length (bcast_shape (map sh (tensor_keys keys))) in
      let na := firstn a idx ++ skipn (a + g) idx in
      let adv := firstn g (skipn a idx) in
      va v (akeys_index (sh v) keys (fun u => va u (bcoord (sh u) adv)) na)
  | OOther f _ => f idx (map (fun v => map (va v) (all_indices (sh v))) (n_in nd))
  end.

Fixpoint eval (shapes : list (list nat)) (vals : list tensor) (nodes : list node) : list tensor :=
  match nodes with
  | [] => vals
  | nd :: rest => eval (shapes ++ [op_shape shapes nd]) (vals ++ [op_eval shapes vals nd]) rest
  end.
