(** Property theorems C06 and C07. *)
From Coq Require Import Permutation.
From Verif Require Import Common LogR Dims_Model DimsAlign_Model DimsAlign_Spec DimsAlign_Proofs.
Local Open Scope nat_scope.

(** ** C06.  The full property quantifies over every axis permutation; it fails for 3-cycles and for
    multivariate dependents with extra batch axes (refuted below).  Proved part: univariate dependents,
    any rank, any number of extra axes, when the order of the known axes is an involution (in particular
    identity and swaps of two axes, hence every rank <= 2), for any number of dependents. *)
Theorem C06_reduced_logp_aligned_partial : forall deps xshape,
  deps <> [] ->
  Forall (fun p => match p with (d, ndim_supp, l) =>
            ndim_supp = 0 /\ full_connection d (lt_shape l) xshape /\ involutive (known_dims d) end) deps ->
  exists r, reduce_batch_dependent_logps deps = Ok r /\ lt_shape r = xshape /\
    forall b, In b (all_indices xshape) ->
      lt_at r b = lsum (map (fun p => match p with (d, _, l) => connected_logp d l b end) deps).
Proof. exact reduce_batch_ok. Qed.
Print Assumptions C06_reduced_logp_aligned_partial.

(** multivariate dependents whose batch axes are all connected *)
Theorem C06_multivariate_aligned_partial : forall p k xshape logp,
  full_connection (map Some p) (lt_shape logp) xshape -> involutive p ->
  exists r, reduce_dependent (map Some p ++ repeat None k) k logp = Ok r /\ lt_shape r = xshape /\
    forall b, In b (all_indices xshape) -> lt_at r b = connected_logp (map Some p) logp b.
Proof.
  intros p k xshape logp HF Hi. rewrite reduce_multivariate.
  apply reduce_involutive; [exact HF|]. now rewrite known_dims_pure.
Qed.
Print Assumptions C06_multivariate_aligned_partial.

(** Exactly the involutions work: for any other axis order some tensor is mixed up, silently. *)
Theorem C06_transposition_right_iff_involution : forall p n m,
  Permutation p (seq 0 n) -> 2 <= m ->
  (involutive p <->
   forall at_ r b, reduce_dependent (map Some p) 0 {| lt_shape := repeat m n; lt_at := at_ |} = Ok r ->
     In b (all_indices (repeat m n)) ->
     lt_at r b = connected_logp (map Some p) {| lt_shape := repeat m n; lt_at := at_ |} b).
Proof.
  intros p n m HP Hm. split.
  - intros Hi at_ r b Hr Hb.
    destruct (reduce_involutive (map Some p) (repeat m n) {| lt_shape := repeat m n; lt_at := at_ |})
      as [r' [Hr' [_ Hv]]].
    + now apply full_connection_cube.
    + now rewrite known_dims_pure.
    + rewrite Hr in Hr'. injection Hr' as <-. now apply Hv.
  - now apply reduce_only_involutive.
Qed.
Print Assumptions C06_transposition_right_iff_involution.

(** The full statement is false: [dep = Normal(idx.transpose(1, 2, 0))] with idx of shape (2,2,2) is
    accepted by the analysis, and the logp of the wrong entry is added. *)
Definition cyc_nodes : list node :=
  [ {| n_op := ODimShuffle [Some 1; Some 2; Some 0]; n_in := [0] |};
    {| n_op := OBlock [2; 2; 2] [] [0] false (fun _ _ l => hd 0%Z (hd [] l)); n_in := [1] |} ].
Theorem C06_three_cycle_refuted : exists d logp r b,
  connection [2; 2; 2] [] cyc_nodes [2] = Ok [d] /\
  full_connection d (lt_shape logp) [2; 2; 2] /\
  reduce_dependent d 0 logp = Ok r /\ In b (all_indices [2; 2; 2]) /\
  lt_at r b <> connected_logp d logp b.
Proof.
  exists [Some 1; Some 2; Some 0].
  exists {| lt_shape := [2; 2; 2]; lt_at := fun i => match i with [1; 0; 0] => NInf | _ => Fin 0 end |}.
  eexists. exists [0; 1; 0].
  split; [vm_compute; reflexivity|]. split; [|split; [reflexivity|split]].
  - split; [reflexivity|]. split.
    + cbn. apply Permutation_sym. apply (Permutation_cons_app [1; 2] [] 0 (Permutation_refl _)).
    + intros [|[|[|[|k]]]] j H; simpl in H; try discriminate; injection H as <-; reflexivity.
  - vm_compute. tauto.
  - cbn. discriminate.
Qed.
Print Assumptions C06_three_cycle_refuted.

(** A multivariate dependent with an extra batch axis: the axis connected to the marginalized variable is
    summed out instead of the extra one ([MvNormal] of shape (3, 3, k), idx of shape (3,)). *)
Theorem C06_multivariate_extra_axis_refuted : exists d logp r b,
  d = [Some 0; None; None] /\ lt_shape logp = [3; 3] /\
  reduce_dependent d 1 logp = Ok r /\ lt_shape r = [3] /\ In b (all_indices [3]) /\
  lt_at r b <> connected_logp (firstn 2 d) logp b.
Proof.
  exists [Some 0; None; None].
  exists {| lt_shape := [3; 3]; lt_at := fun i => match i with [0; _] => NInf | _ => Fin 0 end |}.
  eexists. exists [1]. split; [reflexivity|]. split; [reflexivity|]. split; [reflexivity|].
  split; [reflexivity|]. split; [vm_compute; tauto|]. cbn. discriminate.
Qed.
Print Assumptions C06_multivariate_extra_axis_refuted.

(** The final transposition back to the first dependent's order is right for every permutation. *)
Theorem C06_final_alignment : forall d n (t : ltensor),
  Permutation (known_dims d) (seq 0 n) -> length (lt_shape t) = n ->
  exists r, align_logp_dims d t = Ok r /\
    (forall k, k < n -> nth k (lt_shape r) 0 = nth (nth k (known_dims d) 0) (lt_shape t) 0) /\
    (forall j b, length j = n -> length b = n ->
       (forall k, k < n -> nth k j 0 = nth (nth k (known_dims d) 0) b 0) -> lt_at r j = lt_at t b).
Proof. exact align_value. Qed.
Print Assumptions C06_final_alignment.

(** The docstring's example: dims (1, 0, None) and (None, 0, 1) for idx of shape (3, 2). *)
Example C06_example : exists d1 d2,
  full_connection d1 [2; 3; 5] [3; 2] /\ involutive (known_dims d1) /\
  full_connection d2 [7; 3; 2] [3; 2] /\ involutive (known_dims d2).
Proof.
  exists [Some 1; Some 0; None], [None; Some 0; Some 1].
  split; [split; [reflexivity|split]|split; [|split; [split; [reflexivity|split]|]]].
  - cbn. apply perm_swap.
  - intros [|[|[|k]]] j H; simpl in H; try discriminate; try (injection H as <-; reflexivity); destruct k; discriminate.
  - intros [|[|k]] Hk; simpl in *; try reflexivity; lia.
  - cbn. apply Permutation_refl.
  - intros [|[|[|[|k]]]] j H; simpl in H; try discriminate; injection H as <-; reflexivity.
  - intros [|[|k]] Hk; simpl in *; try reflexivity; lia.
Qed.

(** ** C07 *)
Theorem C07_broadcast_result : forall ds out,
  broadcast_dims ds = Ok out ->
  length out = fold_right Nat.max 0 (map (@length _) ds) /\
  (forall k x, from_right out k = Some x <-> exists d, In d ds /\ from_right d k = Some x) /\
  (forall i k x, from_right out i = Some x -> from_right out k = Some x -> i = k).
Proof.
  intros ds out H. destruct (broadcast_ok ds out H) as [H1 H2]. split; [|exact H2].
  rewrite H1. clear. induction ds as [|d ds IH]; simpl; [reflexivity | now rewrite IH].
Qed.
Print Assumptions C07_broadcast_result.

Theorem C07_broadcast_error_iff : forall ds,
  (exists e, broadcast_dims ds = Err e) <->
  ((exists d1 d2 k x y, In d1 ds /\ In d2 ds /\ from_right d1 k = Some x /\ from_right d2 k = Some y /\ x <> y) \/
   (exists d1 d2 k1 k2 x, In d1 ds /\ In d2 ds /\ from_right d1 k1 = Some x /\ from_right d2 k2 = Some x /\ k1 <> k2)).
Proof.
  intros ds. split.
  - intros [e He]. apply (broadcast_err ds e He).
  - destruct (broadcast_dims ds) as [out|e] eqn:E; [|intros _; now exists e].
    destruct (broadcast_ok ds out E) as [_ [H1 H2]].
    intros [[d1 [d2 [k [x [y [Hd1 [Hd2 [Hx [Hy Hne]]]]]]]]] | [d1 [d2 [k1 [k2 [x [Hd1 [Hd2 [Hx [Hy Hne]]]]]]]]]]; exfalso.
    + assert (Ha : from_right out k = Some x) by (apply H1; now exists d1).
      assert (Hb : from_right out k = Some y) by (apply H1; now exists d2). congruence.
    + apply Hne. apply (H2 k1 k2 x); apply H1; [now exists d1 | now exists d2].
Qed.
Print Assumptions C07_broadcast_error_iff.

(** and every error is a ValueError *)
Theorem C07_broadcast_error_class : forall ds e, broadcast_dims ds = Err e -> e = ValueError.
Proof. intros ds e H. apply (broadcast_err ds e H). Qed.

Example C07_example :
  broadcast_dims [[Some 0; None]; [Some 2]; [None; None; Some 2]] = Ok [None; Some 0; Some 2] /\
  broadcast_dims [[Some 0; None]; [Some 1; Some 1]] = Err ValueError /\
  broadcast_dims [[Some 0]; [Some 0; None]] = Err ValueError.
Proof. vm_compute. repeat split. Qed.
