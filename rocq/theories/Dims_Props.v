(** C05: what the batch-dimension analysis guarantees, and where it does not. *)
From Verif Require Import Common Dims_Model Dims_Spec Dims_Proofs.

Lemma nth_shape_app s t v : v < length s -> nth_shape (s ++ t) v = nth_shape s v.
Proof. intros. unfold nth_shape. now rewrite app_nth1. Qed.

Lemma analyse_ext nodes : forall shapes env shapes' env', length env = length shapes -> analyse shapes env nodes = Ok (shapes', env') ->
  exists s e, shapes' = shapes ++ s /\ env' = env ++ e.
Proof.
  induction nodes as [|nd nodes IH]; intros shapes env shapes' env' L H; cbn [analyse] in H.
  - injection H as <- <-. exists [], []. now rewrite !app_nil_r.
  - match type of H with bind ?r _ = _ => destruct r as [o|] eqn:E; [|discriminate] end. cbn [bind] in H.
    apply IH in H as (s & e & -> & ->); [|rewrite !app_length; cbn; lia]. rewrite <- !app_assoc. eauto.
Qed.

Lemma reported_app s e s' e' v : v < length s -> length e = length s -> reported (s ++ s') (e ++ e') v = reported s e v.
Proof. intros. unfold reported. rewrite app_nth1 by lia. now rewrite nth_shape_app. Qed.

Lemma analyse_inv xs nodes : forall shapes env vals shapes' env', length env = length shapes -> (forall X, length (vals X) = length shapes) ->
  (forall v, v < length shapes -> Inv xs (reported shapes env v) (nth_shape shapes v) (fun X => nth v (vals X) (fun _ => 0%Z))) ->
  wf_graph shapes nodes -> analyse shapes env nodes = Ok (shapes', env') ->
  Forall (fun nd => ~ reduces_first_dim xs shapes' env' nd) nodes ->
  Forall (fun nd => ~ slices_connected shapes' env' nd) nodes ->
  length env' = length shapes' /\
  forall v, v < length shapes' -> Inv xs (reported shapes' env' v) (nth_shape shapes' v) (fun X => nth v (eval shapes (vals X) nodes) (fun _ => 0%Z)).
Proof.
  induction nodes as [|nd nodes IH]; intros shapes env vals shapes' env' L LV HI W H HR HS; cbn [analyse] in H.
  - injection H as <- <-. split; auto.
  - destruct W as [W Wg]. inversion HR as [|? ? R1 R2]; subst. inversion HS as [|? ? S1 S2]; subst.
    match type of H with bind ?r _ = _ => destruct r as [o|] eqn:E; [|discriminate] end. cbn [bind] in H.
    pose proof H as Hx. apply analyse_ext in Hx as (s & e & Es & Ee); [|rewrite !app_length; cbn; lia].
    assert (Hrep : forall v, v < length shapes -> reported shapes' env' v = reported shapes env v).
    { intros v Hv. rewrite Es, Ee, <- !app_assoc. apply reported_app; auto. }
    apply (IH _ _ (fun X => vals X ++ [op_eval shapes (vals X) nd]) _ _) in H; auto.
    + rewrite !app_length. cbn. lia.
    + intros X. rewrite !app_length, LV. cbn. lia.
    + intros v Hv. rewrite app_length in Hv. cbn in Hv. destruct (Nat.eq_dec v (length shapes)) as [->|Hne].
      * unfold reported, nth_shape. rewrite !app_nth2 by lia. rewrite L, Nat.sub_diag. cbn [nth].
        assert (J : Inv xs (match o with Some d => d | None => repeat None (length (op_shape shapes nd)) end) (op_shape shapes nd) (fun X => op_eval shapes (vals X) nd)).
        { apply (node_inv xs shapes (reported shapes env) vals HI nd o); auto.
          - intros axes f z v a En Hin Ha Hn. destruct (Nat.eq_dec (nth 0 xs 0) 1) as [|Hu]; auto. exfalso. apply R1. exists axes, f, z, v, a.
            repeat split; auto. rewrite Hrep; auto. eapply node_ins; eauto. rewrite Hin. cbn; auto.
          - intros keys f len v En Hin Hk. destruct (all_none (reported shapes env v)) eqn:N; auto. exfalso. apply S1. exists keys, f, len, v.
            repeat split; auto. rewrite Hrep; auto. eapply node_ins; eauto. destruct (n_in nd); [discriminate|]. injection Hin as ->. cbn; auto. }
        destruct J. split; auto.
        -- intros X X' idx Hl Hx. rewrite !app_nth2 by (rewrite LV; lia). rewrite !LV, Nat.sub_diag. cbn. auto.
        -- destruct I_cov as [C|C]; [left; auto|right]. intros X X' idx. rewrite !app_nth2 by (rewrite LV; lia). rewrite !LV, Nat.sub_diag. cbn. apply C.
        -- intros X X' Hx idx. rewrite !app_nth2 by (rewrite LV; lia). rewrite !LV, Nat.sub_diag. cbn. auto.
      * assert (Hv' : v < length shapes) by lia. rewrite reported_app, nth_shape_app by auto. destruct (HI v Hv'). split; auto.
        -- intros X X' idx Hl Hx. rewrite !app_nth1 by (rewrite LV; lia). auto.
        -- destruct I_cov as [C|C]; [left; auto|right]. intros X X' idx. rewrite !app_nth1 by (rewrite LV; lia). apply C.
        -- intros X X' Hx idx. rewrite !app_nth1 by (rewrite LV; lia). auto.
Qed.

Lemma connection_out xs roots nodes outs ds shapes env :
  analyse (xs :: roots) (Some (map Some (seq 0 (length xs))) :: repeat None (length roots)) nodes = Ok (shapes, env) ->
  connection xs roots nodes outs = Ok ds -> length ds = length outs /\ forall n v, nth_error outs n = Some v -> nth_error ds n = Some (reported shapes env v).
Proof.
  intros HA H. unfold connection in H. rewrite HA in H. cbn [bind] in H. revert ds H. induction outs as [|v outs IH]; intros ds H; cbn in H.
  - injection H as <-. split; auto. intros [|n]; discriminate.
  - match type of H with bind ?r _ = _ => destruct r as [l|] eqn:E; [|discriminate] end. cbn [bind] in H. destruct (Nat.eqb _ _); [|discriminate]. injection H as <-.
    destruct (IH l eq_refl) as [L N]. split; [cbn; auto|]. intros [|n] u Hu; cbn in *; auto. injection Hu as <-. reflexivity.
Qed.

(** An accepted graph has sound connections, provided it contains no reduction over an axis connected to the FIRST
    batch dimension and no array indexing of a connected variable together with a partial slice
    ([shapes], [env]: the static shapes and the dictionary of dims the analysis computes). *)
Theorem C05_connection_sound_partial : forall xshape rootshapes nodes outs connections shapes env,
  wf_graph (xshape :: rootshapes) nodes ->
  analyse (xshape :: rootshapes) (Some (map Some (seq 0 (length xshape))) :: repeat None (length rootshapes)) nodes = Ok (shapes, env) ->
  connection xshape rootshapes nodes outs = Ok connections ->
  Forall (fun nd => ~ reduces_first_dim xshape shapes env nd) nodes ->
  Forall (fun nd => ~ slices_connected shapes env nd) nodes ->
  length connections = length outs /\
  forall rootvalues, length rootvalues = length rootshapes ->
  forall n v d, nth_error outs n = Some v -> v < length shapes -> nth_error connections n = Some d ->
    let value X := nth v (eval (xshape :: rootshapes) (X :: rootvalues) nodes) (fun _ => 0%Z) in
    fits xshape d (nth_shape shapes v) /\ injective d /\
    depends_only_on_connected xshape d (length (nth_shape shapes v)) value /\
    (connects_all xshape d \/ independent value).
Proof.
  intros xs roots nodes outs ds shapes env W HA HC HR HS. destruct (connection_out _ _ _ _ _ _ _ HA HC) as [L N]. split; auto.
  intros rv Lr n v d Hn Hv Hd. rewrite (N _ _ Hn) in Hd. injection Hd as <-. cbv zeta.
  assert (HX : forall k, nth k (map Some (seq 0 (length xs))) None = if k <? length xs then Some k else None).
  { intros k. destruct (Nat.ltb_spec k (length xs)); [rewrite (nth_map_lt _ _ _ 0), seq_nth by (rewrite ?seq_length; auto); auto|].
    apply nth_overflow. now rewrite map_length, seq_length. }
  destruct (analyse_inv xs nodes (xs :: roots) (Some (map Some (seq 0 (length xs))) :: repeat None (length roots)) (fun X => X :: rv) shapes env) as [_ I]; auto.
  { cbn. now rewrite repeat_length. }
  { intros. cbn. f_equal. exact Lr. }
  { intros u Hu. destruct u as [|u].
    - unfold reported. cbn [nth nth_shape]. split.
      + now rewrite map_length, seq_length.
      + intros k k' j. rewrite !HX. destruct (k <? length xs), (k' <? length xs); congruence.
      + intros k j. rewrite HX. destruct (Nat.ltb_spec k (length xs)); congruence.
      + intros k j. rewrite HX. destruct (Nat.ltb_spec k (length xs)); [|discriminate]. intros Hj _. injection Hj as <-. reflexivity.
      + intros X X' idx _ H. apply H. intros k j. rewrite HX. destruct (Nat.ltb_spec k (length xs)); congruence.
      + left. intros j Hj _. exists j. rewrite map_length, seq_length, HX. destruct (Nat.ltb_spec j (length xs)); [auto|lia].
      + intros X X' H idx. apply H.
    - unfold reported. cbn [nth nth_shape]. cbn in Hu.
      assert (Hr : forall T m, nth u (repeat (@None T) m) None = None) by (clear; intros T m; revert u; induction m; destruct u; cbn; auto).
      match goal with |- context [match ?t with Some _ => _ | None => _ end] => replace t with (@None dims) by (symmetry; apply Hr) end. split.
      + apply repeat_length.
      + intros k k' j. now rewrite nth_repeat_none.
      + intros k j. now rewrite nth_repeat_none.
      + intros k j. now rewrite nth_repeat_none.
      + intros X X' idx _ _. reflexivity.
      + right. intros X X' idx. reflexivity.
      + intros X X' _ idx. reflexivity. }
  destruct (I v Hv). split; [|split; [|split]]; auto.
  - split; auto. intros k j Hk. split; [eapply I_lab; eauto|]. intros Hu. eapply I_shp; eauto.
  - intros X X' idx TX TX' Hl H. apply I_sem; auto. intros i Hi.
    destruct (Nat.eq_dec (length i) (length xs)) as [El|El].
    + destruct (forallb (fun k => nth k i 0 <? nth k xs 0) (seq 0 (length xs))) eqn:F.
      * apply H; auto. split; auto. intros k Hk. rewrite forallb_forall in F. apply Nat.ltb_lt. apply F. apply in_seq. lia.
      * assert (~ inrange xs i).
        { intros [_ Hr]. assert (forallb (fun k => nth k i 0 <? nth k xs 0) (seq 0 (length xs)) = true); [|congruence].
          apply forallb_forall. intros k Hk. apply in_seq in Hk. apply Nat.ltb_lt. apply Hr. lia. }
        rewrite TX, TX'; auto.
    + assert (~ inrange xs i) by (intros [? _]; auto). rewrite TX, TX'; auto.
Qed.

(** Two marginalized variables that differ in one entry only. *)
Definition one_at (n : nat) : tensor := fun i => if list_eq_dec Nat.eq_dec i [n] then 1%Z else 0%Z.
Definition zeros : tensor := fun _ => 0%Z.
Lemma one_at_tensor m n : n < m -> tensor_of [m] (one_at n).
Proof.
  intros H i Hi. unfold one_at. destruct (list_eq_dec Nat.eq_dec i [n]); auto. subst. exfalso. apply Hi. split; auto. cbn. intros [|k] Hk; cbn; lia.
Qed.

Definition zadd : list nat -> list nat -> list (list Z) -> Z := fun _ _ ins => fold_right (fun l s => (nth 0 l 0 + s)%Z) 0%Z ins.

(** A decision procedure for [wf_graph], for the concrete graphs below. *)
Definition inb (a : nat) (l : list nat) : bool := existsb (Nat.eqb a) l.
Definition bcast_okb (s g : list nat) (n off : nat) : bool :=
  forallb (fun k => (nth k s 0 =? 1) || (nth k s 0 =? nth (off + k) g 0)) (seq 0 n).
Definition wf_nodeb (shapes : list (list nat)) (nd : node) : bool :=
  let sh := nth_shape shapes in
  forallb (fun v => v <? length shapes) (n_in nd) &&
  match n_op nd, n_in nd with
  | ODimShuffle order, [v] => nodupb (somes order) && forallb (fun a => a <? length (sh v)) (somes order) &&
      forallb (fun a => inb a (somes order) || (nth a (sh v) 0 =? 1)) (seq 0 (length (sh v)))
  | OBlock bshape _ core_ins implicit _, ins => (length core_ins =? length ins) &&
      forallb (fun p => let '(core, v) := p in (core <=? length (sh v)) && (length (sh v) - core <=? length bshape) &&
         (implicit || (length (sh v) - core =? length bshape)) && bcast_okb (sh v) bshape (length (sh v) - core) (length bshape - (length (sh v) - core)))
         (combine core_ins ins)
  | OReduce _ _ _, [v] => true
  | OSub keys, [v] => length keys <=? length (sh v)
  | OAdv keys, v :: ks => (if list_eq_dec Nat.eq_dec ks (tensor_keys keys) then true else false) && negb (length ks =? 0) &&
      (length (filter (fun k => negb (is_newaxis k)) keys) <=? length (sh v)) &&
      (let g := bcast_shape (map sh (tensor_keys keys)) in forallb (fun u => bcast_okb (sh u) g (length (sh u)) (length g - length (sh u))) (tensor_keys keys))
  | OOther _ _, _ => true
  | _, _ => false
  end.
Fixpoint wf_graphb (shapes : list (list nat)) (nodes : list node) : bool :=
  match nodes with [] => true | nd :: rest => wf_nodeb shapes nd && wf_graphb (shapes ++ [op_shape shapes nd]) rest end.

Lemma bcast_okb_ok s g n off : bcast_okb s g n off = true -> forall k, k < n -> nth k s 0 = 1 \/ nth k s 0 = nth (off + k) g 0.
Proof.
  unfold bcast_okb. rewrite forallb_forall. intros H k Hk. specialize (H k ltac:(apply in_seq; lia)). apply orb_prop in H as [H|H]; apply Nat.eqb_eq in H; auto.
Qed.
Lemma wf_nodeb_ok shapes nd : wf_nodeb shapes nd = true -> wf_node shapes nd.
Proof.
  unfold wf_nodeb, wf_node. intros H. apply andb_prop in H as [H1 H2]. split.
  { rewrite Forall_forall. rewrite forallb_forall in H1. intros v Hv. apply Nat.ltb_lt. auto. }
  destruct (n_op nd).
  - destruct (n_in nd) as [|v [|v' ins]]; try discriminate. apply andb_prop in H2 as [[A B]%andb_prop C].
    exists v. split; auto. split; [apply nodupb_NoDup; auto|]. split.
    + rewrite Forall_forall. rewrite forallb_forall in B. intros a Ha. apply Nat.ltb_lt. auto.
    + intros a Ha Hn. rewrite forallb_forall in C. specialize (C a ltac:(apply in_seq; lia)). apply orb_prop in C as [H|H]; [|apply Nat.eqb_eq; auto].
      exfalso. apply Hn. apply existsb_exists in H as (x & Hx & E). apply Nat.eqb_eq in E. subst. auto.
  - destruct (n_in nd) as [|v0 ins0] eqn:En; apply andb_prop in H2 as [A B]; (split; [apply Nat.eqb_eq; auto|]).
    { destruct core_ins; [constructor|discriminate]. }
    rewrite Forall_forall. rewrite forallb_forall in B. intros [c u] Hp. specialize (B _ Hp). cbn beta iota in B.
    apply andb_prop in B as [[[B1 B2]%andb_prop B3]%andb_prop B4]. repeat split; try (apply Nat.leb_le; auto); [|apply bcast_okb_ok; auto].
    intros ->. apply Nat.eqb_eq. auto.
  - destruct (n_in nd) as [|v [|v' ins]]; try discriminate. eauto.
  - destruct (n_in nd) as [|v [|v' ins]]; try discriminate. exists v. split; auto. apply Nat.leb_le. auto.
  - destruct (n_in nd) as [|v ks]; try discriminate. apply andb_prop in H2 as [[[A B]%andb_prop C]%andb_prop D].
    exists v. destruct (list_eq_dec Nat.eq_dec ks (tensor_keys keys)) as [E|]; [|discriminate]. subst ks. repeat split.
    + intros E. rewrite E in B. discriminate.
    + apply Nat.leb_le. auto.
    + rewrite Forall_forall. rewrite forallb_forall in D. intros u Hu. apply bcast_okb_ok. auto.
  - auto.
Qed.
Lemma wf_graphb_ok nodes : forall shapes, wf_graphb shapes nodes = true -> wf_graph shapes nodes.
Proof. induction nodes as [|nd nodes IH]; intros shapes H; cbn in *; auto. apply andb_prop in H as [? ?]. split; auto using wf_nodeb_ok. Qed.

(** ** The hypotheses are satisfiable: idx has shape (3, 2), the other roots are w (2, 3, 5), key (4,) and table (7,):
    [(((idx.T)[..., None] + w).sum(-1)[None, :, None, :] + table[key][:, None, None, None])[1, :, :1]] *)
Definition ex_nodes : list node :=
  [ {| n_op := ODimShuffle [Some 1; Some 0; None]; n_in := [0] |};             (* 4 : (2, 3, 1) *)
    {| n_op := OBlock [2; 3; 5] [] [0; 0] false zadd; n_in := [4; 1] |};       (* 5 : (2, 3, 5) *)
    {| n_op := OReduce [2] Z.add 0%Z; n_in := [5] |};                          (* 6 : (2, 3) *)
    {| n_op := OAdv [ATensor 2]; n_in := [3; 2] |};                            (* 7 : (4,)  table[key] *)
    {| n_op := ODimShuffle [None; Some 0; None; Some 1]; n_in := [6] |};       (* 8 : (1, 2, 1, 3) *)
    {| n_op := ODimShuffle [Some 0; None; None; None]; n_in := [7] |};         (* 9 : (4, 1, 1, 1) *)
    {| n_op := OBlock [4; 2; 1; 3] [] [0; 0] true zadd; n_in := [8; 9] |};     (* 10 : (4, 2, 1, 3) *)
    {| n_op := OSub [BInt 1; BFull; BSlice (fun i => i) 1]; n_in := [10] |};   (* 11 : (2, 1, 3) *)
    {| n_op := OAdv [AFull; ATensor 2]; n_in := [11; 2] |} ].                  (* 12 : (2, 4, 3) *)
Definition ex_roots : list (list nat) := [[2; 3; 5]; [4]; [7]].
Example C05_example :
  wf_graph ([3; 2] :: ex_roots) ex_nodes /\
  connection [3; 2] ex_roots ex_nodes [11; 12; 6; 7] = Ok [[Some 1; None; Some 0]; [Some 1; None; Some 0]; [Some 1; Some 0]; [None]] /\
  (exists shapes env, analyse ([3; 2] :: ex_roots) (Some (map Some (seq 0 2)) :: repeat None 3) ex_nodes = Ok (shapes, env) /\
    Forall (fun nd => ~ reduces_first_dim [3; 2] shapes env nd) ex_nodes /\ Forall (fun nd => ~ slices_connected shapes env nd) ex_nodes).
Proof.
  split; [apply wf_graphb_ok; reflexivity|]. split; [reflexivity|].
  eexists _, _. split; [reflexivity|]. split.
  - repeat constructor; intros (axes & f & z & v & a & E & Hin & Ha & Hn & Hu); cbn in E, Hin; try discriminate.
    injection E as <- <- <-. injection Hin as <-. destruct Ha as [<-|[]]. cbn in Hn. discriminate.
  - repeat constructor; intros (keys & f & len & v & E & Hin & Hk & Hn); cbn in E, Hin; try discriminate;
      injection E as <-; cbn in Hk; intuition discriminate.
Qed.

(** ** Where the analysis is wrong *)

(** [any(input_dims[axis] for axis in axes)] treats the batch dimension 0 as "no dimension": summing over the first
    batch dimension of the marginalized variable is accepted, and the result reported as unconnected. *)
Theorem C05_sum_over_first_dim_refuted : exists nodes connection_of_sum,
  wf_graph [[3]] nodes /\ connection [3] [] nodes [1] = Ok [connection_of_sum] /\
  let value X := nth 1 (eval [[3]] [X] nodes) (fun _ => 0%Z) in
  ~ (connects_all [3] connection_of_sum \/ independent value) /\
  (* whereas the same sum over any other batch dimension is an error *)
  connection [2; 3] [] [{| n_op := OReduce [1] Z.add 0%Z; n_in := [0] |}] [1] = Err ValueError.
Proof.
  exists [{| n_op := OReduce [0] Z.add 0%Z; n_in := [0] |}], []. split; [apply wf_graphb_ok; reflexivity|]. split; [reflexivity|]. split; [|reflexivity].
  intros [C|C].
  - destruct (C 0) as (k & Hk & _); cbn in *; lia.
  - specialize (C (one_at 0) zeros []). vm_compute in C. discriminate.
Qed.

(** A batch dimension of length 1 that broadcasts is reported as connected to the stretched axis: entry 1 of the output
    is said to come from entry 1 of a variable that has only one entry. *)
Theorem C05_unit_dim_broadcast_refuted : exists nodes d,
  wf_graph [[1]; [3]] nodes /\ connection [1] [[3]] nodes [2] = Ok [d] /\
  let value X := nth 2 (eval [[1]; [3]] [X; zeros] nodes) (fun _ => 0%Z) in
  ~ (forall X X' idx, tensor_of [1] X -> tensor_of [1] X' -> length idx = 1 ->
       (forall i, inrange [1] i -> (forall k j, nth k d None = Some j -> nth j i 0 = nth k idx 0) -> X i = X' i) -> value X idx = value X' idx).
Proof.
  exists [{| n_op := OBlock [3] [] [0; 0] false zadd; n_in := [0; 1] |}], [Some 0]. split; [apply wf_graphb_ok; reflexivity|]. split; [reflexivity|].
  intros value H. assert (E : value (one_at 0) [1] = value zeros [1]); [|vm_compute in E; discriminate]. apply H; auto.
  - apply (one_at_tensor 1 0). lia.
  - intros i _. reflexivity.
  - intros i [_ Hi] Hs. specialize (Hs 0 0 eq_refl). specialize (Hi 0 ltac:(auto)). cbn in *. destruct i as [|x i]; cbn in *; lia.
Qed.

(** Array indexing with a partial slice: the sliced axis is forgotten, and after broadcasting with another operand
    the connection points to the wrong axis. Here [w[:, 1:4, key] + noise] with [w = idx[:, None, None] + table]
    depends on idx through axis 0, but axis 1 is reported. *)
Theorem C05_array_index_with_slice_refuted : exists nodes d,
  let roots := [[3; 5; 4]; [2]; [1; 1; 1]] in
  wf_graph ([3] :: roots) nodes /\ connection [3] roots nodes [7] = Ok [d] /\
  (exists shapes env, analyse ([3] :: roots) (Some [Some 0] :: repeat None 3) nodes = Ok (shapes, env) /\ nth_shape shapes 7 = [3; 3; 2]) /\
  d = [None; Some 0; None] /\
  let value X := nth 7 (eval ([3] :: roots) [X; zeros; zeros; zeros] nodes) (fun _ => 0%Z) in
  ~ depends_only_on_connected [3] d 3 value /\ depends_only_on_connected [3] [Some 0; None; None] 3 value.
Proof.
  exists [ {| n_op := ODimShuffle [Some 0; None; None]; n_in := [0] |};
           {| n_op := OBlock [3; 5; 4] [] [0; 0] false zadd; n_in := [4; 1] |};
           {| n_op := OAdv [AFull; ASlice S 3; ATensor 2]; n_in := [5; 2] |};
           {| n_op := OBlock [3; 3; 2] [] [0; 0] false zadd; n_in := [6; 3] |} ], [None; Some 0; None].
  cbv zeta. split; [apply wf_graphb_ok; reflexivity|]. split; [reflexivity|]. split; [eexists _, _; split; reflexivity|]. split; [reflexivity|]. split.
  - intros H. specialize (H (one_at 0) zeros [0; 1; 0]). cbv beta in H. match type of H with _ -> _ -> _ -> _ -> ?E => assert (HE : E); [|vm_compute in HE; discriminate] end. apply H; auto.
    + apply (one_at_tensor 3 0). lia.
    + intros i _. reflexivity.
    + intros i _ Hs. specialize (Hs 1 0 eq_refl ltac:(discriminate)). cbn in Hs. destruct i as [|[|[|x]] i]; cbn in *; try lia; auto.
  - intros X X' idx TX TX' Hl H. destruct idx as [|a [|b [|c [|? ?]]]]; try discriminate. cbn. unfold zadd. cbn. f_equal. f_equal.
    assert (E : X [a] = X' [a]); [|now rewrite E].
    destruct (Nat.lt_ge_cases a 3).
    + apply H; [split; auto; intros [|k] Hk; cbn in *; lia|]. intros [|[|[|[|k]]]] j Hk; try discriminate. injection Hk as <-. reflexivity.
    + rewrite TX, TX'; auto; intros [_ Hr]; specialize (Hr 0 ltac:(cbn; lia)); cbn in Hr; lia.
Qed.
