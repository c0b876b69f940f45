(** C81: sample_statespace_matrices returns the model's matrices at the given draw. *)
From Verif Require Import Common Dict.
Import List ListNotations.
From Verif Require Import Build_Model Build_Proofs Build_Props.
Open Scope string_scope.
Open Scope nat_scope.

(** The nine matrices as documented (short name, formal name, number of axes when static), in the order of the object. *)
Definition documented : list (string * string * nat) :=
  [("x0", "initial_state", 1); ("P0", "initial_state_cov", 2); ("c", "state_intercept", 1); ("d", "obs_intercept", 1);
   ("T", "transition", 2); ("Z", "design", 2); ("R", "selection", 2); ("H", "obs_cov", 2); ("Q", "state_cov", 2)].
Definition doc_short := map (fun x => fst (fst x)) documented.
Definition doc_long := map (fun x => snd (fst x)) documented.
Definition doc_axes := map snd documented.
(** [n] is a name of the [i]-th matrix *)
Definition names_matrix (i : nat) (n : string) : Prop :=
  nth_error doc_short i = Some n \/ nth_error doc_long i = Some n.
Definition names_matrix' (i : nat) (n : string) : Prop :=
  nth_error MATRIX_NAMES i = Some n \/ nth_error LONG_MATRIX_NAMES i = Some n.
(** ** The forward model *)
Lemma shape_ok_refl a : shape_ok a a = true.
Proof. induction a as [|[x|] a IH]; cbn; auto. rewrite Nat.eqb_refl. auto. Qed.
Lemma add_named_ok d n v : ~ In n (dkeys d) -> add_named d n v = Ok (d ++ [(n, v)])%list.
Proof. intros H. unfold add_named. destruct (dmem d n) eqn:E; auto. apply dmem_keys in E. tauto. Qed.

Lemma dummy_graph_ok st l : forall d sh, NoDup l -> (forall n, In n l -> ~ In n (dkeys d)) -> (forall n, In n l -> In n (dkeys (name_to_variable st))) ->
  exists sh', dummy_graph st l d sh = Ok ((d ++ combine l (seq (length d) (length l)))%list, sh') /\
    (forall j, j < length d -> sh' j = sh j) /\
    (forall j n p, nth_error l j = Some n -> dget (name_to_variable st) n = Some p -> sh' (length d + j) = static st p).
Proof.
  induction l as [|n l IH]; intros d sh ND Hd Hr; cbn [dummy_graph].
  - exists sh. cbn. rewrite app_nil_r. repeat split; auto. intros [|j]; discriminate.
  - inversion ND; subst. destruct (dget (name_to_variable st) n) as [p|] eqn:E.
    2:{ apply dget_none in E. exfalso. apply E, Hr. cbn. auto. }
    rewrite add_named_ok by (apply Hd; cbn; auto). cbn [bind].
    destruct (IH (d ++ [(n, length d)])%list (fun i => if Nat.eqb i (length d) then static st p else sh i) H2) as (sh' & -> & A & B).
    + intros k Hk. unfold dkeys. rewrite map_app, in_app_iff. cbn. intros [C|[C|[]]]; [apply (Hd k); cbn; auto|subst; auto].
    + intros k Hk. apply Hr. cbn. auto.
    + exists sh'. rewrite app_length in *. cbn [length] in *. split; [|split].
      * f_equal. f_equal. cbn [seq combine]. rewrite <- app_assoc. replace (length d + 1) with (S (length d)) by lia. reflexivity.
      * intros j Hj. rewrite A by lia. destruct (Nat.eqb_spec j (length d)); auto. lia.
      * intros [|j] k q; cbn; intros Hk Hq.
        -- injection Hk as <-. rewrite Nat.add_0_r, A by lia. rewrite Nat.eqb_refl. congruence.
        -- replace (length d + S j) with (length d + 1 + j) by lia. eauto.
Qed.
Lemma dummy_data_ok st ds l : forall d sh, NoDup l -> (forall n, In n l -> ~ In n (dkeys d)) -> (forall n, In n l -> exists v, dget (exog st) n = Some v) ->
  exists sh', dummy_data st ds l d sh = Ok ((d ++ combine l (seq (length d) (length l)))%list, sh') /\
    (forall j, j < length d -> sh' j = sh j) /\
    (forall j n v, nth_error l j = Some n -> dget (exog st) n = Some v -> sh' (length d + j) = ds v).
Proof.
  induction l as [|n l IH]; intros d sh ND Hd Hr; cbn [dummy_data].
  - exists sh. cbn. rewrite app_nil_r. repeat split; auto. intros [|j]; discriminate.
  - inversion ND; subst. destruct (Hr n (or_introl eq_refl)) as (p & E). rewrite E.
    rewrite add_named_ok by (apply Hd; cbn; auto). cbn [bind].
    destruct (IH (d ++ [(n, length d)])%list (fun i => if Nat.eqb i (length d) then ds p else sh i) H2) as (sh' & -> & A & B).
    + intros k Hk. unfold dkeys. rewrite map_app, in_app_iff. cbn. intros [C|[C|[]]]; [apply (Hd k); cbn; auto|subst; auto].
    + intros k Hk. apply Hr. cbn. auto.
    + exists sh'. rewrite app_length in *. cbn [length] in *. split; [|split].
      * f_equal. f_equal. cbn [seq combine]. rewrite <- app_assoc. replace (length d + 1) with (S (length d)) by lia. reflexivity.
      * intros j Hj. rewrite A by lia. destruct (Nat.eqb_spec j (length d)); auto. lia.
      * intros [|j] k q; cbn; intros Hk Hq.
        -- injection Hk as <-. rewrite Nat.add_0_r, A by lia. rewrite Nat.eqb_refl. congruence.
        -- replace (length d + S j) with (length d + 1 + j) by lia. eauto.
Qed.
Lemma combine_seq_nth (l : list string) : forall b j n, nth_error l j = Some n -> nth_error (combine l (seq b (length l))) j = Some (n, b + j).
Proof.
  induction l as [|a l IH]; intros b [|j] n; cbn; try discriminate; [intros [= <-]; rewrite Nat.add_0_r; auto|].
  intros H. rewrite (IH (S b) j n H). do 2 f_equal. lia.
Qed.
Lemma dkeys_combine_seq (l : list string) b : dkeys (combine l (seq b (length l))) = l.
Proof. revert b. unfold dkeys. induction l; intros b; cbn; auto. f_equal. auto. Qed.
Lemma forward_get (l l2 : list string) j n : NoDup (l ++ l2) -> nth_error (l ++ l2) j = Some n ->
  dget (combine l (seq 0 (length l)) ++ combine l2 (seq (length l) (length l2)))%list n = Some j /\
  nth_error (combine l (seq 0 (length l)) ++ combine l2 (seq (length l) (length l2))) j = Some (n, j).
Proof.
  intros ND H.
  assert (N : nth_error (combine l (seq 0 (length l)) ++ combine l2 (seq (length l) (length l2))) j = Some (n, j)).
  { assert (L : length (combine l (seq 0 (length l))) = length l) by (rewrite combine_length, seq_length; lia).
    destruct (Nat.lt_ge_cases j (length l)) as [B|B].
    - rewrite nth_error_app1 in * by lia. rewrite (combine_seq_nth l 0 j n) by auto. auto.
    - rewrite nth_error_app2 in * by lia. rewrite L. rewrite (combine_seq_nth l2 (length l) (j - length l) n) by auto. do 2 f_equal. lia. }
  split; auto. apply in_dget; [|eapply nth_error_In; eauto].
  unfold dkeys. rewrite map_app. fold (dkeys (combine l (seq 0 (length l)))). fold (dkeys (combine l2 (seq (length l) (length l2)))).
  rewrite !dkeys_combine_seq. auto.
Qed.

Lemma filter_all {A} (f : A -> bool) l : (forall x, In x l -> f x = true) -> filter f l = l.
Proof. induction l as [|a l IH]; cbn; intros H; auto. rewrite H by auto. f_equal. apply IH. auto. Qed.
(** ** Requested matrices *)
Local Notation row := (string * string * nat * (term * nat))%type.
Section Rows.
Variable req : list string.
Definition requested (r : row) : bool := let '(s, l, _, _) := r in smem l req || smem s req.
Definition row_name (r : row) : string := let '(s, l, _, _) := r in if smem l req then l else s.
Definition row_term (r : row) : term := fst (snd r).
Lemma register_ok rows : forall taken dets,
  (forall r, In r rows -> requested r = true -> snd (fst r) = snd (snd r) /\ ~ In (row_name r) taken) ->
  NoDup (map row_name (filter requested rows)) ->
  register_matrices req rows taken dets = Ok (dets ++ map (fun r => (row_name r, row_term r)) (filter requested rows))%list.
Proof.
  induction rows as [|[[[s l] nd] [t k]] rows IH]; intros taken dets H ND; cbn [register_matrices filter]; [cbn; rewrite app_nil_r; auto|].
  cbn [requested]. change (requested (s, l, nd, (t, k))) with (smem l req || smem s req) in *. cbn [filter] in ND. change (requested (s, l, nd, (t, k))) with (smem l req || smem s req) in ND.
  destruct (smem l req || smem s req) eqn:E.
  - destruct (H (s, l, nd, (t, k)) (or_introl eq_refl) E) as [A B]. cbn in A. subst k. rewrite Nat.eqb_refl. cbn [negb].
    change (if smem l req then l else s) with (row_name (s, l, nd, (t, nd))). apply smem_false in B. rewrite B. cbn [map] in ND. inversion ND; subst.
    rewrite IH; [rewrite <- app_assoc; reflexivity| |auto].
    intros r Hr Hq. destruct (H r (or_intror Hr) Hq) as [A' B']. split; auto. rewrite in_app_iff. cbn. intros [C|[C|[]]]; auto.
    apply H2. rewrite C. apply in_map, filter_In. auto.
  - apply IH; auto. intros r Hr. apply H. cbn. auto.
Qed.
End Rows.
Lemma collect_ok dets flat req : (forall n, In n req -> In n (dkeys dets)) ->
  exists out, collect dets flat req = Ok out /\ map fst out = req /\ forall n t, In (n, t) out -> dget dets n = Some t.
Proof.
  induction req as [|n req IH]; intros H; cbn; [exists []; cbn; repeat split; auto; tauto|].
  destruct (dget dets n) as [t|] eqn:E; [|apply dget_none in E; exfalso; apply E, H; cbn; auto].
  destruct IH as (out & -> & A & B); [intros; apply H; cbn; auto|]. cbn. eexists. split; [reflexivity|]. cbn. split; [f_equal; auto|].
  intros a b [[= <- <-]|Hin]; auto.
Qed.

Lemma names_nodup : NoDup (MATRIX_NAMES ++ LONG_MATRIX_NAMES).
Proof. repeat constructor; cbn; intuition discriminate. Qed.
Lemma short_nodup : NoDup MATRIX_NAMES.
Proof. exact (proj1 (nodup_app _ _ names_nodup)). Qed.
Lemma nth_error_nodup {A} (l : list A) i j x : NoDup l -> nth_error l i = Some x -> nth_error l j = Some x -> i = j.
Proof. intros ND H1 H2. eapply NoDup_nth_error; eauto; [apply nth_error_Some; congruence|congruence]. Qed.
Lemma names_matrix_fun i j n : names_matrix' i n -> names_matrix' j n -> i = j.
Proof.
  pose proof names_nodup as ND.
  assert (S : forall i n, nth_error MATRIX_NAMES i = Some n -> nth_error (MATRIX_NAMES ++ LONG_MATRIX_NAMES) i = Some n) by (intros; rewrite nth_error_app1; auto; apply nth_error_Some; congruence).
  assert (L : forall i n, nth_error LONG_MATRIX_NAMES i = Some n -> nth_error (MATRIX_NAMES ++ LONG_MATRIX_NAMES) (9 + i) = Some n) by (intros; rewrite nth_error_app2 by (cbn; lia); rewrite <- H; f_equal; cbn; lia).
  assert (B : forall i n, nth_error MATRIX_NAMES i = Some n -> i < 9) by (intros k ? H; apply (nth_error_Some MATRIX_NAMES k); congruence).
  intros [H1|H1] [H2|H2]; pose proof (fun a b c => nth_error_nodup _ a b c ND) as N.
  - eapply N; eauto.
  - pose proof (N _ _ _ (S _ _ H1) (L _ _ H2)). pose proof (B _ _ H1). lia.
  - pose proof (N _ _ _ (L _ _ H1) (S _ _ H2)). pose proof (B _ _ H2). lia.
  - pose proof (N _ _ _ (L _ _ H1) (L _ _ H2)). lia.
Qed.
Lemma combine_nth4 {A B} (a : list A) (b : list B) i x : nth_error (combine a b) i = Some x <-> nth_error a i = Some (fst x) /\ nth_error b i = Some (snd x).
Proof.
  revert b i. induction a as [|u a IH]; intros [|v b] [|i]; cbn; try (split; [discriminate|intros [? ?]; discriminate]).
  - split; [intros [= <-]; auto|]. destruct x. cbn. intros [[= ->] [= ->]]. auto.
  - apply IH.
Qed.

(** The values a placeholder stands for: the draw of its parameter, or the data the model was fitted with. *)
Definition placed {V} (st : ssmod) (m : pmodel) (draw : string -> V) (data_value : nat -> V) (place : nat -> V) : Prop :=
  (forall n p, In (n, p) (name_to_variable st) -> place p = draw n) /\
  (forall n p v, In (n, p) (name_to_data st) -> getitem m n = Ok v -> place p = data_value v).

(** For every fitted model whose parameters are all used, and every request of static matrices by one of their names
    (not both) that is not the name of a parameter: one entry per requested name, each the value of that matrix. *)
Lemma C81_matrices' V (interp : nat -> list V -> V) ph st m st' data_value draw place req :
  reachable st -> build st m = (Ok tt, st') ->
  NoDup (param_names st ++ data_names st) ->
  (forall n, In n (param_names st) -> In n (dkeys (name_to_variable st))) ->
  (forall n, In n req -> exists i t k, names_matrix' i n /\ nth_error (mats st) i = Some (t, k) /\ nth_error matrix_ndims i = Some k) ->
  (forall i a b, nth_error MATRIX_NAMES i = Some a -> nth_error LONG_MATRIX_NAMES i = Some b -> In a req -> In b req -> False) ->
  (forall n, In n req -> ~ In n (param_names st ++ data_names st)) ->
  placed st m draw data_value place ->
  exists out, sample_statespace_matrices interp ph st' (rv_shape m) data_value draw (Some req) = Ok out /\
    map fst out = req /\
    forall n v, In (n, v) out -> exists i t k, names_matrix' i n /\ nth_error (mats st) i = Some (t, k) /\ v = eval interp place ph t.
Proof.
  intros Hr Hb ND Hreg Hreq Hboth Hfree [Hp1 Hp2]. apply reachable_inv in Hr.
  pose proof (build_core st m) as CO. rewrite Hb in CO. cbn [snd] in CO. destruct CO as (C1 & C2 & C3 & C4 & C5 & C6 & C7).
  destruct (build_ok_shape _ _ _ Hr Hb) as (q1 & q2 & Q1 & Q2 & _ & SH & US).
  destruct (replacements_spec _ _ _ Q1) as (MQ1 & SQ1 & _). destruct (replacements_spec _ _ _ Q2) as (MQ2 & SQ2 & _).
  assert (EX : forall n, In n (data_names st) -> exists v, getitem m n = Ok v /\ dget (exog st') n = Some v).
  { pose proof Hb as Hb'. apply build_ok_iff in Hb'. destruct Hb' as (st1 & st2 & st3 & H1 & H2 & H3 & ->). intros n Hn.
    destruct (insert_rv_frame _ _ _ H1) as (s & ->). destruct (insert_data_frame _ _ _ H3) as (s3 & ->). cbn [exog with_fit with_subbed].
    assert (O : is_ok (save_exogenous (with_subbed st s) m (data_names (with_subbed st s))) = true) by (rewrite H2; auto).
    rewrite save_exog_ok in O. specialize (O n Hn). rewrite (save_exog_get _ _ _ _ n H2). cbn [data_names with_subbed]. apply smem_in in Hn. rewrite Hn.
    destruct (getitem m n); [eauto|discriminate]. }
  assert (FC : fit_coords st' = Some (coords m)). { apply build_ok_iff in Hb. destruct Hb as (? & ? & ? & _ & _ & _ & ->). reflexivity. }
  destruct (nodup_app _ _ ND) as (NDp & NDd & Dj).
  unfold sample_statespace_matrices. rewrite FC, C1.
  destruct (dummy_graph_ok st' (param_names st) [] (fun _ => []) NDp) as (sh1 & -> & _ & SH1); [cbn; tauto|rewrite C3; auto|].
  cbn [bind fst snd app length]. set (d1 := combine (param_names st) (seq 0 (length (param_names st)))).
  set (fm := {| prefix := ""; named := d1; rv_shape := sh1; builtin := []; coords := coords m |}).
  assert (KV : dkeys d1 = param_names st) by apply dkeys_combine_seq.
  assert (G1 : forall n, In n (param_names st) -> exists j, nth_error (param_names st) j = Some n /\ dget d1 n = Some j /\ nth_error d1 j = Some (n, j)).
  { intros n Hn. apply In_nth_error in Hn. destruct Hn as (j & Hj). exists j. split; auto.
    destruct (forward_get (param_names st) [] j n) as [A B]; [rewrite app_nil_r; auto|rewrite app_nil_r; auto|]. cbn [combine] in A, B. rewrite app_nil_r in A, B. auto. }
  assert (O1 : is_ok (replacements fm (name_to_variable st)) = true).
  { apply replacements_ok. intros n Hn. rewrite getitem_unnamed by reflexivity. apply (inv_pv _ Hr), G1 in Hn. destruct Hn as (j & _ & H & _). cbn [named fm]. rewrite H. auto. }
  destruct (replacements fm (name_to_variable st)) as [r1|] eqn:R1; [|discriminate].
  destruct (replacements_spec _ _ _ R1) as (M1 & S1 & T1).
  set (s1 := map (fun o => (subst (asub r1) (fst o), snd o)) (mats st)).
  assert (I1 : insert_random_variables st' fm = Ok (with_subbed st' s1)).
  { apply insert_rv_ok. exists (param_names st), r1, s1. rewrite C1, C3, C7. repeat split; auto.
    - rewrite found_names_unnamed; auto. f_equal. apply filter_all.
      intros a Ha. apply dmem_keys. cbn [named fm]. rewrite KV. auto.
    - unfold subset. apply forallb_forall. intros. apply smem_in; auto.
    - unfold subset. apply forallb_forall. intros. apply smem_in; auto.
    - apply graph_replace_ok. rewrite C5. repeat split; auto.
      + intros p Hp. apply US. rewrite map_app, MQ1, <- M1. apply in_app_iff. auto.
      + intros p v Hp. destruct (T1 _ _ Hp) as (n & Hn & G). rewrite getitem_unnamed in G by reflexivity. cbn [named fm rv_shape] in *.
        destruct (G1 n) as (j & Hj & Hd & _); [apply (inv_pv _ Hr), in_map_iff; exists (n, p); auto|]. rewrite Hd in G. injection G as <-.
        pose proof (SH1 j n p Hj) as SHj. cbn [length Nat.add] in SHj. rewrite SHj. 2:{ rewrite C3. apply in_dget; auto. apply (inv_kv _ Hr). } rewrite C5. apply shape_ok_refl. }
  rewrite I1. cbn [bind data_names with_subbed]. rewrite C2.
  assert (LD1 : length d1 = length (param_names st)) by (unfold d1; rewrite combine_length, seq_length; lia).
  destruct (dummy_data_ok (with_subbed st' s1) (rv_shape m) (data_names st) d1 sh1 NDd) as (sh2 & -> & SHa & SHb).
  { intros n Hn. rewrite KV. intros Hc. apply (Dj n); auto. }
  { intros n Hn. destruct (EX n Hn) as (v & _ & E). exists v. exact E. }
  cbn [bind fst snd]. set (d2 := (d1 ++ combine (data_names st) (seq (length d1) (length (data_names st))))%list).
  set (fm2 := {| prefix := ""; named := d2; rv_shape := sh2; builtin := []; coords := coords m |}).
  assert (G2 : forall j n, nth_error (param_names st ++ data_names st) j = Some n -> dget d2 n = Some j /\ nth_error d2 j = Some (n, j)).
  { intros j n Hj. unfold d2. rewrite LD1. unfold d1. apply forward_get; auto. }
  assert (G2i : forall n, In n (param_names st ++ data_names st) -> exists j, nth_error (param_names st ++ data_names st) j = Some n) by (intros n Hn; apply In_nth_error; auto).
  assert (KV2 : dkeys d2 = (param_names st ++ data_names st)%list).
  { unfold d2, dkeys. rewrite map_app. fold (dkeys d1). rewrite KV. f_equal. apply dkeys_combine_seq. }
  assert (O2 : is_ok (replacements fm2 (name_to_data st)) = true).
  { apply replacements_ok. intros n Hn. rewrite getitem_unnamed by reflexivity. apply (inv_pd _ Hr) in Hn. destruct (G2i n) as (j & Hj); [apply in_app_iff; auto|].
    cbn [named fm2]. rewrite (proj1 (G2 _ _ Hj)). auto. }
  destruct (replacements fm2 (name_to_data st)) as [r2|] eqn:R2; [|discriminate].
  destruct (replacements_spec _ _ _ R2) as (M2 & S2 & T2).
  pose proof (inv_ids _ Hr) as NDi. rewrite map_app in NDi. destruct (nodup_app _ _ NDi) as (N1 & N2 & N3).
  set (s2 := map (fun o => (subst (asub r2) (fst o), snd o)) s1).
  assert (I2 : insert_data_variables (with_subbed st' s1) fm2 = Ok (with_subbed (with_subbed st' s1) s2)).
  { apply insert_data_ok. exists (data_names st), r2, s1, s2. cbn [data_names name_to_data subbed with_subbed]. rewrite C2, C4. repeat split; auto.
    - rewrite found_names_unnamed; auto. f_equal. apply filter_all.
      intros a Ha. apply dmem_keys. cbn [named fm2]. rewrite KV2. apply in_app_iff. auto.
    - unfold subset. apply forallb_forall. intros. apply smem_in; auto.
    - apply graph_replace_ok. cbn [static with_subbed]. rewrite C5. repeat split; auto.
      + intros p Hp. apply all_phs_subst. split; [apply US; rewrite map_app, MQ2, <- M2; apply in_app_iff; auto|]. apply asub_none. rewrite M1. intros Hc. rewrite M2 in Hp. apply (N3 p); auto.
      + intros p v Hp. destruct (T2 _ _ Hp) as (n & Hn & G). rewrite getitem_unnamed in G by reflexivity. cbn [named fm2 rv_shape] in *.
        assert (Hdn : In n (data_names st)) by (apply (inv_pd _ Hr), in_map_iff; exists (n, p); auto).
        apply In_nth_error in Hdn as Hj. destruct Hj as (j & Hj). destruct (G2 (length d1 + j) n) as [Hd _].
        { rewrite LD1, nth_error_app2 by lia. rewrite <- Hj. f_equal. lia. }
        rewrite Hd in G. injection G as <-. destruct (EX n Hdn) as (v & Hv & Ev). rewrite (SHb j n v Hj Ev). destruct (SQ2 _ _ Hn) as (v' & Hv' & Hi).
        rewrite Hv in Hv'. injection Hv' as <-. apply SH. apply in_app_iff. auto. }
  rewrite I2. cbn [bind subbed with_subbed].
  (* registration *)
  set (rows := combine (combine (combine MATRIX_NAMES LONG_MATRIX_NAMES) matrix_ndims) s2).
  assert (ROW : forall r, In r rows -> exists i t, let '(s, l, nd, (u, k)) := r in nth_error MATRIX_NAMES i = Some s /\ nth_error LONG_MATRIX_NAMES i = Some l /\ nth_error matrix_ndims i = Some nd /\
            nth_error (mats st) i = Some (t, k) /\ u = subst (asub r2) (subst (asub r1) t)).
  { intros r Hin. apply In_nth_error in Hin. destruct Hin as (i & Hi). unfold rows in Hi. apply combine_nth4 in Hi. destruct Hi as [A B]. apply combine_nth4 in A. destruct A as [A D].
    apply combine_nth4 in A. destruct A as [A E]. destruct r as [[[s l] nd] [u k]]. cbn in *. unfold s2, s1 in B. rewrite map_map in B. rewrite nth_error_map in B. cbn in B.
    destruct (nth_error (mats st) i) as [[t k']|] eqn:F; [|discriminate]. cbn in B. injection B as <- <-. exists i, t. auto 10. }
  assert (RQ : forall r, In r rows -> requested req r = true -> exists i, In (row_name req r) req /\ names_matrix' i (row_name req r) /\ let '(s, l, nd, (u, k)) := r in nth_error MATRIX_NAMES i = Some s /\ nth_error LONG_MATRIX_NAMES i = Some l).
  { intros r Hin Hq. destruct (ROW r Hin) as (i & t & H). destruct r as [[[s l] nd] [u k]]. destruct H as (A & B & _). exists i. cbn in *. destruct (smem l req) eqn:E.
    - apply smem_in in E. repeat split; auto. right. auto.
    - cbn in Hq. apply smem_in in Hq. repeat split; auto. left. auto. }
  assert (NDrows : NoDup (map (row_name req) (filter (requested req) rows))).
  { assert (P : NoDup rows).
    { apply NoDup_map_inv with (f := fun r : row => fst (fst (fst r))). apply NoDup_nth_error. intros i j Hi E. rewrite map_length in Hi.
      assert (Z : forall i x, nth_error (map (fun r : row => fst (fst (fst r))) rows) i = Some x -> nth_error MATRIX_NAMES i = Some x).
      { intros a x Hx. rewrite nth_error_map in Hx. destruct (nth_error rows a) as [r|] eqn:F; [|discriminate]. cbn in Hx. injection Hx as <-.
        unfold rows in F. apply combine_nth4 in F. destruct F as [F _]. apply combine_nth4 in F. destruct F as [F _]. apply combine_nth4 in F. destruct F as [F _]. exact F. }
      destruct (nth_error (map (fun r : row => fst (fst (fst r))) rows) i) as [x|] eqn:Ei; [|apply nth_error_None in Ei; rewrite map_length in Ei; lia]. symmetry in E.
      apply Z in Ei, E. eapply (nth_error_nodup _ _ _ _ short_nodup); eauto. }
    assert (INJ : forall a b, In a (filter (requested req) rows) -> In b (filter (requested req) rows) -> row_name req a = row_name req b -> a = b).
    { intros a b Ha Hb0 E. apply filter_In in Ha, Hb0. destruct (RQ a (proj1 Ha) (proj2 Ha)) as (i & _ & Hi & Ka). destruct (RQ b (proj1 Hb0) (proj2 Hb0)) as (j & _ & Hj & Kb).
      rewrite E in Hi. pose proof (names_matrix_fun _ _ _ Hi Hj) as ->.
      destruct Ha as [Ha _], Hb0 as [Hb0 _]. apply In_nth_error in Ha, Hb0. destruct Ha as (x & Hx), Hb0 as (y & Hy).
      destruct a as [[[sa la] na] [ua ka]], b as [[[sb lb] nb] [ub kb]]. destruct Ka as [Ka _], Kb as [Kb _].
      assert (x = j). { unfold rows in Hx. apply combine_nth4 in Hx. destruct Hx as [Hx _]. apply combine_nth4 in Hx. destruct Hx as [Hx _]. apply combine_nth4 in Hx. cbn in Hx. destruct Hx as [Hx _]. eapply (nth_error_nodup _ _ _ _ short_nodup); eauto. }
      assert (y = j). { unfold rows in Hy. apply combine_nth4 in Hy. destruct Hy as [Hy _]. apply combine_nth4 in Hy. destruct Hy as [Hy _]. apply combine_nth4 in Hy. cbn in Hy. destruct Hy as [Hy _]. eapply (nth_error_nodup _ _ _ _ short_nodup); eauto. }
      subst. rewrite Hx in Hy. congruence. }
    clear -P INJ. assert (Q : NoDup (filter (requested req) rows)) by (apply NoDup_filter; auto). revert INJ Q. generalize (filter (requested req) rows). clear.
    intros l. induction l as [|a l IH]; intros INJ Q; cbn; constructor.
    - inversion Q; subst. intros H. apply in_map_iff in H. destruct H as (b & E & Hb). assert (b = a) by (apply INJ; cbn; auto). subst. tauto.
    - inversion Q; subst. apply IH; auto. intros. apply INJ; cbn; auto. }
  rewrite (register_ok req rows).
  2:{ intros r Hin Hq. destruct (RQ r Hin Hq) as (i & A & B & Cc). destruct (Hreq _ A) as (i' & t' & k' & D & E & F). pose proof (names_matrix_fun _ _ _ B D) as <-.
      destruct (ROW r Hin) as (x & t & K). destruct r as [[[s l] nd] [u k]]. destruct K as (K1 & K2 & K3 & K4 & K5). destruct Cc as [Cc _].
      assert (x = i) by (eapply (nth_error_nodup _ _ _ _ short_nodup); eauto). subst x. cbn. split; [congruence|].
      change (if smem l req then l else s) with (row_name req (s, l, nd, (u, k))). rewrite KV2. auto. }
  2: auto.
  cbn [bind app]. set (dets := map (fun r => (row_name req r, row_term r)) (filter (requested req) rows)).
  assert (KD : dkeys dets = map (row_name req) (filter (requested req) rows)) by (unfold dets, dkeys; rewrite map_map; reflexivity).
  assert (HIN : forall n, In n req -> In n (dkeys dets)).
  { intros n Hn. rewrite KD. destruct (Hreq n Hn) as (i & t & k & A & B & D).
    destruct (nth_error MATRIX_NAMES i) as [s|] eqn:E1; [|exfalso; destruct A as [A|A]; [congruence|]; apply nth_error_None in E1; assert (i < 9) by (apply (nth_error_Some LONG_MATRIX_NAMES i); congruence); cbn in E1; lia].
    destruct (nth_error LONG_MATRIX_NAMES i) as [l|] eqn:E2; [|exfalso; apply nth_error_None in E2; assert (i < 9) by (apply (nth_error_Some MATRIX_NAMES i); congruence); cbn in E2; lia].
    set (r := (s, l, k, (subst (asub r2) (subst (asub r1) t), k)) : row).
    assert (Hin : In r rows).
    { apply nth_error_In with (n := i). unfold rows. apply combine_nth4. split; [apply combine_nth4; split; [apply combine_nth4; auto|auto]|]. unfold s2, s1. rewrite map_map, nth_error_map, B. reflexivity. }
    assert (NM : row_name req r = n /\ requested req r = true).
    { cbn. destruct A as [A|A]; assert (X : s = n \/ l = n) by (rewrite E1 in A || rewrite E2 in A; injection A; auto); destruct X as [X|X].
      all: try (subst n).
      all: try (apply smem_in in Hn; rewrite Hn).
      all: try (split; [reflexivity|auto]; fail).
      all: try (rewrite orb_true_r; split; auto).
      all: destruct (smem l req) eqn:El; auto; apply smem_in in El, Hn; exfalso; eapply (Hboth i); eauto. }
    apply in_map_iff. exists r. destruct NM. split; auto. apply filter_In. auto. }
  destruct (collect_ok dets (param_names st) req HIN) as (out & -> & OUT1 & OUT2). cbn [bind].
  eexists. split; [reflexivity|]. split; [rewrite map_map; cbn; rewrite <- OUT1; apply map_ext; auto|].
  intros n v Hin. apply in_map_iff in Hin. destruct Hin as ([n' t'] & E & Hin). cbn in E. injection E as <- <-. apply OUT2, dget_in in Hin.
  unfold dets in Hin. apply in_map_iff in Hin. destruct Hin as (r & E & Hin). apply filter_In in Hin. destruct Hin as [Hin Hq].
  destruct (RQ r Hin Hq) as (i & _ & NM & Ki). destruct (ROW r Hin) as (x & t & K). destruct r as [[[s l] nd] [u k]]. destruct K as (K1 & K2 & K3 & K4 & ->).
  destruct Ki as [Ki _]. assert (x = i) by (eapply (nth_error_nodup _ _ _ _ short_nodup); eauto). subst x.
  injection E as E1 E2. exists i, t, k. split; [rewrite <- E1; auto|]. split; auto. rewrite <- E2. cbn [row_term fst snd]. rewrite !eval_subst.
  pose proof (inv_mats _ Hr) as Hm. rewrite Forall_forall in Hm. destruct (Hm (t, k) (nth_error_In _ _ K4)) as [Hlt Hrv]. cbn in Hlt, Hrv.
  assert (NF1 : NoDup (map fst r1)) by (rewrite M1; auto). assert (NF2 : NoDup (map fst r2)) by (rewrite M2; auto).
  apply eval_ext; [|rewrite Hrv; cbn; tauto]. intros a Ha. pose proof (proj1 (inv_fresh _ Hr a) (Hlt a Ha)) as Hai.
  apply in_map_iff in Hai. destruct Hai as ([nm p] & E & Hai). cbn in E. subst p. apply in_app_iff in Hai. destruct Hai as [Hai|Hai].
  - destruct (S1 _ _ Hai) as (w & G & Hw). rewrite (asub_in r1 a w) by auto. rewrite getitem_unnamed in G by reflexivity. cbn [named fm] in G.
    assert (Hpn : In nm (param_names st)) by (apply (inv_pv _ Hr), in_map_iff; exists (nm, a); auto). destruct (G1 nm Hpn) as (j & Hj & Hd & _). rewrite Hd in G. injection G as <-.
    destruct (G2 j nm) as [_ Hn2]; [rewrite nth_error_app1; auto; apply nth_error_Some; congruence|]. rewrite Hn2. apply smem_in in Hpn. rewrite Hpn. rewrite (Hp1 _ _ Hai). auto.
  - assert (asub r1 a = None) as ->. { apply asub_none. rewrite M1. intros Hc. apply (N3 a); auto. apply in_map_iff. exists (nm, a). auto. }
    destruct (S2 _ _ Hai) as (w & G & Hw). rewrite (asub_in r2 a w) by auto. rewrite getitem_unnamed in G by reflexivity. cbn [named fm2] in G.
    assert (Hdn : In nm (data_names st)) by (apply (inv_pd _ Hr), in_map_iff; exists (nm, a); auto). destruct (G2i nm) as (j & Hj); [apply in_app_iff; auto|].
    destruct (G2 _ _ Hj) as [Hd Hn2]. rewrite Hd in G. injection G as <-. rewrite Hn2. assert (~ In nm (param_names st)) as Hnp by (intros Hc; apply (Dj nm); auto).
    apply smem_false in Hnp. rewrite Hnp. destruct (EX nm Hdn) as (v & Hv & Ev). rewrite Ev. rewrite (Hp2 _ _ _ Hai Hv). auto.
Qed.

(** ** What goes wrong *)
Lemma dummy_graph_keys st l : forall d sh d' sh', dummy_graph st l d sh = Ok (d', sh') -> dkeys d' = (dkeys d ++ l)%list.
Proof.
  induction l as [|n l IH]; intros d sh d' sh'; cbn; [intros [= <- <-]; rewrite app_nil_r; auto|].
  destruct dget; [|discriminate]. unfold add_named. destruct (dmem d n); cbn; [discriminate|]. intros H. apply IH in H. rewrite H.
  unfold dkeys. rewrite map_app, <- app_assoc. reflexivity.
Qed.
Lemma dummy_data_keys st ds l : forall d sh d' sh', dummy_data st ds l d sh = Ok (d', sh') -> dkeys d' = (dkeys d ++ l)%list.
Proof.
  induction l as [|n l IH]; intros d sh d' sh'; cbn; [intros [= <- <-]; rewrite app_nil_r; auto|].
  destruct dget; [|discriminate]. unfold add_named. destruct (dmem d n); cbn; [discriminate|]. intros H. apply IH in H. rewrite H.
  unfold dkeys. rewrite map_app, <- app_assoc. reflexivity.
Qed.
Lemma register_inv req rows : forall taken dets out, register_matrices req rows taken dets = Ok out ->
  (forall r, In r rows -> requested req r = true -> snd (fst r) = snd (snd r) /\ ~ In (row_name req r) taken) /\
  (forall n, In n (dkeys out) -> In n (dkeys dets) \/ exists r, In r rows /\ requested req r = true /\ n = row_name req r).
Proof.
  induction rows as [|[[[s l] nd] [t k]] rows IH]; intros taken dets out; cbn [register_matrices]; [intros [= <-]; cbn; tauto|].
  change (smem l req || smem s req) with (requested req (s, l, nd, (t, k))). destruct (requested req (s, l, nd, (t, k))) eqn:E.
  - change (if smem l req then l else s) with (row_name req (s, l, nd, (t, k))). destruct (Nat.eqb_spec nd k) as [->|]; cbn [negb]; [|discriminate].
    destruct (smem _ taken) eqn:E2; [discriminate|]. apply smem_false in E2. intros H. destruct (IH _ _ _ H) as [A B]. split.
    + intros r [<-|Hr] Hq; [cbn; auto|]. destruct (A r Hr Hq) as [A1 A2]. split; auto. rewrite in_app_iff in A2. tauto.
    + intros n Hn. destruct (B n Hn) as [Hd|(r & ? & ? & ?)].
      * unfold dkeys in Hd. rewrite map_app, in_app_iff in Hd. destruct Hd as [Hd|[Hd|[]]]; auto. right. exists (s, l, k, (t, k)). cbn. auto.
      * right. exists r. cbn. auto.
  - intros H. destruct (IH _ _ _ H) as [A B]. split.
    + intros r [<-|Hr] Hq; [congruence|auto].
    + intros n Hn. destruct (B n Hn) as [Hd|(r & ? & ? & ?)]; auto. right. exists r. cbn. auto.
Qed.
Lemma collect_inv dets flat req : forall out, collect dets flat req = Ok out -> forall n, In n req -> In n (dkeys dets).
Proof.
  induction req as [|n req IH]; intros out; cbn; [tauto|]. destruct (dget dets n) eqn:E; [|discriminate].
  destruct (collect dets flat req); cbn; [|discriminate]. intros _ k [<-|Hk]; [|eapply IH; eauto].
  apply dget_in in E. unfold dkeys. apply in_map_iff. exists (n, t). auto.
Qed.
(** Every successful call satisfies the conditions of C81_matrices. *)
Lemma success_conditions V (interp : nat -> list V -> V) ph st ds dv draw mn out : reachable st ->
  sample_statespace_matrices interp ph st ds dv draw mn = Ok out ->
  let req := match mn with None => MATRIX_NAMES | Some l => l end in
  (forall i s l nd, nth_error MATRIX_NAMES i = Some s -> nth_error LONG_MATRIX_NAMES i = Some l -> nth_error matrix_ndims i = Some nd ->
     smem l req || smem s req = true ->
     (exists t, nth_error (mats st) i = Some (t, nd)) /\ ~ In (if smem l req then l else s) (param_names st ++ data_names st)) /\
  (forall n, In n req -> exists i s l, nth_error MATRIX_NAMES i = Some s /\ nth_error LONG_MATRIX_NAMES i = Some l /\ n = if smem l req then l else s).
Proof.
  intros Hr H. set (req := match mn with None => MATRIX_NAMES | Some l => l end). intros req'. subst req'. unfold sample_statespace_matrices in H. fold req in H.
  destruct (fit_coords st) as [cs|]; [|discriminate]. destruct (dummy_graph st (param_names st) [] (fun _ => [])) as [[d1 sh1]|] eqn:D1; cbn [bind fst snd] in H; [|discriminate].
  destruct (insert_random_variables st _) as [st1|] eqn:I1; cbn [bind] in H; [|discriminate].
  destruct (dummy_data st1 ds (data_names st1) d1 sh1) as [[d2 sh2]|] eqn:D2; cbn [bind fst snd] in H; [|discriminate].
  destruct (insert_data_variables st1 _) as [st2|] eqn:I2; cbn [bind] in H; [|discriminate].
  apply insert_rv_ok in I1. destruct I1 as (f & r & s & _ & _ & _ & _ & G1 & ->). apply insert_data_ok in I2. destruct I2 as (f2 & r2 & s0 & s2 & _ & _ & _ & Hs & G2 & ->).
  cbn [subbed with_subbed data_names] in *. injection Hs as <-. cbn [bind] in H. apply graph_replace_ok in G1, G2. destruct G1 as (_ & _ & ->). destruct G2 as (_ & _ & ->).
  apply dummy_graph_keys in D1. apply dummy_data_keys in D2. rewrite D1 in D2. cbn [dkeys map app] in D2.
  match type of H with context [register_matrices req ?rw _ _] => set (rows := rw) in * end.
  destruct (register_matrices req rows (dkeys d2) []) as [dets|] eqn:RM; cbn [bind] in H; [|discriminate].
  destruct (collect dets (param_names st) req) as [o|] eqn:CO; cbn [bind] in H; [|discriminate].
  destruct (register_inv _ _ _ _ _ RM) as [A B].
  assert (LM : length (mats st) = 9) by (apply reachable_inv in Hr; apply (inv_len _ Hr)).
  split.
  - intros i sn ln nd E1 E2 E3 Hq. destruct (nth_error (mats st) i) as [[t k]|] eqn:E4.
    2:{ apply nth_error_None in E4. assert (i < 9) by (apply (nth_error_Some MATRIX_NAMES i); congruence). lia. }
    set (u := subst (asub r2) (subst (asub r) t)).
    assert (IN : In (sn, ln, nd, (u, k)) rows).
    { apply nth_error_In with (n := i). unfold rows. apply combine_nth4. split; [apply combine_nth4; split; [apply combine_nth4; auto|auto]|]. rewrite map_map, nth_error_map, E4. reflexivity. }
    destruct (A _ IN Hq) as [A1 A2]. cbn in A1. subst k. split; [eauto|]. rewrite D2 in A2. exact A2.
  - intros n Hn. apply (collect_inv _ _ _ _ CO), B in Hn. destruct Hn as [[]|([[[sn ln] nd] [u k]] & IN & Hq & ->)].
    apply In_nth_error in IN. destruct IN as (i & Hi). unfold rows in Hi. apply combine_nth4 in Hi. destruct Hi as [Hi _]. apply combine_nth4 in Hi. destruct Hi as [Hi _]. apply combine_nth4 in Hi. cbn in Hi.
    exists i, sn, ln. destruct Hi. auto.
Qed.

(** Refuted: the default call (all matrices) raises for every model that has a parameter called like one of the
    matrices, e.g. "x0" or "P0" (SARIMA, VARMAX, ETS and structural models all have "P0"). *)
Lemma C81_default_refuted' V (interp : nat -> list V -> V) ph st ds dv draw n : reachable st -> In n MATRIX_NAMES -> In n (param_names st) ->
  is_err (sample_statespace_matrices interp ph st ds dv draw None) = true.
Proof.
  intros Hr Hn Hp. destruct (sample_statespace_matrices interp ph st ds dv draw None) as [out|e] eqn:E; auto. exfalso.
  destruct (success_conditions _ _ _ _ _ _ _ _ _ Hr E) as [A _]. cbn [app] in A. apply In_nth_error in Hn. destruct Hn as (i & Hi).
  assert (i < 9) by (apply (nth_error_Some MATRIX_NAMES i); congruence).
  destruct (nth_error LONG_MATRIX_NAMES i) as [l|] eqn:E2; [|apply nth_error_None in E2; cbn in E2; lia].
  destruct (nth_error matrix_ndims i) as [nd|] eqn:E3; [|apply nth_error_None in E3; cbn in E3; lia].
  assert (smem l MATRIX_NAMES = false) as SL. { apply smem_false. intros C. apply (proj2 (proj2 (nodup_app _ _ names_nodup)) l C). eapply nth_error_In; eauto. }
  destruct (A i n l nd Hi E2 E3) as [_ B]. { apply orb_true_iff. right. apply smem_in. eapply nth_error_In; eauto. }
  rewrite SL in B. apply B. apply in_app_iff. auto.
Qed.
(** Refuted: a requested matrix that varies over time (one more axis, e.g. the design matrix of a regression) raises. *)
Lemma C81_time_varying_refuted' V (interp : nat -> list V -> V) ph st ds dv draw req i n t k : reachable st ->
  names_matrix' i n -> In n req -> nth_error (mats st) i = Some (t, k) -> nth_error matrix_ndims i <> Some k ->
  is_err (sample_statespace_matrices interp ph st ds dv draw (Some req)) = true.
Proof.
  intros Hr Hm Hn Ht Hk. destruct (sample_statespace_matrices interp ph st ds dv draw (Some req)) as [out|e] eqn:E; auto. exfalso.
  destruct (success_conditions _ _ _ _ _ _ _ _ _ Hr E) as [A _].
  assert (i < 9) by (apply reachable_inv in Hr; rewrite <- (inv_len _ Hr); apply nth_error_Some; congruence).
  destruct (nth_error MATRIX_NAMES i) as [s|] eqn:E1; [|apply nth_error_None in E1; cbn in E1; lia].
  destruct (nth_error LONG_MATRIX_NAMES i) as [l|] eqn:E2; [|apply nth_error_None in E2; cbn in E2; lia].
  destruct (nth_error matrix_ndims i) as [nd|] eqn:E3; [|apply nth_error_None in E3; cbn in E3; lia].
  destruct (A i s l nd E1 E2 E3) as [(t' & B) _].
  - unfold names_matrix' in Hm. rewrite E1, E2 in Hm. apply smem_in in Hn. destruct Hm as [[= ->]|[= ->]]; rewrite Hn, ?orb_true_r; auto.
  - congruence.
Qed.
(** A request is rejected when some name is no matrix, or when a matrix is asked for under both names. *)
Lemma C81_bad_names' V (interp : nat -> list V -> V) ph st ds dv draw req : reachable st ->
  (exists n, In n req /\ forall i, ~ names_matrix' i n) \/
  (exists i s l, nth_error MATRIX_NAMES i = Some s /\ nth_error LONG_MATRIX_NAMES i = Some l /\ In s req /\ In l req) ->
  is_err (sample_statespace_matrices interp ph st ds dv draw (Some req)) = true.
Proof.
  intros Hr Hbad. destruct (sample_statespace_matrices interp ph st ds dv draw (Some req)) as [out|e] eqn:E; auto. exfalso.
  destruct (success_conditions _ _ _ _ _ _ _ _ _ Hr E) as [_ B]. destruct Hbad as [(n & Hn & Hno)|(i & s & l & E1 & E2 & Hs & Hl)].
  - destruct (B n Hn) as (i & s & l & A1 & A2 & ->). apply (Hno i). destruct (smem l req); [right|left]; auto.
  - destruct (B s Hs) as (j & s' & l' & A1 & A2 & A3). destruct (smem l' req) eqn:El'.
    + subst l'. assert (names_matrix' j s) by (right; auto). assert (names_matrix' i s) by (left; auto). pose proof (names_matrix_fun _ _ _ H H0). subst j.
      apply (proj2 (proj2 (nodup_app _ _ names_nodup)) s); eapply nth_error_In; eauto.
    + subst s'. pose proof (nth_error_nodup _ _ _ _ short_nodup A1 E1). subst j. rewrite A2 in E2. injection E2 as ->. apply smem_false in El'. auto.
Qed.

(** ** The theorems, with the documented names *)
(** For every fitted model whose parameters are all used, and every request of static matrices by one of their names
    (not both) that is not the name of a parameter: one entry per requested name, each the value of that matrix. *)
Theorem C81_matrices V (interp : nat -> list V -> V) ph st m st' data_value draw place req :
  reachable st -> build st m = (Ok tt, st') ->
  NoDup (param_names st ++ data_names st) ->
  (forall n, In n (param_names st) -> In n (dkeys (name_to_variable st))) ->
  (forall n, In n req -> exists i t k, names_matrix i n /\ nth_error (mats st) i = Some (t, k) /\ nth_error doc_axes i = Some k) ->
  (forall i a b, nth_error doc_short i = Some a -> nth_error doc_long i = Some b -> In a req -> In b req -> False) ->
  (forall n, In n req -> ~ In n (param_names st ++ data_names st)) ->
  placed st m draw data_value place ->
  exists out, sample_statespace_matrices interp ph st' (rv_shape m) data_value draw (Some req) = Ok out /\
    map fst out = req /\
    forall n v, In (n, v) out -> exists i t k, names_matrix i n /\ nth_error (mats st) i = Some (t, k) /\ v = eval interp place ph t.
Proof. apply C81_matrices'. Qed.
(** Refuted: the default call (all matrices) raises for every model that has a parameter called like one of the
    matrices, e.g. "x0" or "P0" (SARIMA, VARMAX, ETS and structural models all have "P0"). *)
Theorem C81_default_refuted V (interp : nat -> list V -> V) ph st ds dv draw n : reachable st -> In n doc_short -> In n (param_names st) ->
  is_err (sample_statespace_matrices interp ph st ds dv draw None) = true.
Proof. apply C81_default_refuted'. Qed.
(** Refuted: a requested matrix that varies over time (one more axis, e.g. the design matrix of a regression) raises. *)
Theorem C81_time_varying_refuted V (interp : nat -> list V -> V) ph st ds dv draw req i n t k : reachable st ->
  names_matrix i n -> In n req -> nth_error (mats st) i = Some (t, k) -> nth_error doc_axes i <> Some k ->
  is_err (sample_statespace_matrices interp ph st ds dv draw (Some req)) = true.
Proof. apply C81_time_varying_refuted'. Qed.
(** A request is rejected when some name is no matrix, or when a matrix is asked for under both names. *)
Theorem C81_bad_names V (interp : nat -> list V -> V) ph st ds dv draw req : reachable st ->
  (exists n, In n req /\ forall i, ~ names_matrix i n) \/
  (exists i s l, nth_error doc_short i = Some s /\ nth_error doc_long i = Some l /\ In s req /\ In l req) ->
  is_err (sample_statespace_matrices interp ph st ds dv draw (Some req)) = true.
Proof. apply C81_bad_names'. Qed.

(** The transition and state covariance of the concrete model; its default call is fine up to the time-varying design. *)
Example C81_example : exists out,
  sample_statespace_matrices (fun op args => match args with [] => 0 | a :: _ => op * 100 + a end) (fun _ => 0) (snd (build ex4 ex_pm)) (rv_shape ex_pm) (fun v => v)
    (fun n => if String.eqb n "rho" then 7 else 3) (Some ["transition"; "Q"]) = Ok out /\ out = [("transition", 107); ("Q", 103)].
Proof. eexists. split; reflexivity. Qed.
Example C81_design_example :
  sample_statespace_matrices (fun op args => match args with [] => 0 | a :: _ => op * 100 + a end) (fun _ => 0) (snd (build ex4 ex_pm)) (rv_shape ex_pm) (fun v => v)
    (fun n => if String.eqb n "rho" then 7 else 3) None = Err ValueError.
Proof. reflexivity. Qed.
(** A model whose initial covariance is the parameter "P0": fitted, static, yet the default call fails; asking for the
    long name works. *)
Definition exp0 : ssmod :=
  {| param_names := ["P0"]; data_names := []; name_to_variable := []; name_to_data := []; static := fun _ => []; fresh := 0;
     mats := [(App 0 [], 1); (App 0 [], 2); (App 0 [], 1); (App 0 [], 1); (App 0 [], 2); (App 0 [], 2); (App 0 [], 2); (App 0 [], 2); (App 0 [], 2)];
     subbed := None; exog := []; fit_coords := None |}.
Definition exp1 := set_matrix (ok_snd exp0 (make_and_register_variable exp0 "P0" [Some 2; Some 2])) 1 (Ph 0, 2).
Definition exp_pm : pmodel := {| prefix := ""; named := [("P0", 0)]; rv_shape := fun _ => [Some 2; Some 2]; builtin := []; coords := [] |}.
Example C81_P0_example : reachable (snd (build exp1 exp_pm)) /\ fst (build exp1 exp_pm) = Ok tt /\
  sample_statespace_matrices (fun _ _ => 0) (fun _ => 0) (snd (build exp1 exp_pm)) (rv_shape exp_pm) (fun v => v) (fun _ => 5) None = Err ValueError /\
  sample_statespace_matrices (fun _ _ => 0) (fun _ => 0) (snd (build exp1 exp_pm)) (rv_shape exp_pm) (fun v => v) (fun _ => 5) (Some ["initial_state_cov"]) = Ok [("initial_state_cov", 5)].
Proof.
  split; [|repeat split; reflexivity]. apply r_build. unfold exp1. apply r_set; [|lia|split; cbn; [intros i [<-|[]]; lia|auto]].
  apply (r_var exp0 "P0" [Some 2; Some 2] 0); [|reflexivity]. apply r_init; [reflexivity|]. repeat constructor; cbn; tauto.
Qed.
