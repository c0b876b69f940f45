(** C52 (Laplace part) and C78 (labels of the Laplace fit). *)
From Verif Require Import Common Dict.
Import List ListNotations.
From Verif Require Import Flat_Model FindMap_Model Laplace_Model Flat_Props FindMap_Props.
Open Scope nat_scope.

(** * The variables of a PyMC model *)
Definition plain (m : pmodel) : list string := map rv_name (filter (fun v => negb (has_transform v)) (free m)).
Definition transformed (m : pmodel) : list string := map rv_name (filter has_transform (free m)).
(** what PyMC guarantees about names: value variables of transformed variables end in "__", the others are named after their variable, and all names are distinct *)
Record good_names (m : pmodel) : Prop := {
  gn_nodup : NoDup (unobserved_value_vars m);
  gn_plain : forall v, In v (free m) -> has_transform v = false -> value_name v = rv_name v;
  gn_trans : forall v, In v (free m) -> has_transform v = true -> is_transformed_name (value_name v) = true;
  gn_rv : forall v, In v (free m) -> is_transformed_name (rv_name v) = false;
  gn_dets : forall d, In d (dets m) -> is_transformed_name d = false }.

Lemma filter_app_false {A} (P : A -> bool) a b : (forall x, In x b -> P x = true) -> filter P (a ++ b) = filter P a ++ b.
Proof. intros H. rewrite filter_app. f_equal. now apply filter_all. Qed.
Lemma default_names m : good_names m -> get_default_varnames (unobserved_value_vars m) false = plain m ++ transformed m ++ dets m.
Proof.
  intros G. unfold get_default_varnames, unobserved_value_vars. rewrite filter_app_false.
  - f_equal. unfold value_vars, plain. assert (H : forall l, (forall v, In v l -> In v (free m)) ->
      filter (fun n => negb (is_transformed_name n)) (map value_name l) = map rv_name (filter (fun v => negb (has_transform v)) l)).
    { induction l as [|v l IH]; intros Hl; auto. cbn [map filter]. assert (Hv : In v (free m)) by (apply Hl; left; auto).
      rewrite IH by (intros w Hw; apply Hl; right; auto). destruct (has_transform v) eqn:E; cbn [negb].
      - rewrite (gn_trans m G v Hv E). reflexivity.
      - rewrite (gn_plain m G v Hv E). rewrite (gn_rv m G v Hv). reflexivity. }
    apply H. auto.
  - intros x Hx. apply in_app_or in Hx. destruct Hx as [Hx|Hx].
    + apply in_map_iff in Hx. destruct Hx as (v & <- & Hv). apply filter_In in Hv. rewrite (gn_rv m G v); tauto.
    + rewrite (gn_dets m G x Hx). reflexivity.
Qed.
Lemma dkeys_filter {A} (P : string -> bool) (d : dict A) : dkeys (filter (fun kv => P (fst kv)) d) = filter P (dkeys d).
Proof. induction d as [|[k v] r IH]; auto. cbn. destruct (P k); cbn; unfold dkeys in *; congruence. Qed.
Lemma rv_plain_or_trans m x : In x (map rv_name (free m)) <-> In x (plain m) \/ In x (transformed m).
Proof.
  unfold plain, transformed. rewrite !in_map_iff. split.
  - intros (v & <- & Hv). destruct (has_transform v) eqn:E; [right|left]; exists v; split; auto; apply filter_In; rewrite E; auto.
  - intros [(v & <- & Hv)|(v & <- & Hv)]; apply filter_In in Hv; exists v; tauto.
Qed.
Lemma nodup_default m : good_names m -> NoDup (plain m ++ transformed m ++ dets m).
Proof. intros G. rewrite <- default_names by auto. unfold get_default_varnames. apply NoDup_filter. apply G. Qed.
(** the variables of the constrained space among the reported ones, in the order they are reported: first the ones without a transform *)
Lemma constrained_kept m include_transformed : good_names m ->
  filter (fun n => smem n (map rv_name (free m))) (get_default_varnames (unobserved_value_vars m) include_transformed) = plain m ++ transformed m.
Proof.
  intros G. pose proof (nodup_default m G) as ND.
  assert (H0 : filter (fun n => smem n (map rv_name (free m))) (plain m ++ transformed m ++ dets m) = plain m ++ transformed m).
  { rewrite !filter_app. rewrite (filter_all _ (plain m)), (filter_all _ (transformed m)), (filter_none _ (dets m)); [now rewrite app_nil_r| | |].
    - intros x Hx. apply smem_false. rewrite rv_plain_or_trans. intros Hin. rewrite app_assoc in ND.
      assert (Hin' : In x (plain m ++ transformed m)) by (apply in_or_app; auto). clear Hin.
      apply in_split in Hx. destruct Hx as (l1 & l2 & E). rewrite E in ND. rewrite app_assoc in ND. apply NoDup_remove_2 in ND. apply ND. apply in_or_app. left. apply in_or_app. auto.
    - intros x Hx. apply smem_in. apply rv_plain_or_trans. auto.
    - intros x Hx. apply smem_in. apply rv_plain_or_trans. auto. }
  destruct include_transformed.
  - (* the transformed value variables are not variables of the constrained space *)
    rewrite <- H0. rewrite <- default_names by auto. unfold get_default_varnames.
    induction (unobserved_value_vars m) as [|x l IH]; auto. cbn [filter]. destruct (is_transformed_name x) eqn:E; cbn [negb].
    + assert (Hx : smem x (map rv_name (free m)) = false).
      { apply smem_false. intros Hin. apply in_map_iff in Hin. destruct Hin as (v & <- & Hv). rewrite (gn_rv m G v Hv) in E. discriminate. }
      rewrite Hx. exact IH.
    + cbn [filter]. destruct (smem x (map rv_name (free m))); congruence.
  - rewrite default_names by auto. exact H0.
Qed.
Lemma unconstrained_kept m : good_names m -> filter (fun n => smem n (value_vars m)) (unobserved_value_vars m) = value_vars m.
Proof.
  intros G. unfold unobserved_value_vars. rewrite filter_app. rewrite (filter_all _ (value_vars m)) by (intros x Hx; now apply smem_in).
  rewrite filter_none; [apply app_nil_r|]. intros x Hx. apply smem_false. intros Hin. pose proof (gn_nodup m G) as ND. unfold unobserved_value_vars in ND.
  apply in_split in Hx. destruct Hx as (l1 & l2 & E). rewrite E in ND. rewrite app_assoc in ND. apply NoDup_remove_2 in ND. apply ND. apply in_or_app. left. apply in_or_app. auto.
Qed.
Lemma laplace_variables_all m u : (forall v, In v (free m) -> continuous v = true) -> laplace_variables m u = if u then value_vars m else map rv_name (free m).
Proof. intros H. unfold laplace_variables, continuous_value_vars, value_vars. rewrite filter_all by auto. reflexivity. Qed.

Section Laplace.
Context {V L : Type}.

(** the optimum as find_MAP returns it: exactly the reported variables, in their order *)
Definition from_find_MAP (m : pmodel) (include_transformed : bool) (point : dict (arr V)) : Prop :=
  dkeys point = get_default_varnames (unobserved_value_vars m) include_transformed /\ all_wf point.
(** the variables the Laplace approximation is over, as (name, shape), in the order of the mean vector *)
Definition kept (m : pmodel) (u : bool) (point : dict (arr V)) : dict (arr V) := filter (fun kv => smem (fst kv) (laplace_variables m u)) point.

Lemma kept_wf m u point : all_wf point -> all_wf (kept m u point).
Proof. intros H k a Hin. apply filter_In in Hin. apply (H k). tauto. Qed.
Lemma kept_keys m u inc point : good_names m -> (forall v, In v (free m) -> continuous v = true) -> from_find_MAP m inc point -> (u = true -> inc = true) ->
  dkeys (kept m u point) = if u then value_vars m else plain m ++ transformed m.
Proof.
  intros G Hc [Hk _] Hu. unfold kept. rewrite (dkeys_filter (fun n => smem n (laplace_variables m u))), Hk, laplace_variables_all by auto. destruct u.
  - rewrite Hu by auto. unfold get_default_varnames. apply unconstrained_kept; auto.
  - apply constrained_kept; auto.
Qed.
Lemma NoDup_app_l {A} (l l' : list A) : NoDup (l ++ l') -> NoDup l.
Proof. induction l; cbn; intros H; constructor; inversion H; subst; auto. intros Hin. apply H2. apply in_or_app. auto. Qed.
Lemma kept_nodup m u inc point : good_names m -> from_find_MAP m inc point -> NoDup (dkeys (kept m u point)).
Proof. intros G [Hk _]. unfold kept. rewrite (dkeys_filter (fun n => smem n (laplace_variables m u))), Hk. apply NoDup_filter. unfold get_default_varnames. destruct inc; [|apply NoDup_filter]; apply G. Qed.

(** The Hessian is taken of the model's loss read off the mean vector's own layout, at the optimum - provided the variables without a transform were registered first
    (or the fit is in the unconstrained space) *)
Theorem C52_laplace_hessian_partial (loss : bool -> dict (arr V) -> L) m u inc point :
  good_names m -> free m <> [] -> (forall v, In v (free m) -> continuous v = true) -> from_find_MAP m inc point -> (u = true -> inc = true) ->
  (u = false -> map rv_name (free m) = plain m ++ transformed m) ->
  exists mu f, fit_mvn_to_MAP loss m u point = Ok (mu, f) /\
    rdata mu = concat (map (fun kv => adata (snd kv)) (kept m u point)) /\
    (forall x, length x = length (rdata mu) -> exists p, is_point (kept m u point) x p /\ f x = Ok (loss u p)) /\
    (exists p, (forall v, In v (laplace_variables m u) -> dget p v = dget point v) /\ f (rdata mu) = Ok (loss u p)).
Proof.
  intros G Hne Hc Hf Hu Hord. pose proof (kept_keys m u inc point G Hc Hf Hu) as Hk. pose proof (kept_wf m u point (proj2 Hf)) as Hw.
  pose proof (kept_nodup m u inc point G Hf) as ND.
  assert (Ev : laplace_variables m u = dkeys (kept m u point)). { rewrite Hk, laplace_variables_all by auto. destruct u; auto. }
  assert (Hne' : laplace_variables m u <> []). { rewrite laplace_variables_all by auto. unfold value_vars. destruct u, (free m); cbn; congruence. }
  set (params := kept m u point). fold params in Hk, Hw, ND, Ev.
  assert (Hobj : forall x, length x = length (rdata (bij_map params)) -> objective (loss u) (laplace_variables m u) params x = Ok (loss u (combine (dkeys params) (blocks (layout_of params) x)))).
  { intros x Hx. destruct (bij_data_blocks params Hw) as [_ Hl]. unfold objective, split_joined. destruct (laplace_variables m u) as [|i is_] eqn:Einp; [congruence|]. rewrite <- Einp, Ev in *.
    rewrite <- layout_names. rewrite (split_from_ok params x (layout_of params) 0) by (first [apply layout_found; auto|cbn; lia]). reflexivity. }
  exists (bij_map params), (objective (loss u) (laplace_variables m u) params). split; [|split; [reflexivity|split]].
  - unfold fit_mvn_to_MAP. cbv zeta. fold (kept m u point). fold params.
    assert (Hall : forallb (dmem params) (laplace_variables m u) = true).
    { apply forallb_forall. intros v Hv. rewrite Ev in Hv. unfold dmem. destruct (dget params v) eqn:E; auto. apply dget_none in E. congruence. }
    rewrite Hall. cbn [negb]. destruct (laplace_variables m u) as [|i is_] eqn:Einp; [congruence|]. rewrite <- Einp in *. rewrite Hobj by auto. reflexivity.
  - intros x Hx. eexists. split; [apply point_of|]. auto.
  - exists (combine (dkeys params) (blocks (layout_of params) (rdata (bij_map params)))). split; [|auto].
    destruct (bij_data_blocks params Hw) as [Hb _]. rewrite Hb.
    replace (combine (dkeys params) (map snd params)) with params.
    2: { unfold dkeys. clear. induction params as [|[k v] r IH]; cbn; congruence. }
    intros v Hv. unfold params, kept. clear -Hv. induction point as [|[k a] r IH]; auto. cbn [filter fst]. destruct (smem k (laplace_variables m u)) eqn:E.
    + cbn [dget]. destruct (String.eqb v k); auto.
    + cbn [dget]. rewrite IH. destruct (String.eqb_spec v k); auto. subst. apply smem_false in E. congruence.
Qed.
End Laplace.
(** Registered the other way round, the Hessian of the constrained fit is taken at a point where one variable holds the value of the other *)
Theorem C52_laplace_hessian_refuted : exists (m : pmodel) (point : dict (arr nat)) mu f p,
  good_names m /\ free m <> [] /\ (forall v, In v (free m) -> continuous v = true) /\ from_find_MAP m true point /\
  fit_mvn_to_MAP (fun _ q => q) m false point = Ok (mu, f) /\ f (rdata mu) = Ok p /\
  dget p "sigma"%string = dget point "mu"%string /\ dget p "mu"%string = dget point "sigma"%string /\ dget point "sigma"%string <> dget point "mu"%string.
Proof.
  exists two_vars, [("sigma_log__", {| ashape := []; adata := [0] |}); ("mu", {| ashape := []; adata := [5] |}); ("sigma", {| ashape := []; adata := [1] |}); ("total", {| ashape := []; adata := [6] |})]%string.
  do 3 eexists. split; [|split; [discriminate|split; [|split; [|split; [reflexivity|split; [reflexivity|repeat split; discriminate]]]]]].
  - split.
    + repeat constructor; cbn; intuition discriminate.
    + intros v [<-|[<-|[]]]; cbn; congruence.
    + intros v [<-|[<-|[]]]; cbn; congruence.
    + intros v [<-|[<-|[]]]; reflexivity.
    + intros d [<-|[]]; reflexivity.
  - intros v [<-|[<-|[]]]; reflexivity.
  - split; [reflexivity|]. intros k a [E|[E|[E|[E|[]]]]]; injection E as <- <-; reflexivity.
Qed.

(** * The draws *)
Section Draws.
Context {V : Type}.
Lemma slices_cons n r : slices (n :: r) = (0, n) :: map (fun p => (n + fst p, n + snd p)) (slices r).
Proof.
  unfold slices. cbn [length seq map]. f_equal; [cbn; f_equal; lia|]. rewrite <- seq_shift, !map_map. apply map_ext. intros i. reflexivity.
Qed.
Lemma blocks_slices (layout : list (string * list nat)) (x : list V) : forall b,
  map (fun p => {| ashape := snd (snd p); adata := slice x (b + fst (fst p)) (b + snd (fst p)) |}) (combine (slices (map (fun p => size (snd p)) layout)) layout) = blocks layout (skipn b x).
Proof.
  induction layout as [|[n s] r IH]; intros b; auto. cbn [map snd]. rewrite slices_cons. cbn [combine map fst snd blocks]. f_equal.
  - f_equal. rewrite Nat.add_0_r, slice_skip. reflexivity.
  - rewrite skipn_skipn'. rewrite <- IH.
    assert (C : forall (l : list (nat * nat)) (l' : list (string * list nat)), combine (map (fun p => (size s + fst p, size s + snd p)) l) l'
       = map (fun q => ((size s + fst (fst q), size s + snd (fst q)), snd q)) (combine l l')).
    { induction l; intros [|? ?]; cbn; auto. f_equal. auto. }
    rewrite C, map_map. apply map_ext. intros [[b1 e1] [n1 s1]]. cbn [fst snd]. f_equal. f_equal; lia.
Qed.
Lemma own_block_slice (layout : list (string * list nat)) (x : list V) b e n s : NoDup (map fst layout) ->
  In ((b, e), (n, s)) (combine (slices (map (fun p => size (snd p)) layout)) layout) -> own_block layout x n = Some {| ashape := s; adata := slice x b e |}.
Proof.
  intros ND Hin. rewrite <- dget_combine_blocks. apply in_dget.
  - unfold dkeys. rewrite keys_combine; auto. now rewrite blocks_length, map_length.
  - rewrite <- (blocks_slices layout x 0 : _ = blocks layout x).
    assert (Hs : length (slices (map (fun p => size (snd p)) layout)) = length layout) by (unfold slices; now rewrite !map_length, seq_length).
    revert Hin Hs. generalize (slices (map (fun p => size (snd p)) layout)). clear. induction layout as [|p r IH]; intros [|q l]; cbn [combine]; try tauto; intros Hin Hs.
    cbn [map combine]. destruct Hin as [E|Hin].
    + injection E as -> ->. left. reflexivity.
    + right. apply IH; auto.
Qed.
Lemma size_squeeze s : size (filter (fun d => negb (d =? 1)) s) = size s.
Proof. unfold size. induction s as [|d s IH]; auto. cbn [filter]. destruct (Nat.eqb_spec d 1); cbn [negb fold_right]; rewrite ?IH; [subst; lia|auto]. Qed.
(** row i of the drawn matrix *)
Definition row (rows : list V) (k i : nat) : list V := firstn k (skipn (i * k) rows).
Lemma concat_chunks (f : nat -> list V) w n : (forall i, i < n -> length (f i) = w) -> length (concat (map f (seq 0 n))) = n * w.
Proof.
  intros H. assert (G : forall l, (forall i, In i l -> length (f i) = w) -> length (concat (map f l)) = length l * w).
  { induction l; cbn; intros Hl; auto. rewrite app_length, Hl, IHl; auto. }
  rewrite G, seq_length; auto. intros i Hi. apply in_seq in Hi. apply H. lia.
Qed.
Lemma concat_chunk (f : nat -> list V) w n i : (forall i, i < n -> length (f i) = w) -> i < n -> firstn w (skipn (i * w) (concat (map f (seq 0 n)))) = f i.
Proof.
  intros H Hi. replace n with (i + S (n - i - 1)) by lia. rewrite seq_app, map_app, concat_app. cbn [seq map concat Nat.add].
  assert (L : length (concat (map f (seq 0 i))) = i * w) by (apply concat_chunks; intros; apply H; lia).
  rewrite skipn_app, L, Nat.sub_diag, skipn_O. rewrite <- L, skipn_all. cbn [app]. rewrite firstn_app, H by auto. rewrite Nat.sub_diag, firstn_O, app_nil_r. apply firstn_all2. rewrite H; auto.
Qed.
(** what the entry of a variable must be: draw i is the variable's own block of row i *)
Definition own_draws (layout : list (string * list nat)) (rows : list V) (k chains draws : nat) (name : string) (shape : list nat) (a : arr V) : Prop :=
  ashape a = chains :: draws :: shape /\ length (adata a) = chains * draws * size shape /\
  forall i, i < chains * draws -> own_block layout (row rows k i) name = Some {| ashape := shape; adata := firstn (size shape) (skipn (i * size shape) (adata a)) |}.
Lemma slice_le (x : list V) b e : e <= length x -> length (slice x b e) = e - b.
Proof. intros H. unfold slice. rewrite firstn_length, skipn_length. lia. Qed.
Lemma slices_bound sizes : forall b e, In (b, e) (slices sizes) -> e <= fold_right Nat.add 0 sizes /\ b <= e.
Proof.
  intros b e H. unfold slices in H. apply in_map_iff in H. destruct H as (i & E & Hi). injection E as <- <-. clear Hi.
  revert i. induction sizes as [|n r IH]; intros i; [rewrite !firstn_nil; cbn; lia|]. destruct i; cbn [firstn Nat.add fold_right].
  - cbn. lia.
  - specialize (IH i). lia.
Qed.
Lemma slices_size (layout : list (string * list nat)) : forall b e n s, In ((b, e), (n, s)) (combine (slices (map (fun p => size (snd p)) layout)) layout) -> e - b = size s.
Proof.
  induction layout as [|[n s] r IH]; intros b e n' s'; [intros []|]. cbn [map snd]. rewrite slices_cons. cbn [combine]. intros [E|Hin].
  - injection E as <- <- <- <-. lia.
  - assert (C : forall (l : list (nat * nat)) (l' : list (string * list nat)), In ((b, e), (n', s')) (combine (map (fun p => (size s + fst p, size s + snd p)) l) l')
      -> In ((b - size s, e - size s), (n', s')) (combine l l') /\ b >= size s /\ e >= size s).
    { induction l as [|[? ?] l IHl]; intros [|? ?]; cbn; try tauto. intros [E|H].
      - injection E as <- <- ->. split; [left|lia]. cbn. repeat f_equal; lia.
      - destruct (IHl _ H). split; [right|]; auto. }
    destruct (C _ _ Hin) as (H & Hb & He). apply IH in H. lia.
Qed.
Lemma total_sizes (layout : list (string * list nat)) : fold_right Nat.add 0 (map (fun p => size (snd p)) layout) = total layout.
Proof. unfold total. induction layout; cbn; congruence. Qed.
Lemma constrained_draws_ok (layout : list (string * list nat)) (rows : list V) chains draws k :
  NoDup (map fst layout) -> k = total layout -> k <> 1 -> length rows = chains * draws * k ->
  exists arrs, constrained_draws chains draws (map (fun p => (fst p, snd p, size (snd p))) layout) (rvs chains draws k rows) = Ok arrs /\
    Forall2 (fun p a => own_draws layout rows k chains draws (fst p) (snd p) a) layout arrs.
Proof.
  intros ND Hk H1 Hl. unfold constrained_draws. rewrite map_map. cbn [snd].
  set (sl := slices (map (fun p => size (snd p)) layout)).
  set (arr_of := fun p : (nat * nat) * (string * list nat) =>
     {| ashape := chains :: draws :: snd (snd p); adata := concat (map (fun i => slice (row rows k i) (fst (fst p)) (snd (fst p))) (seq 0 (chains * draws))) |}).
  assert (Hsl : length sl = length layout) by (unfold sl, slices; now rewrite !map_length, seq_length).
  assert (Hrow : forall i, i < chains * draws -> length (row rows k i) = k).
  { intros i Hi. unfold row. rewrite firstn_length, skipn_length, Hl. assert (i * k + k <= chains * draws * k) by nia. lia. }
  assert (Hpiece : forall b e n s, In ((b, e), (n, s)) (combine sl layout) -> forall i, i < chains * draws -> length (slice (row rows k i) b e) = size s).
  { intros b e n s Hin i Hi. rewrite slice_le.
    - eapply slices_size; eauto.
    - rewrite Hrow by auto. pose proof (in_combine_l _ _ _ _ Hin) as Hb. destruct (slices_bound _ _ _ Hb). rewrite total_sizes in *. lia. }
  exists (map arr_of (combine sl layout)). split.
  - set (f := fun p : (nat * nat) * (string * list nat * nat) => _).
    assert (Ec : combine sl (map (fun p => (fst p, snd p, size (snd p))) layout) = map (fun q => (fst q, (fst (snd q), snd (snd q), size (snd (snd q))))) (combine sl layout)).
    { clearbody sl. clear. revert sl. induction layout as [|p r IH]; intros [|q l]; cbn; auto. f_equal. apply IH. }
    rewrite Ec.
    assert (M : forall l, (forall q, In q l -> f (fst q, (fst (snd q), snd (snd q), size (snd (snd q)))) = Ok (arr_of q)) ->
       mapM f (map (fun q => (fst q, (fst (snd q), snd (snd q), size (snd (snd q))))) l) = Ok (map arr_of l)).
    { induction l as [|q l IH]; intros H; auto. cbn [map mapM]. rewrite H by (left; auto). cbn [bind]. rewrite IH by (intros q' Hq'; apply H; right; auto). reflexivity. }
    apply M. intros [[b e] [n s]] Hin. unfold f; cbn [fst snd].
    unfold last_slice, rvs, squeeze; cbn [ashape adata filter]. destruct (Nat.eqb_spec k 1); [congruence|].
    assert (Hrev : exists rs, rev (filter (fun d => negb (d =? 1)) [chains; draws; k]) = k :: rs /\ rev rs = filter (fun d => negb (d =? 1)) [chains; draws]).
    { exists (rev (filter (fun d => negb (d =? 1)) [chains; draws])). rewrite rev_involutive. split; auto. cbn [filter]. destruct (Nat.eqb_spec k 1); [congruence|].
      destruct (chains =? 1), (draws =? 1); reflexivity. }
    destruct Hrev as (rs & E1 & E2). cbn [filter] in E1. destruct (Nat.eqb_spec k 1); [congruence|]. rewrite E1. cbn [bind adata]. rewrite E2, size_squeeze.
    replace (size [chains; draws]) with (chains * draws) by (cbn; lia).
    assert (Ed : map (fun i => slice (slice rows (i * k) (i * k + k)) b e) (seq 0 (chains * draws)) = map (fun i => slice (row rows k i) b e) (seq 0 (chains * draws))).
    { apply map_ext. intros i. unfold row. rewrite slice_skip. reflexivity. }
    rewrite Ed. rewrite reshape_ok; [reflexivity|]. rewrite (concat_chunks _ (size s)) by (eapply Hpiece; eauto). unfold size; cbn [fold_right]. ring.
  - assert (F : forall l l', length l = length l' -> (forall q, In q (combine l l') -> In q (combine sl layout)) ->
       Forall2 (fun p a => own_draws layout rows k chains draws (fst p) (snd p) a) l' (map arr_of (combine l l'))).
    { induction l as [|[b e] l IH]; intros [|[n s] l'] Hlen Hin; try discriminate; cbn [combine map]; constructor.
      - cbn [fst snd]. assert (Hq : In ((b, e), (n, s)) (combine sl layout)) by (apply Hin; left; auto).
        unfold own_draws, arr_of; cbn [ashape adata fst snd]. split; [reflexivity|split].
        + apply concat_chunks. eapply Hpiece; eauto.
        + intros i Hi. rewrite (own_block_slice layout _ b e n s); auto. f_equal. f_equal. rewrite (concat_chunk (fun i => slice (row rows k i) b e)); auto. eapply Hpiece; eauto.
      - apply IH; auto. intros q Hq. apply Hin. right; auto. }
    apply F; auto.
Qed.

(** named dims and coordinates fit the shapes: a variable without named dims is a scalar *)
Definition labels_fit (lb : labels) (name : string) (shape : list nat) : Prop :=
  match dget (var_dims lb) name with
  | None => shape = []
  | Some dims => Forall2 (fun d n => exists c, dget (coords lb) d = Some c /\ length c = n) dims shape
  end.
Definition dims_of (lb : labels) (name : string) : list string := ["chain"; "draw"]%string ++ match dget (var_dims lb) name with Some d => d | None => [] end.
Lemma data_array_ok lb name shape (a : arr V) chains draws : labels_fit lb name shape -> ashape a = chains :: draws :: shape -> data_array lb name a = Ok (dims_of lb name, a).
Proof.
  unfold labels_fit, data_array, dims_of. intros H E. rewrite E. destruct (dget (var_dims lb) name) as [dims|].
  - assert (Hl : length dims = length shape) by (clear -H; induction H; cbn; auto). cbn [length Nat.add]. rewrite Hl, Nat.eqb_refl. cbn [negb skipn].
    assert (Hall : forallb (fun p => match dget (coords lb) (fst p) with Some c => length c =? snd p | None => false end) (combine dims shape) = true).
    { clear -H. induction H as [|d n ds ns (c & Hc & Hn) H IH]; auto. cbn [combine forallb fst snd]. rewrite Hc, Hn, Nat.eqb_refl. auto. }
    rewrite Hall. reflexivity.
  - subst shape. cbn. rewrite ?app_nil_r. reflexivity.
Qed.
Lemma to_idata_ok m lb (layout : list (string * list nat)) (arrs : list (arr V)) chains draws : good_names m -> map fst layout = plain m ++ transformed m -> layout <> [] ->
  Forall (fun p => labels_fit lb (fst p) (snd p)) layout -> Forall2 (fun p a => ashape a = chains :: draws :: snd p) layout arrs ->
  laplace_draws_to_inferencedata m lb arrs = Ok (combine (map fst layout) (map (fun q => (dims_of lb (fst (fst q)), snd q)) (combine layout arrs))).
Proof.
  intros G Hn Hne HL HA. unfold laplace_draws_to_inferencedata. destruct arrs as [|a0 arrs0] eqn:Ea; [inversion HA; subst; congruence|]. rewrite <- Ea in *. clear Ea a0 arrs0.
  rewrite default_names by auto. rewrite app_assoc, <- Hn.
  assert (Hc : forall (l : list (string * list nat)) (r : list (arr V)), length l = length r -> combine (map fst l ++ dets m) r = combine (map fst l) r).
  { induction l as [|p l IH]; intros [|x r] H; cbn; auto; try discriminate; [destruct (dets m); auto|]. f_equal. apply IH. cbn in H; lia. }
  assert (Hlen : length layout = length arrs) by (clear -HA; induction HA; cbn; auto).
  rewrite Hc by auto.
  assert (ND : NoDup (map fst layout)). { rewrite Hn. pose proof (nodup_default m G) as N. rewrite app_assoc in N. eapply NoDup_app_l; eauto. }
  assert (M : mapM (fun p => do a <- data_array lb (fst p) (snd p); Ok (fst p, a)) (combine (map fst layout) arrs)
     = Ok (combine (map fst layout) (map (fun q => (dims_of lb (fst (fst q)), snd q)) (combine layout arrs)))).
  { clear -HL HA. induction HA as [|p a l r E H IH]; auto. inversion HL; subst. cbn [map combine mapM fst snd]. rewrite (data_array_ok lb (fst p) (snd p) a chains draws) by auto.
    cbn [bind]. rewrite IH by auto. reflexivity. }
  rewrite M. cbn [bind]. rewrite dupdate_nil_l; auto. unfold dkeys.
  assert (K : forall (l : list (string * list nat)) (r : list (list string * arr V)), length l = length r -> map fst (combine (map fst l) r) = map fst l).
  { induction l; intros [|? ?] H; cbn; auto; try discriminate. f_equal. apply IHl. cbn in H; lia. }
  rewrite K; auto. rewrite map_length, combine_length. lia.
Qed.
End Draws.

(** * The labels of the fit group *)
(** row-major position of a multi-index *)
Fixpoint ravel (shape idx : list nat) : nat :=
  match shape, idx with n :: s, i :: r => i * size s + ravel s r | _, _ => 0 end.
(** the dims of a row's variable: those of the random variable for a value variable *)
Definition row_dims (m : pmodel) (lb : labels) (name : string) : option (list string) :=
  match find (fun v => String.eqb (value_name v) name) (free m) with
  | Some v => match dget (var_dims lb) (rv_name v) with Some d => Some d | None => dget (var_dims lb) name end
  | None => dget (var_dims lb) name
  end.
Definition coords_of (lb : labels) (d : string) : list string := match dget (coords lb) d with Some c => c | None => [] end.
(** the label of entry idx of a variable: name[c1,c2,...] *)
Definition entry_label (m : pmodel) (lb : labels) (name : string) (idx : list nat) : string :=
  match row_dims m lb name with
  | None => name
  | Some dims => (name ++ "[" ++ String.concat "," (map (fun p => nth (snd p) (coords_of lb (fst p)) "") (combine dims idx)) ++ "]")%string
  end.
(** the coordinates have the length of the axes; without dims there is one entry *)
Definition rows_fit (m : pmodel) (lb : labels) (name : string) (shape : list nat) : Prop :=
  match row_dims m lb name with
  | None => size shape = 1
  | Some dims => Forall2 (fun d n => exists c, dget (coords lb) d = Some c /\ length c = n) dims shape
  end.

Lemma value_dims_fold lb name l : forall acc, NoDup (map value_name l) ->
  dget (fold_left (fun acc v => match dget (var_dims lb) (rv_name v) with Some d => dset acc (value_name v) d | None => acc end) l acc) name
  = match find (fun v => String.eqb (value_name v) name) l with
    | Some v => match dget (var_dims lb) (rv_name v) with Some d => Some d | None => dget acc name end
    | None => dget acc name
    end.
Proof.
  induction l as [|v l IH]; intros acc ND; auto. cbn [fold_left find map] in *. inversion ND; subst. rewrite IH by auto.
  destruct (String.eqb_spec (value_name v) name) as [<-|N].
  - assert (Hn : find (fun w => String.eqb (value_name w) (value_name v)) l = None).
    { destruct (find _ l) as [w|] eqn:E; auto. apply find_some in E. destruct E as [Hw Ew]. apply String.eqb_eq in Ew. exfalso. apply H1. rewrite <- Ew. now apply in_map. }
    rewrite Hn. destruct (dget (var_dims lb) (rv_name v)); auto. rewrite dget_dset, String.eqb_refl. reflexivity.
  - assert (E : forall d, dget (dset acc (value_name v) d) name = dget acc name).
    { intros d. rewrite dget_dset. destruct (String.eqb_spec name (value_name v)); [congruence|reflexivity]. }
    destruct (dget (var_dims lb) (rv_name v)); rewrite ?E; reflexivity.
Qed.
Lemma value_dims_nodup lb l : forall acc : dict (list string), NoDup (dkeys acc) ->
  NoDup (dkeys (fold_left (fun acc v => match dget (var_dims lb) (rv_name v) with Some d => dset acc (value_name v) d | None => acc end) l acc)).
Proof. induction l as [|v l IH]; intros acc H; auto. cbn [fold_left]. apply IH. destruct (dget _ _); auto. now apply NoDup_dset. Qed.
Lemma unpacked_dims m lb name : NoDup (value_vars m) ->
  unpacked_names m lb name = match row_dims m lb name with
    | None => Ok [name]
    | Some dims => do cs <- mapM (fun d => match dget (coords lb) d with Some c => Ok c | None => Err KeyError end) dims;
        Ok (map (fun label => (name ++ "[" ++ String.concat "," label ++ "]")%string) (product cs))
    end.
Proof.
  intros ND. unfold unpacked_names. cbv zeta. rewrite dget_dupdate by (apply value_dims_nodup; constructor). rewrite value_dims_fold by exact ND. unfold row_dims. cbn [dget].
  destruct (find _ (free m)) as [v|]; [destruct (dget (var_dims lb) (rv_name v))|]; reflexivity.
Qed.
Lemma flat_map_length {A B} (f : A -> list B) l w : (forall x, In x l -> length (f x) = w) -> length (flat_map f l) = length l * w.
Proof. induction l; cbn; intros H; auto. rewrite app_length, H, IHl; auto. Qed.
Lemma product_length cs : length (product cs) = size (map (@length string) cs).
Proof. induction cs as [|c cs IH]; auto. cbn [product map]. rewrite (flat_map_length _ _ (length (product cs))) by (intros; apply map_length). rewrite IH. reflexivity. Qed.
Lemma flat_map_nth {A B} (f : A -> list B) l w i j x : (forall x, In x l -> length (f x) = w) -> nth_error l i = Some x -> j < w -> nth_error (flat_map f l) (i * w + j) = nth_error (f x) j.
Proof.
  revert i. induction l as [|y l IH]; intros [|i] H Hi Hj; cbn [nth_error] in *; try discriminate.
  - injection Hi as ->. cbn [flat_map]. rewrite nth_error_app1; auto. rewrite H by (left; auto). auto.
  - cbn [flat_map]. rewrite nth_error_app2 by (rewrite H by (left; auto); nia). rewrite H by (left; auto).
    replace (S i * w + j - w) with (i * w + j) by nia. apply IH; auto. intros z Hz. apply H. right; auto.
Qed.
Lemma ravel_bound shape : forall idx, Forall2 (fun i n => i < n) idx shape -> ravel shape idx < size shape.
Proof.
  induction shape as [|n s IH]; intros idx H; inversion H; subst; cbn [ravel]; [cbn; lia|]. specialize (IH _ H4). unfold size in *. cbn [fold_right]. nia.
Qed.
Lemma product_nth cs : forall idx, Forall2 (fun i c => i < length c) idx cs ->
  nth_error (product cs) (ravel (map (@length string) cs) idx) = Some (map (fun p => nth (snd p) (fst p) ""%string) (combine cs idx)).
Proof.
  induction cs as [|c cs IH]; intros idx H; inversion H as [|i ? r ? Hi Hr]; subst; auto. cbn [map ravel product combine fst snd]. rewrite <- product_length.
  rewrite (flat_map_nth _ c (length (product cs)) i _ (nth i c ""%string)).
  - rewrite nth_error_map, IH by auto. reflexivity.
  - intros; apply map_length.
  - rewrite nth_error_nth' with (d := ""%string); auto.
  - rewrite product_length. apply ravel_bound. clear -Hr. induction Hr; cbn; constructor; auto.
Qed.
Lemma unpacked_ok m lb name shape : NoDup (value_vars m) -> rows_fit m lb name shape ->
  exists l, unpacked_names m lb name = Ok l /\ length l = size shape /\ forall idx, Forall2 (fun i n => i < n) idx shape -> nth_error l (ravel shape idx) = Some (entry_label m lb name idx).
Proof.
  intros ND H. rewrite unpacked_dims by auto. unfold rows_fit, entry_label in *. destruct (row_dims m lb name) as [dims|].
  - assert (E : mapM (fun d => match dget (coords lb) d with Some c => Ok c | None => Err KeyError end) dims = Ok (map (coords_of lb) dims)).
    { apply mapM_ok. intros d Hd. clear -H Hd. induction H as [|d' n ds ns (c & Hc & _) _ IH]; [destruct Hd|]. destruct Hd as [->|]; auto. unfold coords_of. rewrite Hc. reflexivity. }
    assert (Hs : map (@length string) (map (coords_of lb) dims) = shape).
    { clear -H. induction H as [|d n ds ns (c & Hc & Hl) H IH]; cbn; auto. unfold coords_of at 1. rewrite Hc, Hl, IH. reflexivity. }
    rewrite E. cbn [bind]. eexists. split; [reflexivity|]. split; [rewrite map_length, product_length, Hs; auto|].
    intros idx Hi. rewrite nth_error_map, <- Hs, product_nth.
    + cbn [option_map]. do 5 f_equal. clear. revert idx. induction dims as [|d ds IH]; intros [|i r]; cbn; auto. rewrite IH. reflexivity.
    + rewrite <- Hs in Hi. clear -Hi. revert idx Hi. induction dims as [|d ds IH]; cbn; intros idx Hi; inversion Hi; subst; constructor; auto.
  - exists [name]. split; auto. split; [cbn; auto|]. intros idx Hi. pose proof (ravel_bound shape idx Hi) as Hb. rewrite H in Hb. replace (ravel shape idx) with 0 by lia. reflexivity.
Qed.
Lemma nth_error_combine {A B} (l : list A) (r : list B) i x y : nth_error l i = Some x -> nth_error r i = Some y -> nth_error (combine l r) i = Some (x, y).
Proof. revert r i. induction l; intros [|? ?] [|i] H1 H2; cbn in *; try discriminate; try congruence. auto. Qed.

(** Every entry of the mean vector is labelled with its own variable and its own coordinates *)
Theorem C78_fit_rows {V} m lb (params : dict (arr V)) : NoDup (value_vars m) -> all_wf params -> Forall (fun p => rows_fit m lb (fst p) (snd p)) (layout_of params) ->
  exists rows, fit_rows m lb (bij_map params) = Ok rows /\ map snd rows = rdata (bij_map params) /\
    forall pre name a post idx v, params = pre ++ (name, a) :: post -> Forall2 (fun i n => i < n) idx (ashape a) ->
      nth_error (adata a) (ravel (ashape a) idx) = Some v ->
      nth_error rows (total (layout_of pre) + ravel (ashape a) idx) = Some (entry_label m lb name idx, v).
Proof.
  intros ND Hw HF. unfold fit_rows.
  assert (Hex : exists names, mapM (fun i => unpacked_names m lb (fst (fst i))) (rinfo (bij_map params)) = Ok names /\
     Forall2 (fun p l => length l = size (snd p) /\ forall idx, Forall2 (fun i n => i < n) idx (snd p) -> nth_error l (ravel (snd p) idx) = Some (entry_label m lb (fst p) idx)) (layout_of params) names).
  { rewrite bij_info by auto. clear Hw. induction HF as [|p l H HF IH]; [exists []; split; [reflexivity|constructor]|]. destruct IH as (names & E & HN).
    destruct (unpacked_ok m lb (fst p) (snd p) ND H) as (lp & Ep & Hlen & Hidx). exists (lp :: names). cbn [map mapM fst]. rewrite Ep. cbn [bind]. rewrite E. split; auto. }
  destruct Hex as (names & E & HN). rewrite E. cbn [bind].
  assert (Htot : length (concat names) = total (layout_of params)).
  { clear -HN. unfold total. induction HN as [|p l ps ls [Hl _] HN IH]; auto. cbn [concat fold_right]. rewrite app_length, Hl, IH. reflexivity. }
  destruct (bij_data_blocks params Hw) as [_ Hlen]. rewrite Htot, Hlen, Nat.eqb_refl. eexists. split; [reflexivity|]. split.
  - assert (S : forall (l : list string) (r : list V), length l = length r -> map snd (combine l r) = r) by (induction l; intros [|? ?] H; cbn in *; try discriminate; auto; f_equal; auto).
    apply S. congruence.
  - intros pre name a post idx v -> Hi Hv. clear E HF. apply nth_error_combine.
    + unfold layout_of in HN. rewrite map_app in HN. apply Forall2_app_inv_l in HN. destruct HN as (n1 & n2 & H1 & H2 & ->). cbn [map fst snd] in H2.
      inversion H2 as [|? lp ? n2' [Hl Hx] H2']; subst. cbn [fst snd] in *. rewrite concat_app. cbn [concat].
      assert (L1 : length (concat n1) = total (layout_of pre)).
      { clear -H1. unfold total, layout_of in *. induction H1 as [|p l ps ls [Hl _] HN IH]; auto. cbn [concat fold_right]. rewrite app_length, Hl, IH. reflexivity. }
      rewrite nth_error_app2 by lia. rewrite L1. replace (total (layout_of pre) + ravel (ashape a) idx - total (layout_of pre)) with (ravel (ashape a) idx) by lia.
      rewrite nth_error_app1 by (rewrite Hl; apply ravel_bound; auto). auto.
    + unfold bij_map; cbn [rdata]. rewrite map_app, concat_app. cbn [map concat snd].
      assert (L1 : length (concat (map (fun kv => adata (snd kv)) pre)) = total (layout_of pre)).
      { apply (bij_data_blocks pre). intros k b Hin. apply (Hw k). apply in_or_app. auto. }
      rewrite nth_error_app2 by lia. rewrite L1. replace (total (layout_of pre) + ravel (ashape a) idx - total (layout_of pre)) with (ravel (ashape a) idx) by lia.
      rewrite nth_error_app1; auto. apply nth_error_Some. congruence.
Qed.

(** * sample_laplace_posterior as a whole *)
Section Whole.
Context {V : Type} (evaluate : dict (arr V) -> string -> arr V).
Lemma row_dims_constrained m lb name : good_names m -> In name (plain m ++ transformed m) -> row_dims m lb name = dget (var_dims lb) name.
Proof.
  intros G Hin. unfold row_dims. destruct (find _ (free m)) as [v|] eqn:E; auto. apply find_some in E. destruct E as [Hv Ev]. apply String.eqb_eq in Ev. subst name.
  destruct (has_transform v) eqn:Ht.
  - exfalso. apply (gn_trans m G v Hv) in Ht. apply in_app_or in Hin. apply rv_plain_or_trans in Hin. apply in_map_iff in Hin. destruct Hin as (w & Ew & Hw).
    rewrite <- Ew, (gn_rv m G w Hw) in Ht. discriminate.
  - rewrite (gn_plain m G v Hv Ht). destruct (dget (var_dims lb) (rv_name v)); reflexivity.
Qed.
Lemma labels_rows_fit m lb name shape : good_names m -> In name (plain m ++ transformed m) -> labels_fit lb name shape -> rows_fit m lb name shape.
Proof. intros G Hin H. unfold rows_fit. rewrite row_dims_constrained by auto. unfold labels_fit in H. destruct (dget _ _); auto. subst; reflexivity. Qed.
Lemma Forall2_weaken {A B} (R S : A -> B -> Prop) l l' : (forall x y, R x y -> S x y) -> Forall2 R l l' -> Forall2 S l l'.
Proof. intros H. induction 1; constructor; auto. Qed.
Lemma value_vars_nodup m : good_names m -> NoDup (value_vars m).
Proof. intros G. pose proof (gn_nodup m G) as H. unfold unobserved_value_vars in H. eapply NoDup_app_l; eauto. Qed.

(** The default (constrained) fit of an optimum of find_MAP: every variable is reported under its own name, with its own shape, and each of its draws is its own block of the
    drawn vector; every row of the fit group carries the label of its variable and coordinates *)
Theorem C52_laplace_constrained m lb inc (point : dict (arr V)) ip chains draws rows :
  good_names m -> free m <> [] -> (forall v, In v (free m) -> continuous v = true) -> from_find_MAP m inc point ->
  let params := kept m false point in let k := total (layout_of params) in
  Forall (fun p => labels_fit lb (fst p) (snd p)) (layout_of params) -> k <> 1 -> length rows = chains * draws * k ->
  exists idata fit, sample_laplace_posterior evaluate m lb true ip (bij_map params) chains draws false rows = Ok (idata, fit) /\
    dkeys idata = plain m ++ transformed m /\
    (forall name a, In (name, a) params -> exists d, dget idata name = Some (dims_of lb name, d) /\ own_draws (layout_of params) rows k chains draws name (ashape a) d) /\
    fit_rows m lb (bij_map params) = Ok fit.
Proof.
  intros G Hne Hc Hf params k HL Hk Hrows.
  pose proof (kept_keys m false inc point G Hc Hf ltac:(discriminate)) as Hkeys. fold params in Hkeys. cbn [dkeys] in Hkeys.
  assert (Hw : all_wf params) by (apply kept_wf; apply Hf).
  assert (ND : NoDup (map fst (layout_of params))) by (rewrite layout_names; apply (kept_nodup m false inc point); auto).
  destruct (bij_data_blocks params Hw) as [_ Hlen].
  destruct (constrained_draws_ok (layout_of params) rows chains draws k ND eq_refl Hk Hrows) as (arrs & E1 & HA).
  assert (Hne2 : layout_of params <> []).
  { intros E. assert (H0 : plain m ++ transformed m = []) by (rewrite <- Hkeys, <- layout_names, E; reflexivity). destruct (free m) as [|v l] eqn:Ef; [congruence|].
    assert (Hin : In (rv_name v) (plain m ++ transformed m)) by (apply in_or_app; apply rv_plain_or_trans; rewrite Ef; left; auto). rewrite H0 in Hin. destruct Hin. }
  assert (Hnames : map fst (layout_of params) = plain m ++ transformed m) by (rewrite layout_names; exact Hkeys).
  assert (HA' : Forall2 (fun p (a : arr V) => ashape a = chains :: draws :: snd p) (layout_of params) arrs) by (eapply Forall2_weaken; [|exact HA]; intros p a [H _]; exact H).
  pose proof (to_idata_ok m lb (layout_of params) arrs chains draws G Hnames Hne2 HL HA') as E2.
  destruct (C78_fit_rows m lb params (value_vars_nodup m G) Hw) as (fit & E3 & _).
  { rewrite Forall_forall in *. intros p Hp. apply labels_rows_fit; auto. rewrite <- Hnames. now apply in_map. }
  eexists; exists fit. split; [|split; [|split]]; [| | |exact E3].
  - unfold sample_laplace_posterior. cbv zeta. rewrite Hlen. fold k. rewrite bij_info by auto. rewrite E1. cbn [bind]. rewrite E2. cbn [bind negb]. rewrite E3. reflexivity.
  - rewrite <- Hnames. unfold dkeys. assert (Hl2 : length (layout_of params) = length arrs) by (clear -HA; induction HA; cbn; auto).
    revert Hl2. generalize (layout_of params) as l. clear. intros l. revert arrs. induction l; intros [|? ?] H; cbn in *; auto; try discriminate. f_equal. auto.
  - intros name a Hin.
    assert (Hin' : In (name, ashape a) (layout_of params)) by (unfold layout_of; apply in_map_iff; exists (name, a); auto).
    clear -HA Hin' ND. assert (X : exists d, In ((name, ashape a), d) (combine (layout_of params) arrs) /\ own_draws (layout_of params) rows k chains draws name (ashape a) d).
    { clear ND. remember (own_draws (layout_of params) rows k chains draws) as R eqn:ER. clear ER. revert Hin' HA. generalize (layout_of params). clear. intros l Hin HA. induction HA as [|p d l r H HA IH]; [destruct Hin|]. destruct Hin as [->|Hin].
      - exists d. split; [left; auto|auto].
      - destruct (IH Hin) as (d' & Hd & Ho). exists d'. split; [right; auto|auto]. }
    destruct X as (d & Hd & Ho). exists d. split; auto. apply in_dget.
    + unfold dkeys. assert (Hl2 : length (layout_of params) = length arrs) by (clear -HA; induction HA; cbn; auto).
      replace (map fst (combine (map fst (layout_of params)) (map (fun q => (dims_of lb (fst (fst q)), snd q)) (combine (layout_of params) arrs)))) with (map fst (layout_of params)); auto.
      revert Hl2. generalize (layout_of params) as l. clear. intros l. revert arrs. induction l; intros [|? ?] H; cbn in *; auto; try discriminate. f_equal. auto.
    + revert Hd. generalize (layout_of params) as l. clear. intros l. revert arrs. induction l as [|p l IH]; intros [|x r]; cbn; try tauto. intros [E|Hd]; [injection E as -> ->; left; reflexivity|right; auto].
Qed.
(** A model with a single scalar parameter is always refused: scipy squeezes the draws *)
Theorem C52_laplace_single_refused m lb ip (mu : raveled V) chains draws rows in_context :
  length (rdata mu) = 1 -> map snd (rinfo mu) = [1] -> (forall i, In i (rinfo mu) -> size (snd (fst i)) = snd i) -> chains >= 1 -> draws >= 1 -> length rows = chains * draws ->
  is_err (sample_laplace_posterior evaluate m lb in_context ip mu chains draws false rows) = true.
Proof.
  intros Hl Hi Hs Hc Hd Hr. unfold sample_laplace_posterior. cbv zeta. rewrite Hl.
  destruct (rinfo mu) as [|[[n s] z] [|? ?]]; try discriminate. cbn in Hi. injection Hi as ->. assert (H1 : size s = 1) by exact (Hs _ (or_introl eq_refl)).
  assert (E : is_err (constrained_draws chains draws [(n, s, 1)] (rvs chains draws 1 rows)) = true).
  { unfold constrained_draws. cbn [map snd]. apply mapM_err with (x := ((0, 1), (n, s, 1))); [left; reflexivity|].
    unfold last_slice, rvs, squeeze; cbn [ashape adata filter Nat.eqb negb].
    destruct (Nat.eqb_spec chains 1) as [->|Nc], (Nat.eqb_spec draws 1) as [->|Nd]; cbn [negb rev app]; auto.
    - cbn [bind adata]. destruct (reshape _ _) eqn:E; auto. exfalso. unfold reshape in E. destruct (Nat.eqb_spec (length (concat (map (fun i => slice (slice rows (i * draws) (i * draws + draws)) 0 1) (seq 0 (size []))))) (size (1 :: draws :: s))) as [E'|]; [|discriminate].
      change (size (1 :: draws :: s)) with (1 * (draws * size s)) in E'. rewrite H1 in E'. cbn [size fold_right seq map concat] in E'. rewrite app_nil_r in E'. unfold slice in E'. rewrite firstn_length in E'. lia.
    - cbn [bind adata]. destruct (reshape _ _) eqn:E; auto. exfalso. unfold reshape in E. destruct (Nat.eqb_spec (length (concat (map (fun i => slice (slice rows (i * chains) (i * chains + chains)) 0 1) (seq 0 (size []))))) (size (chains :: 1 :: s))) as [E'|]; [|discriminate].
      change (size (chains :: 1 :: s)) with (chains * (1 * size s)) in E'. rewrite H1 in E'. cbn [size fold_right seq map concat] in E'. rewrite app_nil_r in E'. unfold slice in E'. rewrite firstn_length in E'. lia.
    - cbn [bind adata]. destruct (reshape _ _) eqn:E; auto. exfalso. unfold reshape in E.
      destruct (Nat.eqb_spec (length (concat (map (fun i => slice (slice rows (i * draws) (i * draws + draws)) 0 1) (seq 0 (size [chains]))))) (size (chains :: draws :: s))) as [E'|]; [|discriminate].
      change (size (chains :: draws :: s)) with (chains * (draws * size s)) in E'. rewrite H1 in E'.
      assert (B : forall l, length (concat (map (fun i => slice (slice rows (i * draws) (i * draws + draws)) 0 1) l)) <= length l).
      { induction l as [|y l IH]; [cbn; auto|]. cbn [map concat length]. rewrite app_length. unfold slice at 1. rewrite firstn_length. lia. }
      specialize (B (seq 0 (size [chains]))). rewrite E', seq_length in B. change (size [chains]) with (chains * 1) in B. nia. }
  destruct (constrained_draws chains draws [(n, s, 1)] (rvs chains draws 1 rows)); [discriminate|reflexivity].
Qed.
(** Outside a model context the call is refused, whatever model is passed: the fit group is labelled without it *)
Theorem C52_laplace_context_refused m lb ip (mu : raveled V) chains draws u rows :
  is_err (sample_laplace_posterior evaluate m lb false ip mu chains draws u rows) = true.
Proof.
  unfold sample_laplace_posterior. cbv zeta. destruct (if u then _ else _); [|reflexivity]. cbn [bind]. destruct (laplace_draws_to_inferencedata m lb a); reflexivity.
Qed.
End Whole.

Section Unconstrained.
Context {V : Type} (evaluate : dict (arr V) -> string -> arr V).
(** each reported variable has one shape, and its values are well formed, at every point a flat vector can stand for *)
Definition has_shape (ip : dict (arr V)) (name : string) (shape : list nat) : Prop :=
  forall x p, length x = total (layout_of ip) -> is_point ip x p -> ashape (evaluate p name) = shape /\ wf (evaluate p name).
(** draw i of a variable is its value at the point that row i stands for *)
Definition draws_at (ip : dict (arr V)) (rows : list V) (k chains draws : nat) (name : string) (shape : list nat) (a : arr V) : Prop :=
  ashape a = chains :: draws :: shape /\ length (adata a) = chains * draws * size shape /\
  forall i, i < chains * draws -> exists p, is_point ip (row rows k i) p /\ evaluate p name = {| ashape := shape; adata := firstn (size shape) (skipn (i * size shape) (adata a)) |}.
(** The unconstrained fit: every default variable (deterministics too) is evaluated at the point each row stands for *)
Theorem C52_laplace_unconstrained m lb (ip : dict (arr V)) (mu : raveled V) chains draws rows shape_of fit :
  good_names m -> good_start m ip -> free m <> [] -> length (rdata mu) = total (layout_of ip) -> chains >= 2 -> draws >= 2 -> length (rdata mu) >= 2 ->
  length rows = chains * draws * length (rdata mu) ->
  (forall n, In n (plain m ++ transformed m ++ dets m) -> has_shape ip n (shape_of n) /\ labels_fit lb n (shape_of n)) ->
  fit_rows m lb mu = Ok fit ->
  exists idata, sample_laplace_posterior evaluate m lb true ip mu chains draws true rows = Ok (idata, fit) /\
    dkeys idata = plain m ++ transformed m ++ dets m /\
    forall n, In n (dkeys idata) -> exists a, dget idata n = Some (dims_of lb n, a) /\ draws_at ip rows (length (rdata mu)) chains draws n (shape_of n) a.
Proof.
  intros G [Hk Hnd Hw] Hne Hl Hc Hd Hk2 Hr Hsh Hfit. set (k := length (rdata mu)) in *.
  set (names := plain m ++ transformed m ++ dets m).
  set (pt := fun i => combine (dkeys ip) (blocks (layout_of ip) (row rows k i))).
  assert (Hrow : forall i, i < chains * draws -> length (row rows k i) = total (layout_of ip)).
  { intros i Hi. unfold row. rewrite firstn_length, skipn_length, Hr. assert (i * k + k <= chains * draws * k) by nia. lia. }
  set (arr_of := fun n => {| ashape := chains :: draws :: shape_of n; adata := concat (map (fun i => adata (evaluate (pt i) n)) (seq 0 (chains * draws))) |}).
  assert (Erv : rvs chains draws k rows = {| ashape := [chains; draws; k]; adata := rows |}).
  { unfold rvs, squeeze; cbn [ashape adata filter]. destruct (Nat.eqb_spec chains 1), (Nat.eqb_spec draws 1), (Nat.eqb_spec k 1); try lia. reflexivity. }
  assert (Eu : unconstrained_draws evaluate m ip chains draws k {| ashape := [chains; draws; k]; adata := rows |} = Ok (map arr_of names)).
  { unfold unconstrained_draws; cbn [ashape adata length nth Nat.eqb negb]. rewrite !Nat.eqb_refl. cbn [andb negb].
    rewrite (mapM_ok _ pt).
    - cbn [bind]. rewrite default_names by auto. fold names. f_equal. apply map_ext_in. intros n Hn. unfold arr_of. destruct (Hsh n Hn) as [Hs _]. f_equal.
      + f_equal. f_equal. destruct (chains * draws) eqn:E; [nia|]. cbn [seq map]. apply (Hs (row rows k 0)); [apply Hrow; lia|apply point_of].
      + rewrite map_map. reflexivity.
    - intros i Hi. apply in_seq in Hi. unfold split_joined. destruct (value_vars m) as [|x xs] eqn:Ev.
      + unfold value_vars in Ev. destruct (free m); [congruence|discriminate].
      + rewrite <- Hk, <- layout_names. rewrite slice_skip. rewrite (split_from_ok ip _ (layout_of ip) 0).
        * cbn [bind skipn]. unfold pt, row. rewrite layout_names. reflexivity.
        * apply layout_found. rewrite Hk; auto.
        * rewrite firstn_length, skipn_length, Hr. assert (i * k + k <= chains * draws * k) by nia. lia. }
  assert (NDn : NoDup names) by (apply nodup_default; auto).
  set (entry := fun n => (n, (dims_of lb n, arr_of n))).
  assert (Ei : laplace_draws_to_inferencedata m lb (map arr_of names) = Ok (map entry names)).
  { clear Eu. unfold laplace_draws_to_inferencedata. assert (Hn0 : names <> []).
    { intros E. destruct (free m) as [|v l] eqn:Ef; [congruence|]. assert (Hin : In (rv_name v) names).
      { unfold names. rewrite app_assoc. apply in_or_app. left. apply in_or_app. apply rv_plain_or_trans. rewrite Ef. left; auto. } rewrite E in Hin. destruct Hin. }
    destruct (map arr_of names) as [|a0 r0] eqn:Em; [destruct names; [congruence|discriminate]|]. rewrite <- Em. clear a0 r0 Em. rewrite default_names by auto. fold names.
    assert (M : forall l, (forall n, In n l -> In n names) -> mapM (fun p => do a <- data_array lb (fst p) (snd p); Ok (fst p, a)) (combine l (map arr_of l)) = Ok (map entry l)).
    { induction l as [|n l IH]; intros Hin; auto. cbn [map combine mapM fst snd]. rewrite (data_array_ok lb n (shape_of n) (arr_of n) chains draws); [|apply Hsh; apply Hin; left; auto|reflexivity].
      cbn [bind]. rewrite IH by (intros x Hx; apply Hin; right; auto). reflexivity. }
    rewrite M by auto. cbn [bind]. rewrite dupdate_nil_l; auto. unfold dkeys. rewrite map_map. cbn [entry fst]. rewrite map_id. auto. }
  assert (K : dkeys (map entry names) = names) by (unfold dkeys; rewrite map_map; apply map_id).
  exists (map entry names). split; [|split; [exact K|]].
  - unfold sample_laplace_posterior. cbv zeta. fold k. rewrite Erv, Eu. cbn [bind]. rewrite Ei. cbn [bind negb]. rewrite Hfit. reflexivity.
  - rewrite K. intros n Hn. exists (arr_of n). split.
    + apply in_dget; [rewrite K; auto|]. apply in_map_iff. exists n. auto.
    + destruct (Hsh n Hn) as [Hs _]. assert (Hp : forall i, i < chains * draws -> length (adata (evaluate (pt i) n)) = size (shape_of n)).
      { intros i Hi. destruct (Hs (row rows k i) (pt i) (Hrow i Hi) (point_of _ _)) as [E W]. unfold wf in W. rewrite W, E. reflexivity. }
      unfold draws_at, arr_of; cbn [ashape adata]. split; [reflexivity|split; [apply concat_chunks; auto|]]. intros i Hi. exists (pt i). split; [apply point_of|].
      rewrite (concat_chunk (fun i => adata (evaluate (pt i) n))); auto. destruct (Hs (row rows k i) (pt i) (Hrow i Hi) (point_of _ _)) as [E _]. destruct (evaluate (pt i) n). cbn in *. congruence.
Qed.
(** A variable with axes but without named dims is refused *)
Theorem C52_laplace_no_dims_refused m lb ip inc (point : dict (arr V)) chains draws rows name a :
  good_names m -> free m <> [] -> (forall v, In v (free m) -> continuous v = true) -> from_find_MAP m inc point ->
  let params := kept m false point in let k := total (layout_of params) in
  k <> 1 -> length rows = chains * draws * k -> In (name, a) params -> ashape a <> [] -> dget (var_dims lb) name = None ->
  is_err (sample_laplace_posterior evaluate m lb true ip (bij_map params) chains draws false rows) = true.
Proof.
  intros G Hne Hc Hf params k Hk Hrows Hin Hs Hd.
  pose proof (kept_keys m false inc point G Hc Hf ltac:(discriminate)) as Hkeys. fold params in Hkeys.
  assert (Hw : all_wf params) by (apply kept_wf; apply Hf).
  assert (ND : NoDup (map fst (layout_of params))) by (rewrite layout_names; apply (kept_nodup m false inc point); auto).
  destruct (bij_data_blocks params Hw) as [_ Hlen].
  destruct (constrained_draws_ok (layout_of params) rows chains draws k ND eq_refl Hk Hrows) as (arrs & E1 & HA).
  unfold sample_laplace_posterior. cbv zeta. rewrite Hlen. fold k. rewrite bij_info by auto. rewrite E1. cbn [bind].
  assert (Hex : exists d, In (name, d) (combine (get_default_varnames (unobserved_value_vars m) false) arrs) /\ length (ashape d) <> 2).
  { rewrite default_names by auto. rewrite app_assoc, <- Hkeys, <- layout_names.
    assert (Hin' : In (name, ashape a) (layout_of params)) by (unfold layout_of; apply in_map_iff; exists (name, a); auto).
    remember (own_draws (layout_of params) rows k chains draws) as R eqn:ER.
    assert (HR : forall n s d, R n s d -> ashape d = chains :: draws :: s) by (intros n s d; rewrite ER; intros [H _]; exact H). clear ER.
    revert Hin' HA. generalize (layout_of params). intros l Hin' HA. clear -Hin' HA HR Hs. induction HA as [|p d l r H HA IH]; [destruct Hin'|]. destruct Hin' as [->|Hin'].
    - exists d. split; [left; auto|]. rewrite (HR _ _ _ H). cbn. destruct (ashape a); [congruence|]. cbn. lia.
    - destruct (IH Hin') as (d' & Hd' & Hl). exists d'. split; [right; auto|auto]. }
  destruct Hex as (d & Hd1 & Hd2).
  assert (Err : is_err (laplace_draws_to_inferencedata m lb arrs) = true).
  { unfold laplace_draws_to_inferencedata. destruct arrs as [|a0 r0]; [reflexivity|].
    assert (X : is_err (mapM (fun p => do a <- data_array lb (fst p) (snd p); Ok (fst p, a)) (combine (get_default_varnames (unobserved_value_vars m) false) (a0 :: r0))) = true).
    { apply mapM_err with (x := (name, d)); auto. cbn [fst snd]. unfold data_array. rewrite Hd. destruct (Nat.eqb_spec (length (ashape d)) 2); [congruence|reflexivity]. }
    destruct (mapM _ _); [discriminate|reflexivity]. }
  destruct (laplace_draws_to_inferencedata m lb arrs); [discriminate|reflexivity].
Qed.
End Unconstrained.
Definition case_labels : labels := {| var_dims := [("beta", ["city"])]; coords := [("city", ["a"; "b"])] |}%string.
Definition case_model : pmodel := {| free := [{| rv_name := "beta"; value_name := "beta"; has_transform := false; continuous := true |};
                                              {| rv_name := "sigma"; value_name := "sigma_log__"; has_transform := true; continuous := true |}]; dets := [] |}%string.
Definition case_point : dict (arr nat) := [("beta", {| ashape := [2]; adata := [1; 2] |}); ("sigma_log__", {| ashape := []; adata := [0] |}); ("sigma", {| ashape := []; adata := [3] |})]%string.
Example C52_laplace_case : good_names case_model /\ from_find_MAP case_model true case_point /\
  sample_laplace_posterior (fun _ _ => {| ashape := []; adata := [] |}) case_model case_labels true [] (bij_map (kept case_model false case_point)) 1 2 false [10; 20; 30; 11; 21; 31]
  = Ok ([("beta", (["chain"; "draw"; "city"], {| ashape := [1; 2; 2]; adata := [10; 20; 11; 21] |})); ("sigma", (["chain"; "draw"], {| ashape := [1; 2]; adata := [30; 31] |}))],
        [("beta[a]", 1); ("beta[b]", 2); ("sigma", 3)])%string.
Proof.
  split; [|split; [split; [reflexivity|]|reflexivity]].
  - split; try (intros v [<-|[<-|[]]]; cbn; congruence); [|intros d []]. repeat constructor; cbn; intuition discriminate.
  - intros k a [E|[E|[E|[]]]]; injection E as <- <-; reflexivity.
Qed.
