(** C59 and C60. *)
From Coq Require Import Ascii.
From Verif Require Import Common Dict.
Import List ListNotations.
From Verif Require Import Api_Model.
Open Scope nat_scope.

(** * C59 *)

Definition own_of {V} (o : option (dict V)) : dict V := match o with Some c => c | None => [] end.

(** The first call builds the model with the decorator's coords, each one replaced by the call's own when the call gives it. *)
Theorem C59_first_call {V} (deco : option (dict V)) own rest name :
  NoDup (dkeys (own_of own)) ->
  exists c cs, calls deco (own :: rest) = c :: cs
    /\ dget c name = match dget (own_of own) name with Some v => Some v | None => dget (own_of deco) name end.
Proof.
  intros ND. exists (dupdate (own_of deco) (own_of own)), (calls None rest). split; [reflexivity|]. apply dget_dupdate. auto.
Qed.

(** The full claim holds of every call when the decorator carries no coords: each call sees exactly its own. *)
Lemma calls_none {V} (owns : list (option (dict V))) i own :
  nth_error owns i = Some own -> nth_error (calls None owns) i = Some (dupdate [] (own_of own)).
Proof. revert i. induction owns as [|o r IH]; intros [|i]; simpl; try discriminate; auto. intros E. inversion E; auto. Qed.
Theorem C59_no_decorator_coords {V} (owns : list (option (dict V))) i own :
  nth_error owns i = Some own -> NoDup (dkeys (own_of own)) ->
  exists c, nth_error (calls None owns) i = Some c /\ forall name, dget c name = dget (own_of own) name.
Proof.
  intros H ND. exists (dupdate [] (own_of own)). split; [apply calls_none; auto|]. intros name. rewrite dget_dupdate by auto.
  simpl. destruct (dget (own_of own) name); auto.
Qed.

(** The claim is false in general: from the second call on, the decorator's coords are gone, whatever they were and whatever
    the calls pass. *)
Theorem C59_later_calls_refuted {V} (deco : dict V) first owns i own :
  nth_error owns i = Some own -> NoDup (dkeys (own_of own)) ->
  exists c, nth_error (calls (Some deco) (first :: owns)) (S i) = Some c
    /\ (forall name, dget c name = dget (own_of own) name)
    /\ (forall name v, dget deco name = Some v -> dget (own_of own) name = None -> dget c name = None).
Proof.
  intros H ND. destruct (C59_no_decorator_coords owns i own H ND) as (c&E&P). exists c. simpl. split; [exact E|]. split; auto.
  intros. rewrite P. auto.
Qed.
(** the example of the docstring, called twice *)
Example C59_example :
  calls (Some [("obs"%string, ["a"%string; "b"%string])]) [None; None; Some [("obs"%string, ["c"%string])]]
  = [[("obs"%string, ["a"%string; "b"%string])]; []; [("obs"%string, ["c"%string])]].
Proof. reflexivity. Qed.

(** * C60 *)

Definition no_comma (s : str) : Prop := ~ In comma s.
(** the text of a deterministic with arguments l *)
Definition f_of (l : list str) : str := s_ "f(" ++ join l ++ s_ ")".
Definition f_of_dots (l : list str) : str := s_ "f(" ++ join l ++ s_ ", ...)".
(** the length the arguments take, each with its separator *)
Definition width (l : list str) : nat := fold_right (fun x a => length x + 2 + a) 0 l.

Lemma split_from_nocomma s acc : no_comma s -> split_from acc s = [rev acc ++ s].
Proof.
  revert acc. induction s as [|c r IH]; intros acc H; simpl; [rewrite app_nil_r; auto|].
  assert (Hc : Ascii.eqb c comma = false) by (destruct (Ascii.eqb_spec c comma); auto; subst; exfalso; apply H; left; auto).
  destruct r as [|c2 r2]; [auto|]. rewrite Hc. cbn [andb]. rewrite IH by (intros X; apply H; right; auto). simpl.
  rewrite <- app_assoc. auto.
Qed.
Lemma split_from_sep x acc s : no_comma x -> split_from acc (x ++ comma :: space :: s) = (rev acc ++ x) :: split_from [] s.
Proof.
  revert acc. induction x as [|c r IH]; intros acc H.
  - simpl. rewrite app_nil_r. auto.
  - assert (Hc : Ascii.eqb c comma = false) by (destruct (Ascii.eqb_spec c comma); auto; subst; exfalso; apply H; left; auto).
    change ((c :: r) ++ comma :: space :: s) with (c :: (r ++ comma :: space :: s)).
    assert (S1 : split_from acc (c :: (r ++ comma :: space :: s)) = split_from (c :: acc) (r ++ comma :: space :: s)).
    { destruct (r ++ comma :: space :: s) as [|c2 r2] eqn:Q; [destruct r; discriminate|].
      change (split_from acc (c :: c2 :: r2)) with
        (if Ascii.eqb c comma && Ascii.eqb c2 space then rev acc :: split_from [] r2 else split_from (c :: acc) (c2 :: r2)).
      rewrite Hc. reflexivity. }
    rewrite S1. rewrite IH by (intros X; apply H; right; auto). simpl. rewrite <- app_assoc. auto.
Qed.
Lemma split_join l : l <> [] -> Forall no_comma l -> split (join l) = l.
Proof.
  induction l as [|x r IH]; intros N H; [congruence|]. inversion H; subst. destruct r as [|y r].
  - cbn [join]. unfold split. rewrite split_from_nocomma by auto. auto.
  - change (join (x :: y :: r)) with (x ++ comma :: space :: join (y :: r)). unfold split. rewrite split_from_sep by auto.
    simpl app. f_equal. apply IH; auto. discriminate.
Qed.
Lemma contents_f_of l : removelast (skipn 2 (f_of l)) = join l.
Proof. unfold f_of. simpl. rewrite removelast_app by discriminate. simpl. rewrite app_nil_r. auto. Qed.

Lemma show_n_spec limit c str_len n : c <> [] ->
  exists k, show_n limit str_len n c = n + k /\ k < length c
    /\ (str_len + width (firstn k c) <= limit \/ k = 0)
    /\ (limit < str_len + width (firstn (S k) c) \/ S k = length c).
Proof.
  revert str_len n. induction c as [|x r IH]; intros a n N; [congruence|]. cbn [show_n].
  destruct (Nat.ltb_spec limit (a + (length x + 2))).
  - exists 0. split; [lia|]. cbn [firstn width fold_right length]. repeat split; try lia; auto.
  - destruct r as [|y r].
    + exists 0. cbn [show_n]. split; [lia|]. cbn. repeat split; try lia; auto.
    + destruct (IH (a + (length x + 2)) (n + 1)) as (k&E&L&P1&P2); [discriminate|].
      exists (S k). rewrite E. split; [lia|]. cbn [length] in *. split; [lia|]. 
      assert (W : forall j, width (firstn (S j) (x :: y :: r)) = length x + 2 + width (firstn j (y :: r))) by reflexivity.
      rewrite !W. split; [left; destruct P1 as [P1|P1]; [lia|subst k; change (width (firstn 0 (y :: r))) with 0; lia]|].
      destruct P2 as [P2|P2]; [left|right]; lia.
Qed.

(** What is shown: the whole text when it fits (or there is no limit); otherwise a strict prefix of the arguments, in order,
    followed by an ellipsis.  The prefix is the longest one whose arguments (with separators) fit, but never all of them. *)
Theorem C60_truncation limit l : l <> [] -> Forall no_comma l ->
  (truncate_expr None (f_of l) = f_of l)
  /\ (length (f_of l) <= limit -> truncate_expr (Some limit) (f_of l) = f_of l)
  /\ (limit < length (f_of l) ->
      exists k, k < length l /\ truncate_expr (Some limit) (f_of l) = f_of_dots (firstn k l)
        /\ (width (firstn k l) <= limit)
        /\ (forall k', k < k' -> k' < length l -> limit < width (firstn k' l))).
Proof.
  intros N H. split; [auto|]. split.
  - intros L. unfold truncate_expr. destruct (Nat.ltb_spec limit (length (f_of l))); [lia|auto].
  - intros L. unfold truncate_expr. destruct (Nat.ltb_spec limit (length (f_of l))); [|lia]. rewrite contents_f_of, split_join by auto.
    destruct (show_n_spec limit l 0 0 N) as (k&E&L1&P1&P2). exists k. rewrite E. split; [auto|]. split; [reflexivity|]. split.
    + destruct P1 as [P1|P1]; [exact P1|]. subst k. simpl. lia.
    + intros k' K1 K2. destruct P2 as [P2|P2]; [|lia]. cbn [Nat.add] in P2.
      enough (M : forall a b (q : list str), a <= b -> width (firstn a q) <= width (firstn b q)).
      { specialize (M (S k) k' l). lia. }
      clear. intros a b q. revert a b. induction q as [|x q IH]; intros [|a] [|b] Hle; try (simpl; lia).
      specialize (IH a b). change (length x + 2 + width (firstn a q) <= length x + 2 + width (firstn b q)). lia.
Qed.
(** The ellipsis appears exactly when some argument was dropped. *)
Corollary C60_ellipsis_iff_dropped limit l : l <> [] -> Forall no_comma l ->
  exists k, (truncate_expr (Some limit) (f_of l) = f_of l /\ length (f_of l) <= limit)
            \/ (truncate_expr (Some limit) (f_of l) = f_of_dots (firstn k l) /\ k < length l /\ limit < length (f_of l)).
Proof.
  intros N H. destruct (C60_truncation limit l N H) as (_&A&B). destruct (le_lt_dec (length (f_of l)) limit) as [L|L].
  - exists 0. left. auto.
  - destruct (B L) as (k&K&E&_). exists k. right. auto.
Qed.

Lemma join_length l : l <> [] -> length (join l) + 2 = width l.
Proof.
  induction l as [|x r IH]; intros N; [congruence|]. destruct r as [|y r]; [simpl; lia|].
  change (join (x :: y :: r)) with (x ++ comma :: space :: join (y :: r)). rewrite app_length. cbn [length].
  specialize (IH ltac:(discriminate)). cbn [width fold_right] in *. fold (width r) in *. lia.
Qed.
(** The text shown is at most 8 characters longer than the limit. *)
Theorem C60_length limit l : l <> [] -> Forall no_comma l -> length (truncate_expr (Some limit) (f_of l)) <= limit + 8.
Proof.
  intros N H. destruct (C60_truncation limit l N H) as (_&A&B). destruct (le_lt_dec (length (f_of l)) limit) as [L|L].
  - rewrite A by auto. lia.
  - destruct (B L) as (k&K&E&W&_). rewrite E. unfold f_of_dots. rewrite !app_length. cbn [s_ list_ascii_of_string length].
    destruct (firstn k l) as [|x q] eqn:F; [simpl; lia|]. rewrite <- F in *. pose proof (join_length (firstn k l)) as J.
    rewrite F in J at 1. specialize (J ltac:(discriminate)). lia.
Qed.
(** "truncated" is not "shorter": the limit is exceeded, and by more than the original exceeded it. *)
Theorem C60_shorter_refuted : exists limit l, Forall no_comma l /\ l <> []
  /\ limit < length (f_of l) /\ length (f_of l) < length (truncate_expr (Some limit) (f_of l)).
Proof.
  exists 5, [s_ "x"; s_ "y"]. split; [|split; [discriminate|]].
  - repeat constructor; unfold no_comma; simpl; intros [E|[]]; discriminate.
  - vm_compute. lia.
Qed.
(** When not even the first argument fits, nothing but an empty place and the ellipsis remains. *)
Theorem C60_first_too_long limit x l : Forall no_comma (x :: l) -> limit < length x + 2 ->
  truncate_expr (Some limit) (f_of (x :: l)) = s_ "f(, ...)".
Proof.
  intros H L. destruct (C60_truncation limit (x :: l)) as (_&_&B); [discriminate|auto|].
  assert (L2 : limit < length (f_of (x :: l))).
  { unfold f_of. rewrite !app_length. pose proof (join_length (x :: l) ltac:(discriminate)) as J. cbn [width fold_right] in J.
    cbn [s_ list_ascii_of_string length]. lia. }
  destruct (B L2) as (k&K&E&W&_). destruct k as [|k]; [exact E|]. cbn [firstn width fold_right] in W. lia.
Qed.
Example C60_example : truncate_expr (Some 9) (f_of [s_ "alpha"; s_ "b"; s_ "c"]) = s_ "f(alpha, ...)"
  /\ truncate_expr (Some 14) (f_of [s_ "alpha"; s_ "b"; s_ "c"]) = f_of [s_ "alpha"; s_ "b"; s_ "c"]
  /\ truncate_expr (Some 13) (f_of [s_ "alpha"; s_ "b"; s_ "c"]) = s_ "f(alpha, b, ...)".
Proof. vm_compute. auto. Qed.

(** ** dims *)

Lemma dims_pairs_app lengths dims acc : NoDup (dkeys acc ++ dims) ->
  (forall d, In d dims -> lengths d <> None) ->
  exists r, dims_pairs lengths (map Some dims) acc = Ok (acc ++ r) /\ dkeys r = dims /\ forall d n, In (d, n) r -> lengths d = Some n.
Proof.
  revert acc. induction dims as [|d dims IH]; intros acc ND L.
  - exists []. rewrite app_nil_r. repeat split; auto. simpl. tauto.
  - simpl. destruct (lengths d) as [n|] eqn:E; [|exfalso; apply (L d); simpl; auto].
    assert (Hd : ~ In d (dkeys acc)).
    { apply NoDup_remove_2 in ND. rewrite in_app_iff in ND. tauto. }
    assert (Hs : dset acc d n = acc ++ [(d, n)]).
    { clear -Hd. induction acc as [|[a b] r IHr]; simpl; auto. simpl in Hd. destruct (String.eqb_spec d a); [subst; tauto|].
      f_equal. apply IHr. tauto. }
    rewrite Hs. destruct (IH (acc ++ [(d, n)])) as (r&R1&R2&R3).
    + unfold dkeys in *. rewrite map_app. simpl. rewrite <- app_assoc. exact ND.
    + intros d' H'. apply L. simpl. auto.
    + exists ((d, n) :: r). rewrite R1, <- app_assoc. simpl. split; [auto|]. split; [unfold dkeys in *; simpl; congruence|].
      intros d' n' [X|X]; [inversion X; subst; auto|]. eauto.
Qed.
(** A variable whose axes are all named, with distinct names, is shown with each name once, in order, with the model's length. *)
Theorem C60_dims lengths dims : NoDup dims -> (forall d, In d dims -> lengths d <> None) ->
  exists r, dims_pairs lengths (map Some dims) [] = Ok r /\ map fst r = dims /\ forall d n, In (d, n) r -> lengths d = Some n.
Proof. intros ND L. destruct (dims_pairs_app lengths dims [] ND L) as (r&A&B&C). exists r. simpl in A. auto. Qed.
(** An unnamed axis (dims=("a", None), which pymc accepts) makes the whole table fail. *)
Theorem C60_unnamed_axis_refuted lengths before after acc : (forall d, In d before -> lengths d <> None) ->
  dims_pairs lengths (map Some before ++ None :: after) acc = Err KeyError.
Proof.
  revert acc. induction before as [|d r IH]; intros acc L; simpl; auto. destruct (lengths d) eqn:E; auto. apply IH.
  intros. apply L. simpl. auto.
Qed.
(** A dim used for two axes is shown once: the dims shown are not those of the variable. *)
Theorem C60_repeated_dim_refuted lengths d n : lengths d = Some n ->
  dims_pairs lengths [Some d; Some d] [] = Ok [(d, n)].
Proof. intros E. simpl. rewrite E. simpl. rewrite String.eqb_refl. auto. Qed.

(** ** the table *)

Definition var_rows (t : list row) : list string := flat_map (fun r => match r with VarRow v _ => [v] | _ => [] end) t.
Definition counts (t : list row) : list nat := flat_map (fun r => match r with CountRow n => [n] | _ => [] end) t.
Definition all_vars (m : model) : list string :=
  data_vars m ++ free_RVs m ++ deterministics m ++ potentials m ++ observed_RVs m.
(** A model of pymc: the groups are disjoint and have no duplicates; named_vars lists them all. *)
Definition wf (m : model) : Prop := NoDup (all_vars m) /\ (forall v, In v (named_vars m) <-> In v (all_vars m)) /\ NoDup (named_vars m).

Lemma var_rows_app a b : var_rows (a ++ b) = var_rows a ++ var_rows b.
Proof. unfold var_rows. apply flat_map_app. Qed.
Lemma counts_app a b : counts (a ++ b) = counts a ++ counts b.
Proof. unfold counts. apply flat_map_app. Qed.
Lemma var_rows_map f l : var_rows (map (fun v => VarRow v (f v)) l) = l.
Proof. induction l; simpl; auto. unfold var_rows in *. f_equal. auto. Qed.
Lemma counts_map f l : counts (map (fun v => VarRow v (f v)) l) = [].
Proof. induction l; simpl; auto. Qed.
Definition group_rows (m : model) (c : bool) (g : list string) : list row :=
  match g with
  | [] => []
  | _ => map (fun v => VarRow v (smem v (free_RVs m) || smem v (observed_RVs m))) g
         ++ (if c then [CountRow (parameter_count (free_shapes m))] else []) ++ [Section]
  end.
Lemma group_rows_vars m c g : var_rows (group_rows m c g) = g.
Proof.
  unfold group_rows. destruct g as [|v r]; auto. rewrite !var_rows_app, var_rows_map.
  destruct c; cbn [var_rows flat_map]; rewrite ?app_nil_r; auto.
Qed.
Lemma group_rows_counts m c g : counts (group_rows m c g) = match g with [] => [] | _ => if c then [parameter_count (free_shapes m)] else [] end.
Proof.
  unfold group_rows. destruct g as [|v r] eqn:E; auto. rewrite !counts_app, counts_map. destruct c; auto.
Qed.
Lemma slist_eqb_spec a b : slist_eqb a b = true <-> a = b.
Proof. unfold slist_eqb. destruct (list_eq_dec string_dec a b); split; congruence. Qed.
Lemma table_split m pc : table m true pc = group_rows m (pc && slist_eqb (data_vars m) (free_RVs m)) (data_vars m)
   ++ group_rows m (pc && slist_eqb (free_RVs m) (free_RVs m)) (free_RVs m)
   ++ group_rows m (pc && slist_eqb (deterministics m) (free_RVs m)) (deterministics m)
   ++ group_rows m (pc && slist_eqb (potentials m) (free_RVs m)) (potentials m)
   ++ group_rows m (pc && slist_eqb (observed_RVs m) (free_RVs m)) (observed_RVs m).
Proof. unfold table. simpl. rewrite app_nil_r. reflexivity. Qed.

(** Every variable has exactly one row: by group in the order data, free, deterministic, potential, observed; or in the order
    of definition. *)
Theorem C60_rows m pc : var_rows (table m true pc) = all_vars m /\ var_rows (table m false pc) = named_vars m.
Proof.
  split.
  - rewrite table_split, !var_rows_app, !group_rows_vars. reflexivity.
  - unfold table. simpl. rewrite app_nil_r. exact (group_rows_vars m (pc && true) (named_vars m)).
Qed.
(** "~" marks exactly the random variables. *)
Theorem C60_random_marker m s pc v r : In (VarRow v r) (table m s pc) -> r = true <-> In v (free_RVs m) \/ In v (observed_RVs m).
Proof.
  intros H. unfold table in H. apply in_flat_map in H as (g&_&H). destruct g as [|x g]; [destruct H|].
  apply in_app_iff in H as [H|H].
  - apply in_map_iff in H as (w&E&_). inversion E; subst. rewrite orb_true_iff, !smem_in. tauto.
  - apply in_app_iff in H as [H|H].
    + destruct (pc && _); [destruct H as [H|[]]|destruct H]; discriminate.
    + destruct H as [H|[]]; discriminate.
Qed.
(** The parameter count appears once if it is asked for and there are free variables, right after them; it is the number of
    scalar entries of all free variables. *)
Theorem C60_count m : wf m ->
  counts (table m true true) = (match free_RVs m with [] => [] | _ => [parameter_count (free_shapes m)] end)
  /\ (forall s, counts (table m s false) = [])
  /\ (named_vars m <> [] -> counts (table m false true) = [parameter_count (free_shapes m)])
  /\ (free_RVs m <> [] -> exists t1 t2, table m true true = t1 ++ [CountRow (parameter_count (free_shapes m))] ++ t2
        /\ var_rows t1 = data_vars m ++ free_RVs m /\ var_rows t2 = deterministics m ++ potentials m ++ observed_RVs m).
Proof.
  intros (ND&NV&_).
  assert (D : forall g, g <> [] -> (forall v, In v g -> In v (free_RVs m) -> False) -> slist_eqb g (free_RVs m) = false).
  { intros g Hg Hd. destruct (slist_eqb g (free_RVs m)) eqn:E; auto. apply slist_eqb_spec in E. destruct g as [|v g]; [congruence|].
    exfalso. apply (Hd v); [simpl; auto|]. rewrite <- E. simpl; auto. }
  assert (Z : forall g, (forall v, In v g -> In v (free_RVs m) -> False) -> group_rows m (true && slist_eqb g (free_RVs m)) g = group_rows m false g).
  { intros g Hd. destruct g as [|v g]; auto. rewrite D; auto. discriminate. }
  unfold all_vars in ND.
  assert (A1 : forall v, In v (data_vars m) -> In v (free_RVs m) -> False).
  { intros v H1 H2. apply in_split in H1 as (l1&l2&E). rewrite E, <- app_assoc in ND. simpl in ND. apply NoDup_remove_2 in ND.
    apply ND. rewrite !in_app_iff. auto. }
  assert (A2 : forall g, (forall v, In v g -> In v (deterministics m ++ potentials m ++ observed_RVs m)) -> forall v, In v g -> In v (free_RVs m) -> False).
  { intros g Hg v H1 H2. apply Hg in H1. assert (ND2 : NoDup (free_RVs m ++ deterministics m ++ potentials m ++ observed_RVs m)).
    { clear -ND. induction (data_vars m) as [|z q IHq]; auto. inversion ND; auto. }
    clear ND; rename ND2 into ND. apply in_split in H2 as (l1&l2&E). rewrite E, <- app_assoc in ND.
    simpl in ND. apply NoDup_remove_2 in ND. apply ND. rewrite !in_app_iff in *. tauto. }
  assert (T : table m true true = group_rows m false (data_vars m) ++ group_rows m true (free_RVs m) ++ group_rows m false (deterministics m)
     ++ group_rows m false (potentials m) ++ group_rows m false (observed_RVs m)).
  { rewrite table_split. rewrite (Z (data_vars m)), (Z (deterministics m)), (Z (potentials m)), (Z (observed_RVs m)); auto.
    - replace (slist_eqb (free_RVs m) (free_RVs m)) with true by (symmetry; apply slist_eqb_spec; auto). reflexivity.
    - apply A2. intros v Hv. rewrite !in_app_iff. auto.
    - apply A2. intros v Hv. rewrite !in_app_iff. auto.
    - apply A2. intros v Hv. rewrite !in_app_iff. auto. }
  assert (G0 : forall g, counts (group_rows m false g) = []) by (intros g; rewrite group_rows_counts; destruct g; auto).
  split; [|split; [|split]].
  - rewrite T, !counts_app, !G0, group_rows_counts. destruct (free_RVs m); auto.
  - intros [|].
    + rewrite table_split. simpl andb. rewrite !counts_app, !G0. auto.
    + unfold table. simpl. rewrite app_nil_r. exact (G0 (named_vars m)).
  - intros N. unfold table. simpl. rewrite app_nil_r. change (counts (group_rows m true (named_vars m)) = [parameter_count (free_shapes m)]).
    rewrite group_rows_counts. destruct (named_vars m); congruence.
  - intros N. rewrite T. destruct (free_RVs m) as [|v r] eqn:E; [congruence|]. rewrite <- E in *. clear N.
    exists (group_rows m false (data_vars m) ++ map (fun v => VarRow v (smem v (free_RVs m) || smem v (observed_RVs m))) (free_RVs m)),
      ([Section] ++ group_rows m false (deterministics m) ++ group_rows m false (potentials m) ++ group_rows m false (observed_RVs m)).
    split; [|split].
    + unfold group_rows at 2. rewrite E at 1. rewrite <- !app_assoc. reflexivity.
    + rewrite var_rows_app, group_rows_vars, var_rows_map. auto.
    + rewrite !var_rows_app, !group_rows_vars. reflexivity.
Qed.
(** The number printed is the number of scalar entries: of pairs of a free variable and an index into its array. *)
Fixpoint indices (shape : list nat) : list (list nat) :=
  match shape with [] => [[]] | n :: s => flat_map (fun i => map (cons i) (indices s)) (seq 0 n) end.
Lemma indices_spec shape idx : In idx (indices shape) <-> Forall2 lt idx shape.
Proof.
  revert idx. induction shape as [|n s IH]; intros idx; simpl.
  - split; [intros [E|[]]; subst; constructor|]. intros H; inversion H; auto.
  - rewrite in_flat_map. split.
    + intros (i&Hi&H). apply in_map_iff in H as (r&E&Hr). subst. apply in_seq in Hi. constructor; [lia|]. apply IH; auto.
    + intros H. inversion H; subst. exists x. split; [apply in_seq; lia|]. apply in_map, IH. auto.
Qed.
Lemma indices_length shape : length (indices shape) = fold_right Nat.mul 1 shape.
Proof.
  induction shape as [|n s IH]; auto. cbn [indices fold_right]. rewrite <- IH. generalize 0. induction n as [|n IHn]; intros o; simpl; auto.
  rewrite app_length, map_length, IHn. auto.
Qed.
Theorem C60_count_value shapes :
  parameter_count shapes = length (flat_map indices shapes) /\ (forall shape idx, In idx (indices shape) <-> Forall2 lt idx shape).
Proof.
  split; [|apply indices_spec]. unfold parameter_count. induction shapes as [|s r IH]; auto. simpl. rewrite app_length, indices_length, IH. auto.
Qed.
Example C60_table_example :
  let m := Model ["X"%string] ["a"%string; "b"%string] ["mu"%string] [] ["y"%string]
                 ["a"%string; "X"%string; "b"%string; "mu"%string; "y"%string] [[3]; [2; 2]] in
  wf m /\ table m true true = [VarRow "X"%string false; Section; VarRow "a"%string true; VarRow "b"%string true; CountRow 7; Section;
     VarRow "mu"%string false; Section; VarRow "y"%string true; Section].
Proof.
  cbv zeta. split; [|reflexivity]. unfold wf. cbn. repeat split; try tauto.
  all: repeat (constructor; [simpl; intuition discriminate|]). all: constructor.
Qed.
