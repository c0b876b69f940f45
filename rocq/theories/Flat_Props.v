(** Facts about flat vectors, against an independent reading of "its own consecutive block". *)
From Verif Require Import Common Dict.
Import List ListNotations.
From Verif Require Import Flat_Model Laplace_Model.
Open Scope nat_scope.

Section Spec.
Context {V : Type}.
(** * Specification: walk along the layout, consuming the vector *)
Fixpoint own_block (layout : list (string * list nat)) (x : list V) (name : string) : option (arr V) :=
  match layout with
  | [] => None
  | (n, s) :: rest => if String.eqb n name then Some {| ashape := s; adata := firstn (size s) x |} else own_block rest (skipn (size s) x) name
  end.
Definition total (layout : list (string * list nat)) : nat := fold_right (fun p acc => size (snd p) + acc) 0 layout.
(** the blocks partition the vector: reading them one after another gives it back *)
Fixpoint blocks (layout : list (string * list nat)) (x : list V) : list (arr V) :=
  match layout with [] => [] | (n, s) :: rest => {| ashape := s; adata := firstn (size s) x |} :: blocks rest (skipn (size s) x) end.
Lemma blocks_partition layout : forall x, length x = total layout -> concat (map adata (blocks layout x)) = x.
Proof.
  induction layout as [|[n s] r IH]; cbn [total blocks fold_right]; intros x H.
  - destruct x; auto; cbn in H; discriminate.
  - cbn [map concat]. cbn [adata]. rewrite IH by (rewrite skipn_length; unfold total in *; cbn [fold_right snd] in H; lia). apply firstn_skipn.
Qed.
Lemma blocks_length layout : forall x, length (blocks layout x) = length layout.
Proof. induction layout as [|[n s] r IH]; cbn; auto. Qed.
Lemma own_block_some layout : forall x name, In name (map fst layout) <-> own_block layout x name <> None.
Proof.
  induction layout as [|[n s] r IH]; cbn [map fst own_block]; intros x name.
  - split; [intros []|congruence].
  - destruct (String.eqb_spec n name).
    + split; [congruence|]. intros _. left; auto.
    + rewrite <- IH. cbn. split; [intros [|]; [congruence|auto]|auto].
Qed.
(** combining names and blocks is own_block *)
Lemma dget_combine_blocks layout : forall x name, dget (combine (map fst layout) (blocks layout x)) name = own_block layout x name.
Proof.
  induction layout as [|[n s] r IH]; cbn [map fst own_block blocks combine dget]; intros x name; auto.
  rewrite String.eqb_sym. destruct (String.eqb n name); auto.
Qed.

(** * The walks of the code *)
Lemma slice_skip (x : list V) b n : slice x b (b + n) = firstn n (skipn b x).
Proof. unfold slice. f_equal. lia. Qed.
Lemma skipn_skipn' (x : list V) : forall a b, skipn a (skipn b x) = skipn (b + a) x.
Proof.
  induction x as [|y x IH]; intros a b; [now rewrite !skipn_nil|].
  destruct b; [reflexivity|]. cbn. apply IH.
Qed.
Definition layout_of (point : dict (arr V)) : list (string * list nat) := map (fun kv => (fst kv, ashape (snd kv))) point.
Definition all_wf (point : dict (arr V)) : Prop := forall k a, In (k, a) point -> wf a.
Lemma reshape_ok (x : list V) s : length x = size s -> reshape x s = Ok {| ashape := s; adata := x |}.
Proof. intros H. unfold reshape. now rewrite H, Nat.eqb_refl. Qed.
Lemma reshape_err (x : list V) s : length x <> size s -> reshape x s = Err ValueError.
Proof. intros H. unfold reshape. destruct (Nat.eqb_spec (length x) (size s)); congruence. Qed.

Lemma dget_app {A} (a b : dict A) k : dget (a ++ b) k = match dget a k with Some v => Some v | None => dget b k end.
Proof. induction a as [|[k' v] r IH]; cbn [app dget]; auto. destruct (String.eqb k k'); auto. Qed.
Lemma dset_app_new {A} (d : dict A) k v : ~ In k (dkeys d) -> dset d k v = d ++ [(k, v)].
Proof.
  induction d as [|[k' v'] r IH]; cbn; auto. intros H. destruct (String.eqb_spec k k'); [exfalso; subst; tauto|]. rewrite IH; tauto.
Qed.
Lemma dupdate_new {A} (b a : dict A) : NoDup (dkeys b) -> (forall k, In k (dkeys b) -> ~ In k (dkeys a)) -> dupdate a b = a ++ b.
Proof.
  revert a. induction b as [|[k v] b IH]; intros a ND H; [now rewrite app_nil_r|]. rewrite dupdate_cons. inversion ND; subst.
  rewrite dset_app_new by (apply H; left; auto). rewrite IH; auto.
  - rewrite <- app_assoc. reflexivity.
  - intros k' Hk' Hin. unfold dkeys in Hin. rewrite map_app in Hin. apply in_app_or in Hin. destruct Hin as [Hin|[<-|[]]].
    + apply (H k'); [right; auto|exact Hin].
    + auto.
Qed.
Lemma dupdate_nil_l {A} (b : dict A) : NoDup (dkeys b) -> dupdate [] b = b.
Proof. intros H. rewrite dupdate_new; auto. Qed.

Lemma rmap_from_ok (layout : list (string * list nat)) (x : list V) : forall b result, length x = b + total layout ->
  rmap_from b x (map (fun p => (fst p, snd p, size (snd p))) layout) result
  = Ok (dupdate result (combine (map fst layout) (blocks layout (skipn b x)))).
Proof.
  induction layout as [|[n s] r IH]; intros b result H; cbn [map fst snd rmap_from total fold_right] in *; auto.
  rewrite slice_skip. rewrite reshape_ok by (rewrite firstn_length, skipn_length; lia). cbn [bind].
  rewrite IH by (unfold total; lia). cbn [blocks combine]. rewrite dupdate_cons, skipn_skipn'. reflexivity.
Qed.
Lemma bij_info (p : dict (arr V)) : all_wf p -> rinfo (bij_map p) = map (fun p => (fst p, snd p, size (snd p))) (layout_of p).
Proof.
  intros H. unfold bij_map, layout_of; cbn [rinfo]. rewrite map_map. apply map_ext_in. intros [k a] Hin. cbn. f_equal. apply (H k a Hin).
Qed.
Lemma bij_data_blocks (p : dict (arr V)) : all_wf p -> blocks (layout_of p) (rdata (bij_map p)) = map snd p /\ length (rdata (bij_map p)) = total (layout_of p).
Proof.
  unfold bij_map, layout_of, total; cbn [rdata]. induction p as [|[k a] r IH]; intros H; cbn [map concat blocks fst snd fold_right]; auto.
  assert (Ha : wf a) by (apply (H k); left; auto).
  destruct IH as [IH1 IH2]; [intros k' a' Hin; apply (H k'); right; auto|].
  unfold wf in Ha. split.
  - f_equal.
    + rewrite <- Ha. rewrite firstn_app, Nat.sub_diag, firstn_O, app_nil_r, firstn_all. destruct a; reflexivity.
    + rewrite <- IH1. f_equal. rewrite <- Ha. rewrite skipn_app, Nat.sub_diag, skipn_O, skipn_all. reflexivity.
  - rewrite app_length, IH2, Ha. reflexivity.
Qed.
Lemma layout_names (p : dict (arr V)) : map fst (layout_of p) = dkeys p.
Proof. unfold layout_of, dkeys. rewrite map_map. reflexivity. Qed.
(** rmap of a vector of the right length: every name of the layout gets its own block, in order *)
Lemma rmap_ok (p : dict (arr V)) (x : list V) (start : dict (arr V)) : all_wf p -> length x = total (layout_of p) ->
  rmap {| rdata := x; rinfo := rinfo (bij_map p) |} start = Ok (dupdate start (combine (dkeys p) (blocks (layout_of p) x))).
Proof.
  intros Hw Hl. unfold rmap; cbn [rdata rinfo]. rewrite bij_info by auto. rewrite rmap_from_ok by (cbn; auto). rewrite layout_names. reflexivity.
Qed.

Lemma split_from_ok (point : dict (arr V)) (x : list V) : forall layout b,
  Forall (fun p => exists a, dget point (fst p) = Some a /\ ashape a = snd p) layout -> length x >= b + total layout ->
  split_from b point (map fst layout) x = Ok (blocks layout (skipn b x)).
Proof.
  induction layout as [|[n s] r IH]; intros b HF Hl; cbn [map fst snd split_from total fold_right] in *; auto.
  inversion HF as [|? ? (a & Ha & Hs) HF']; subst. cbn [fst snd] in *. rewrite Ha, Hs, slice_skip.
  rewrite reshape_ok by (rewrite firstn_length, skipn_length; lia). cbn [bind].
  rewrite IH by (auto; unfold total; lia). cbn [bind blocks]. rewrite skipn_skipn'. reflexivity.
Qed.
(** a vector that is too short for the inputs is refused *)
Lemma split_from_short (point : dict (arr V)) (x : list V) : forall layout b,
  Forall (fun p => exists a, dget point (fst p) = Some a /\ ashape a = snd p) layout -> length x < b + total layout -> b <= length x ->
  split_from b point (map fst layout) x = Err ValueError.
Proof.
  induction layout as [|[n s] r IH]; intros b HF Hl Hb; cbn [map fst snd split_from total fold_right] in *; [lia|].
  inversion HF as [|? ? (a & Ha & Hs) HF']; subst. cbn [fst snd] in *. rewrite Ha, Hs, slice_skip.
  destruct (Nat.eq_dec (length (firstn (size s) (skipn b x))) (size s)) as [E|E].
  - rewrite reshape_ok by auto. cbn [bind]. rewrite firstn_length, skipn_length in E. rewrite IH; auto; unfold total; lia.
  - rewrite reshape_err by auto. reflexivity.
Qed.
Lemma mapM_ok {A B} (f : A -> res B) (g : A -> B) l : (forall x, In x l -> f x = Ok (g x)) -> mapM f l = Ok (map g l).
Proof.
  induction l as [|x l IH]; intros H; cbn; auto. rewrite (H x) by (left; auto). cbn. rewrite IH by (intros y Hy; apply H; right; auto). reflexivity.
Qed.
Lemma mapM_inv {A B} (f : A -> res B) l r : mapM f l = Ok r -> Forall2 (fun x y => f x = Ok y) l r.
Proof.
  revert r. induction l as [|x l IH]; cbn [mapM]; intros r H; [injection H as <-; constructor|].
  destruct (f x) eqn:E; cbn [bind] in H; [|discriminate]. destruct (mapM f l) eqn:E'; cbn [bind] in H; [|discriminate]. injection H as <-.
  constructor; auto.
Qed.
Lemma mapM_err {A B} (f : A -> res B) l x : In x l -> is_err (f x) = true -> is_err (mapM f l) = true.
Proof.
  induction l as [|y l IH]; cbn [mapM]; [intros []|]. intros [<-|Hin] H.
  - destruct (f y); [discriminate|reflexivity].
  - destruct (f y); [|reflexivity]. cbn [bind]. specialize (IH Hin H). destruct (mapM f l); [discriminate|reflexivity].
Qed.
End Spec.
