(** C86: MarginalModel.logp of a whole model is the logarithm of the model's density summed over all marginalized variables. *)
From Coq Require Import Permutation Sorted.
From Verif Require Import Common LogR Elim_Model.
Open Scope nat_scope.

(** ** Specification *)
Section Spec.
Context {V : Type}.
(** a model as PyMC builds it: one node per variable, an order in which every variable comes after what it reads, log-probabilities that look at nothing else *)
Record wf_model (m : model V) : Prop := {
  wf_single : forall n, In n (nodes m) -> exists v, outs n = [v];
  wf_topo : NoDup (toposort m) /\ Permutation (toposort m) (concat (map outs (nodes m)));
  wf_reads : forall l1 v l2 n, toposort m = l1 ++ v :: l2 -> In n (nodes m) -> outs n = [v] -> incl (ins n) l1;
  wf_scope : forall n a b, In n (nodes m) -> (forall w, In w (outs n ++ ins n) -> a w = b w) -> term n a = term n b;
  wf_pots : forall p a b, In p (pots m) -> (forall w, In w (fst p) -> a w = b w) -> snd p a = snd p b }.
(** the density of the model without any marginalization: the product of the densities of its variables and of the potentials *)
Definition density (m : model V) (a : asg V) : R :=
  (Rprod (map (fun n => lexp (term n a)) (nodes m)) * Rprod (map (fun p => lexp (snd p a)) (pots m)))%R.
(** sum over all values of the variables vs *)
Fixpoint sum_over (dom : nat -> list V) (vs : list nat) (f : asg V -> R) (a : asg V) : R :=
  match vs with [] => f a | v :: r => Rsum (map (fun x => sum_over dom r f (upd a v x)) (dom v)) end.
(** the part of the density that comes from the variables, and the part that comes from the potentials *)
Definition rv_density (m : model V) (a : asg V) : R := Rprod (map (fun n => lexp (term n a)) (nodes m)).
Definition pot_density (m : model V) (a : asg V) : R := Rprod (map (fun p => lexp (snd p a)) (pots m)).
(** w reads v in the model; d is an ancestor of w *)
Definition reads_var (m : model V) (w v : nat) : Prop := exists n, In n (nodes m) /\ outs n = [w] /\ In v (ins n).
Inductive ancestor (m : model V) : nat -> nat -> Prop :=
  | anc_1 d w : reads_var m w d -> ancestor m d w
  | anc_s d u w : ancestor m d u -> reads_var m w u -> ancestor m d w.
End Spec.

Section Proofs.
Context {V : Type}.
Implicit Types (a b : asg V) (n : node V) (ns : list (node V)).

Lemma mem_in x l : mem x l = true <-> In x l.
Proof. unfold mem. rewrite existsb_exists. split; [intros (y & H & E)|intros H; exists x; split; auto; apply Nat.eqb_refl]. apply Nat.eqb_eq in E. now subst. Qed.
Lemma mem_out x l : mem x l = false <-> ~ In x l.
Proof. rewrite <- mem_in. destruct (mem x l); split; congruence. Qed.

Lemma sum_over_app dom l1 l2 (f : asg V -> R) : forall a, sum_over dom (l1 ++ l2) f a = sum_over dom l1 (sum_over dom l2 f) a.
Proof. induction l1 as [|v l1 IH]; intros a; cbn; auto. apply Rsum_map_ext. intros x _. apply IH. Qed.
Definition ext (f : asg V -> R) := forall a b, (forall w, a w = b w) -> f a = f b.
Lemma upd_ext a b v x : (forall w, a w = b w) -> forall w, upd a v x w = upd b v x w.
Proof. intros H w. unfold upd. destruct (w =? v); auto. Qed.
Lemma sum_over_ext dom vs f : ext f -> ext (sum_over dom vs f).
Proof. intros E. induction vs as [|v r IH]; cbn; auto. intros a b H. apply Rsum_map_ext. intros x _. apply IH. now apply upd_ext. Qed.
Lemma sum_over_eq dom vs (f g : asg V -> R) : (forall a, f a = g a) -> forall a, sum_over dom vs f a = sum_over dom vs g a.
Proof. intros E. induction vs as [|v r IH]; intros a; cbn; auto. apply Rsum_map_ext. intros x _. apply IH. Qed.
Lemma sum_over_perm dom vs vs' f : ext f -> Permutation vs vs' -> NoDup vs -> forall a, sum_over dom vs f a = sum_over dom vs' f a.
Proof.
  intros E P. induction P as [|v l l' P IH|v w l|l l' l'' P1 IH1 P2 IH2]; intros N a; cbn; auto.
  - inversion N; subst. apply Rsum_map_ext. intros x _. now apply IH.
  - inversion N as [|? ? N1 N2]; subst. rewrite Rsum_swap. apply Rsum_map_ext. intros y _. apply Rsum_map_ext. intros x _.
    apply sum_over_ext; auto. intros u. unfold upd. destruct (Nat.eqb_spec u v), (Nat.eqb_spec u w); auto. subst. exfalso. apply N1. now left.
  - rewrite IH1; auto. apply IH2. eapply Permutation_NoDup; eauto.
Qed.
Lemma sum_over_mul dom vs (f c : asg V -> R) : (forall a v x, In v vs -> c (upd a v x) = c a) ->
  forall a, sum_over dom vs (fun a => f a * c a)%R a = (sum_over dom vs f a * c a)%R.
Proof.
  induction vs as [|v r IH]; intros H a; cbn; auto. rewrite <- Rsum_map_mult_r. apply Rsum_map_ext. intros x _.
  rewrite IH by (intros; apply H; now right). f_equal. apply H. now left.
Qed.

(** the product of the densities of a list of nodes *)
Definition prod ns a : R := Rprod (map (fun n => lexp (term n a)) ns).
Lemma prod_filter (P : node V -> bool) ns a : prod ns a = (prod (filter P ns) a * prod (filter (fun n => negb (P n)) ns) a)%R.
Proof.
  induction ns as [|n l IH]; [unfold prod; cbn; ring|]. unfold prod in *. cbn [filter map]. destruct (P n); cbn [filter map negb Rprod fold_right] in *; fold Rprod in *; unfold Rprod in *; cbn [fold_right]; rewrite IH; ring.
Qed.
Definition scoped n := forall a b, (forall w, In w (outs n ++ ins n) -> a w = b w) -> term n a = term n b.
Lemma prod_ext ns : (forall n, In n ns -> scoped n) -> ext (prod ns).
Proof. intros H a b E. unfold prod. f_equal. apply map_ext_in. intros n Hn. f_equal. apply H; auto. Qed.

(** the state of the loop: every variable that is still there is defined once, the variables still to be summed by their original nodes *)
Record good (before : nat -> nat -> Prop) ns (all todo : list nat) : Prop := {
  g_nodup : NoDup (concat (map outs ns));
  g_cover : forall w, In w (concat (map outs ns)) <-> In w all;
  g_nonempty : forall n, In n ns -> outs n <> [];
  g_scope : forall n, In n ns -> scoped n;
  g_own : forall u, In u todo -> exists n, In n ns /\ outs n = [u] /\ forall i, In i (ins n) -> before i u }.

Lemma in_concat_outs ns w : In w (concat (map outs ns)) <-> exists n, In n ns /\ In w (outs n).
Proof. rewrite in_concat. split; [intros (l & H & W)|intros (n & H & W)]. apply in_map_iff in H as (n & <- & H). eauto. exists (outs n). split; auto. apply in_map_iff. eauto. Qed.
Lemma outs_unique ns : NoDup (concat (map outs ns)) -> forall n n' w, In n ns -> In n' ns -> In w (outs n) -> In w (outs n') -> n = n'.
Proof.
  induction ns as [|k l IH]; cbn; intros N n n' w H H' W W'; [easy|].
  assert (D : NoDup (concat (map outs l)) /\ forall x, In x (outs k) -> ~ In x (concat (map outs l))).
  { clear - N. induction (outs k) as [|x r IH]; cbn in *; [split; auto|]. inversion N as [|? ? A B]; subst. destruct (IH B) as [C D]. split; auto.
    intros y [->|Hy]; auto. intros Hy. apply A. apply in_or_app. now right. }
  destruct D as [N' D]. destruct H as [->|H], H' as [->|H']; auto.
  - exfalso. apply (D w W). apply in_concat_outs. eauto.
  - exfalso. apply (D w W'). apply in_concat_outs. eauto.
  - eapply IH; eauto.
Qed.
Lemma nodup_nodes ns : NoDup (concat (map outs ns)) -> (forall n, In n ns -> outs n <> []) -> NoDup ns.
Proof.
  induction ns as [|k l IH]; intros N E; constructor.
  - intros H. destruct (outs k) as [|x r] eqn:O; [apply (E k); cbn; auto|]. cbn in N. rewrite O in N. cbn in N. inversion N as [|? ? A _]; subst. apply A.
    apply in_or_app. right. apply in_concat_outs. exists k. split; auto. rewrite O. now left.
  - apply IH; [|intros; apply E; now right]. cbn in N. clear - N. induction (outs k) as [|x r IH]; auto. inversion N; auto.
Qed.
Lemma nodup_concat_filter (P : node V -> bool) ns : NoDup (concat (map outs ns)) -> NoDup (concat (map outs (filter P ns))).
Proof.
  induction ns as [|k l IH]; cbn; auto. intros N.
  assert (D : NoDup (outs k) /\ NoDup (concat (map outs l)) /\ forall x, In x (outs k) -> ~ In x (concat (map outs l))).
  { clear - N. induction (outs k) as [|x r IH]; cbn in *; [repeat split; auto; constructor|]. inversion N as [|? ? A B]; subst. destruct (IH B) as (C0 & C & D).
    split; [constructor; auto; intros X; apply A; apply in_or_app; auto|]. split; auto.
    intros y [->|Hy]; auto. intros Hy. apply A. apply in_or_app. now right. }
  destruct D as (D0 & D1 & D2). destruct (P k); auto. cbn.
  assert (G : forall x, In x (outs k) -> ~ In x (concat (map outs (filter P l)))).
  { intros x Hx Hc. apply (D2 x Hx). apply in_concat_outs in Hc as (n & Hn & Hw). apply filter_In in Hn as [Hn _]. apply in_concat_outs. eauto. }
  specialize (IH D1). clear - D0 IH G. induction (outs k) as [|x r IHr]; cbn; auto. inversion D0; subst. constructor.
  - intros X. apply in_app_or in X as [X|X]; auto. apply (G x); cbn; auto.
  - apply IHr; auto. intros y Hy. apply G. now right.
Qed.

(** One step of the loop. *)
Lemma step_good before dom ns all v todo p :
  (forall i, ~ before i i) -> (forall u, In u todo -> ~ before v u) -> ~ In v todo -> NoDup all ->
  good before ns all (v :: todo) -> replace_subgraph dom ns all v = Ok p ->
  good before (fst p :: snd p) (filter (fun w => negb (w =? v)) all) todo /\ (forall a, prod (fst p :: snd p) a = sum_over dom [v] (prod ns) a).
Proof.
  intros irr prec nv nda [N C E S O]. unfold replace_subgraph. set (deps := dependents ns all v).
  destruct (O v (or_introl eq_refl)) as (nd & Hnd & On & In_). 
  assert (F : find (fun n => mem v (outs n)) ns = Some nd).
  { destruct (find _ ns) as [k|] eqn:F; [|exfalso; apply (find_none _ _ F) in Hnd; rewrite On in Hnd; cbn in Hnd; rewrite Nat.eqb_refl in Hnd; easy].
    apply find_some in F as [F1 F2]. f_equal. apply (outs_unique ns N k nd v); auto. now apply mem_in. rewrite On. now left. }
  rewrite F. destruct deps as [|d0 dr] eqn:D; [easy|]. rewrite <- D. intros R. injection R as <-. cbn [fst snd]. assert (NE : deps <> []) by now rewrite D. clear d0 dr D.
  assert (nself : ~ In v (ins nd)) by (intros X; apply (irr v); auto).
  assert (DEP : forall w, In w deps <-> w <> v /\ exists n, In n ns /\ In w (outs n) /\ In v (ins n)).
  { intros w. unfold deps, dependents. rewrite filter_In, andb_true_iff, negb_true_iff, Nat.eqb_neq. unfold reads. rewrite existsb_exists. split.
    - intros (A & B & n & Hn & X). apply andb_true_iff in X as [X1 X2]. apply mem_in in X1, X2. eauto.
    - intros (A & n & Hn & X1 & X2). split; [apply C; apply in_concat_outs; eauto|]. split; auto. exists n. split; auto. apply andb_true_iff. split; now apply mem_in. }
  (* a node is touched exactly when it reads v *)
  assert (OWN : forall n, In n ns -> In v (outs n) -> n = nd) by (intros n Hn Hv; apply (outs_unique ns N n nd v); auto; rewrite On; now left).
  assert (T : forall n, In n ns -> existsb (fun w => mem w deps) (outs n) = mem v (ins n)).
  { intros n Hn. destruct (mem v (ins n)) eqn:M.
    - apply mem_in in M. apply existsb_exists. destruct (outs n) as [|w r] eqn:Ow; [now apply E in Hn|]. exists w. split; [now left|]. apply mem_in. apply DEP. split.
      + intros ->. assert (n = nd) by (apply OWN; auto; rewrite Ow; now left). subst. auto.
      + exists n. repeat split; auto. rewrite Ow. now left.
    - apply mem_out in M. destruct (existsb _ (outs n)) eqn:X; auto. exfalso. apply existsb_exists in X as (w & Hw & X). apply mem_in, DEP in X as (_ & k & Hk & Wk & Vk).
      assert (k = n) by (apply (outs_unique ns N k n w); auto). subst. auto. }
  set (touched := filter (fun n => negb (mem v (outs n)) && existsb (fun w => mem w deps) (outs n)) ns).
  set (rest := filter (fun n => negb (mem v (outs n)) && negb (existsb (fun w => mem w deps) (outs n))) ns).
  assert (RT : forall n, In n rest <-> In n ns /\ n <> nd /\ ~ In v (ins n)).
  { intros n. unfold rest. rewrite filter_In, andb_true_iff, !negb_true_iff, mem_out. split.
    - intros (A & B & X). rewrite T in X by auto. apply mem_out in X. repeat split; auto. intros ->. apply B. rewrite On. now left.
    - intros (A & B & X). repeat split; auto. rewrite T by auto. now apply mem_out. }
  assert (TT : forall n, In n touched <-> In n ns /\ In v (ins n)).
  { intros n. unfold touched. rewrite filter_In, andb_true_iff, negb_true_iff, mem_out. split.
    - intros (A & B & X). rewrite T in X by auto. apply mem_in in X. auto.
    - intros (A & X). repeat split; auto; [|rewrite T by auto; now apply mem_in]. intros B. apply OWN in B; auto. subst. auto. }
  (* what is left does not look at v *)
  assert (RS : forall a x, prod rest (upd a v x) = prod rest a).
  { intros a x. unfold prod. f_equal. apply map_ext_in. intros n Hn. f_equal. apply RT in Hn as (A & B & X). apply S; auto. intros w Hw. unfold upd.
    destruct (Nat.eqb_spec w v); auto. subst. exfalso. apply in_app_or in Hw as [Hw|Hw]; [apply B|]; auto. }
  split; cycle 1.
  { intros a. unfold prod at 1. cbn [map Rprod fold_right sum_over]. change (fold_right Rmult 1%R) with Rprod. fold (prod rest a). cbn [term].
    rewrite lexp_logsumexp, map_map, <- Rsum_map_mult_r. apply Rsum_map_ext. intros x _.
    cbn [lsum fold_right]. change (fold_right ladd (Fin 0%R)) with lsum. rewrite lexp_ladd, lexp_lsum, map_map. fold (prod touched (upd a v x)).
    rewrite (prod_filter (fun n => mem v (outs n)) ns (upd a v x)).
    assert (OWNL : filter (fun n => mem v (outs n)) ns = [nd]).
    { assert (NN : NoDup ns) by now apply nodup_nodes. clear - OWN Hnd On NN. induction ns as [|k l IH]; [easy|]. cbn. inversion NN as [|? ? A B]; subst. destruct (mem v (outs k)) eqn:M.
      - apply mem_in in M. assert (k = nd) by (apply OWN; cbn; auto). subst. f_equal. clear - OWN A.
        induction l as [|k l IH]; cbn; auto. destruct (mem v (outs k)) eqn:M; [|apply IH; [intros; apply OWN; auto; cbn in *; tauto|intros X; apply A; now right]].
        apply mem_in in M. exfalso. apply A. left. apply OWN; cbn; auto.
      - destruct Hnd as [->|Hnd]; [rewrite On in M; cbn in M; rewrite Nat.eqb_refl in M; easy|]. apply IH; auto. intros; apply OWN; cbn; auto. }
    rewrite OWNL. rewrite (prod_filter (fun n => existsb (fun w => mem w deps) (outs n)) (filter (fun n => negb (mem v (outs n))) ns) (upd a v x)).
    assert (FF : forall (P Q : node V -> bool) l, filter P (filter Q l) = filter (fun n => Q n && P n) l).
    { clear. intros P Q l. induction l as [|k l IH]; cbn; auto. destruct (Q k); cbn; rewrite IH; auto. }
    rewrite !FF. fold touched. fold rest. rewrite RS. replace (prod [nd] (upd a v x)) with (lexp (term nd (upd a v x))) by (unfold prod, Rprod; cbn; ring). ring. }
  assert (CO : forall w, In w (concat (map outs rest)) -> w <> v /\ ~ In w deps).
  { intros w Hw. apply in_concat_outs in Hw as (n & Hn & Hw). apply RT in Hn as (A & B & X). split.
    - intros ->. auto.
    - intros Hd. apply DEP in Hd as (_ & k & Hk & Wk & Vk). assert (k = n) by (apply (outs_unique ns N k n w); auto). subst. auto. }
  split.
  - cbn [map concat outs]. assert (A : NoDup (concat (map outs rest))) by now apply nodup_concat_filter.
    assert (B : NoDup deps) by (apply NoDup_filter; auto). clear - A B CO. revert A B CO. generalize deps. intros l A B CO. induction l as [|x l IH]; cbn; auto. inversion B; subst.
    constructor. intros X. apply in_app_or in X as [X|X]; auto. apply (CO x X). now left. apply IH; auto. intros w Hw. destruct (CO w Hw) as [P Q]. split; auto. intros X. apply Q. now right.
  - intros w. cbn [map concat outs]. rewrite in_app_iff, filter_In, negb_true_iff, Nat.eqb_neq. split.
    + intros [H|H].
      * apply DEP in H as (A & n & Hn & Wn & _). split; auto. apply C. apply in_concat_outs. eauto.
      * split; [|now apply CO]. apply in_concat_outs in H as (n & Hn & Wn). apply RT in Hn as (Hn & _). apply C. apply in_concat_outs. eauto.
    + intros (A & B). apply C in A. apply in_concat_outs in A as (n & Hn & Wn). destruct (mem v (ins n)) eqn:M.
      * left. apply DEP. split; auto. exists n. repeat split; auto. now apply mem_in.
      * right. apply in_concat_outs. exists n. split; auto. apply RT. repeat split; auto. { intros ->. rewrite On in Wn. destruct Wn; auto. } now apply mem_out.
  - intros n [<-|Hn]; cbn [outs].
    + exact NE.
    + apply RT in Hn as (A & _). now apply E.
  - intros n [<-|Hn]; [|apply RT in Hn as (A & _); now apply S]. intros a b H. cbn [term outs ins] in *. f_equal. apply map_ext. intros x.
    assert (G : forall k, In k ns -> k = nd \/ In v (ins k) -> term k (upd a v x) = term k (upd b v x)).
    { intros k Hk K. apply S; auto. intros w Hw. unfold upd. destruct (Nat.eqb_spec w v); auto. apply H. apply in_or_app.
      destruct (mem w deps) eqn:M; [left; now apply mem_in|]. right. apply nodup_In. apply filter_In. split.
      - apply in_app_or in Hw as [Hw|Hw].
        + exfalso. apply mem_out in M. destruct K as [->|K]; [rewrite On in Hw; destruct Hw as [->|[]]; auto|]. apply M. apply DEP. split; auto. exists k. auto.
        + apply in_or_app. destruct K as [->|K]; [now left|]. right. apply in_concat. exists (ins k). split; auto. apply in_map. now apply TT.
      - rewrite M. apply andb_true_iff. split; auto. apply negb_true_iff. now apply Nat.eqb_neq. }
    cbn [lsum fold_right]. rewrite (G nd) by auto. f_equal. f_equal. apply map_ext_in. intros k Hk. apply TT in Hk as [A B]. apply G; auto.
  - intros u Hu. destruct (O u (or_intror Hu)) as (n & Hn & Ou & Iu). exists n. repeat split; auto. right. apply RT. repeat split; auto.
    + intros ->. rewrite On in Ou. injection Ou as ->. auto.
    + intros X. apply (prec u Hu). auto.
Qed.

(** ** The shape of one step *)
Lemma step_shape before dom ns all v todo p : (forall i, ~ before i i) -> good before ns all (v :: todo) -> replace_subgraph dom ns all v = Ok p ->
  exists nd, In nd ns /\ outs nd = [v] /\ ~ In v (ins nd) /\
    (forall w, In w (outs (fst p)) <-> w <> v /\ exists n, In n ns /\ In w (outs n) /\ In v (ins n)) /\
    (forall w, In w (ins (fst p)) <-> w <> v /\ ~ In w (outs (fst p)) /\ exists n, In n ns /\ (n = nd \/ In v (ins n)) /\ In w (ins n)) /\
    (forall n, In n (snd p) <-> In n ns /\ n <> nd /\ ~ In v (ins n)).
Proof.
  intros irr [N C E S O]. unfold replace_subgraph. set (deps := dependents ns all v).
  destruct (O v (or_introl eq_refl)) as (nd & Hnd & On & In_).
  assert (F : find (fun n => mem v (outs n)) ns = Some nd).
  { destruct (find _ ns) as [k|] eqn:F; [|exfalso; apply (find_none _ _ F) in Hnd; rewrite On in Hnd; cbn in Hnd; rewrite Nat.eqb_refl in Hnd; easy].
    apply find_some in F as [F1 F2]. f_equal. apply (outs_unique ns N k nd v); auto. now apply mem_in. rewrite On. now left. }
  rewrite F. destruct deps as [|d0 dr] eqn:D; [easy|]. rewrite <- D. intros R. injection R as <-. cbn [fst snd]. clear d0 dr D.
  assert (nself : ~ In v (ins nd)) by (intros X; apply (irr v); auto).
  assert (DEP : forall w, In w deps <-> w <> v /\ exists n, In n ns /\ In w (outs n) /\ In v (ins n)).
  { intros w. unfold deps, dependents. rewrite filter_In, andb_true_iff, negb_true_iff, Nat.eqb_neq. unfold reads. rewrite existsb_exists. split.
    - intros (A & B & n & Hn & X). apply andb_true_iff in X as [X1 X2]. apply mem_in in X1, X2. eauto.
    - intros (A & n & Hn & X1 & X2). split; [apply C; apply in_concat_outs; eauto|]. split; auto. exists n. split; auto. apply andb_true_iff. split; now apply mem_in. }
  assert (OWN : forall n, In n ns -> In v (outs n) -> n = nd) by (intros n Hn Hv; apply (outs_unique ns N n nd v); auto; rewrite On; now left).
  assert (T : forall n, In n ns -> existsb (fun w => mem w deps) (outs n) = mem v (ins n)).
  { intros n Hn. destruct (mem v (ins n)) eqn:M.
    - apply mem_in in M. apply existsb_exists. destruct (outs n) as [|w r] eqn:Ow; [now apply E in Hn|]. exists w. split; [now left|]. apply mem_in. apply DEP. split.
      + intros ->. assert (n = nd) by (apply OWN; auto; rewrite Ow; now left). subst. auto.
      + exists n. repeat split; auto. rewrite Ow. now left.
    - apply mem_out in M. destruct (existsb _ (outs n)) eqn:X; auto. exfalso. apply existsb_exists in X as (w & Hw & X). apply mem_in, DEP in X as (_ & k & Hk & Wk & Vk).
      assert (k = n) by (apply (outs_unique ns N k n w); auto). subst. auto. }
  exists nd. split; [auto|]. split; [auto|]. split; [auto|]. split; [exact DEP|]. split.
  - intros w. cbn [ins outs]. rewrite nodup_In, filter_In, andb_true_iff, !negb_true_iff, Nat.eqb_neq, mem_out, in_app_iff. split.
    + intros ([H|H] & A & B); (split; [auto|]; split; [auto|]).
      * exists nd. auto.
      * apply in_concat in H as (l & Hl & Hw). apply in_map_iff in Hl as (n & <- & Hn). apply filter_In in Hn as (Hn & X). apply andb_true_iff in X as [_ X]. rewrite T in X by auto.
        apply mem_in in X. exists n. auto.
    + intros (A & B & n & Hn & [->|K] & Hw); (split; [|auto]).
      * now left.
      * right. apply in_concat. exists (ins n). split; auto. apply in_map. apply filter_In. split; auto. rewrite T by auto. apply andb_true_iff. split; [|now apply mem_in].
        apply negb_true_iff, mem_out. intros X. apply OWN in X; auto. subst. auto.
  - intros n. rewrite filter_In, andb_true_iff, !negb_true_iff, mem_out. split.
    + intros (A & B & X). rewrite T in X by auto. apply mem_out in X. repeat split; auto. intros ->. apply B. rewrite On. now left.
    + intros (A & B & X). split; auto. split; [intros Y; apply B; now apply OWN|]. rewrite T by auto. now apply mem_out.
Qed.
Lemma replace_ok before dom ns all v todo : good before ns all (v :: todo) -> (exists n, In n ns /\ In v (ins n)) -> (forall i, ~ before i i) -> exists p, replace_subgraph dom ns all v = Ok p.
Proof.
  intros [N C E S O] (n & Hn & Hv) irr. unfold replace_subgraph. destruct (O v (or_introl eq_refl)) as (nd & Hnd & On & In_).
  destruct (find (fun n => mem v (outs n)) ns) as [k|] eqn:F; [|exfalso; apply (find_none _ _ F) in Hnd; rewrite On in Hnd; cbn in Hnd; rewrite Nat.eqb_refl in Hnd; easy].
  destruct (dependents ns all v) as [|d l] eqn:D; [|eauto]. exfalso. destruct (outs n) as [|w r] eqn:Ow; [now apply (E n)|].
  assert (X : In w (dependents ns all v)); [|rewrite D in X; easy].
  unfold dependents. apply filter_In. split; [apply C; apply in_concat_outs; exists n; split; auto; rewrite Ow; now left|]. apply andb_true_iff. split.
  - apply negb_true_iff, Nat.eqb_neq. intros ->. assert (n = nd) by (apply (outs_unique ns N n nd v); auto; [rewrite Ow|rewrite On]; now left). subst. apply (irr v). auto.
  - apply existsb_exists. exists n. split; auto. apply andb_true_iff. split; apply mem_in; auto. rewrite Ow. now left.
Qed.
Lemma replace_notimpl dom ns all v : replace_subgraph dom ns all v <> Err NotImplementedError.
Proof. unfold replace_subgraph. destruct (dependents ns all v); [easy|]. destruct (find _ ns); easy. Qed.

(** ** The loop *)
Section Loop.
Context (before : nat -> nat -> Prop) (dom : nat -> list V) (basic : list nat) (irr : forall i, ~ before i i).
Definition state ns left (O : list nat) : Prop :=
  StronglySorted (fun x y => ~ before x y) O /\ NoDup O /\ NoDup (basic ++ left) /\ (forall w, In w left <-> In w O) /\ good before ns (basic ++ left) O.
Lemma state_step ns left v O p : state ns left (v :: O) -> replace_subgraph dom ns (basic ++ left) v = Ok p ->
  state (fst p :: snd p) (filter (fun w => negb (w =? v)) left) O /\ (forall a, prod (fst p :: snd p) a = sum_over dom [v] (prod ns) a) /\ (forall u, In u O -> ~ In u (outs (fst p))).
Proof.
  intros (SS & ND & NL & L & G) R. inversion SS as [|? ? S1 S2]; subst. inversion ND as [|? ? N1 N2]; subst.
  rewrite Forall_forall in S2. destruct (step_good before dom ns (basic ++ left) v O p) as [G' P]; auto.
  destruct (step_shape before dom ns (basic ++ left) v O p) as (nd & Hnd & On & Sf & DEP & INS & RST); auto.
  split; [|split; auto].
  - split; auto. split; auto.
    assert (Ef : filter (fun w => negb (w =? v)) (basic ++ left) = basic ++ filter (fun w => negb (w =? v)) left).
    { rewrite filter_app. f_equal. assert (X : ~ In v basic).
      { intros X. assert (In v left) by (apply L; now left). clear - X H NL. induction basic as [|b l IH]; [easy|]. cbn in NL. inversion NL; subst. destruct X as [->|X]; auto.
        apply H2. apply in_or_app. now right. }
      clear - X. induction basic as [|b l IH]; cbn; auto. destruct (Nat.eqb_spec b v); [subst; exfalso; apply X; now left|]. cbn. f_equal. apply IH. intros Y. apply X. now right. }
    rewrite Ef in G'. split; [rewrite <- Ef; now apply NoDup_filter|]. split; auto.
    intros w. rewrite filter_In, L, negb_true_iff, Nat.eqb_neq. cbn. split; [intros [[->|A] B]; auto; easy|]. intros H. split; auto. intros ->. auto.
  - intros u Hu X. apply DEP in X as (_ & n & Hn & Un & Vn). destruct G as [GN _ _ _ GO]. destruct (GO u (or_intror Hu)) as (nu & Hnu & Ou & Iu).
    assert (n = nu) by (apply (outs_unique ns GN n nu u); auto; rewrite Ou; now left). subst. apply (S2 u Hu). auto.
Qed.
Lemma loop_prod : forall O left ns others stale r, state ns left O -> marginalize_loop dom basic left ns others stale O = Ok r ->
  forall a, prod (fst r) a = sum_over dom (rev O) (prod ns) a.
Proof.
  induction O as [|v O IH]; intros left ns others stale r ST R a; cbn [marginalize_loop] in R.
  - injection R as <-. reflexivity.
  - destruct (existsb (mem v) others); [easy|]. destruct (replace_subgraph _ _ _ _) as [p|] eqn:E; [|easy]. cbn [bind] in R.
    destruct (state_step _ _ _ _ _ ST E) as (ST' & P & _). rewrite (IH _ _ _ _ _ ST' R). cbn [rev]. rewrite sum_over_app. now apply sum_over_eq.
Qed.
(** which variables get replaced: those that read a marginalized variable *)
Lemma loop_stale : forall O left ns others stale r, state ns left O -> marginalize_loop dom basic left ns others stale O = Ok r ->
  forall w, ~ In w O -> (In w (snd r) <-> In w stale \/ exists n u, In n ns /\ In w (outs n) /\ In u (ins n) /\ In u O).
Proof.
  induction O as [|v O IH]; intros left ns others stale r ST R w Hw; cbn [marginalize_loop] in R.
  - injection R as <-. cbn. firstorder.
  - destruct (existsb (mem v) others); [easy|]. destruct (replace_subgraph _ _ _ _) as [p|] eqn:E; [|easy]. cbn [bind] in R.
    destruct (state_step _ _ _ _ _ ST E) as (ST' & _ & NO). destruct ST as (SS & ND & NL & L & G).
    destruct (step_shape before dom ns (basic ++ left) v O p irr G E) as (nd & Hnd & On & Sf & DEP & INS & RST).
    rewrite (IH _ _ _ _ _ ST' R) by (intros X; apply Hw; now right). rewrite in_app_iff. split.
    + intros [[H|H]|(n & u & [<-|Hn] & Wn & Un & Hu)]; auto.
      * apply DEP in H as (_ & n & Hn & Wn & Vn). right. exists n, v. cbn; auto.
      * apply DEP in Wn as (_ & n & Hn & Wn & Vn). right. exists n, v. cbn; auto.
      * apply RST in Hn as (Hn & _). right. exists n, u. cbn; auto.
    + intros [H|(n & u & Hn & Wn & Un & Hu)]; auto. destruct (mem v (ins n)) eqn:M.
      * apply mem_in in M. left. right. apply DEP. split; [intros ->; apply Hw; now left|eauto].
      * apply mem_out in M. right. exists n, u. destruct Hu as [->|Hu]; [now exfalso|]. repeat split; auto. right. apply RST. repeat split; auto. intros ->. rewrite On in Wn. destruct Wn as [->|[]].
        apply Hw. now left.
Qed.
(** deterministics and potentials *)
Lemma loop_others : forall O left ns others stale r, state ns left O -> marginalize_loop dom basic left ns others stale O = Ok r ->
  forall rd u, In rd others -> In u O -> ~ In u rd.
Proof.
  induction O as [|v O IH]; intros left ns others stale r ST R rd u Hrd Hu Hin; [easy|]. cbn [marginalize_loop] in R.
  destruct (existsb (mem v) others) eqn:X; [easy|]. destruct (replace_subgraph _ _ _ _) as [p|] eqn:E; [|easy]. cbn [bind] in R.
  destruct (state_step _ _ _ _ _ ST E) as (ST' & _ & NO). destruct Hu as [->|Hu].
  - assert (existsb (mem u) others = true); [|congruence]. apply existsb_exists. exists rd. split; auto. now apply mem_in.
  - apply (IH _ _ _ _ _ ST' R (reads_after (fst p) rd) u); auto; [now apply in_map|]. unfold reads_after. destruct (existsb _ rd); auto. apply in_or_app. left.
    apply filter_In. split; auto. apply negb_true_iff, mem_out. auto.
Qed.
Lemma loop_others2 : forall O left ns others stale r, state ns left O -> marginalize_loop dom basic left ns others stale O = Ok r ->
  forall rd w n u1 u2, In rd others -> In w rd -> In n ns -> In w (outs n) -> In u1 (ins n) -> In u2 (ins n) -> In u1 O -> In u2 O -> u1 = u2.
Proof.
  induction O as [|v O IH]; intros left ns others stale r ST R rd w n u1 u2 Hrd Hw Hn Wn U1 U2 O1 O2; [easy|].
  pose proof (loop_others _ _ _ _ _ _ ST R) as LO. cbn [marginalize_loop] in R.
  destruct (existsb (mem v) others) eqn:X; [easy|]. destruct (replace_subgraph _ _ _ _) as [p|] eqn:E; [|easy]. cbn [bind] in R.
  destruct (state_step _ _ _ _ _ ST E) as (ST' & _ & NO). pose proof (loop_others _ _ _ _ _ _ ST' R) as LO'.
  destruct ST as (SS & ND & NL & L & G). destruct (step_shape before dom ns (basic ++ left) v O p irr G E) as (nd & Hnd & On & Sf & DEP & INS & RST).
  destruct (mem v (ins n)) eqn:M.
  - apply mem_in in M. assert (WD : In w (outs (fst p))) by (apply DEP; split; [intros ->; apply (LO rd v Hrd (or_introl eq_refl) Hw)|eauto]).
    assert (K : forall u, In u O -> In u (ins n) -> False).
    { intros u Hu Ui. apply (LO' (reads_after (fst p) rd) u); auto; [now apply in_map|]. unfold reads_after. replace (existsb _ rd) with true.
      - apply in_or_app. right. apply INS. split; [|split; eauto]. intros ->. inversion ND; auto.
      - symmetry. apply existsb_exists. exists w. split; auto. now apply mem_in. }
    destruct O1 as [<-|O1]; [|now exfalso; apply (K u1)]. destruct O2 as [<-|O2]; auto. now exfalso; apply (K u2).
  - apply mem_out in M. destruct O1 as [<-|O1]; [easy|]. destruct O2 as [<-|O2]; [easy|].
    assert (WD : ~ In w (outs (fst p))).
    { intros Y. apply DEP in Y as (_ & k & Hk & Wk & Vk). destruct G as [GN _ _ _ _]. assert (k = n) by (apply (outs_unique ns GN k n w); auto). subst. auto. }
    apply (IH _ _ _ _ _ ST' R (reads_after (fst p) rd) w n); auto; [now apply in_map| |].
    + unfold reads_after. destruct (existsb _ rd); auto. apply in_or_app. left. apply filter_In. split; auto. now apply negb_true_iff, mem_out.
    + right. apply RST. repeat split; auto. intros ->. rewrite On in Wn. destruct Wn as [->|[]]. apply (LO rd w Hrd (or_introl eq_refl) Hw).
Qed.
Lemma loop_read : forall O left ns others stale r, state ns left O -> marginalize_loop dom basic left ns others stale O = Ok r ->
  forall u, In u O -> exists n, In n ns /\ In u (ins n).
Proof.
  induction O as [|v O IH]; intros left ns others stale r ST R u Hu; [easy|]. cbn [marginalize_loop] in R.
  destruct (existsb (mem v) others) eqn:X; [easy|]. destruct (replace_subgraph _ _ _ _) as [p|] eqn:E; [|easy]. cbn [bind] in R.
  destruct (state_step _ _ _ _ _ ST E) as (ST' & _ & NO). destruct ST as (SS & ND & NL & L & G).
  destruct (step_shape before dom ns (basic ++ left) v O p irr G E) as (nd & Hnd & On & Sf & DEP & INS & RST). destruct Hu as [<-|Hu].
  - destruct ST' as (_ & _ & _ & _ & [_ _ NE _ _]). specialize (NE (fst p) (or_introl eq_refl)). destruct (outs (fst p)) as [|d l] eqn:D; [easy|].
    destruct (proj1 (DEP d) (or_introl eq_refl)) as (_ & n & Hn & _ & Vn). eauto.
  - destruct (IH _ _ _ _ _ ST' R u Hu) as (n & [<-|Hn] & Un).
    + apply INS in Un as (_ & _ & k & Hk & _ & Uk). eauto.
    + apply RST in Hn as (Hn & _). eauto.
Qed.
Lemma loop_ok : forall O left ns others stale, state ns left O -> (forall u, In u O -> exists n, In n ns /\ In u (ins n)) ->
  (forall rd w, In rd others -> In w rd -> ~ In w O /\ forall n u, In n ns -> In w (outs n) -> In u (ins n) -> ~ In u O) ->
  exists r, marginalize_loop dom basic left ns others stale O = Ok r.
Proof.
  induction O as [|v O IH]; intros left ns others stale ST RD OT; cbn [marginalize_loop]; [eauto|].
  destruct (existsb (mem v) others) eqn:X.
  { exfalso. apply existsb_exists in X as (rd & Hrd & X). apply mem_in in X. destruct (OT rd v Hrd X) as [A _]. apply A. now left. }
  destruct (replace_ok before dom ns (basic ++ left) v O) as (p & E); auto; [apply ST|apply RD; now left|]. rewrite E. cbn [bind].
  destruct (state_step _ _ _ _ _ ST E) as (ST' & _ & NO). pose proof ST as (SS & ND & NL & L & G).
  destruct (step_shape before dom ns (basic ++ left) v O p irr G E) as (nd & Hnd & On & Sf & DEP & INS & RST).
  assert (DD : forall rd w, In rd others -> In w rd -> ~ In w (outs (fst p))).
  { intros rd w Hrd Hw Y. apply DEP in Y as (_ & n & Hn & Wn & Vn). destruct (OT rd w Hrd Hw) as [_ A]. apply (A n v); auto. now left. }
  apply IH; auto.
  - intros u Hu. destruct (RD u (or_intror Hu)) as (n & Hn & Un). destruct (mem v (ins n)) eqn:M.
    + apply mem_in in M. exists (fst p). split; [now left|]. apply INS. split; [intros ->; inversion ND; auto|]. split; eauto.
    + apply mem_out in M. assert (Q : n = nd \/ n <> nd).
      { destruct (mem v (outs n)) eqn:Mo; [left; apply mem_in in Mo; destruct G as [GN _ _ _ _]; apply (outs_unique ns GN n nd v); auto; rewrite On; now left|].
        right. intros ->. rewrite On in Mo. cbn in Mo. rewrite Nat.eqb_refl in Mo. easy. }
      destruct Q as [->|Q].
      * exists (fst p). split; [now left|]. apply INS. split; [intros ->; inversion ND; auto|]. split; eauto.
      * exists n. split; auto. right. now apply RST.
  - intros rd w Hrd Hw. apply in_map_iff in Hrd as (rd0 & Er & Hrd). assert (RA : reads_after (fst p) rd0 = rd0).
    { unfold reads_after. destruct (existsb _ rd0) eqn:Y; auto. exfalso. apply existsb_exists in Y as (z & Hz & Y). apply mem_in in Y. apply (DD rd0 z); auto. }
    rewrite RA in Er. subst rd0. destruct (OT rd w Hrd Hw) as [A B]. split; [intros Y; apply A; now right|].
    intros n u [<-|Hn] Wn Un Hu; [now apply (DD rd w)|]. apply RST in Hn as (Hn & _). apply (B n u); auto. now right.
Qed.
End Loop.

(** ** From a model to the loop *)
Fixpoint pos (l : list nat) (x : nat) : nat := match l with [] => 0 | y :: r => if x =? y then 0 else S (pos r x) end.
Lemma pos_app l r x : In x l -> pos (l ++ r) x = pos l x.
Proof. induction l as [|y l IH]; cbn; [easy|]. intros [->|H]; [now rewrite Nat.eqb_refl|]. destruct (x =? y); auto. Qed.
Lemma pos_lt l x : In x l -> pos l x < length l.
Proof. induction l as [|y l IH]; cbn; [easy|]. intros [->|H]; [rewrite Nat.eqb_refl; lia|]. destruct (x =? y); [lia|]. apply IH in H. lia. Qed.
Lemma pos_at l x r : ~ In x l -> pos (l ++ x :: r) x = length l.
Proof. induction l as [|y l IH]; cbn; [now rewrite Nat.eqb_refl|]. intros H. destruct (Nat.eqb_spec x y); [subst; exfalso; apply H; now left|]. rewrite IH; auto. Qed.
Lemma rev_sorted l : NoDup l -> StronglySorted (fun x y => ~ pos l x < pos l y) (rev l).
Proof.
  induction l as [|x l IH] using rev_ind; [constructor|]. intros N. rewrite rev_app_distr. cbn.
  assert (NX : ~ In x l /\ NoDup l). { apply NoDup_remove in N. rewrite app_nil_r in N. tauto. } destruct NX as [NX NL].
  constructor.
  - specialize (IH NL). clear - IH. assert (H : forall y, In y (rev l) -> In y l) by (intros; now apply in_rev). induction IH as [|y r S I F]; constructor.
    + apply I. intros; apply H; now right.
    + rewrite Forall_forall in *. intros z Hz. rewrite !pos_app; auto; apply H; cbn; auto.
  - apply Forall_forall. intros y Hy. apply in_rev in Hy. rewrite pos_at, pos_app by auto. apply pos_lt in Hy. lia.
Qed.
Lemma sorted_filter {A} (R : A -> A -> Prop) (P : A -> bool) l : StronglySorted R l -> StronglySorted R (filter P l).
Proof. induction 1 as [|x l S I F]; cbn; [constructor|]. destruct (P x); auto. constructor; auto. rewrite Forall_forall in *. intros y Hy. apply F. apply filter_In in Hy. tauto. Qed.
Lemma in_order (m : model V) marg v : wf_model m -> incl marg (toposort m) -> (In v (order m marg) <-> In v marg).
Proof. intros W I. unfold order. rewrite filter_In, <- in_rev, mem_in. split; [tauto|]. auto. Qed.
Lemma order_perm (m : model V) marg : wf_model m -> NoDup marg -> incl marg (toposort m) -> Permutation (rev (order m marg)) marg.
Proof.
  intros W N I. transitivity (order m marg); [symmetry; apply Permutation_rev|]. apply NoDup_Permutation; auto.
  - apply NoDup_filter. apply NoDup_rev. apply W.
  - intros v. now apply in_order.
Qed.
Definition mbefore (m : model V) i u := pos (toposort m) i < pos (toposort m) u.
Lemma in_topo_node (m : model V) v : wf_model m -> In v (toposort m) -> exists n, In n (nodes m) /\ outs n = [v].
Proof.
  intros [W1 W2 W3 W4 W5] H. apply (Permutation_in _ (proj2 W2)) in H. apply in_concat_outs in H as (n & Hn & Hv). exists n. split; auto. destruct (W1 n Hn) as (w & E). rewrite E in Hv. destruct Hv as [->|[]]. auto.
Qed.
Lemma reads_before (m : model V) n v i : wf_model m -> In n (nodes m) -> outs n = [v] -> In i (ins n) -> mbefore m i v /\ In i (toposort m).
Proof.
  intros [W1 W2 W3 W4 W5] Hn On Hi. assert (Hv : In v (toposort m)). { apply (Permutation_in _ (Permutation_sym (proj2 W2))). apply in_concat_outs. exists n. split; auto. rewrite On. now left. }
  apply in_split in Hv as (l1 & l2 & E). pose proof (W3 l1 v l2 n E Hn On i Hi) as H. unfold mbefore. rewrite E. destruct W2 as [ND _]. rewrite E in ND. apply NoDup_remove in ND as [_ ND].
  rewrite pos_at by (intros X; apply ND; apply in_or_app; auto). rewrite pos_app by auto. split; [now apply pos_lt|]. apply in_or_app. auto.
Qed.
Lemma init_state (m : model V) marg : wf_model m -> NoDup marg -> incl marg (toposort m) ->
  state (mbefore m) (basic_rvs m marg) (nodes m) marg (order m marg).
Proof.
  intros W N I. pose proof W as [W1 W2 W3 W4 W5]. split; [|split; [|split; [|split]]].
  - apply sorted_filter. apply rev_sorted. apply W2.
  - apply NoDup_filter. apply NoDup_rev. apply W2.
  - assert (A : NoDup (basic_rvs m marg)) by (apply NoDup_filter; apply (Permutation_NoDup (proj2 W2)), W2).
    assert (B : forall x, In x (basic_rvs m marg) -> ~ In x marg) by (intros x Hx; apply filter_In in Hx as [_ Hx]; now apply negb_true_iff, mem_out in Hx).
    clear - A B N. revert A B. generalize (basic_rvs m marg). intros l A B. induction A as [|x l H A IH]; cbn; auto. constructor.
    + intros X. apply in_app_or in X as [X|X]; auto. apply (B x); cbn; auto.
    + apply IH. intros y Hy. apply B. now right.
  - intros w. symmetry. now apply in_order.
  - split.
    + apply (Permutation_NoDup (proj2 W2)), W2.
    + intros w. rewrite in_app_iff. unfold basic_rvs. rewrite filter_In, negb_true_iff, mem_out. split.
      * intros H. destruct (mem w marg) eqn:M; [right; now apply mem_in|left]. now apply mem_out in M.
      * intros [[H _]|H]; auto. apply (Permutation_in _ (proj2 W2)). auto.
    + intros n Hn. destruct (W1 n Hn) as (v & ->). easy.
    + intros n Hn a b. now apply W4.
    + intros u Hu. apply in_order in Hu; auto. destruct (in_topo_node m u W (I u Hu)) as (n & Hn & On). exists n. repeat split; auto. intros i Hi. now apply (reads_before m n u i).
Qed.
Lemma mirr (m : model V) i : ~ mbefore m i i.
Proof. unfold mbefore. lia. Qed.

(** ** C86 *)
(** Whenever logp returns, its exponential is the density of the variables summed over every value of the marginalized ones, in whatever order they were listed and whatever
    depends on what, times the potentials; in these, a variable that reads a marginalized variable has the value of a random draw, not the value given. *)
Theorem C86_marginal_density (m : model V) marg draws a l : wf_model m -> NoDup marg -> incl marg (toposort m) -> logp m marg draws a = Ok l ->
  exists b, lexp l = (sum_over (domain m) marg (rv_density m) a * pot_density m b)%R /\
    forall w, ~ In w marg -> ((exists u, In u marg /\ reads_var m w u) -> b w = draws w) /\ (~ (exists u, In u marg /\ reads_var m w u) -> b w = a w).
Proof.
  intros W N I. unfold logp, marginalize. destruct (marginalize_loop _ _ _ _ _ _ _) as [r|] eqn:E; [|easy]. cbn [bind]. destruct (has_order _ _); [|easy]. intros R. injection R as <-.
  pose proof (init_state m marg W N I) as ST.
  exists (fun w => if mem w (snd r) then draws w else a w). split.
  - rewrite lexp_lsum, map_app, !map_map, Rprod_app. f_equal. fold (prod (fst r) a). rewrite (loop_prod _ _ _ (mirr m) _ _ _ _ _ _ ST E).
    change (rv_density m) with (prod (nodes m)). apply sum_over_perm.
    + apply prod_ext. intros n Hn a' b'. now apply W.
    + now apply order_perm.
    + apply (Permutation_NoDup (l := marg)); auto. symmetry. now apply order_perm.
  - intros w Hw. pose proof (loop_stale _ _ _ (mirr m) _ _ _ _ _ _ ST E w) as SL.
    assert (K : In w (snd r) <-> exists u, In u marg /\ reads_var m w u).
    { rewrite SL by (rewrite in_order; auto). split.
      - intros [[]|(n & u & Hn & Wn & Un & Hu)]. apply in_order in Hu; auto. exists u. split; auto. exists n. repeat split; auto.
        destruct (wf_single m W n Hn) as (x & Ex). rewrite Ex in *. destruct Wn as [->|[]]. auto.
      - intros (u & Hu & n & Hn & On & Un). right. exists n, u. rewrite On. cbn. repeat split; auto. now apply in_order. }
    split; intros H.
    + apply K in H. apply mem_in in H. now rewrite H.
    + rewrite <- K in H. apply mem_out in H. now rewrite H.
Qed.
(** So logp is the logarithm of the marginal density when no potential reads a variable that reads a marginalized one. *)
Theorem C86_marginal_density_exact (m : model V) marg draws a l : wf_model m -> NoDup marg -> incl marg (toposort m) -> logp m marg draws a = Ok l ->
  (forall p w u, In p (pots m) -> In w (fst p) -> In u marg -> ~ reads_var m w u) ->
  lexp l = sum_over (domain m) marg (density m) a.
Proof.
  intros W N I E P. destruct (C86_marginal_density m marg draws a l W N I E) as (b & -> & B).
  assert (PM : forall p u, In p (pots m) -> In u marg -> ~ In u (fst p)).
  { intros p u Hp Hu. unfold logp, marginalize in E. destruct (marginalize_loop _ _ _ _ _ _ _) as [r|] eqn:R; [|easy].
    apply (loop_others _ _ _ (mirr m) _ _ _ _ _ _ (init_state m marg W N I) R); [|now apply in_order]. apply in_or_app. right. now apply in_map. }
  assert (PB : pot_density m b = pot_density m a).
  { unfold pot_density. f_equal. apply map_ext_in. intros p Hp. f_equal. apply W; auto. intros w Hw. apply B; [intros X; now apply (PM p w)|]. intros (u & Hu & Rd). now apply (P p w u). }
  rewrite PB. symmetry. change (density m) with (fun a => (rv_density m a * pot_density m a)%R). apply sum_over_mul.
  intros a' v x Hv. unfold pot_density. f_equal. apply map_ext_in. intros p Hp. f_equal. apply W; auto. intros w Hw. unfold upd. destruct (Nat.eqb_spec w v); auto. subst. exfalso. now apply (PM p v).
Qed.
(** A marginalization is accepted only if every marginalized variable is read by some variable and by no deterministic or potential, ... *)
Theorem C86_accepted (m : model V) marg r : wf_model m -> NoDup marg -> incl marg (toposort m) -> marginalize m marg = Ok r ->
  (forall u, In u marg -> exists w, reads_var m w u) /\ (forall rd u, In rd (dets m ++ map fst (pots m)) -> In u marg -> ~ In u rd).
Proof.
  intros W N I R. pose proof (init_state m marg W N I) as ST. split.
  - intros u Hu. destruct (loop_read _ _ _ (mirr m) _ _ _ _ _ _ ST R u) as (n & Hn & Un); [now apply in_order|]. destruct (wf_single m W n Hn) as (w & E). exists w, n. auto.
  - intros rd u Hrd Hu. apply (loop_others _ _ _ (mirr m) _ _ _ _ _ _ ST R); auto. now apply in_order.
Qed.
(** ... and these conditions suffice when no deterministic or potential reads a variable that reads a marginalized one. *)
Theorem C86_accepts (m : model V) marg : wf_model m -> NoDup marg -> incl marg (toposort m) ->
  (forall u, In u marg -> exists w, reads_var m w u) -> (forall rd u, In rd (dets m ++ map fst (pots m)) -> In u marg -> ~ In u rd) ->
  (forall rd w u, In rd (dets m ++ map fst (pots m)) -> In w rd -> In u marg -> ~ reads_var m w u) -> exists r, marginalize m marg = Ok r.
Proof.
  intros W N I A B C. apply (loop_ok (mbefore m)); [apply mirr|now apply init_state| |].
  - intros u Hu. apply in_order in Hu; auto. destruct (A u Hu) as (w & n & Hn & _ & Un). eauto.
  - intros rd w Hrd Hw. split; [intros X; apply in_order in X; auto; now apply (B rd w)|]. intros n u Hn Wn Un Hu. apply in_order in Hu; auto.
    apply (C rd w u); auto. exists n. repeat split; auto. destruct (wf_single m W n Hn) as (x & Ex). rewrite Ex in *. destruct Wn as [->|[]]. auto.
Qed.
(** REFUTED: that deterministics and potentials only may not read the marginalized variables themselves.  One that reads a variable depending on two marginalized variables is always refused. *)
Theorem C86_refusal_refuted (m : model V) marg rd y u1 u2 : wf_model m -> NoDup marg -> incl marg (toposort m) ->
  In rd (dets m ++ map fst (pots m)) -> In y rd -> In u1 marg -> In u2 marg -> u1 <> u2 -> reads_var m y u1 -> reads_var m y u2 -> forall r, marginalize m marg <> Ok r.
Proof.
  intros W N I Hrd Hy H1 H2 D (n1 & Hn1 & O1 & I1) (n2 & Hn2 & O2 & I2) r R. apply D.
  assert (n2 = n1). { apply (outs_unique (nodes m)) with (w := y); auto; [apply (Permutation_NoDup (proj2 (wf_topo m W))), W|rewrite O2; now left|rewrite O1; now left]. } subst.
  eapply (loop_others2 _ _ _ (mirr m) _ _ _ _ _ _ (init_state m marg W N I) R rd y n1); eauto; try (now apply in_order). rewrite O1. now left.
Qed.

(** ** The rewritten graph *)
Lemma kahn_stuck : forall f ns, length ns <= f -> has_order f ns = false -> exists S : list (node V), S <> [] /\ incl S ns /\ forall n, In n S -> exists i k, In i (ins n) /\ In k S /\ In i (outs k).
Proof.
  induction f as [|f IH]; intros ns L H.
  - destruct ns; cbn in *; [easy|lia].
  - destruct ns as [|n0 l]; [easy|]. cbn [has_order] in H. destruct (existsb (ready (n0 :: l)) (n0 :: l)) eqn:R.
    + destruct (IH (filter (fun n => negb (ready (n0 :: l) n)) (n0 :: l))) as (S & A & B & C); auto.
      * apply existsb_exists in R as (n & Hn & R). assert (X : forall (P : node V -> bool) l n, In n l -> P n = false -> length (filter P l) < length l).
        { clear. intros P l n. induction l as [|k l IH]; cbn; [easy|]. assert (length (filter P l) <= length l) by (clear; induction l as [|x l IH]; cbn; [lia|destruct (P x); cbn; lia]). intros [->|H'] Pn; [rewrite Pn; lia|]. destruct (P k); cbn; specialize (IH H' Pn); lia. }
        specialize (X (fun n => negb (ready (n0 :: l) n)) (n0 :: l) n Hn). cbv beta in X. rewrite R in X. specialize (X eq_refl). cbn [length] in X, L. lia.
      * exists S. repeat split; auto. intros x Hx. apply B in Hx. now apply filter_In in Hx.
    + exists (n0 :: l). split; [easy|]. split; [easy|]. intros n Hn. assert (Rn : ready (n0 :: l) n = false).
      { destruct (ready (n0 :: l) n) eqn:X; auto. assert (existsb (ready (n0 :: l)) (n0 :: l) = true) by (apply existsb_exists; eauto). congruence. }
      unfold ready in Rn. assert (Y : exists i, In i (ins n) /\ existsb (fun k => mem i (outs k)) (n0 :: l) = true).
      { clear - Rn. induction (ins n) as [|i r IH]; [easy|]. cbn [forallb] in Rn. apply andb_false_iff in Rn as [Rn|Rn]; [exists i; split; [now left|now apply negb_false_iff]|].
        destruct (IH Rn) as (i' & A & B). exists i'. split; auto. now right. }
      destruct Y as (i & Hi & Y). apply existsb_exists in Y as (k & Hk & Y). apply mem_in in Y. eauto.
Qed.
Lemma kahn_cycle : forall f ns (S : list (node V)), S <> [] -> incl S ns -> (forall n, In n S -> exists i k, In i (ins n) /\ In k S /\ In i (outs k)) -> has_order f ns = false.
Proof.
  induction f as [|f IH]; intros ns S NE I C.
  - destruct ns as [|n0 l]; [|easy]. destruct S as [|k S]; [easy|]. destruct (I k); now left.
  - destruct ns as [|n0 l]; [destruct S as [|k S]; [easy|]; destruct (I k); now left|]. cbn [has_order]. destruct (existsb _ _); auto. apply (IH _ S); auto.
    intros n Hn. apply filter_In. split; auto. apply negb_true_iff. destruct (ready _ n) eqn:R; auto. exfalso. unfold ready in R. rewrite forallb_forall in R. destruct (C n Hn) as (i & k & Hi & Hk & X).
    specialize (R i Hi). apply negb_true_iff in R. assert (existsb (fun k => mem i (outs k)) (n0 :: l) = true); [|congruence]. apply existsb_exists. exists k. split; auto. now apply mem_in.
Qed.
Lemma reads_pos (m : model V) w v : wf_model m -> reads_var m w v -> mbefore m v w.
Proof. intros W (n & Hn & On & Hi). now apply (reads_before m n w v). Qed.
Lemma anc_pos (m : model V) d w : wf_model m -> ancestor m d w -> mbefore m d w.
Proof. intros W. induction 1 as [d w R|d u w A IH R]; [now apply reads_pos|]. apply reads_pos in R; auto. unfold mbefore in *. lia. Qed.
Lemma outs_one (m : model V) n w : wf_model m -> In n (nodes m) -> In w (outs n) -> outs n = [w].
Proof. intros W Hn Hw. destruct (wf_single m W n Hn) as (x & E). rewrite E in *. now destruct Hw as [->|[]]. Qed.
(** Marginalizing one variable v, the graph cannot be evaluated exactly when some variable that does not read v lies between two that do. *)
Theorem C86_one_variable_order (m : model V) v r : wf_model m -> In v (toposort m) -> marginalize m [v] = Ok r ->
  (has_order (length (fst r)) (fst r) = false <->
   exists d1 w d2, reads_var m d1 v /\ reads_var m d2 v /\ reads_var m d2 w /\ w <> v /\ ~ reads_var m w v /\ ancestor m d1 w).
Proof.
  intros W Hv R. assert (N : NoDup [v]) by (repeat constructor; easy). assert (I : incl [v] (toposort m)) by (intros x [->|[]]; auto).
  pose proof (init_state m [v] W N I) as ST. unfold marginalize in R.
  assert (EO : order m [v] = [v]).
  { assert (P : Permutation [v] (order m [v])) by (transitivity (rev (order m [v])); [symmetry; now apply order_perm|symmetry; apply Permutation_rev]). now apply Permutation_length_1_inv in P. }
  rewrite EO in *. cbn [marginalize_loop] in R. destruct (existsb _ _); [easy|]. destruct (replace_subgraph _ _ _ _) as [p|] eqn:E; [|easy]. cbn [bind] in R. injection R as <-. cbn [fst].
  destruct ST as (_ & _ & _ & _ & G). destruct (step_shape _ _ _ _ _ _ _ (mirr m) G E) as (nd & Hnd & On & Sf & DEP & INS & RST).
  assert (DR : forall d, In d (outs (fst p)) <-> reads_var m d v).
  { intros d. rewrite DEP. split.
    - intros (_ & n & Hn & Dn & Vn). exists n. split; auto. split; auto. now apply (outs_one m).
    - intros Rd. split; [intros ->; apply reads_pos in Rd; auto; now apply (mirr m) in Rd|]. destruct Rd as (n & Hn & Dn & Vn). exists n. rewrite Dn. cbn. auto. }
  pose proof (g_nodup _ _ _ _ G) as GN. split.
  - intros H. apply kahn_stuck in H as (S & NE & IS & C); [|reflexivity].
    assert (D : forall k i, In k S -> k <> fst p -> outs k = [i] -> exists d, In d (outs (fst p)) /\ ancestor m d i).
    { assert (D : forall q k i, pos (toposort m) i < q -> In k S -> k <> fst p -> outs k = [i] -> exists d, In d (outs (fst p)) /\ ancestor m d i).
      { induction q as [|q IHq]; intros k i Q Hk Kn Ki; [lia|]. destruct (C k Hk) as (i' & k' & Hi' & Hk' & X).
        assert (Kr : In k (nodes m)) by (destruct (IS k Hk) as [A|A]; [congruence|]; now apply RST in A). assert (Rd : reads_var m i i') by (exists k; auto).
        destruct (IS k' Hk') as [A|A].
        - rewrite <- A in X. exists i'. split; auto. now constructor.
        - destruct (mem i' (outs (fst p))) eqn:M; [apply mem_in in M; exists i'; split; auto; now constructor|]. apply mem_out in M. assert (B : k' <> fst p) by (intros ->; auto).
          apply RST in A as (A1 & _). destruct (IHq k' i') as (d & Hd & Ad); auto; [apply reads_pos in Rd; auto; unfold mbefore in Rd; lia|now apply (outs_one m)|].
          exists d. split; auto. eapply anc_s; eauto. }
      intros k i. apply (D (Datatypes.S (pos (toposort m) i))). lia. }
    assert (HN : In (fst p) S).
    { destruct S as [|k S0] eqn:ES; [easy|]. destruct (IS k (or_introl eq_refl)) as [A|A]; [rewrite A; now left|].
      (* walk down from k *)
      assert (Q : forall q k i, pos (toposort m) i < q -> In k (k :: S0) -> True) by auto. clear Q. rewrite <- ES in *.
      assert (W0 : forall q k i, pos (toposort m) i < q -> In k S -> In k (snd p) -> outs k = [i] -> In (fst p) S).
      { induction q as [|q IHq]; intros k1 i1 Q Hk Kr Ki; [lia|]. destruct (C k1 Hk) as (i' & k' & Hi' & Hk' & X). apply RST in Kr as (K1 & _).
        destruct (IS k' Hk') as [Z|Z]; [now rewrite Z|]. pose proof Z as Z0. apply RST in Z0 as (Z1 & _). apply (IHq k' i'); auto; [|now apply (outs_one m)].
        assert (Rd : reads_var m i1 i') by (exists k1; auto). apply reads_pos in Rd; auto. unfold mbefore in Rd. lia. }
      pose proof A as A0. apply RST in A0 as (A1 & _). destruct (wf_single m W k A1) as (i & Ei). apply (W0 (Datatypes.S (pos (toposort m) i)) k i); auto. rewrite ES. now left. }
    destruct (C (fst p) HN) as (w & k & Hw & Hk & X). apply INS in Hw as (Wv & Wd & n & Hn & K & Wn).
    assert (KN : k <> fst p) by (intros ->; auto). assert (Kr : In k (nodes m)) by (destruct (IS k Hk) as [A|A]; [congruence|]; now apply RST in A).
    destruct (D k w Hk KN) as (d1 & Hd1 & Ad); [now apply (outs_one m)|]. apply DR in Hd1. destruct K as [->|K].
    + exfalso. assert (Rw : reads_var m v w) by (exists nd; auto). apply reads_pos in Rw, Hd1; auto. apply anc_pos in Ad; auto. unfold mbefore in *. lia.
    + destruct (wf_single m W n Hn) as (d2 & E2). exists d1, w, d2. repeat split; auto; try (exists n; auto). now rewrite <- DR.
  - intros (d1 & w & d2 & R1 & R2 & Rw & Wv & Wn & A).
    (* the nodes of the variables below d1 and above w that do not read v, and the merged node *)
    assert (PATH : forall d w, ancestor m d w -> reads_var m d v -> ~ reads_var m w v -> exists T, incl T (snd p) /\ (exists k, In k T /\ outs k = [w]) /\
               forall n, In n T -> exists i, In i (ins n) /\ (In i (outs (fst p)) \/ exists k, In k T /\ In i (outs k))).
    { assert (REST : forall n x, In n (nodes m) -> outs n = [x] -> ~ reads_var m x v -> forall d, reads_var m d v -> ancestor m d x -> In n (snd p)).
      { intros n x Hn Ox Nx d Rd Ad. apply RST. repeat split; auto.
        - intros ->. rewrite On in Ox. injection Ox as ->. apply reads_pos in Rd; auto. apply anc_pos in Ad; auto. unfold mbefore in *. lia.
        - intros X. apply Nx. exists n. auto. }
      intros d x Ad Rd. induction Ad as [d x R0|d u x Ad IH R0]; intros Nx; pose proof R0 as R0'; destruct R0 as (n & Hn & Ox & Hi).
      - exists [n]. split; [|split].
        + intros k [<-|[]]. apply (REST n x) with (d := d); auto. now constructor.
        + exists n. cbn; auto.
        + intros k [<-|[]]. exists d. split; auto. left. now apply DR.
      - assert (Hnr : In n (snd p)) by (apply (REST n x) with (d := d); auto; eapply anc_s; eauto).
        destruct (mem u (outs (fst p))) eqn:M.
        + apply mem_in in M. exists [n]. split; [intros k [<-|[]]; auto|]. split; [exists n; cbn; auto|]. intros k [<-|[]]. exists u. auto.
        + apply mem_out in M. destruct IH as (T & T1 & (k & Hk & Ku) & T3); auto; [now rewrite <- DR|]. exists (n :: T). split; [intros z [<-|Hz]; auto|]. split; [exists n; cbn; auto|].
          intros z [<-|Hz].
          * exists u. split; auto. right. exists k. rewrite Ku. cbn; auto.
          * destruct (T3 z Hz) as (i & Ai & [B|(k' & B & C)]); exists i; split; auto. right. exists k'. cbn; auto. }
    destruct (PATH d1 w A R1 Wn) as (T & T1 & (k & Hk & Kw) & T3).
    apply (kahn_cycle _ _ (fst p :: T)); [easy|intros x [<-|Hx]; [now left|right; auto]|].
    intros n [<-|Hn].
    + exists w, k. split; [|split; [now right|rewrite Kw; now left]]. apply INS. split; auto. split; [now rewrite DR|]. destruct R2 as (n2 & Hn2 & O2 & I2). destruct Rw as (n3 & Hn3 & O3 & I3).
      assert (n3 = n2) by (apply (outs_unique (nodes m) GN n3 n2 d2); auto; [rewrite O3|rewrite O2]; now left). subst. eauto.
    + destruct (T3 n Hn) as (i & Hi & [B|(k' & B & C)]); exists i; [exists (fst p)|exists k']; cbn; auto.
Qed.
End Proofs.

(** ** Concrete models *)
Definition ex_term (reads : list nat) (a : asg bool) : lr := Fin (if fold_right xorb true (map a reads) then 1 else 2)%R.
Definition ex_node (v : nat) (reads : list nat) : node bool := {| outs := [v]; ins := reads; hidden := []; term := ex_term (v :: reads) |}.
Definition ex_pot (reads : list nat) := (reads, ex_term reads).
(** variable k reads the variables of the k-th list *)
Definition ex_model (parents : list (list nat)) (ds : list (list nat)) (ps : list (list nat)) : model bool :=
  {| nodes := map (fun k => ex_node k (nth k parents [])) (seq 0 (length parents)); dets := ds; pots := map ex_pot ps; toposort := seq 0 (length parents); domain := fun _ => [false; true] |}.
Lemma ex_term_scope reads a b : (forall w, In w reads -> a w = b w) -> ex_term reads a = ex_term reads b.
Proof. intros H. unfold ex_term. replace (map a reads) with (map b reads); auto. apply map_ext_in. intros w Hw. symmetry. auto. Qed.
Lemma ex_model_wf parents ds ps : (forall k i, k < length parents -> In i (nth k parents []) -> i < k) -> wf_model (ex_model parents ds ps).
Proof.
  intros H. split; cbn [nodes toposort pots ex_model].
  - intros n Hn. apply in_map_iff in Hn as (k & <- & _). exists k. reflexivity.
  - split; [apply seq_NoDup|]. rewrite map_map. cbn. replace (concat (map (fun k => [k]) (seq 0 (length parents)))) with (seq 0 (length parents)); auto.
    generalize (seq 0 (length parents)). intros l. induction l; cbn; congruence.
  - intros l1 v l2 n E Hn On i Hi. apply in_map_iff in Hn as (k & <- & Hk). cbn in On, Hi. injection On as ->. apply in_seq in Hk. specialize (H v i (proj2 Hk) Hi).
    assert (L : length l1 = v).
    { assert (X : nth (length l1) (seq 0 (length parents)) 0 = v) by (rewrite E, app_nth2, Nat.sub_diag by lia; reflexivity).
      assert (length l1 < length parents) by (rewrite <- (seq_length (length parents) 0), E, app_length; cbn; lia). rewrite seq_nth in X; cbn in *; lia. }
    assert (F : firstn (length l1) (seq 0 (length parents)) = l1) by (rewrite E; apply firstn_app_exact || (rewrite firstn_app, Nat.sub_diag, firstn_all; cbn; apply app_nil_r)).
    rewrite <- F. assert (X : nth i (seq 0 (length parents)) 0 = i) by (rewrite seq_nth; cbn; lia). rewrite <- X. rewrite <- (firstn_skipn (length l1) (seq 0 (length parents))) at 1.
    rewrite app_nth1; [apply nth_In|]; rewrite firstn_length, seq_length; lia.
  - intros n a b Hn. apply in_map_iff in Hn as (k & <- & _). cbn. intros E. apply ex_term_scope. auto.
  - intros q a b Hq. apply in_map_iff in Hq as (r & <- & _). cbn. apply ex_term_scope.
Qed.
(** x, z | x, y | x z, w | y and a potential of w: both x and z are summed out *)
Definition ex_ok := ex_model [[]; [0]; [0; 1]; [2]] [[3]] [[3]].
Lemma ex_ok_wf : wf_model ex_ok.
Proof. apply ex_model_wf. intros k i Hk. do 4 (destruct k as [|k]; [cbn; intuition lia|]). cbn in Hk. lia. Qed.
Example C86_example draws a : exists l, logp ex_ok [1; 0] draws a = Ok l /\ lexp l = sum_over (fun _ => [false; true]) [1; 0] (density ex_ok) a.
Proof.
  destruct (logp ex_ok [1; 0] draws a) as [l|e] eqn:E.
  - exists l. split; auto. apply (C86_marginal_density_exact ex_ok [1; 0] draws a l); auto; [apply ex_ok_wf| | |].
    + repeat constructor; cbn; intuition lia.
    + intros x [<-|[<-|[]]]; cbn; auto.
    + intros q w u [<-|[]] [<-|[]] Hu (n & Hn & On & In_). cbn in Hn. destruct Hn as [<-|[<-|[<-|[<-|[]]]]]; cbn in *; try congruence. destruct In_ as [<-|[]]. destruct Hu as [|[|[]]]; congruence.
  - exfalso. vm_compute in E. discriminate.
Qed.
(** REFUTED: that a marginalized model can always be evaluated.  x; y1 | x; w | y1; y2 | x w : the node of y1 and y2 reads w, which reads y1. *)
Definition ex_cycle := ex_model [[]; [0]; [1]; [0; 2]] [] [].
Theorem C86_cycle_refuted : wf_model ex_cycle /\ (exists r, marginalize ex_cycle [0] = Ok r) /\ forall draws a, logp ex_cycle [0] draws a = Err ValueError.
Proof.
  split; [|split].
  - apply ex_model_wf. intros k i Hk. do 4 (destruct k as [|k]; [cbn; intuition lia|]). cbn in Hk. lia.
  - apply C86_accepts; [apply ex_model_wf; intros k i Hk; do 4 (destruct k as [|k]; [cbn; intuition lia|]); cbn in Hk; lia|repeat constructor; easy|intros x [<-|[]]; now left| |now intros|now intros].
    intros u [<-|[]]. exists 1, (ex_node 1 [0]). cbn. auto.
  - intros draws a. vm_compute. reflexivity.
Qed.
(** REFUTED: that logp is a function of the given values.  x; y | x and a potential of y: the potential is evaluated at a fresh draw of y. *)
Definition ex_draw := ex_model [[]; [0]] [] [[1]].
Theorem C86_potential_refuted : wf_model ex_draw /\ forall a, exists d1 d2 l1 l2, logp ex_draw [0] d1 a = Ok l1 /\ logp ex_draw [0] d2 a = Ok l2 /\ lexp l1 <> lexp l2.
Proof.
  assert (W : wf_model ex_draw) by (apply ex_model_wf; intros k i Hk; do 2 (destruct k as [|k]; [cbn; intuition lia|]); cbn in Hk; lia).
  split; auto. intros a. exists (fun _ => true), (fun _ => false).
  assert (Q : forall d, exists l, logp ex_draw [0] d a = Ok l).
  { intros d. destruct (logp ex_draw [0] d a) eqn:E; eauto. exfalso. vm_compute in E. discriminate. }
  destruct (Q (fun _ => true)) as (l1 & E1). destruct (Q (fun _ => false)) as (l2 & E2). exists l1, l2. split; auto. split; auto.
  assert (N : NoDup [0]) by (repeat constructor; easy). assert (I : incl [0] (toposort ex_draw)) by (intros x [<-|[]]; cbn; auto).
  destruct (C86_marginal_density _ _ _ _ _ W N I E1) as (b1 & -> & B1). destruct (C86_marginal_density _ _ _ _ _ W N I E2) as (b2 & -> & B2).
  assert (R1 : exists u, In u [0] /\ reads_var ex_draw 1 u) by (exists 0; split; [now left|]; exists (ex_node 1 [0]); cbn; auto).
  destruct (B1 1) as [C1 _]; [cbn; intuition lia|]. destruct (B2 1) as [C2 _]; [cbn; intuition lia|]. specialize (C1 R1). specialize (C2 R1).
  unfold pot_density, Rprod. cbn [pots ex_draw ex_model map fold_right ex_pot snd ex_term fst]. unfold ex_term. cbn [map fold_right]. rewrite C1, C2. cbn [xorb lexp].
  intros X. assert (P : (0 < sum_over (domain ex_draw) [0%nat] (rv_density ex_draw) a)%R).
  { assert (P : forall a', (0 < rv_density ex_draw a')%R).
    { intros a'. unfold rv_density, Rprod. cbn [nodes ex_draw ex_model map length seq fold_right ex_node term]. unfold ex_term, lexp. repeat apply Rmult_lt_0_compat; try apply exp_pos. lra. }
    cbn [sum_over domain ex_draw ex_model map]. unfold Rsum. cbn [fold_right]. pose proof (P (upd a 0%nat false)). pose proof (P (upd a 0%nat true)). lra. }
  apply Rmult_eq_reg_l in X; [|lra]. pose proof (exp_increasing 1 2 ltac:(lra)). lra.
Qed.
(** x1; x2; y | x1 x2; a deterministic of y: refused although it reads neither x1 nor x2 *)
Definition ex_refused := ex_model [[]; []; [0; 1]] [[2]] [].
Example C86_refusal_example : wf_model ex_refused /\ (forall rd u, In rd (dets ex_refused) -> In u [0; 1] -> ~ In u rd) /\ marginalize ex_refused [0; 1] = Err NotImplementedError.
Proof.
  split; [apply ex_model_wf; intros k i Hk; do 3 (destruct k as [|k]; [cbn; intuition lia|]); cbn in Hk; lia|]. split; [|vm_compute; reflexivity].
  intros rd u [<-|[]] [<-|[<-|[]]]; cbn; intuition lia.
Qed.
