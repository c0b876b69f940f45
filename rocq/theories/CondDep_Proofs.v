From Verif Require Import Common CondDep_Model CondDep_Spec.

Lemma mem_In x l : mem x l = true <-> In x l.
Proof.
  unfold mem. rewrite existsb_exists. split.
  - intros [y [Hy He]]. apply Nat.eqb_eq in He. now subst.
  - intros H. exists x. split; [exact H | apply Nat.eqb_refl].
Qed.
Lemma mem_nIn x l : mem x l = false <-> ~ In x l.
Proof. rewrite <- mem_In. destruct (mem x l); split; intros H; congruence. Qed.

Section W.
Context (expand : nat -> list nat).

Inductive reach : nat -> nat -> Prop :=
| reach_refl v : reach v v
| reach_step v w u : In w (expand v) -> reach w u -> reach v u.

Lemma walk_sound fuel : forall stack vis r, walk expand fuel stack vis = Ok r ->
  (forall v, In v r -> In v vis \/ exists s, In s stack /\ reach s v) /\
  (forall v, In v stack \/ In v vis -> In v r) /\
  (forall v w, In v r -> ~ In v vis -> In w (expand v) -> In w r).
Proof.
  induction fuel as [|fuel IH]; intros [|x stack] vis r H; simpl in H; try discriminate.
  - injection H as <-. repeat split.
    + intros v Hv. left. now apply in_rev.
    + intros v [[]|Hv]. now apply in_rev in Hv.
    + intros v w Hv Hn. exfalso. apply Hn. now apply in_rev.
  - injection H as <-. repeat split.
    + intros v Hv. left. now apply in_rev.
    + intros v [[]|Hv]. now apply in_rev in Hv.
    + intros v w Hv Hn. exfalso. apply Hn. now apply in_rev.
  - destruct (mem x vis) eqn:E.
    + apply mem_In in E. destruct (IH _ _ _ H) as [H1 [H2 H3]]. repeat split.
      * intros v Hv. destruct (H1 v Hv) as [|[s [Hs Hr]]]; [now left | right]. exists s. split; [now right | exact Hr].
      * intros v [[<-|Hv]|Hv]; apply H2; auto.
      * exact H3.
    + apply mem_nIn in E. destruct (IH _ _ _ H) as [H1 [H2 H3]]. repeat split.
      * intros v Hv. destruct (H1 v Hv) as [[<-|Hv']|[s [Hs Hr]]].
        -- right. exists x. split; [now left | constructor].
        -- now left.
        -- right. apply in_app_iff in Hs. destruct Hs as [Hs|Hs].
           ++ exists x. split; [now left|]. econstructor; eauto.
           ++ exists s. split; [now right | exact Hr].
      * intros v [[<-|Hv]|Hv]; apply H2.
        -- right. now left.
        -- left. apply in_app_iff. now right.
        -- right. now right.
      * intros v w Hv Hn Hw. destruct (Nat.eq_dec v x) as [->|Hne].
        -- apply H2. left. apply in_app_iff. now left.
        -- apply (H3 v w); auto. intros [Heq|Hin]; congruence.
Qed.

Lemma walk_reach fuel stack r : walk expand fuel stack [] = Ok r ->
  forall v, In v r <-> exists s, In s stack /\ reach s v.
Proof.
  intros H v. destruct (walk_sound _ _ _ _ H) as [H1 [H2 H3]]. split.
  - intros Hv. now destruct (H1 v Hv) as [[]|].
  - intros [s [Hs Hr]]. assert (Hs' : In s r) by (apply H2; now left).
    clear Hs. induction Hr as [|a b c Hb _ IH]; [exact Hs'|].
    apply IH. apply (H3 a b); auto.
Qed.

(** termination *)
Definition todo (n : nat) (vis : list nat) : nat :=
  fold_right (fun v a => (if mem v vis then 0 else length (expand v)) + a) 0 (seq 0 n).

Lemma todo_gen l x vis : NoDup l -> In x l -> ~ In x vis ->
  fold_right (fun v a => (if mem v vis then 0 else length (expand v)) + a) 0 l =
  length (expand x) + fold_right (fun v a => (if mem v (x :: vis) then 0 else length (expand v)) + a) 0 l.
Proof.
  induction 1 as [|y l Hy Hnd IH]; intros Hin Hn; [easy|]. simpl.
  destruct Hin as [->|Hin].
  - rewrite Nat.eqb_refl. simpl. apply mem_nIn in Hn. rewrite Hn. f_equal.
    clear -Hy. induction l as [|z l IH]; simpl; [reflexivity|].
    destruct (Nat.eqb_spec z x) as [->|]; [exfalso; apply Hy; now left|]. simpl. rewrite IH; [reflexivity|].
    intros H; apply Hy; now right.
  - specialize (IH Hin Hn). destruct (Nat.eqb_spec y x) as [->|]; [contradiction|]. simpl. simpl in IH. rewrite IH.
    destruct (mem y vis); lia.
Qed.

Lemma walk_terminates n fuel : forall stack vis,
  (forall v, In v stack -> v < n) -> (forall v w, In w (expand v) -> w < n) ->
  length stack + todo n vis <= fuel -> exists r, walk expand fuel stack vis = Ok r.
Proof.
  induction fuel as [|fuel IH]; intros [|x stack] vis Hs He Hf; simpl in *; eauto; try lia.
  destruct (mem x vis) eqn:E.
  - apply IH; auto. lia.
  - apply IH.
    + intros v Hv. apply in_app_iff in Hv. destruct Hv; [eapply He; eauto | auto].
    + exact He.
    + rewrite app_length. unfold todo in *.
      rewrite (todo_gen (seq 0 n) x vis) in Hf.
      * lia.
      * apply seq_NoDup.
      * apply in_seq. pose proof (Hs x (or_introl eq_refl)). lia.
      * now apply mem_nIn.
Qed.
End W.

Lemma todo_nil expand n : todo expand n [] = fold_right (fun v a => length (expand v) + a) 0 (seq 0 n).
Proof. reflexivity. Qed.

Lemma expand_edge g bl v w : In w (expand_of g bl v) <-> (edge g v w /\ ~ In v bl).
Proof.
  unfold expand_of, edge. destruct (inputs g v) as [l|].
  - destruct (mem v bl) eqn:E.
    + apply mem_In in E. split; [easy | intros [_ H]; contradiction].
    + apply mem_nIn in E. split.
      * intros H. split; [now exists l | exact E].
      * intros [[l' [Hl H]] _]. now injection Hl as <-.
  - split; [easy|]. intros [[l [Hl _]] _]. discriminate.
Qed.

Lemma edge_lt g v u : wf_graph g -> edge g v u -> u < v /\ v < g_size g.
Proof. intros Hwf [l [Hl Hu]]. eapply Hwf; eauto. Qed.

Lemma ancestors_total g vars bl : wf_graph g -> (forall v, In v vars -> v < g_size g) ->
  exists r, ancestors g vars bl = Ok r.
Proof.
  intros Hwf Hv. unfold ancestors. apply walk_terminates with (n := g_size g).
  - intros v H. apply Hv. now apply in_rev.
  - intros v w Hw. apply expand_edge in Hw. destruct Hw as [He _]. apply edge_lt in He; [lia | exact Hwf].
  - unfold walk_fuel. rewrite todo_nil. lia.
Qed.

Lemma ancestors_reach g vars bl r : ancestors g vars bl = Ok r ->
  forall v, In v r <-> exists s, In s vars /\ reach (expand_of g bl) s v.
Proof.
  intros H v. rewrite (walk_reach _ _ _ _ H). split; intros [s [Hs Hr]]; exists s; split; auto; now apply in_rev in Hs || (apply in_rev; rewrite ?rev_involutive; auto).
Qed.

(** every variable from which [v] is reached *)
Lemma reach_nil_trans g a b c : reach (expand_of g []) a b -> edge g b c -> reach (expand_of g []) a c.
Proof.
  induction 1 as [|x y z Hy _ IH]; intros He.
  - econstructor; [|constructor]. apply expand_edge. auto.
  - econstructor; [exact Hy | auto].
Qed.

Lemma reach_weaken g bl a b : reach (expand_of g bl) a b -> reach (expand_of g []) a b.
Proof.
  induction 1 as [|x y z Hy _ IH]; [constructor|]. econstructor; [|exact IH].
  apply expand_edge in Hy. apply expand_edge. split; [tauto | easy].
Qed.

Lemma reach_path g bl s v : ~ In s bl ->
  (reach (expand_of g bl) s v <-> v = s \/ path g (fun w => ~ In w bl) s v).
Proof.
  intros Hs. split.
  - intros H. induction H as [|x y z Hy Hr IH]; [now left|]. right.
    apply expand_edge in Hy. destruct Hy as [He _].
    inversion Hr as [|? w ? Hw Hr']; subst.
    + now apply path_one.
    + assert (Hny : ~ In y bl) by (apply expand_edge in Hw; tauto).
      apply path_step with (w := y); auto.
      destruct (IH Hny) as [->|Hp]; [|exact Hp].
      (* cycle through y: degenerate, still a path step *)
      apply expand_edge in Hw. destruct Hw as [Hew _].
      clear -Hr' Hew Hny. revert Hew. 
      assert (Hg : forall a b, reach (expand_of g bl) a b -> forall c, edge g c a -> path g (fun w => ~ In w bl) c b).
      { induction 1 as [|a b d Hb _ IH]; intros c Hc; [now apply path_one|].
        apply expand_edge in Hb. destruct Hb as [Hb Hn]. apply path_step with (w := a); auto. }
      intros Hew. now apply (Hg w y Hr').
  - intros [->|Hp]; [constructor|].
    induction Hp as [a b He|a w b He Hw Hp IH].
    + econstructor; [|constructor]. apply expand_edge. auto.
    + econstructor; [|apply IH; exact Hw]. apply expand_edge. auto.
Qed.

Lemma path_ext g (ok1 ok2 : nat -> Prop) a b :
  (forall w, reach (expand_of g []) a w -> ok1 w -> ok2 w) -> path g ok1 a b -> path g ok2 a b.
Proof.
  intros H Hp. induction Hp as [x y He|x w y He Hw Hp IH]; [now apply path_one|].
  assert (Hxw : In w (expand_of g [] x)) by (apply expand_edge; auto).
  apply path_step with (w := w); auto.
  - apply H; auto. econstructor; [exact Hxw | constructor].
  - apply IH. intros z Hz. apply H. econstructor; eauto.
Qed.

(** blockers used for a list of output variables *)
Lemma input_rvs_spec g outs all r :
  (forall o, In o outs -> static_shape g o = false) ->
  find_conditional_input_rvs g outs all = Ok r ->
  forall v, In v r <->
    ((In v outs /\ inputs g v = None /\ is_const g v = false) \/
     ((exists out, In out outs /\
         path g (fun w => (In w all -> In w outs) /\ static_shape g w = false) out v) /\
      ((In v all /\ ~ In v outs) \/ static_shape g v = true \/ (inputs g v = None /\ is_const g v = false)))).
Proof.
  intros Hout H v. unfold find_conditional_input_rvs in H.
  destruct (static_shape_ancestors g (all ++ outs)) as [st|] eqn:Est; [|discriminate]. cbn [bind] in H.
  set (bl := filter (fun o => negb (mem o outs)) all ++ st) in *.
  destruct (ancestors g outs bl) as [a|] eqn:Ea; [|discriminate]. cbn [bind] in H. injection H as <-.
  unfold static_shape_ancestors in Est.
  destruct (ancestors g (all ++ outs) []) as [a0|] eqn:Ea0; [|discriminate]. cbn [bind] in Est. injection Est as <-.
  assert (Hbl : forall out w, In out outs -> reach (expand_of g []) out w ->
                 (In w bl <-> (In w all /\ ~ In w outs) \/ static_shape g w = true)).
  { intros out w Ho Hw. unfold bl. rewrite in_app_iff, !filter_In. rewrite negb_true_iff, mem_nIn.
    rewrite (ancestors_reach _ _ _ _ Ea0). split.
    - intros [Hn|[_ Hs]]; [now left | now right].
    - intros [Hn|Hs]; [now left | right].
      split; [|exact Hs]. exists out. split; [apply in_app_iff; now right | exact Hw]. }
  assert (Hob : forall out, In out outs -> ~ In out bl).
  { intros out Ho. rewrite (Hbl out out Ho (reach_refl _ _)). intros [[_ Hn]|Hs]; [contradiction|].
    rewrite (Hout out Ho) in Hs. discriminate. }
  rewrite filter_In, (ancestors_reach _ _ _ _ Ea). rewrite orb_true_iff, andb_true_iff, negb_true_iff, mem_In.
  assert (Hp : forall out, In out outs -> path g (fun w => ~ In w bl) out v <->
               path g (fun w => (In w all -> In w outs) /\ static_shape g w = false) out v).
  { intros out Ho. split; apply path_ext; intros w Hw.
    - rewrite (Hbl out w Ho Hw). intros Hn. split.
      + intros Hwa. destruct (in_dec Nat.eq_dec w outs); [assumption|]. exfalso. apply Hn. left. auto.
      + destruct (static_shape g w); [exfalso; apply Hn; now right | reflexivity].
    - rewrite (Hbl out w Ho Hw). intros [H1 H2] [[Hwa Hne]|Hs]; [auto | congruence]. }
  assert (Hreach : forall out, In out outs ->
            path g (fun w => (In w all -> In w outs) /\ static_shape g w = false) out v ->
            reach (expand_of g []) out v).
  { intros out Ho Hpath. apply (Hp out Ho) in Hpath. apply (reach_weaken g bl). apply reach_path; auto. }
  assert (Hroot : (match inputs g v with None => true | _ => false end) = true <-> inputs g v = None).
  { destruct (inputs g v); split; congruence. }
  rewrite Hroot. split.
  - intros [[out [Ho Hr]] Hc]. apply (reach_path g bl out v (Hob out Ho)) in Hr.
    destruct Hr as [->|Hpath].
    + left. destruct Hc as [Hb|Hc]; [exfalso; now apply (Hob out Ho) | tauto].
    + apply (Hp out Ho) in Hpath. right. split; [now exists out|].
      destruct Hc as [Hb|Hc]; [|tauto]. apply (Hbl out v Ho (Hreach out Ho Hpath)) in Hb. tauto.
  - intros [[Ho Hc]|[[out [Ho Hpath]] Hc]].
    + split; [exists v; split; [exact Ho | constructor]|]. right. exact Hc.
    + split.
      * exists out. split; [exact Ho|]. apply reach_path; auto. right. now apply Hp.
      * pose proof (Hbl out v Ho (Hreach out Ho Hpath)) as Hb. tauto.
Qed.

Lemma find_input_total g outs all : wf_graph g ->
  (forall v, In v all -> v < g_size g) -> (forall v, In v outs -> v < g_size g) ->
  exists r, find_conditional_input_rvs g outs all = Ok r.
Proof.
  intros Hwf Ha Ho. unfold find_conditional_input_rvs, static_shape_ancestors.
  destruct (ancestors_total g (all ++ outs) []) as [a0 Ha0]; auto.
  { intros v Hv. apply in_app_iff in Hv. destruct Hv; auto. }
  rewrite Ha0. cbn [bind].
  destruct (ancestors_total g outs (filter (fun o => negb (mem o outs)) all ++ filter (static_shape g) a0)) as [a Haa]; auto.
  rewrite Haa. cbn [bind]. eauto.
Qed.

Lemma path_acyclic g ok a b : wf_graph g -> path g ok a b -> b < a.
Proof.
  intros Hwf. induction 1 as [x y He|x w y He _ _ IH]; apply edge_lt in He; auto; lia.
Qed.

Lemma path_noself g (ok1 ok2 : nat -> Prop) a b : wf_graph g ->
  (forall w, w <> a -> ok1 w -> ok2 w) -> path g ok1 a b -> path g ok2 a b.
Proof.
  intros Hwf Hok Hp.
  assert (Hg : forall x, path g ok1 x b -> x <= a -> path g ok2 x b).
  { intros x H. induction H as [x y He|x w y He Hw Hp' IH]; intros Hx; [now apply path_one|].
    pose proof (edge_lt _ _ _ Hwf He). apply path_step with (w := w); auto; [|apply IH; auto; lia].
    apply Hok; auto. lia. }
  now apply Hg.
Qed.

Lemma dependents_loop g dep all rvs r :
  find_dependents_loop g dep all rvs = Ok r ->
  forall rv, In rv r <-> In rv rvs /\ rv <> dep /\ is_conditional_dependent g rv dep all = Ok true.
Proof.
  revert r. induction rvs as [|x rvs IH]; intros r H rv; simpl in H.
  - injection H as <-. simpl. tauto.
  - destruct (Nat.eqb_spec x dep) as [->|Hne].
    + cbn [bind] in H. destruct (find_dependents_loop g dep all rvs) as [r'|] eqn:E; [|discriminate].
      cbn [bind] in H. injection H as <-. rewrite (IH _ eq_refl). simpl. split; [tauto|].
      intros [[<-|H1] [H2 H3]]; [contradiction | tauto].
    + destruct (is_conditional_dependent g x dep all) as [b|] eqn:Eb; [|discriminate]. cbn [bind] in H.
      destruct (find_dependents_loop g dep all rvs) as [r'|] eqn:E; [|discriminate].
      cbn [bind] in H. injection H as <-. destruct b.
      * simpl. rewrite (IH _ eq_refl). split.
        -- intros [<-|H]; [split; [now left | auto] | tauto].
        -- intros [[<-|H1] H2]; [now left | right; tauto].
      * rewrite (IH _ eq_refl). simpl. split; [tauto|].
        intros [[<-|H1] [H2 H3]]; [congruence | tauto].
Qed.

Lemma dependents_spec g dep all : wf_graph g ->
  (forall v, In v all -> v < g_size g /\ static_shape g v = false) -> In dep all ->
  exists r, find_conditional_dependent_rvs g dep all = Ok r /\
    forall rv, In rv r <-> In rv all /\ path g (transparent g all) rv dep.
Proof.
  intros Hwf Hall Hdep.
  assert (Hdec : forall rv, In rv all -> exists b, is_conditional_dependent g rv dep all = Ok b).
  { intros rv Hrv. unfold is_conditional_dependent.
    destruct (find_input_total g [rv] all) as [l Hl]; auto.
    - intros v Hv. now apply Hall.
    - intros v [<-|[]]. now apply Hall.
    - rewrite Hl. cbn [bind]. eauto. }
  assert (Hloop : forall rvs, incl rvs all -> exists r, find_dependents_loop g dep all rvs = Ok r).
  { induction rvs as [|x rvs IH]; intros Hi; simpl; [eauto|].
    destruct IH as [r Hr]; [intros y Hy; apply Hi; now right|].
    destruct (Hdec x (Hi x (or_introl eq_refl))) as [b Hb]. rewrite Hb, Hr.
    destruct (Nat.eqb x dep); cbn [bind]; eauto. }
  destruct (Hloop all (incl_refl _)) as [r Hr]. exists r. split; [exact Hr|].
  intros rv. rewrite (dependents_loop _ _ _ _ _ Hr). split.
  - intros [Hin [Hne Hc]]. split; [exact Hin|].
    unfold is_conditional_dependent in Hc.
    destruct (find_conditional_input_rvs g [rv] all) as [l|] eqn:El; [|discriminate]. cbn [bind] in Hc.
    injection Hc as Hc. apply mem_In in Hc.
    assert (Hst : forall o, In o [rv] -> static_shape g o = false) by (intros o [<-|[]]; now apply Hall).
    apply (input_rvs_spec g [rv] all l Hst El) in Hc.
    destruct Hc as [[[Heq|[]] _]|[[out [[<-|[]] Hp]] _]]; [congruence|].
    eapply path_noself; [exact Hwf | | exact Hp]. intros w Hw [H1 H2]. split; [|exact H2].
    intros Hwa. apply Hw. destruct (H1 Hwa) as [->|[]]. reflexivity.
  - intros [Hin Hp]. pose proof (path_acyclic _ _ _ _ Hwf Hp) as Hlt. split; [exact Hin|]. split; [lia|].
    unfold is_conditional_dependent.
    destruct (find_input_total g [rv] all) as [l Hl]; auto.
    + intros v Hv. now apply Hall.
    + intros v [<-|[]]. now apply Hall.
    + rewrite Hl. cbn [bind]. f_equal. apply mem_In.
      assert (Hst : forall o, In o [rv] -> static_shape g o = false) by (intros o [<-|[]]; now apply Hall).
      apply (input_rvs_spec g [rv] all l Hst Hl). right. split.
      * exists rv. split; [now left|].
        eapply path_noself; [exact Hwf | | exact Hp]. intros w _ [H1 H2]. split; [contradiction | exact H2].
      * left. split; [exact Hdep | intros [->|[]]; lia].
Qed.
