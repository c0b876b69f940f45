(** C99: parameter names, dimensions, coordinates and placeholders agree. *)
From Coq Require Import String.
From Verif Require Import Common Struct_Model Multi_Model Multi_Props Meta_Model Meta_Spec.
Open Scope nat_scope.

Lemma lseq n : length (seq 1 n) = n.
Proof. apply seq_length. Qed.

Fixpoint nodupb (l : list string) : bool :=
  match l with [] => true | x :: r => negb (smem x r) && nodupb r end.
Lemma smem_In x l : smem x l = true <-> In x l.
Proof.
  unfold smem. rewrite existsb_exists. split.
  - intros (y & Hy & E). apply String.eqb_eq in E. congruence.
  - intros H. exists x. split; auto. apply String.eqb_refl.
Qed.
Lemma nodupb_ok l : nodupb l = true -> NoDup l.
Proof.
  induction l; cbn; [constructor|]. intros H. apply andb_prop in H as [H1 H2]. constructor; auto.
  intros K. apply smem_In in K. rewrite K in H1. discriminate.
Qed.
Definition same_b (l1 l2 : list string) : bool := forallb (fun x => smem x l2) l1 && forallb (fun x => smem x l1) l2.
Lemma same_b_ok l1 l2 : same_b l1 l2 = true -> forall x, In x l1 <-> In x l2.
Proof.
  intros H x. apply andb_prop in H as [H1 H2]. rewrite forallb_forall in H1, H2.
  split; intros K; [apply H1 in K|apply H2 in K]; apply smem_In; exact K.
Qed.

(* a computed form of prior_fits *)
Definition fitP (pd : pydict dims) (co : pydict nat) (reg : pydict (list nat)) (x : string) : Prop :=
  match dget pd x, dget reg x with Some ds, Some sh => prior_shape co ds = Some sh | _, _ => False end.
Lemma fitP_iff pd co reg x : prior_fits pd co reg x <-> fitP pd co reg x.
Proof.
  unfold prior_fits, fitP. split.
  - intros (ds & sh & -> & -> & H). exact H.
  - destruct (dget pd x) as [ds|], (dget reg x) as [sh|]; try contradiction. intros H. exists ds, sh. auto.
Qed.
Fixpoint allP (F : string -> Prop) (l : list string) : Prop :=
  match l with [] => True | x :: r => F x /\ allP F r end.
Lemma allP_ok F l : allP F l -> forall x, In x l -> F x.
Proof. induction l; cbn; [contradiction|]. intros [H1 H2] x [<-|K]; auto. Qed.

Ltac fits := intros ?x Hx; apply fitP_iff; revert Hx; apply allP_ok; cbn; repeat (split; [reflexivity|]); exact I.
Ltac regd := split; [apply nodupb_ok; reflexivity|split; [apply nodupb_ok; reflexivity|apply same_b_ok; reflexivity]].

(** VARMAX: for every order, naming and option. *)
Theorem C99_varmax_tables_agree p q en ke endog k stationary merr :
  varmax_names en ke = Ok (endog, k) ->
  exists names pd reg,
    varmax_param_names_py p q stationary merr = Ok names /\
    varmax_param_dims p q stationary merr = Ok pd /\
    register_all names [] (varmax_calls p q k stationary merr) = Ok reg /\
    all_registered names reg /\
    (forall x, In x (map fst pd) <-> In x names) /\
    forall x, In x names -> prior_fits pd (varmax_coords p q endog) reg x.
Proof.
  intros HN. pose proof (varmax_names_len _ _ _ _ HN) as L.
  assert (LS : length (varmax_state_names p q endog) = varmax_k_states p q k).
  { unfold varmax_state_names, varmax_k_states.
    rewrite !app_length, !(length_flat_map_const _ k) by (intros; rewrite map_length; auto).
    rewrite !seq_length, L. destruct p; simpl; nia. }
  unfold varmax_calls, varmax_coords. rewrite LS, L, !lseq.
  generalize (varmax_k_states p q k). intros ks.
  unfold varmax_param_names_py, varmax_param_dims.
  replace (p =? 0) with (negb (0 <? p)) by (destruct p; reflexivity).
  replace (q =? 0) with (negb (0 <? q)) by (destruct q; reflexivity).
  destruct stationary, merr, (0 <? p), (0 <? q);
    (eexists; eexists; eexists; split; [cbn; reflexivity|split; [cbn; reflexivity|split; [cbn; reflexivity|
      split; [regd|split; [apply same_b_ok; reflexivity|fits]]]]]).
Qed.

(** SARIMA: the tables agree for every order and option when there are as many state labels as states... *)
Lemma sarima_tables fast p d q P D Q S0 stationary merr :
  exists names pd reg,
    sarima_param_names p q P Q stationary merr = Ok names /\
    sarima_param_dims p q P Q stationary merr = Ok pd /\
    register_all names [] (sarima_calls fast p d q P D Q S0 stationary merr) = Ok reg /\
    all_registered names reg /\
    (forall x, In x (map fst pd) <-> In x names) /\
    (stationary = false -> In "x0"%string names /\ In "P0"%string names) /\
    forall x, In x names ->
      (length (sarimax_state_names fast p d q P D Q S0) = sarimax_k_states fast p d q P D Q S0 ->
       prior_fits pd (sarima_coords fast p d q P D Q S0) reg x) /\
      (x <> "x0" -> x <> "P0" -> prior_fits pd (sarima_coords fast p d q P D Q S0) reg x)%string /\
      (x = "x0" -> prior_fits pd (sarima_coords fast p d q P D Q S0) reg x ->
       length (sarimax_state_names fast p d q P D Q S0) = sarimax_k_states fast p d q P D Q S0)%string.
Proof.
  unfold sarima_calls, sarima_coords. rewrite !lseq.
  generalize (sarimax_k_states fast p d q P D Q S0), (length (sarimax_state_names fast p d q P D Q S0)).
  intros ks n. unfold sarima_param_names, sarima_param_dims.
  replace (p =? 0) with (negb (0 <? p)) by (destruct p; reflexivity).
  replace (q =? 0) with (negb (0 <? q)) by (destruct q; reflexivity).
  replace (P =? 0) with (negb (0 <? P)) by (destruct P; reflexivity).
  replace (Q =? 0) with (negb (0 <? Q)) by (destruct Q; reflexivity).
  destruct stationary, merr, (0 <? p), (0 <? q), (0 <? P), (0 <? Q);
    (eexists; eexists; eexists; split; [cbn; reflexivity|split; [cbn; reflexivity|split; [cbn; reflexivity|
      split; [regd|split; [apply same_b_ok; reflexivity|split;
        [intros E; try discriminate E; split; apply smem_In; reflexivity|]]]]]];
     intros x Hx; rewrite fitP_iff; split; [intros ->; revert x Hx; apply (allP_ok (fun x => fitP _ _ _ x)); cbn;
         repeat (split; [reflexivity|]); exact I|split;
        [revert x Hx; apply (allP_ok (fun x => x <> "x0" -> x <> "P0" -> fitP _ _ _ x)%string); cbn; repeat (split; [intros N1 N2;
           first [reflexivity|exfalso; apply N1; reflexivity|exfalso; apply N2; reflexivity]|]); exact I|
         intros -> K; cbn in K; first [contradiction|congruence]]]).
Qed.

(** SARIMA, default ("fast") structure: for every order and option.  (Seasonal differencing with season length zero
    is excluded.) *)
Theorem C99_sarima_tables_agree p d q P D Q S0 stationary merr : D = 0 \/ 0 < S0 ->
  exists names pd reg,
    sarima_param_names p q P Q stationary merr = Ok names /\
    sarima_param_dims p q P Q stationary merr = Ok pd /\
    register_all names [] (sarima_calls true p d q P D Q S0 stationary merr) = Ok reg /\
    all_registered names reg /\
    (forall x, In x (map fst pd) <-> In x names) /\
    forall x, In x names -> prior_fits pd (sarima_coords true p d q P D Q S0) reg x.
Proof.
  intros HS. destruct (sarima_tables true p d q P D Q S0 stationary merr) as (ns & pd & reg & A & B & C & E & F & _ & G).
  exists ns, pd, reg. repeat (split; [assumption|]). intros x Hx. apply (proj1 (G x Hx)). apply C25_sarima_labels; auto.
Qed.

(** "interpretable" structure: every table agrees but the dims of x0 and P0, which fit exactly when a seasonal part
    does not come without the corresponding non-seasonal one. *)
Theorem C99_sarima_interpretable_tables_partial p q P Q S0 stationary merr :
  exists names pd reg,
    sarima_param_names p q P Q stationary merr = Ok names /\
    sarima_param_dims p q P Q stationary merr = Ok pd /\
    register_all names [] (sarima_calls false p 0 q P 0 Q S0 stationary merr) = Ok reg /\
    all_registered names reg /\
    (forall x, In x (map fst pd) <-> In x names) /\
    (forall x, In x names -> x <> "x0"%string -> x <> "P0"%string ->
       prior_fits pd (sarima_coords false p 0 q P 0 Q S0) reg x) /\
    ((forall x, In x names -> prior_fits pd (sarima_coords false p 0 q P 0 Q S0) reg x) <->
     stationary = true \/ ((0 < p \/ P * S0 <= 1) /\ (0 < q \/ Q * S0 <= 1))).
Proof.
  destruct (sarima_tables false p 0 q P 0 Q S0 stationary merr) as (ns & pd & reg & A & B & C & E & F & X & G).
  exists ns, pd, reg. repeat (split; [assumption|]). split; [intros x Hx; exact (proj1 (proj2 (G x Hx)))|].
  rewrite <- C25_sarima_interpretable_labels_partial. split.
  - intros H. destruct stationary; [left; reflexivity|right]. destruct (X eq_refl) as [K _].
    exact (proj2 (proj2 (G _ K)) eq_refl (H _ K)).
  - intros [->|L] x Hx; [|exact (proj1 (G x Hx) L)].
    apply (proj1 (proj2 (G x Hx))).
    + intros ->. unfold sarima_param_names in A. cbn in A. clear - A Hx.
      destruct (p =? 0), (q =? 0), (P =? 0), (Q =? 0), merr; cbn in A; inversion A; subst ns; cbn in Hx;
        repeat (destruct Hx as [Hx|Hx]; [discriminate Hx|]); exact Hx.
    + intros ->. unfold sarima_param_names in A. cbn in A. clear - A Hx.
      destruct (p =? 0), (q =? 0), (P =? 0), (Q =? 0), merr; cbn in A; inversion A; subst ns; cbn in Hx;
        repeat (destruct Hx as [Hx|Hx]; [discriminate Hx|]); exact Hx.
Qed.
(** a purely seasonal autoregression: the x0 prior declared with the advertised dims has 2 entries, 13 are needed *)
Theorem C99_sarima_interpretable_dims_refuted :
  exists pd reg names,
    sarima_param_names 0 1 1 0 false false = Ok names /\ In "x0"%string names /\
    sarima_param_dims 0 1 1 0 false false = Ok pd /\
    register_all names [] (sarima_calls false 0 0 1 1 0 0 12 false false) = Ok reg /\
    dget pd "x0" = Some (Some ["state"%string]) /\
    prior_shape (sarima_coords false 0 0 1 1 0 0 12) (Some ["state"%string]) = Some [2] /\
    dget reg "x0" = Some [13].
Proof.
  eexists. eexists. eexists. split; [vm_compute; reflexivity|]. split; [left; reflexivity|].
  split; [vm_compute; reflexivity|]. split; [vm_compute; reflexivity|]. split; [reflexivity|].
  split; vm_compute; reflexivity.
Qed.
