(** Property theorems C09-C13 and C61. *)
From Coq Require Import Permutation.
From Verif Require Import Common MargState_Model MargState_Spec MargState_Proofs.

(** ** C09: every history of marginalize / unmarginalize calls, including failing ones. *)
Theorem C09_history_keeps_variables_and_dims : forall w h0 m0 cs,
  fresh_model h0 m0 ->
  let s := run w (h0, m0) cs in
  (forall n, In n (free (snd s)) -> In n (marged (snd s)) -> False) /\
  Permutation (free (snd s) ++ marged (snd s)) (free m0) /\
  observed (snd s) = observed m0 /\ others (snd s) = others m0 /\
  (forall n, ~ In n (marged (snd s)) -> public_dims (fst s) (snd s) n = public_dims h0 m0 n).
Proof.
  intros w h0 m0 cs Hf s. pose proof (inv_run h0 m0 Hf w cs (h0, m0) (inv_init h0 m0 Hf)) as H. fold s in H.
  split; [intros n; apply (inv_disj h0 m0 Hf _ _ n H)|].
  split; [apply H|]. split; [apply H|]. split; [apply H|].
  intros n Hn. unfold public_dims. rewrite (iv_nvd _ _ _ _ H).
  destruct (in_dec Nat.eq_dec n (free m0)) as [Hin|Hout].
  - apply (iv_free _ _ _ _ H). apply (inv_in h0 m0 _ _ n H) in Hin. tauto.
  - now apply (iv_rest _ _ _ _ H).
Qed.
Print Assumptions C09_history_keeps_variables_and_dims.

Theorem C09_unmarginalize_all_restores : forall w h0 m0 cs,
  fresh_model h0 m0 ->
  let s := run w (h0, m0) cs in
  marged (snd s) = [] ->
  Permutation (free (snd s)) (free m0) /\
  (forall n, public_dims (fst s) (snd s) n = public_dims h0 m0 n).
Proof.
  intros w h0 m0 cs Hf s Hm. destruct (C09_history_keeps_variables_and_dims w h0 m0 cs Hf) as [_ [Hp [_ [_ Hd]]]].
  fold s in Hp, Hd. rewrite Hm, app_nil_r in Hp. split; [exact Hp|]. intros n. apply Hd. now rewrite Hm.
Qed.
Print Assumptions C09_unmarginalize_all_restores.

(** variables 0 (dims [7;8]) and 1 (no dims) free, 2 observed *)
Definition ex_heap : heap := fun a => if Nat.eqb a 0 then d_set (fun _ => None) 0 (Some [7; 8]) else (fun _ => None).
Definition ex_model : mmodel :=
  {| free := [0; 1]; observed := [2]; others := [3]; marged := []; nvd := 0; mnvd := 1;
     initvals := fun n => if Nat.eqb n 0 then Some 5 else None; transforms := fun _ => 0 |}.
Definition ex_world : world :=
  {| unsupported := fun n => if Nat.eqb n 1 then Some NotImplementedError else None;
     final_check := fun _ => None; recoverable := fun _ => true |}.
Lemma ex_fresh : fresh_model ex_heap ex_model.
Proof.
  split; [reflexivity|]. split; [|split; [discriminate | reflexivity]].
  simpl. repeat constructor; simpl; intuition lia.
Qed.
Example C09_example : fresh_model ex_heap ex_model /\
  let s := run ex_world (ex_heap, ex_model) [CMarg [ByName 0]; CUnmarg [ByVar 0]] in
  marged (snd s) = [] /\ free (snd s) = [1; 0] /\ public_dims (fst s) (snd s) 0 = Some [7; 8] /\
  marged (snd (run ex_world (ex_heap, ex_model) [CMarg [ByName 0]])) = [0].
Proof. split; [exact ex_fresh | vm_compute; auto]. Qed.

(** ** C10: refuted.  [marginalize([x, y])] with unsupported [y] raises and leaves [x] marginalized; and a
    failure of the final graph check leaves the variable marginalized too. *)
Theorem C10_rejected_marginalize_changes_model_refuted : exists w h m rs h' m' e,
  fresh_model h m /\ marginalize w h m rs = (h', m', Some e) /\ ~ same_model (h, m) (h', m') /\ free m' = [1].
Proof.
  exists ex_world, ex_heap, ex_model, [ByName 0; ByName 1]. do 3 eexists.
  split; [exact ex_fresh|]. split; [vm_compute; reflexivity|]. split; [|reflexivity].
  intros [H _]. vm_compute in H. discriminate.
Qed.
Print Assumptions C10_rejected_marginalize_changes_model_refuted.

Theorem C10_final_check_failure_changes_model_refuted : exists w h m n h' m' e,
  fresh_model h m /\ marginalize w h m [ByName n] = (h', m', Some e) /\ ~ same_model (h, m) (h', m').
Proof.
  exists {| unsupported := fun _ => None; final_check := fun _ => Some ValueError; recoverable := fun _ => true |},
    ex_heap, ex_model, 0. do 3 eexists.
  split; [exact ex_fresh|]. split; [vm_compute; reflexivity|].
  intros [H _]. vm_compute in H. discriminate.
Qed.
Print Assumptions C10_final_check_failure_changes_model_refuted.

(** What holds: an unknown name anywhere in the list, or a first variable that is refused, changes nothing. *)
Theorem C10_unknown_name_leaves_model_unchanged_partial : forall w h m rs e,
  resolve_all m rs = Err e -> marginalize w h m rs = (h, m, Some e).
Proof. exact marginalize_lookup_error. Qed.
Theorem C10_first_variable_refused_leaves_model_unchanged_partial : forall w h m r rs ns h' m' e,
  resolve_all m (r :: rs) = Ok ns ->
  (~ In (ref_name r) (free m) \/ unsupported w (ref_name r) <> None) ->
  marginalize w h m (r :: rs) = (h', m', e) -> (h', m') = (h, m) /\ e <> None.
Proof. exact marginalize_first_error. Qed.
Print Assumptions C10_first_variable_refused_leaves_model_unchanged_partial.

(** ** C11: refuted.  [marginalize(model, ["x"])] removes the dims of x from [model] itself... *)
Theorem C11_functional_marginalize_changes_argument_refuted : exists w h m fresh rs h' m' ,
  fresh_model h m /\ fresh <> nvd m /\
  fmarginalize w h m fresh rs = (h', m', None) /\
  In 0 (free m) /\ public_dims h m 0 = Some [7; 8] /\ public_dims h' m 0 = None.
Proof.
  exists ex_world, ex_heap, ex_model, 9, [ByVar 0]. do 2 eexists.
  split; [exact ex_fresh|]. split; [discriminate|]. split; [vm_compute; reflexivity|].
  split; [now left|]. split; reflexivity.
Qed.
Print Assumptions C11_functional_marginalize_changes_argument_refuted.

(** ... and [recover_marginals] puts the dims of a marginalized variable back into [model.named_vars_to_dims]. *)
Theorem C11_recover_marginals_changes_model_refuted : exists w h m h' l,
  recover_marginals w h m None = (h', Ok l) /\ ~ same_model (h, m) (h', m).
Proof.
  exists ex_world.
  exists (fst (run ex_world (ex_heap, ex_model) [CMarg [ByName 0]])).
  exists (snd (run ex_world (ex_heap, ex_model) [CMarg [ByName 0]])).
  do 2 eexists. split; [vm_compute; reflexivity|].
  intros [_ [_ [_ [_ [H _]]]]]. specialize (H 0). vm_compute in H. discriminate.
Qed.
Print Assumptions C11_recover_marginals_changes_model_refuted.

(** What holds: the dims of every variable not named in the call survive. *)
Theorem C11_other_dims_survive_partial : forall w h m fresh rs h' m' e k,
  fresh <> nvd m ->
  fmarginalize w h m fresh rs = (h', m', e) ->
  ~ In k (map ref_name rs) -> public_dims h' m k = public_dims h m k.
Proof. exact fmarginalize_others. Qed.
Print Assumptions C11_other_dims_survive_partial.

(** ** C12: refuted.  Unknown names are silently ignored, always. *)
Theorem C12_unknown_names_ignored_refuted : forall w h m names unknown,
  (forall n, In n unknown -> ~ In n (marged m)) ->
  recover_marginals w h m (Some (names ++ unknown)) = recover_marginals w h m (Some names).
Proof. exact recover_ignores_unknown. Qed.
Print Assumptions C12_unknown_names_ignored_refuted.
Theorem C12_only_unknown_names_refuted : exists w h m h',
  marged m = [0] /\ recover_marginals w h m (Some [42]) = (h', Ok []).
Proof.
  exists ex_world, (fst (run ex_world (ex_heap, ex_model) [CMarg [ByName 0]])),
    (snd (run ex_world (ex_heap, ex_model) [CMarg [ByName 0]])). eexists. split; vm_compute; reflexivity.
Qed.

(** ** C13: refuted for every name.  Once marginalized, a name is no longer in the model, so
    [unmarginalize(["x"])] raises KeyError. *)
Theorem C13_unmarginalize_by_name_always_fails_refuted : forall w h0 m0 cs n rest,
  fresh_model h0 m0 ->
  let s := run w (h0, m0) cs in
  In n (marged (snd s)) ->
  unmarginalize (fst s) (snd s) (ByName n :: rest) = (fst s, snd s, Some KeyError).
Proof.
  intros w h0 m0 cs n rest Hf s Hn.
  pose proof (inv_run h0 m0 Hf w cs (h0, m0) (inv_init h0 m0 Hf)) as H. fold s in H.
  assert (Hn0 : In n (free m0)) by (apply (inv_in h0 m0 _ _ n H); now right).
  destruct (disj0 h0 m0 Hf n Hn0) as [Ho Ht].
  assert (Hnf : ~ In n (free (snd s))) by (intros Hc; apply (inv_disj h0 m0 Hf _ _ n H Hc Hn)).
  cbn [unmarginalize resolve]. unfold named.
  rewrite (iv_obs _ _ _ _ H), (iv_oth _ _ _ _ H).
  apply mem_nIn in Ho, Ht, Hnf. now rewrite Ho, Ht, Hnf.
Qed.
Print Assumptions C13_unmarginalize_by_name_always_fails_refuted.

(** Passing the variable works in every reachable state. *)
Theorem C13_unmarginalize_by_variable_partial : forall w h0 m0 cs n,
  fresh_model h0 m0 ->
  let s := run w (h0, m0) cs in
  In n (marged (snd s)) ->
  snd (unmarginalize (fst s) (snd s) [ByVar n]) = None /\
  In n (free (snd (fst (unmarginalize (fst s) (snd s) [ByVar n])))).
Proof.
  intros w h0 m0 cs n Hf s Hn.
  pose proof (inv_run h0 m0 Hf w cs (h0, m0) (inv_init h0 m0 Hf)) as H. fold s in H.
  assert (Hn0 : In n (free m0)) by (apply (inv_in h0 m0 _ _ n H); now right).
  destruct (disj0 h0 m0 Hf n Hn0) as [Ho Ht].
  assert (Hnf : ~ In n (free (snd s))) by (intros Hc; apply (inv_disj h0 m0 Hf _ _ n H Hc Hn)).
  cbn [unmarginalize resolve]. apply mem_In in Hn. rewrite Hn. cbn [negb].
  unfold register, named. cbn [free observed others].
  rewrite (iv_obs _ _ _ _ H), (iv_oth _ _ _ _ H).
  apply mem_nIn in Ho, Ht, Hnf. rewrite Ho, Ht, Hnf. cbn. split; [reflexivity|].
  apply in_app_iff. right. now left.
Qed.
Print Assumptions C13_unmarginalize_by_variable_partial.

Example C13_example : In 0 (marged (snd (run ex_world (ex_heap, ex_model) [CMarg [ByName 0]]))).
Proof. now left. Qed.

(** ** C61: refuted.  A round trip loses the user's initial value (likewise a custom transform). *)
Theorem C61_roundtrip_loses_initval_refuted : exists w h m,
  fresh_model h m /\
  let s := run w (h, m) [CMarg [ByName 0]; CUnmarg [ByVar 0]] in
  In 0 (free (snd s)) /\ initvals m 0 = Some 5 /\ initvals (snd s) 0 = None.
Proof.
  exists ex_world, ex_heap, ex_model. split; [exact ex_fresh|]. vm_compute. auto.
Qed.
Print Assumptions C61_roundtrip_loses_initval_refuted.
