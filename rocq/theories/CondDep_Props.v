(** Property theorem C08. *)
From Verif Require Import Common CondDep_Model CondDep_Spec CondDep_Proofs.

(** Dependents: exactly the model variables from which the marginalized one is reached backwards along a
    path whose intermediate variables are neither model variables nor static shapes. *)
Theorem C08_dependents_are_reachable_variables : forall g dep all_rvs,
  wf_graph g ->
  (forall v, In v all_rvs -> v < g_size g /\ static_shape g v = false) ->
  In dep all_rvs ->
  exists r, find_conditional_dependent_rvs g dep all_rvs = Ok r /\
    forall rv, In rv r <-> In rv all_rvs /\ path g (transparent g all_rvs) rv dep.
Proof. exact dependents_spec. Qed.
Print Assumptions C08_dependents_are_reachable_variables.

(** Inputs of a group of variables: the first model variables (outside the group), static shapes or
    non-constant roots met on a backward path. *)
Theorem C08_inputs_are_first_blockers : forall g outs all_rvs,
  wf_graph g ->
  (forall v, In v all_rvs -> v < g_size g) -> (forall v, In v outs -> v < g_size g /\ static_shape g v = false) ->
  exists r, find_conditional_input_rvs g outs all_rvs = Ok r /\
  forall v, In v r <->
    ((In v outs /\ inputs g v = None /\ is_const g v = false) \/
     ((exists out, In out outs /\
         path g (fun w => (In w all_rvs -> In w outs) /\ static_shape g w = false) out v) /\
      ((In v all_rvs /\ ~ In v outs) \/ static_shape g v = true \/ (inputs g v = None /\ is_const g v = false)))).
Proof.
  intros g outs all Hwf Ha Ho. destruct (find_input_total g outs all Hwf Ha) as [r Hr].
  - intros v Hv. now apply Ho.
  - exists r. split; [exact Hr|]. apply input_rvs_spec; [|exact Hr]. intros o Hin. now apply Ho.
Qed.
Print Assumptions C08_inputs_are_first_blockers.

(** idx (0) -> mu (1) -> y (2) -> z (3); 4 = static shape of idx, 5 = f(4): y depends on idx; z does not
    (y blocks); 5 does not (only through a static shape). *)
Definition ex_graph : graph := {|
  g_size := 6;
  inputs := fun v => match v with 1 => Some [0] | 2 => Some [1] | 3 => Some [2] | 4 => Some [0] | 5 => Some [4] | _ => None end;
  static_shape := fun v => Nat.eqb v 4;
  is_const := fun _ => false |}.
Example C08_example : wf_graph ex_graph /\
  (forall v, In v [0; 2; 3; 5] -> v < g_size ex_graph /\ static_shape ex_graph v = false) /\
  find_conditional_dependent_rvs ex_graph 0 [0; 2; 3; 5] = Ok [2].
Proof.
  split; [|split].
  - intros v l u H Hu. simpl in H.
    do 6 (destruct v as [|v]; [try discriminate; injection H as <-; destruct Hu as [<-|[]]; simpl; lia|]). discriminate.
  - intros v [<-|[<-|[<-|[<-|[]]]]]; simpl; split; auto; lia.
  - vm_compute. reflexivity.
Qed.
