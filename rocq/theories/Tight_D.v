(** C99, continued: exactly which parameters the ETS model's param_dims describes. *)
From Coq Require Import String.
From Verif Require Import Common Struct_Model Multi_Model Meta_Model.
Import List ListNotations.
Open Scope nat_scope.

Lemma dget_In {V} (d : pydict V) x : dget d x <> None <-> In x (map fst d).
Proof.
  induction d as [|[y v] d IH]; cbn; [tauto|]. destruct (String.eqb_spec x y) as [->|N].
  - split; [auto|discriminate].
  - rewrite IH. split; [auto|]. intros [->|H]; [congruence|exact H].
Qed.

(** param_dims of an ETS model with k series describes exactly these names. *)
Theorem C99_ets_param_dims_keys o k : exists pd, ets_param_dims o k = Ok pd /\
  forall x, dget pd x <> None <->
   (In x ["P0"; "initial_level"; "initial_trend"; "initial_seasonal"]%string \/ (x = "sigma_obs"%string /\ e_merr o = true) \/
    (x = "seasonal_param"%string /\ e_se o = true) \/ (x = "sigma_state"%string /\ (e_dense o = false \/ k = 1)) \/
    (x = "state_cov"%string /\ e_dense o = true) \/ (In x ["alpha"; "beta"; "gamma"; "phi"]%string /\ k <> 1)).
Proof.
  destruct o as [tr da se m merr dense stat]. unfold ets_param_dims. cbn [e_merr e_se e_dense].
  destruct (Nat.eqb_spec k 1) as [->|N]; destruct se, merr, dense;
  (eexists; split; [cbn; reflexivity|]; intros x; rewrite dget_In; cbn [In map fst]; intuition (subst; auto 20; try congruence)).
Qed.
Print Assumptions C99_ets_param_dims_keys.
