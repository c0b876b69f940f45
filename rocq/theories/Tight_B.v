(** C25, C65, C94, C99, continued: default names of series and regressors, parameter names of a VARMAX model, residual scale of R2D2M2CP. *)
From Coq Require Import String DecimalString DecimalNat FinFun.
From Verif Require Import Common Struct_Model Multi_Model Meta_Model.
Open Scope nat_scope.

Lemma str_of_nat_inj a b : str_of_nat a = str_of_nat b -> a = b.
Proof.
  assert (to_uint_nonnil : forall n, Nat.to_uint n <> Decimal.Nil).
  { intros n E. pose proof (Unsigned.to_of (Nat.to_uint n)) as Q. rewrite Unsigned.of_to, E in Q. discriminate Q. }
  unfold str_of_nat. intros H. apply Unsigned.to_uint_inj.
  assert (N := to_uint_nonnil).
  apply (f_equal NilZero.uint_of_string) in H. rewrite !NilZero.usu in H by apply N. congruence.
Qed.
Lemma append_inj (s a b : string) : (s ++ a = s ++ b)%string -> a = b.
Proof. induction s as [|c s IH]; cbn; [auto|]. intros H. injection H as H. auto. Qed.
Lemma nodup_numbered (pre : string) k : NoDup (map (fun i => (pre ++ str_of_nat (i + 1))%string) (seq 0 k)).
Proof.
  apply FinFun.Injective_map_NoDup; [|apply seq_NoDup]. intros a b H. apply append_inj, str_of_nat_inj in H. lia.
Qed.
Lemma nth_numbered (f : nat -> string) k i : i < k -> nth i (map f (seq 0 k)) ""%string = f i.
Proof. intros H. rewrite nth_indep with (d' := f 0) by (rewrite map_length, seq_length; lia). now rewrite map_nth, seq_nth. Qed.

(** Series that are only counted are called state.1, ..., state.k. *)
Theorem C25_varmax_default_names k : exists l, varmax_names None (Some k) = Ok (l, k) /\ length l = k /\ NoDup l /\
  forall i, i < k -> nth i l ""%string = ("state." ++ str_of_nat (i + 1))%string.
Proof.
  eexists. split; [reflexivity|]. split; [now rewrite map_length, seq_length|]. split; [exact (nodup_numbered "state." k)|].
  intros i H. now rewrite nth_numbered.
Qed.
(** Regressors that are only counted are called name_1, ..., name_k. *)
Theorem C65_default_names k name : exists l, regression_state_names (Some k) None name = Ok (k, l) /\ length l = k /\ NoDup l /\
  forall i, i < k -> nth i l ""%string = (name ++ "_" ++ str_of_nat (i + 1))%string.
Proof.
  eexists. split; [reflexivity|]. split; [now rewrite map_length, seq_length|]. split.
  - apply FinFun.Injective_map_NoDup; [|apply seq_NoDup]. intros a b H. apply append_inj in H. apply (append_inj "_") in H. apply str_of_nat_inj in H. lia.
  - intros i H. now rewrite nth_numbered.
Qed.
(** The parameters of a VARMAX model are exactly those its options call for. *)
Theorem C99_varmax_param_names p q stationary merr : exists l, varmax_param_names_py p q stationary merr = Ok l /\ NoDup l /\
  l = varmax_param_names p q stationary merr /\
  (forall x, In x l <-> (x = "state_cov" \/ ((x = "x0" \/ x = "P0") /\ stationary = false) \/ (x = "sigma_obs" /\ merr = true) \/
                         (x = "ar_params" /\ 0 < p) \/ (x = "ma_params" /\ 0 < q))%string).
Proof.
  destruct p, q, stationary, merr; (eexists; split; [reflexivity|split; [|split; [reflexivity|]]];
    [cbn; repeat constructor; cbn; intuition discriminate|
     intros x; cbn; split; [intros H; intuition (subst; auto with arith)|intros H; intuition (subst; auto; lia || discriminate)]]).
Qed.
Example C99_varmax_param_names_example : exists l, varmax_param_names_py 1 0 true false = Ok l /\ l = ["ar_params"; "state_cov"]%string.
Proof. eexists. split; reflexivity. Qed.
