(** C47 and C48, continued: transforms of a reparametrized Exponential, and the lambdas a new VIP object holds. *)
From Coq Require Import String.
From Verif Require Import Common Dict.
Import List ListNotations.
From Verif Require Import Repr_Model Vip_Model Vip_Props.
From Coq Require Import Reals Lra Psatz.
Open Scope R_scope.

(** vip_reparam_node, autoreparam.py:188-203, and the dictionary built by vip_reparametrize: the shared logits of the variables, zero
    everywhere, of the shape of the variable's size argument; a variable without one (its shape comes from its parameters) gets a scalar *)
Definition fresh (specs : list (string * option (list nat))) : state :=
  map (fun kv => (fst kv, {| ash := match snd kv with Some sh => sh | None => [] end; aval := fun _ => Fin 0 |})) specs.

Lemma fresh_get specs k : dget (fresh specs) k =
  option_map (fun s => {| ash := match s with Some sh => sh | None => [] end; aval := fun _ => Fin 0 |}) (dget specs k).
Proof. induction specs as [|[k' s] specs IH]; [reflexivity|]. cbn. destruct (String.eqb k k'); auto. Qed.
(** A new VIP object starts half way: every lambda of every reparametrized variable is 1/2, and a variable with a size has one lambda per entry. *)
Theorem C48_initial specs k s : dget specs k = Some s ->
  (forall idx, lam (fresh specs) k idx = Some (Fin (1 / 2))) /\ (forall sh, s = Some sh -> shape_of (fresh specs) k = Some sh).
Proof.
  intros E. split.
  - intros idx. rewrite lam_eq, fresh_get, E. cbn. do 2 f_equal. rewrite Ropp_0, exp_0. lra.
  - intros sh ->. unfold shape_of. now rewrite fresh_get, E.
Qed.
(** A variable declared without a size has a single lambda, however many entries its parameters give it: an array of lambdas, one per entry, is refused
    after any history of calls. *)
Theorem C48_unsized_refuted specs cs k v : dget specs k = Some None -> (0 < length (ash v))%nat ->
  shape_of (run (fresh specs) cs) k = Some [] /\ snd (set_lambda (run (fresh specs) cs) [(k, v)]) = Some ValueError.
Proof.
  intros E L. assert (S : shape_of (run (fresh specs) cs) k = Some []) by (rewrite C48_shapes_kept; unfold shape_of; now rewrite fresh_get, E).
  split; [exact S|]. unfold shape_of in S. cbn [set_lambda]. destruct (dget (run (fresh specs) cs) k) as [a|]; [|discriminate].
  cbn in S. injection S as S. unfold broadcast_to. cbn [ash]. rewrite S. cbn [length]. destruct (Nat.leb_spec (length (ash v)) 0); [lia|reflexivity].
Qed.

(** ** Transforms.  The free variable keeps the transform of the original one: its values are [backward v] for v on the real line. *)
Definition attains (backward : R -> R) (x : R) : Prop := exists v, x = backward v.
Definition attains_vip (backward : R -> R) (scale lam x : R) : Prop := exists v, x = vip_exponential scale lam (backward v).
(** With a transform onto the positive numbers (the default, log) the reparametrized variable takes the values it took before. *)
Theorem C47_positive_transform backward scale lam : scale > 0 -> (forall x, attains backward x <-> 0 < x) ->
  forall x, attains_vip backward scale lam x <-> attains backward x.
Proof.
  intros Hs Hb x. pose proof (exp_pos ((1 - lam) * ln scale)) as P. change (0 < powr scale (1 - lam)) in P. split.
  - intros [v ->]. apply Hb. unfold vip_exponential. apply Rmult_lt_0_compat; [exact P|]. apply Hb. now exists v.
  - intros H. apply Hb in H. assert (Q : attains backward (x / powr scale (1 - lam))) by (apply Hb, Rdiv_lt_0_compat; auto).
    destruct Q as [v Q]. exists v. unfold vip_exponential. rewrite <- Q. field. lra.
Qed.
(** With a transform onto a bounded interval it does not: unless the scale or lambda is one, the bounds move. *)
Theorem C47_interval_transform_refuted backward a b scale lam : scale > 0 -> 0 <= a < b -> (forall x, attains backward x <-> a < x < b) ->
  scale <> 1 -> lam <> 1 ->
  ~ (forall x, attains_vip backward scale lam x <-> attains backward x).
Proof.
  intros Hs Hab Hb N1 N2 H. pose proof (exp_pos ((1 - lam) * ln scale)) as P. change (0 < powr scale (1 - lam)) in P.
  set (c := powr scale (1 - lam)) in *.
  assert (Hc : c <> 1).
  { intros E. unfold c, powr, Rpower in E. assert (E' : exp ((1 - lam) * ln scale) = exp 0) by now rewrite exp_0.
    apply exp_inv in E'. apply Rmult_integral in E'. destruct E' as [E'|E']; [lra|].
    apply N1, ln_inv; [lra|lra|]. now rewrite ln_1. }
  assert (Q : forall y, a < y < b -> a < c * y < b).
  { intros y Hy. apply Hb. apply H. apply Hb in Hy. destruct Hy as [v ->]. now exists v. }
  assert (Q' : forall y, a < y < b -> a < y / c < b).
  { intros y Hy. assert (A : attains_vip backward scale lam y) by (apply H, Hb, Hy). destruct A as [v Hv]. unfold vip_exponential in Hv. fold c in Hv.
    apply Hb. exists v. rewrite Hv. field. lra. }
  destruct (Rlt_le_dec c 1).
  - (* y close to b is not reached from below b / c *)
    set (y := Rmax ((a + b) / 2) (b * (1 + c) / 2)).
    assert (Y : a < y < b).
    { unfold y. split; [apply Rlt_le_trans with ((a + b) / 2); [lra|apply Rmax_l]|]. apply Rmax_lub_lt; [lra|].
      assert (0 < b * (1 - c)) by (apply Rmult_lt_0_compat; lra). lra. }
    specialize (Q' y Y). assert (y >= b * (1 + c) / 2) by (apply Rle_ge, Rmax_r).
    assert (y / c >= b); [|lra]. apply Rle_ge. apply Rmult_le_reg_r with c; auto. replace (y / c * c) with y by (field; lra).
    assert (0 < b * (1 - c)) by (apply Rmult_lt_0_compat; lra). lra.
  - assert (Hc1 : 1 < c) by lra. set (y := Rmax ((a + b) / 2) (b / c)).
    assert (Y : a < y < b).
    { unfold y. split; [apply Rlt_le_trans with ((a + b) / 2); [lra|apply Rmax_l]|]. apply Rmax_lub_lt; [lra|].
      apply Rmult_lt_reg_r with c; auto. replace (b / c * c) with b by (field; lra).
      assert (0 < b * (c - 1)) by (apply Rmult_lt_0_compat; lra). lra. }
    specialize (Q y Y). assert (y >= b / c) by (apply Rle_ge, Rmax_r).
    assert (c * y >= b); [|lra]. apply Rle_ge. replace b with (c * (b / c)) by (field; lra). apply Rmult_le_compat_l; lra.
Qed.
Example C48_initial_example : dget [("x"%string, Some [3%nat]); ("y"%string, None)] "y"%string = Some None /\
  snd (set_lambda (fresh [("y"%string, None)]) [("y"%string, {| ash := [3%nat]; aval := fun _ => Fin (1 / 4) |})]) = Some ValueError.
Proof. split; reflexivity. Qed.
Example C47_log_transform_example : forall x, attains exp x <-> 0 < x.
Proof. intros x. split; [intros [v ->]; apply exp_pos|]. intros H. exists (ln x). now rewrite exp_ln. Qed.
