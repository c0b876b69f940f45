(** Specification for marginalization: sums over every configuration / path, written
    without reference to the code. *)
From Verif Require Import Common LogR MargLogp_Model.
From Coq Require Import ZArith.
Local Open Scope R_scope.

(** All assignments of [n] entries to values of [dom]. *)
Fixpoint configs {A} (dom : list A) (n : nat) : list (list A) :=
  match n with
  | O => [[]]
  | S n => flat_map (fun v => map (cons v) (configs dom n)) dom
  end.

Lemma configs_complete {A} (dom : list A) n c :
  In c (configs dom n) <-> length c = n /\ Forall (fun v => In v dom) c.
Proof.
  revert c. induction n as [|n IH]; intros c; simpl.
  - split.
    + intros [<-|[]]; split; [reflexivity | constructor].
    + intros [Hl _]; destruct c; [now left | discriminate].
  - rewrite in_flat_map. split.
    + intros [v [Hv Hc]]. apply in_map_iff in Hc as [c' [<- Hc']].
      apply IH in Hc' as [Hl HF]. split; simpl; [now f_equal | now constructor].
    + intros [Hl HF]. destruct c as [|v c]; [discriminate|].
      inversion HF; subst. exists v. split; [assumption|].
      apply in_map. apply IH. split; [now injection Hl | assumption].
Qed.

Lemma configs_NoDup {A} (dom : list A) n : NoDup dom -> NoDup (configs dom n).
Proof.
  intros Hd. induction n as [|n IH]; simpl.
  - repeat constructor; auto.
  - clear -Hd IH. induction Hd as [|v dom' Hv Hd IHd]; simpl; [constructor|].
    revert IH IHd. generalize (configs (v :: dom') n) as cs. intros cs Hcs IHd.
    assert (Hmap : forall u, NoDup (map (cons u) cs)).
    { intros u. clear -Hcs. induction Hcs as [|c cs Hc Hcs IH]; simpl; constructor; auto.
      rewrite in_map_iff. intros [c' [E Hc']]. injection E as ->. contradiction. }
    assert (Hrest : forall dom'', NoDup dom'' -> NoDup (flat_map (fun u => map (cons u) cs) dom'')).
    { intros dom'' Hd''. induction Hd'' as [|u dom'' Hu Hd'' IH2]; simpl; [constructor|].
      assert (Happ : forall (l1 l2 : list (list A)), NoDup l1 -> NoDup l2 ->
                 (forall x, In x l1 -> ~ In x l2) -> NoDup (l1 ++ l2)).
      { induction l1 as [|a l1 IHl]; simpl; intros l2 H1 H2 Hdis; [assumption|].
        inversion H1; subst. constructor.
        - rewrite in_app_iff. intros [Hin|Hin]; [contradiction|]. apply (Hdis a); auto.
        - apply IHl; auto. }
      apply Happ; auto. intros x Hx Hx2.
      apply in_map_iff in Hx as [c [<- Hc]].
      apply in_flat_map in Hx2 as [w [Hw Hx2]].
      apply in_map_iff in Hx2 as [c' [E Hc']]. injection E as -> ->. contradiction. }
    apply (Hrest (v :: dom')). constructor; assumption.
Qed.

(** The values a distribution can take. *)
Definition in_support (d : dist) (v : Z) : Prop :=
  match d with
  | Bernoulli => v = 0%Z \/ v = 1%Z
  | Categorical k | DiscreteMarkovChain k => (0 <= v < Z.of_nat k)%Z
  | DiscreteUniform (PScalar lo) (PScalar hi) => (lo <= v <= hi)%Z
  | _ => False
  end.

(** Parameters given as plain scalars (no batch of different bounds). *)
Definition scalar_params (d : dist) : Prop :=
  match d with DiscreteUniform lo hi => exists a b, lo = PScalar a /\ hi = PScalar b | _ => True end.

Definition increasing (l : list Z) : Prop :=
  forall i j, (i < j < length l)%nat -> (nth i l 0 < nth j l 0)%Z.

(** A tensor-valued graph whose entry [b] looks at entry [b] of its argument only. *)
Definition separable {A B} (n : nat) (f : list A -> nat -> B) : Prop :=
  forall c c' b, (b < n)%nat -> length c = n -> length c' = n ->
    nth_error c b = nth_error c' b -> f c b = f c' b.

(** log of the joint density at a full assignment [c] of the marginalized variable:
    its own logp plus every entry of every dependent. *)
Definition full_joint (n : nat) (lpx : list Z -> nat -> lr)
    (dependents : list (list Z -> nat -> list lr)) (c : list Z) : lr :=
  ladd (lsum (map (lpx c) (seq 0 n)))
       (lsum (map (fun dep => lsum (flat_map (dep c) (seq 0 n))) dependents)).

(** Marginal probability (density) of everything else: sum over all assignments. *)
Definition marginal_probability (op : marg_op) (supp : list Z) : R :=
  Rsum (map (fun c => lexp (full_joint (batch op) (lp_x op) (deps op) c)) (configs supp (batch op))).

(** Joint probability of everything else AND entry [b] being [v]. *)
Definition joint_probability_at (op : marg_op) (supp : list Z) (b : nat) (v : Z) : R :=
  Rsum (map (fun c => lexp (full_joint (batch op) (lp_x op) (deps op) c))
            (filter (fun c => match nth_error c b with Some u => Z.eqb u v | None => false end)
                    (configs supp (batch op)))).

(** Probability of one hidden path and the emissions along it. *)
Fixpoint transitions (P : nat -> nat -> R) (s : nat) (path : list nat) : R :=
  match path with
  | [] => 1
  | s' :: rest => P s s' * transitions P s' rest
  end.
Definition path_probability (op : hmm_op) (path : list nat) : R :=
  match path with
  | [] => 0
  | s0 :: rest => lexp (lp_init op s0) * transitions (trans op) s0 rest
  end
  * Rprod (map (fun t => Rprod (map (fun dep => Rprod (map lexp (dep path t))) (emis op)))
               (seq 0 (chain_len op))).
Definition hmm_probability (op : hmm_op) : R :=
  Rsum (map (path_probability op) (configs (seq 0 (states op)) (chain_len op))).
