From Coq Require Import Reals List Arith Lia Lra FinFun.
From Verif Require Import Branch_Model Branch_Spec.
Import ListNotations.
Open Scope R_scope.

(** the histories with total k, listed *)
Fixpoint comps_f (f k : nat) : list (list nat) :=
  match f, k with
  | _, O => [[]]
  | O, _ => []
  | S f', _ => flat_map (fun j => map (cons j) (comps_f f' (k - j))) (seq 1 k)
  end.
Definition comps (k : nat) : list (list nat) := comps_f k k.

Lemma comps_f_in f : forall k h, (k <= f)%nat -> In h (comps_f f k) <-> history h /\ list_sum h = k.
Proof.
  unfold history. induction f as [|f IH]; intros k h L.
  - replace k with 0%nat by lia. cbn. split.
    + intros [<-|[]]. split; [constructor|reflexivity].
    + intros (F&E). left. destruct h as [|y h]; auto. inversion F; subst. cbn in E. lia.
  - destruct k as [|k].
    + cbn. split.
      * intros [<-|[]]. split; [constructor|reflexivity].
      * intros (F&E). left. destruct h as [|y h]; auto. inversion F; subst. cbn in E. lia.
    + change (comps_f (S f) (S k)) with (flat_map (fun j => map (cons j) (comps_f f (S k - j))) (seq 1 (S k))).
      rewrite in_flat_map. split.
      * intros (j&Hj&Hh). apply in_seq in Hj. apply in_map_iff in Hh as (h'&<-&Hh'). apply IH in Hh' as (F&E); [|lia].
        split; [constructor; [lia|auto]|]. change (j + list_sum h' = S k)%nat. rewrite E. lia.
      * intros (F&E). destruct h as [|y h]; [discriminate|]. inversion F; subst. change (y + list_sum h = S k)%nat in E. exists y. split; [apply in_seq; lia|].
        apply in_map. apply IH; [lia|]. split; auto. lia.
Qed.
Lemma nodup_pre (j : nat) L M : NoDup L -> NoDup M -> (forall b, ~ In (j :: b) M) -> NoDup (map (cons j) L ++ M).
Proof.
  intros NL NM D. induction L as [|a L IHL]; [exact NM|]. inversion NL; subst. cbn [map app]. constructor; [|auto].
  rewrite in_app_iff. intros [I|I]; [|exact (D a I)]. apply in_map_iff in I as (c&E&I). injection E as ->. auto.
Qed.
Lemma comps_f_nodup f : forall k, NoDup (comps_f f k).
Proof.
  induction f as [|f IH]; intros [|k]; try (cbn; repeat constructor; intros []; fail).
  change (comps_f (S f) (S k)) with (flat_map (fun j => map (cons j) (comps_f f (S k - j))) (seq 1 (S k))).
  assert (H : forall l, NoDup l -> NoDup (flat_map (fun j => map (cons j) (comps_f f (S k - j))) l)).
  { induction l as [|j l IHl]; intros N; [constructor|]. inversion N; subst. cbn [flat_map].
    apply nodup_pre; auto. intros b I. apply in_flat_map in I as (j'&Hj'&I). apply in_map_iff in I as (b'&E&_). injection E as -> _. auto. }
  apply H. apply seq_NoDup.
Qed.
Lemma comps_in k h : In h (comps k) <-> history h /\ list_sum h = k.
Proof. apply comps_f_in. auto. Qed.

(** ** the law *)
Section Law.
Context (lam : R).
Definition gp (r : R) (k : nat) : R :=
  match k with O => exp (- r) | S q => r * (r + lam * INR k) ^ q * exp (- r - lam * INR k) / INR (fact k) end.
Lemma lsum_app a b : lsum (a ++ b) = lsum a + lsum b.
Proof. unfold lsum. induction a; cbn; [ring|]. rewrite IHa. ring. Qed.
Lemma lsum_scal {A} c (f : A -> R) l : lsum (map (fun x => c * f x) l) = c * lsum (map f l).
Proof. unfold lsum. induction l; cbn; [ring|]. rewrite IHl. ring. Qed.
Lemma lsum_flat {A B} (f : B -> R) (g : A -> list B) l : lsum (map f (flat_map g l)) = lsum (map (fun a => lsum (map f (g a))) l).
Proof. induction l; [reflexivity|]. cbn [flat_map map]. rewrite map_app, lsum_app, IHl. reflexivity. Qed.
Lemma lsum_ext {A} (f g : A -> R) l : (forall a, In a l -> f a = g a) -> lsum (map f l) = lsum (map g l).
Proof. intros H. f_equal. apply map_ext_in. auto. Qed.
Lemma lsum_seq (f : nat -> R) n s : lsum (map f (seq s (S n))) = sum_f_R0 (fun i => f (s + i)%nat) n.
Proof.
  revert s. induction n; intros s; [cbn; rewrite Nat.add_0_r; ring|].
  rewrite (seq_S (S n) s), map_app, lsum_app, IHn. cbn [sum_f_R0 map lsum fold_right]. f_equal. unfold lsum; cbn. rewrite Rplus_0_r. f_equal.
Qed.
Lemma fact_S n : INR (fact (S n)) = INR (S n) * INR (fact n).
Proof. change (fact (S n)) with (S n * fact n)%nat. apply mult_INR. Qed.
Lemma term r q i : (i <= q)%nat ->
  poisson_pmf r (S i) * gp (lam * INR (S i)) (q - i) = r * exp (- r - lam * INR (S q)) / INR (fact (S q)) * (C q i * r ^ i * (lam * INR (S q)) ^ (q - i)).
Proof.
  intros L. unfold poisson_pmf, C. remember (q - i)%nat as d. assert (E : q = (i + d)%nat) by lia. clear Heqd L. subst q.
  pose proof (INR_fact_neq_0 i). pose proof (INR_fact_neq_0 (i + d)). pose proof (INR_fact_neq_0 d).
  assert (S0 : INR (S i) <> 0) by (apply not_0_INR; lia). assert (S1 : INR (S (i + d)) <> 0) by (apply not_0_INR; lia).
  destruct d as [|d].
  - cbn [gp]. rewrite Nat.add_0_r in *. rewrite !fact_S.
    replace (- r - lam * INR (S i)) with (- r + - (lam * INR (S i))) by ring. rewrite exp_plus. cbn [pow]. change (INR (fact 0)) with 1. field. auto.
  - unfold gp. rewrite (fact_S (i + S d)), (fact_S i).
    replace (lam * INR (S i) + lam * INR (S d)) with (lam * INR (S (i + S d))) by (rewrite !S_INR, plus_INR, !S_INR; ring).
    replace (- (lam * INR (S i)) - lam * INR (S d)) with (- (lam * INR (S (i + S d)))) by (rewrite !S_INR, plus_INR, !S_INR; ring).
    replace (- r - lam * INR (S (i + S d))) with (- r + - (lam * INR (S (i + S d)))) by ring. rewrite exp_plus. cbn [pow].
    field. auto.
Qed.
Lemma gp_rec r q : gp r (S q) = sum_f_R0 (fun i => poisson_pmf r (S i) * gp (lam * INR (S i)) (q - i)) q.
Proof.
  rewrite (sum_eq _ (fun i => (C q i * r ^ i * (lam * INR (S q)) ^ (q - i)) * (r * exp (- r - lam * INR (S q)) / INR (fact (S q))))) by (intros i Hi; rewrite term by auto; ring).
  rewrite <- scal_sum. rewrite <- binomial. cbn [gp]. field. apply INR_fact_neq_0.
Qed.
Lemma law_f f : forall k r, (k <= f)%nat -> lsum (map (history_prob lam r) (comps_f f k)) = gp r k.
Proof.
  induction f as [|f IH]; intros k r L.
  - replace k with 0%nat by lia. unfold lsum. cbn. unfold poisson_pmf. cbn. field.
  - destruct k as [|q]; [unfold lsum; cbn; unfold poisson_pmf; cbn; field|].
    change (comps_f (S f) (S q)) with (flat_map (fun j => map (cons j) (comps_f f (S q - j))) (seq 1 (S q))).
    rewrite lsum_flat. rewrite (lsum_ext _ (fun j => poisson_pmf r j * gp (lam * INR j) (S q - j))).
    + rewrite lsum_seq. symmetry. apply gp_rec.
    + intros j Hj. apply in_seq in Hj. rewrite map_map. cbn [history_prob]. rewrite lsum_scal, IH by lia. reflexivity.
Qed.
End Law.

(** ** the loop *)
Lemma any_false m mask a i : any_masked m mask a = false -> (i < m)%nat -> mask i = true -> a i = false.
Proof.
  unfold any_masked. intros H L M. destruct (a i) eqn:E; auto. exfalso.
  assert (existsb (fun i => mask i && a i)%bool (seq 0 m) = true); [|congruence]. apply existsb_exists. exists i. rewrite M, E. split; auto. apply in_seq. lia.
Qed.
Section Loop.
Context (m : nat) (draw : nat -> nat -> R -> nat) (lam : nat -> R).
Hypothesis zero : forall k i, draw k i 0 = 0%nat.
Lemma loop_follows fuel : forall k mask y x hz x', (forall i, hz i = Nat.ltb 0 (y i)) ->
  branch_loop m draw lam fuel k mask y x hz = Some x' -> forall i, (i < m)%nat -> mask i = true ->
  exists h, history h /\ follows (fun k r => draw k i r) (lam_abs lam i) k (lam_abs lam i * INR (y i)) h /\ x' i = (x i + list_sum h)%nat.
Proof.
  induction fuel as [|f IH]; intros k mask y x hz x' Hz E i L M; cbn [branch_loop] in E; destruct (any_masked m mask hz) eqn:A; try discriminate.
  1, 3: injection E as <-; pose proof (any_false _ _ _ _ A L M) as Z; rewrite Hz in Z; apply Nat.ltb_ge in Z; exists []; split; [constructor|]; replace (y i) with 0%nat by lia;
    cbn [follows INR]; rewrite Rmult_0_r; cbn; split; [apply zero|lia].
  assert (Ez : draw k i (lam_abs lam i * INR (y i)) = 0%nat \/ hz i = true).
  { destruct (hz i) eqn:Z; auto. left. rewrite Hz in Z. apply Nat.ltb_ge in Z. replace (y i) with 0%nat by lia. cbn. rewrite Rmult_0_r. apply zero. }
  apply IH with (i := i) in E; auto. destruct E as (h&Hh&F&Ex).
  set (y' := draw k i (lam_abs lam i * INR (y i))) in *. destruct y' as [|q] eqn:Ey.
  - exists []. split; [constructor|]. cbn [follows]. split; [exact Ey|]. rewrite Ex. change (list_sum []) with 0%nat.
    assert (h = []) as ->. { destruct h as [|a h]; auto. cbn [follows INR] in F. rewrite Rmult_0_r, zero in F. destruct F as (<-&_). inversion Hh; lia. }
    change (list_sum []) with 0%nat. destruct (hz i); lia.
  - exists (S q :: h). split; [constructor; [lia|auto]|]. split; [cbn [follows]; auto|]. destruct Ez as [Ez|Ez]; [lia|]. rewrite Ex, Ez. change (list_sum (S q :: h)) with (S q + list_sum h)%nat. lia.
Qed.
Lemma loop_ends fuel : forall k mask y x hz, (forall i, hz i = Nat.ltb 0 (y i)) ->
  (forall i, (i < m)%nat -> mask i = true -> y i = 0%nat \/ exists h, history h /\ (length h < fuel)%nat /\ follows (fun k r => draw k i r) (lam_abs lam i) k (lam_abs lam i * INR (y i)) h) ->
  exists x', branch_loop m draw lam fuel k mask y x hz = Some x'.
Proof.
  induction fuel as [|f IH]; intros k mask y x hz Hz H; cbn [branch_loop]; destruct (any_masked m mask hz) eqn:A; eauto.
  - exfalso. apply existsb_exists in A as (i&I&A). apply in_seq in I. apply Bool.andb_true_iff in A as (M&A). rewrite Hz in A. apply Nat.ltb_lt in A.
    destruct (H i ltac:(lia) M) as [E|(h&_&L&_)]; lia.
  - apply IH; auto. intros i L M. destruct (H i L M) as [E|(h&Hh&Lh&F)].
    + left. rewrite E. cbn. rewrite Rmult_0_r. apply zero.
    + destruct h as [|a h]; cbn [follows] in F; [auto|]. destruct F as (E&F). right. exists h. inversion Hh; subst. cbn in Lh. split; [auto|]. split; [lia|auto].
Qed.
Lemma follows_unique d l k r h1 : forall h2, history h1 -> history h2 -> follows d l k r h1 -> follows d l k r h2 -> h1 = h2.
Proof.
  revert k r. induction h1 as [|a h1 IH]; intros k r [|b h2] H1 H2 F1 F2; cbn [follows] in *; auto.
  - destruct F2 as (E&_). inversion H2; subst. lia.
  - destruct F1 as (E&_). inversion H1; subst. lia.
  - destruct F1 as (E1&F1), F2 as (E2&F2). inversion H1; inversion H2; subst. f_equal. eapply IH; eauto.
Qed.
End Loop.
