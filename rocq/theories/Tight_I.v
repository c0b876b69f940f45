(** Statements added after mutation testing (batches b26, auto3): C34 labels, C45 moments, C52 arguments of the log-density. *)
From Coq Require Import Reals Lra.
From Coq Require Import String Ascii List Arith Lia.
Import ListNotations.
From Verif Require Import Common Dict.
From Verif Require Multi_Model Prior_Model Flat_Model Smc_Model.

(** * C34: the label clean-up is Python's str.replace(p, "") *)
Module Labels.
Import Multi_Model.
Local Open Scope string_scope.
(** [occurs p s]: p is a substring of s *)
Definition occurs (p s : string) : Prop := exists a b, s = a ++ p ++ b.
(** What str.replace(p, "") removes: the leftmost occurrence of p, then the leftmost one after it, until there is none. *)
Inductive removes (p : string) : string -> string -> Prop :=
| removes_none s : ~ occurs p s -> removes p s s
| removes_first a b b' : (forall a' c, a ++ p ++ b = a' ++ p ++ c -> (length a <= length a')%nat) -> removes p b b' -> removes p (a ++ p ++ b) (a ++ b').

Lemma app_assoc_s a b c : ((a ++ b) ++ c = a ++ b ++ c)%string.
Proof. induction a; cbn; congruence. Qed.
Lemma app_nil_s a : (a ++ "" = a)%string.
Proof. induction a; cbn; congruence. Qed.
Lemma strip_some p s r : strip_prefix p s = Some r <-> s = p ++ r.
Proof.
  revert s. induction p as [|a p IH]; intros s; cbn.
  - split; congruence.
  - destruct s as [|b s]; cbn; [split; discriminate|]. destruct (Ascii.eqb_spec a b) as [->|N].
    + rewrite IH. split; congruence.
    + split; [discriminate|]. intros E. congruence.
Qed.
Lemma len_app a b : length (a ++ b) = (length a + length b)%nat.
Proof. induction a; cbn; congruence. Qed.
Lemma removes_total_aux p : p <> "" -> forall f s, (length s < f)%nat -> removes p s (remove_all_fuel f p s).
Proof.
  intros Hp. induction f as [|f IH]; intros s Hl; [lia|]. cbn [remove_all_fuel].
  destruct (strip_prefix p s) as [r|] eqn:E.
  - apply strip_some in E. subst s. apply (removes_first p "" r); [cbn; lia|]. apply IH. rewrite len_app in Hl. destruct p; [congruence|]. cbn in Hl. lia.
  - assert (Hn : forall r, s <> p ++ r). { intros r Er. apply strip_some in Er. congruence. }
    destruct s as [|c r].
    + apply removes_none. intros (a & b & Eab). destruct a; [|discriminate]. now apply (Hn b).
    + specialize (IH r ltac:(cbn in Hl; lia)). remember (remove_all_fuel f p r) as q eqn:Eq; clear Eq. inversion IH as [s Ho Es Ev|a b b' Hfirst Hr Es Ev].
      * subst q. apply removes_none. intros (a & b & Eab). destruct a as [|d a]; [now apply (Hn b)|]. cbn in Eab. injection Eab as -> ->. apply Ho. now exists a, b.
      * subst. change (String c (a ++ p ++ b)) with (String c a ++ p ++ b). change (String c (a ++ b')) with (String c a ++ b').
        apply removes_first; auto. intros a' d Ed. destruct a' as [|x a']; [exfalso; now apply (Hn d)|]. cbn in Ed. injection Ed as -> Ed. cbn. specialize (Hfirst _ _ Ed). lia.
Qed.
(** the relation determines the result, so it is a full specification *)
Lemma app_inv_len (a a' b b' : string) : a ++ b = a' ++ b' -> length a = length a' -> a = a' /\ b = b'.
Proof.
  revert a'. induction a as [|x a IH]; intros [|y a'] E L; cbn in *; try discriminate; auto.
  injection E as <- E. destruct (IH _ E ltac:(lia)) as [-> ->]; auto.
Qed.
Lemma removes_fun p s x y : removes p s x -> removes p s y -> x = y.
Proof.
  intros H. revert y. induction H as [s Hn|a b b' Hf Hr IH]; intros y H'.
  - inversion H' as [s' Hn' Es Ev|a b b' Hf' Hr' Es Ev]; auto. subst. exfalso. apply Hn. now exists a, b.
  - inversion H' as [s' Hn Es Ev|a2 b2 b2' Hf2 Hr2 Es Ev].
    + exfalso. apply Hn. now exists a, b.
    + subst. symmetry in Es. pose proof (Hf _ _ Es). pose proof (Hf2 a b (eq_sym Es)).
      assert (E1 : length a = length a2) by lia. destruct (app_inv_len _ _ _ _ Es E1) as [<- E2]. destruct (app_inv_len _ _ _ _ E2 eq_refl) as [_ <-].
      f_equal. auto.
Qed.
(** C34: cleaning a label removes, for each of the four patterns in turn, its occurrences from left to right and nothing else. *)
Theorem C34_cleanup_labels (l : list string) : exists l1 l2 l3,
  Forall2 (removes "^1") l l1 /\ Forall2 (removes "^0") l1 l2 /\ Forall2 (removes "L0") l2 l3 /\ Forall2 (removes "D0") l3 (cleanup_states l).
Proof.
  assert (H : forall p, p <> "" -> forall l, Forall2 (removes p) l (map (remove_all p) l)).
  { intros p Hp l'. induction l'; cbn; constructor; auto. apply (removes_total_aux p Hp (S (length a)) a); auto. }
  exists (map (remove_all "^1") l), (map (remove_all "^0") (map (remove_all "^1") l)), (map (remove_all "L0") (map (remove_all "^0") (map (remove_all "^1") l))).
  repeat split; try (apply H; discriminate).
  replace (cleanup_states l) with (map (remove_all "D0") (map (remove_all "L0") (map (remove_all "^0") (map (remove_all "^1") l)))); [apply H; discriminate|].
  unfold cleanup_states. now rewrite !map_map.
Qed.
Example C34_cleanup_labels_example : cleanup_states ["D1^1y.L1D0y"; "D0L0^0D0"; "D^0^11"] = ["D1y.L1y"; ""; "D1"].
Proof. reflexivity. Qed.
End Labels.

(** * C45: the new prior has the mean and the covariance of the draws *)
Module Moments.
Import Prior_Model. Import List.
Local Open Scope R_scope.
Fixpoint total (n : nat) (f : nat -> R) : R := match n with O => 0 | S m => total m f + f m end.
(** A random vector of n entries, given by the expectation of its functions. *)
Record expectation (n : nat) (E : (list R -> R) -> R) : Prop := {
  E_ext : forall f g, (forall b, length b = n -> f b = g b) -> E f = E g;
  E_add : forall f g, E (fun b => f b + g b) = E f + E g;
  E_mul : forall c f, E (fun b => c * f b) = c * E f;
  E_one : E (fun _ => 1) = 1 }.
(** uncorrelated entries of mean zero and variance one *)
Definition white (n : nat) (E : (list R -> R) -> R) : Prop :=
  (forall j, (j < n)%nat -> E (fun b => nth j b 0) = 0) /\
  (forall i j, (i < n)%nat -> (j < n)%nat -> E (fun b => nth i b 0 * nth j b 0) = if Nat.eqb i j then 1 else 0).

Lemma total_ext n f g : (forall k, (k < n)%nat -> f k = g k) -> total n f = total n g.
Proof. induction n; cbn; intros H; auto. rewrite IHn, H; auto. Qed.
Lemma total_shift n f : total (S n) f = f O + total n (fun k => f (S k)).
Proof. induction n; [cbn; lra|]. change (total (S (S n)) f) with (total (S n) f + f (S n)). rewrite IHn. cbn. lra. Qed.
Lemma total_scal n c f : total n (fun k => c * f k) = c * total n f.
Proof. induction n; cbn; [lra|]. rewrite IHn. lra. Qed.
Lemma total_add n f g : total n (fun k => f k + g k) = total n f + total n g.
Proof. induction n; cbn; [lra|]. rewrite IHn. lra. Qed.
Lemma total_pick n i f : (i < n)%nat -> total n (fun k => f k * (if Nat.eqb i k then 1 else 0)) = f i.
Proof.
  induction n; intros H; [lia|]. cbn. destruct (Nat.eqb_spec i n) as [->|N].
  - replace (total n _) with 0; [lra|]. clear. symmetry. 
    rewrite (total_ext n _ (fun k => 0 * f k)); [rewrite total_scal; lra|]. intros k Hk. destruct (Nat.eqb_spec n k); [lia|lra].
  - rewrite IHn by lia. lra.
Qed.
Lemma dot_total (r b : list R) n : length r = n -> length b = n ->
  sumv 0 Rplus (map (fun q => fst q * snd q) (combine r b)) = total n (fun k => nth k r 0 * nth k b 0).
Proof.
  revert b n. induction r as [|x r IH]; intros [|y b] n Hr Hb; cbn in Hr, Hb; subst n; try discriminate; [reflexivity|].
  rewrite total_shift. cbn [combine map]. unfold sumv in *. cbn [fold_right fst snd nth]. rewrite (IH b (length r)); auto.
Qed.
(** every entry of the flat vector of new values: the average of that column of the draws plus a row of the factor times the base vector *)
Theorem C45_affine (avg : list R -> R) (m chol : list (list R)) (base : list R) n : m <> [] -> Forall (fun r => length r = n) m ->
  length chol = n -> Forall (fun r => length r = n) chol -> length base = n -> forall j, (j < n)%nat ->
  nth j (interim 0 Rplus Rmult avg m chol base) 0 = avg (map (fun row => nth j row 0) m) + total n (fun k => nth k (nth j chol []) 0 * nth k base 0).
Proof.
  intros Hm Hw Hc Hcw Hb j Hj. unfold interim.
  assert (HL : length (mean 0 avg m) = n). { unfold mean. rewrite map_length, seq_length. destruct m as [|r m]; [congruence|]. now inversion Hw. }
  set (g := fun p : R * list R => _). rewrite (nth_indep _ 0 (g (0, []))) by (rewrite map_length, combine_length; lia). rewrite map_nth, combine_nth by lia.
  unfold g. cbn [fst snd]. rewrite (dot_total _ _ n); [|rewrite Forall_forall in Hcw; apply Hcw, nth_In; lia|auto]. f_equal.
  unfold mean. replace (match m with [] => 0%nat | r :: _ => length r end) with n by (destruct m as [|r m']; [congruence|now inversion Hw]).
  rewrite (nth_indep _ 0 (avg (column 0 m 0))) by (rewrite map_length, seq_length; lia). rewrite (map_nth (fun j => avg (column 0 m j))), seq_nth by lia. reflexivity.
Qed.
Lemma E_const n E : expectation n E -> forall c, E (fun _ => c) = c.
Proof. intros H c. rewrite (E_ext _ _ H _ (fun b => c * (fun _ => 1) b)); [rewrite (E_mul _ _ H), (E_one _ _ H); lra|intros; lra]. Qed.
Lemma E_total n E : expectation n E -> forall m (f : nat -> list R -> R), E (fun b => total m (fun k => f k b)) = total m (fun k => E (f k)).
Proof. intros H m f. induction m; cbn; [apply (E_const n); auto|]. rewrite (E_add _ _ H (fun b => total m (fun k => f k b)) (f m)). now rewrite IHm. Qed.
(** C45: under the standard normal base vector (only its first two moments matter) the new prior, before the inverse transforms, has the
    average of the posterior draws as mean, and as covariance the matrix whose factor was taken: the sample covariance of the draws. *)
Theorem C45_moments (avg : list R -> R) (m chol : list (list R)) (cov : nat -> nat -> R) n E : m <> [] -> Forall (fun r => length r = n) m ->
  length chol = n -> Forall (fun r => length r = n) chol ->
  (forall i j, (i < n)%nat -> (j < n)%nat -> total n (fun k => nth k (nth i chol []) 0 * nth k (nth j chol []) 0) = cov i j) ->
  expectation n E -> white n E ->
  let x b j := nth j (interim 0 Rplus Rmult avg m chol b) 0 in
  let mu j := avg (map (fun row => nth j row 0) m) in
  forall i j, (i < n)%nat -> (j < n)%nat -> E (fun b => x b j) = mu j /\ E (fun b => (x b i - mu i) * (x b j - mu j)) = cov i j.
Proof.
  intros Hm Hw Hc Hcw Hcov HE [W1 W2] x mu i j Hi Hj.
  set (L := fun i k => nth k (nth i chol []) 0).
  assert (Hx : forall b j, length b = n -> (j < n)%nat -> x b j = mu j + total n (fun k => L j k * nth k b 0)).
  { intros b j' Hb Hj'. unfold x, mu, L. apply C45_affine; auto. }
  split.
  - rewrite (E_ext _ _ HE _ (fun b => (fun _ => mu j) b + (fun b => total n (fun k => L j k * nth k b 0)) b)); [|intros b Hb; now rewrite Hx].
    rewrite (E_add _ _ HE), (E_const n E HE), (E_total n E HE).
    rewrite (total_ext n _ (fun k => 0 * 1)); [rewrite total_scal; lra|]. intros k Hk. rewrite (E_mul _ _ HE (L j k) (fun b => nth k b 0)), W1; auto. lra.
  - rewrite (E_ext _ _ HE _ (fun b => total n (fun k => (fun b => L i k * total n (fun l => L j l * (nth k b 0 * nth l b 0))) b))).
    + rewrite (E_total n E HE n (fun k b => L i k * total n (fun l => L j l * (nth k b 0 * nth l b 0)))).
      rewrite <- (Hcov i j Hi Hj). apply total_ext. intros k Hk.
      rewrite (E_mul _ _ HE (L i k) (fun b => total n (fun l => L j l * (nth k b 0 * nth l b 0)))). fold (L i k) (L j k). f_equal.
      rewrite (E_total n E HE n (fun l b => L j l * (nth k b 0 * nth l b 0))). rewrite <- (total_pick n k (L j) Hk). apply total_ext. intros l Hl.
      rewrite (E_mul _ _ HE (L j l) (fun b => nth k b 0 * nth l b 0)), W2; auto.
    + intros b Hb. rewrite !Hx by auto. replace (mu i + total n (fun k => L i k * nth k b 0) - mu i) with (total n (fun k => L i k * nth k b 0)) by lra.
      replace (mu j + total n (fun k => L j k * nth k b 0) - mu j) with (total n (fun k => L j k * nth k b 0)) by lra.
      rewrite Rmult_comm, <- total_scal. apply total_ext. intros k Hk. cbn.
      rewrite (total_ext n (fun l => L j l * (nth k b 0 * nth l b 0)) (fun l => nth k b 0 * (L j l * nth l b 0))); [|intros; lra]. rewrite total_scal. lra.
Qed.
(** Two draws of two numbers; the base vector uniform on the four sign patterns. *)
Definition signs (f : list R -> R) : R := (f [1; 1] + f [1; -1] + f [-1; 1] + f [-1; -1]) / 4.
Example C45_moments_example : expectation 2 signs /\ white 2 signs /\
  signs (fun b => nth 1 (interim 0 Rplus Rmult (fun l => fold_right Rplus 0 l / 2) [[1; 2]; [3; 8]] [[2; 0]; [1; 3]] b) 0) = 5.
Proof.
  split; [|split].
  - split; unfold signs; intros; try lra. rewrite !H by reflexivity. reflexivity.
  - split.
    + intros [|[|j]] H; [unfold signs; cbn; lra|unfold signs; cbn; lra|lia].
    + intros [|[|i]] [|[|j]] Hi Hj; try lia; unfold signs; cbn; lra.
  - unfold signs. cbn. lra.
Qed.
End Moments.

(** * C52: what the log-density sees for one particle *)
Module Arguments.
Import Flat_Model Smc_Model. Import List.
(** C52: for particle i of a population of value variables without axes of length one, the log-density gets, in the order of the variables,
    exactly the values of draw i with the shape each variable has in the model (a scalar keeps its trailing axis of one only until here). *)
Theorem C52_smc_logp_arguments {V} (vars : list (string * list nat)) (blocks : list (arr V)) :
  Forall (fun v => ~ In 1%nat (snd v)) vars ->
  Forall2 (fun v a => ashape a = match snd v with [] => [1%nat] | s => s end) vars blocks ->
  Forall2 (fun va b => ashape b = snd (fst va) /\ adata b = adata (snd va)) (combine vars blocks) (logp_arguments blocks).
Proof.
  intros Hu H. induction H as [|[x s] a vs bs Ha _ IH]; [constructor|]. inversion Hu as [|? ? Hx Hr]; subst. cbn in *. constructor; auto. cbn.
  split; [|reflexivity]. rewrite Ha. destruct s as [|d s]; [reflexivity|].
  set (t := d :: s) in *. clearbody t. clear -Hx. induction t as [|e t IH]; cbn; auto. cbn in Hx. destruct (Nat.eqb_spec e 1) as [->|N]; [exfalso; tauto|]. cbn. f_equal. tauto.
Qed.
(** an axis of length one is lost *)
Theorem C52_smc_unit_arguments_refuted : exists (v : string * list nat) (a : arr Z), ashape a = snd v /\ map ashape (logp_arguments [a]) <> [snd v].
Proof. exists ("x"%string, [1; 2]%nat), {| ashape := [1; 2]%nat; adata := [5; 7]%Z |}. split; [reflexivity|]. discriminate. Qed.
Example C52_smc_logp_arguments_example :
  logp_arguments [{| ashape := [1]%nat; adata := [4]%Z |}; {| ashape := [2; 3]%nat; adata := [1; 2; 3; 4; 5; 6]%Z |}]
  = [{| ashape := []; adata := [4]%Z |}; {| ashape := [2; 3]%nat; adata := [1; 2; 3; 4; 5; 6]%Z |}].
Proof. reflexivity. Qed.
End Arguments.
