(** C106: the filter asked for is the filter used. *)
From Coq Require Import String Ascii List Arith Bool Lia.
Import ListNotations.
From Verif Require Import Common Filt_Model.
Open Scope string_scope.

(** ** Specification *)
(** Equal up to the case of letters. *)
Definition same_letter (a b : ascii) : Prop :=
  a = b \/ exists i, (i < 26)%nat /\ ((nat_of_ascii a = 65 + i /\ nat_of_ascii b = 97 + i) \/ (nat_of_ascii a = 97 + i /\ nat_of_ascii b = 65 + i))%nat.
Inductive same_word : string -> string -> Prop :=
| same_nil : same_word "" ""
| same_cons a b s t : same_letter a b -> same_word s t -> same_word (String a s) (String b t).
(** The names that the documentation of PyMCStateSpace and of Component.build lists as valid. *)
Definition documented : list string := ["standard"; "univariate"; "single"; "cholesky"; "steady_state"].

(** ** Proofs *)
Definition lowercase_name (s : string) : Prop := forall a, In a (list_ascii_of_string s) -> ~ (65 <= nat_of_ascii a <= 90)%nat.
Lemma lower_ascii_cases c : (nat_of_ascii c < 65 \/ 90 < nat_of_ascii c)%nat /\ lower_ascii c = c \/
  (65 <= nat_of_ascii c <= 90)%nat /\ nat_of_ascii (lower_ascii c) = (nat_of_ascii c + 32)%nat.
Proof.
  unfold lower_ascii. destruct (Nat.leb_spec 65 (nat_of_ascii c)); destruct (Nat.leb_spec (nat_of_ascii c) 90); cbn [andb]; auto; try (left; split; auto; lia).
  right. split; auto. apply nat_ascii_embedding. lia.
Qed.
Lemma lower_ascii_spec a b : ~ (65 <= nat_of_ascii b <= 90)%nat -> (lower_ascii a = b <-> same_letter a b).
Proof.
  intros Hb. assert (inj : forall x y, nat_of_ascii x = nat_of_ascii y -> x = y). { intros x y E. rewrite <- (ascii_nat_embedding x), <- (ascii_nat_embedding y), E. auto. }
  destruct (lower_ascii_cases a) as [[H E]|[H E]]; split.
  - intros <-. left. auto.
  - intros [->|(i & Hi & [[A B]|[A B]])]; auto; lia.
  - intros <-. right. exists (nat_of_ascii a - 65)%nat. split; [lia|]. left. lia.
  - intros [->|(i & Hi & [[A B]|[A B]])]; try lia. apply inj. lia.
Qed.
Lemma lower_spec s t : lowercase_name t -> (lower s = t <-> same_word s t).
Proof.
  revert t. induction s as [|a s IH]; intros [|b t] H; cbn [lower]; split; try discriminate; try (intros X; inversion X; fail).
  - constructor.
  - reflexivity.
  - intros E. injection E as E1 E2. constructor.
    + apply lower_ascii_spec; auto. apply H. left. auto.
    + apply IH; auto. intros c Hc. apply H. right. auto.
  - intros X. inversion X; subst. f_equal.
    + apply lower_ascii_spec; auto. apply H. left. auto.
    + apply IH; auto. intros c Hc. apply H. right. auto.
Qed.
Lemma names_lower : lowercase_name "standard" /\ lowercase_name "univariate" /\ lowercase_name "cholesky".
Proof. repeat split; intros a Ha; cbn in Ha; repeat (destruct Ha as [<-|Ha]; [cbn; lia|]); destruct Ha. Qed.

(** ** Theorems *)
(** Each of the three filters is chosen exactly by its own name, in any mixture of upper and lower case; every other string is
    refused, for every number of series. *)
Theorem C106_filter_choice name n :
  match choose_filter name n with
  | Ok StandardFilter => same_word name "standard"
  | Ok UnivariateFilter => same_word name "univariate"
  | Ok SquareRootFilter => same_word name "cholesky"
  | Err e => e = NotImplementedError /\ ~ same_word name "standard" /\ ~ same_word name "univariate" /\ ~ same_word name "cholesky"
  end.
Proof.
  destruct names_lower as (N1 & N2 & N3). unfold choose_filter, lookup, FILTER_FACTORY. cbn [find fst snd].
  assert (S : forall t, lower name = t -> t <> "single" -> String.eqb name "single" = false).
  { intros t E N. apply String.eqb_neq. intros ->. apply N. rewrite <- E. reflexivity. }
  destruct (String.eqb_spec "standard" (lower name)) as [E|E1]; [rewrite (S "standard") by (auto; discriminate); cbn; apply lower_spec; auto|].
  destruct (String.eqb_spec "univariate" (lower name)) as [E|E2]; [rewrite (S "univariate") by (auto; discriminate); cbn; apply lower_spec; auto|].
  destruct (String.eqb_spec "cholesky" (lower name)) as [E|E3]; [rewrite (S "cholesky") by (auto; discriminate); cbn; apply lower_spec; auto|].
  cbn. split; auto. rewrite <- (lower_spec _ _ N1), <- (lower_spec _ _ N2), <- (lower_spec _ _ N3). repeat split; congruence.
Qed.
Print Assumptions C106_filter_choice.
(** The documentation promises five names; two of them are always refused (for one series as well, so the check that reserves
    "single" for one series can never fire). *)
Theorem C106_documented_refuted : exists name, In name documented /\ forall n, choose_filter name n = Err NotImplementedError.
Proof. exists "single". split; [cbn; auto|]. reflexivity. Qed.
Theorem C106_documented_exact name n : In name documented -> ((exists f, choose_filter name n = Ok f) <-> name <> "single" /\ name <> "steady_state").
Proof.
  intros [<-|[<-|[<-|[<-|[<-|[]]]]]]; cbn; (split; [intros [f H]; try discriminate H; split; discriminate|intros [A B]]); try (destruct A; reflexivity); try (destruct B; reflexivity); try (eexists; reflexivity).
Qed.
Print Assumptions C106_documented_exact.
(** Sampling reads the group that was named and no other; names other than prior and posterior are refused whatever the data hold. *)
Theorem C106_group A (group : string) (groups : list (string * A)) g : NoDup (map fst groups) ->
  (pick_group group groups = Ok g <-> (group = "prior" \/ group = "posterior") /\ In (group, g) groups) /\
  (group <> "prior" -> group <> "posterior" -> pick_group group groups = Err ValueError).
Proof.
  intros N. assert (L : lookup group groups = Some g <-> In (group, g) groups).
  { unfold lookup. induction groups as [|[k v] r IH]; cbn; [split; [discriminate|intros []]|]. inversion N as [|? ? N1 N2]; subst.
    destruct (String.eqb_spec k group) as [->|E].
    - cbn. split; [intros X; injection X as ->; auto|]. intros [X|X]; [congruence|]. exfalso. apply N1. cbn. apply in_map_iff. exists (group, g). auto.
    - rewrite IH by auto. split; auto. intros [X|X]; auto. congruence. }
  unfold pick_group. split.
  - destruct (String.eqb_spec group "prior") as [E|E]; cbn [orb].
    + rewrite <- L. destruct (lookup group groups); split; intros H; try (injection H as ->); auto; try discriminate; destruct H as [_ H]; congruence.
    + destruct (String.eqb_spec group "posterior") as [E'|E'].
      * rewrite <- L. destruct (lookup group groups); split; intros H; try (injection H as ->); auto; try discriminate; destruct H as [_ H]; congruence.
      * split; [discriminate|]. intros [[H|H] _]; contradiction.
  - intros A1 A2. apply String.eqb_neq in A1. apply String.eqb_neq in A2. rewrite A1, A2. reflexivity.
Qed.
Print Assumptions C106_group.
Example C106_example : choose_filter "Cholesky" 3 = Ok SquareRootFilter /\ choose_filter "single" 1 = Err NotImplementedError /\
  pick_group "prior" [("posterior", 1); ("prior", 2)] = Ok 2 /\ pick_group "Prior" [("posterior", 1); ("prior", 2)] = Err ValueError.
Proof. repeat split. Qed.
