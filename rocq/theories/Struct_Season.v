(** TimeSeasonality. *)
From Coq Require Import Reals String Ascii Lra.
From Verif Require Import Common Struct_Model Struct_Spec Struct_Proofs.
Open Scope nat_scope.

Definition ts_ssm (uid : nat) (innovations : bool) (name : string) : ssm :=
  (Ssm (fun e => pv e (uid, (name ++ "_coefs")%string)) (fun _ => zmat) (fun _ => zvec) (fun _ => 0%R)
       (fun _ i j => if i =? 0 then (-1)%R else eye_below 1 i j)
       (fun _ _ j => if j =? 0 then 1%R else 0%R)
       (fun _ i j => if innovations && (i =? 0) && (j =? 0) then 1%R else 0%R)
       (fun _ => 0%R)
       (fun e i j => if innovations && (i =? 0) && (j =? 0)
                     then (pv e (uid, ("sigma_" ++ name)%string) 0%nat ^ 2)%R else 0%R)).

Lemma ts_names_distinct name : (name ++ "_coefs" <> "sigma_" ++ name)%string.
Proof. intros E. symmetry in E. revert E. apply (append_neq "g"). vm_compute. lia. Qed.

Lemma ts_inv uid s inn name sn pop c :
  time_seasonality uid s inn name sn pop = Ok c ->
  2 <= s /\ pop = true /\ c_name c = name /\ c_k_states c = s - 1 /\
  c_k_posdef c = (if inn then 1 else 0) /\
  c_ssm c = ts_ssm uid inn name /\ length (c_state_names c) = s - 1 /\
  (match sn with Some l => length l = s /\ c_state_names c = tl l | None => True end) /\
  c_shock_names c = (if inn then [name] else []) /\
  c_info c = [(name, CInfo (s - 1) (if inn then 1 else 0) true (Some (true :: repeat false (s - 2))))] /\
  c_param_names c = (if inn then [name ++ "_coefs"; "sigma_" ++ name] else [name ++ "_coefs"])%string /\
  c_param_info c = (if inn then [((name ++ "_coefs")%string, [s - 1]); (("sigma_" ++ name)%string, [])]
                    else [((name ++ "_coefs")%string, [s - 1])]) /\
  c_vars c = (map (fun ns => (fst ns, ((uid, fst ns), snd ns))) (c_param_info c)).
Proof.
  unfold time_seasonality.
  assert (HN : forall nm, (match sn with
         | Some l => if length l =? s then Ok l else Err ValueError
         | None => Ok (map (fun i => name ++ "_" ++ str_of_nat i)%string (seq 0 s))
         end) = Ok nm -> length nm = s /\ (match sn with Some l => nm = l | None => True end)).
  { intros nm. destruct sn as [l|].
    - destruct (Nat.eqb_spec (length l) s); [|discriminate]. intros E. inversion E; subst; auto.
    - intros E. inversion E. rewrite map_length, seq_length. auto. }
  destruct (match sn with Some _ => _ | None => _ end) as [nm|] eqn:E0; [|simpl; discriminate].
  destruct (HN nm eq_refl) as [HL HSN]. simpl.
  destruct pop; simpl; [|discriminate].
  destruct nm as [|x nm']; simpl in *; [discriminate|].
  destruct s as [|[|s]]; simpl in *; try discriminate.
  rewrite ?Nat.sub_0_r.
  rewrite mk_component_ok.
  - intros E. inversion E; subst c; simpl. rewrite ?Nat.sub_0_r.
    assert (length nm' = S s) by lia.
    repeat split; auto; try lia.
    destruct sn; auto. subst. auto. 
  - destruct inn; simpl.
    + constructor; [|constructor; [tauto|constructor]]. intros [E|[]]. symmetry in E.
      apply (ts_names_distinct name E).
    + constructor; [tauto|constructor].
  - intros y. destruct inn; simpl; auto.
Qed.

Lemma ts_constructible uid s inn name sn :
  2 <= s -> (match sn with Some l => length l = s | None => True end) ->
  exists c, time_seasonality uid s inn name sn true = Ok c.
Proof.
  intros Hs Hl. unfold time_seasonality.
  assert (exists x nm, (match sn with
         | Some l => if length l =? s then Ok l else Err ValueError
         | None => Ok (map (fun i => name ++ "_" ++ str_of_nat i)%string (seq 0 s))
         end) = Ok (x :: nm)) as [x [nm ->]].
  { destruct sn as [l|].
    - rewrite Hl, Nat.eqb_refl. destruct l; simpl in *; [lia|eauto].
    - destruct s; [lia|]. simpl. eauto. }
  simpl. destruct s as [|[|s]]; try lia. simpl.
  rewrite mk_component_ok; eauto.
  - destruct inn; simpl.
    + constructor; [|constructor; [tauto|constructor]]. intros [E|[]]. symmetry in E.
      apply (ts_names_distinct name E).
    + constructor; [tauto|constructor].
  - intros y. destruct inn; simpl; auto.
Qed.

Section Pattern.
Variables (s : nat) (init : vec).
Hypothesis Hs : 2 <= s.
Notation D := (documented_season s init).

Lemma D_period t : D (t + s) = D t.
Proof.
  unfold documented_season. replace (t + s) with (t + 1 * s) by lia.
  rewrite Nat.mod_add by lia. reflexivity.
Qed.

Lemma D_small r : 2 <= r < s -> D r = init (s - r).
Proof.
  intros H. unfold documented_season. rewrite Nat.mod_small by lia.
  destruct r as [|[|r]]; try lia. reflexivity.
Qed.
Lemma D_0 : D 0 = init 0.
Proof. unfold documented_season. rewrite Nat.mod_0_l by lia. reflexivity. Qed.
Lemma D_1 : D 1 = (- rsum (s - 1) init)%R.
Proof. unfold documented_season. rewrite Nat.mod_small by lia. reflexivity. Qed.

Lemma D_sum0 u : rsum s (fun i => D (u + i)) = 0%R.
Proof.
  induction u.
  - simpl. assert (exists k, s = S (S k)) as [k Ek] by (exists (s - 2); lia).
    rewrite Ek at 1. rewrite !rsum_S, D_0, D_1.
    replace (s - 1) with (S k) by lia. rewrite rsum_S.
    rewrite (rsum_ext k (fun i => D (S (S i))) (fun i => init (S (k - 1 - i)))).
    2:{ intros i Hi. rewrite D_small by lia. f_equal. lia. }
    rewrite <- (rsum_rev k (fun i => init (S i))). lra.
  - assert (exists k, s = S k) as [k Ek] by (exists (s - 1); lia). rewrite Ek at 1. simpl rsum.
    rewrite Ek in IHu at 1. rewrite rsum_S in IHu.
    rewrite (rsum_ext k (fun i => D (u + S i)) (fun i => D (S u + i))) in IHu
      by (intros; f_equal; lia).
    replace (S (u + k)) with (u + 0 + s) by lia. rewrite D_period. simpl in IHu. lra.
Qed.
End Pattern.

Section Run.
Variables (uid s : nat) (inn : bool) (name : string) (e : env) (eps : nat -> vec).
Hypothesis Hs : 2 <= s.
Let k := s - 1.
Let p := if inn then 1 else 0.
Let m := ts_ssm uid inn name.
Notation x := (run k p m e eps).

Lemma ts_step_S t i : S i < k -> x (S t) (S i) = x t i.
Proof.
  intros Hi. simpl. rewrite (rsum_one k _ i); [|lia|].
  2:{ intros j Hj Hne. unfold eye_below. destruct (Nat.eqb_spec (S i) (j + 1)); [lia|lra]. }
  rewrite rsum_0.
  - unfold eye_below, zvec. destruct (Nat.eqb_spec (S i) (i + 1)); [|lia]. lra.
  - intros j Hj. rewrite andb_false_r. simpl. lra.
Qed.

Lemma ts_step_0 t : x (S t) 0 = (- rsum k (x t) + (if inn then eps t 0%nat else 0))%R.
Proof.
  simpl. rewrite (rsum_ext k _ (fun j => (- (x t j))%R)) by (intros; lra).
  rewrite rsum_opp. unfold p, zvec. destruct inn; simpl; lra.
Qed.

Lemma ts_obs t : observe k p m e eps t = x t 0.
Proof.
  unfold observe. rewrite (rsum_one k _ 0).
  - simpl. lra.
  - unfold k. lia.
  - intros i _ Hi. simpl. destruct i; [lia|]. simpl. lra.
Qed.

(** the documented recursion: minus the last s-1 effects plus the shock *)
Lemma ts_shift t i : i < k -> i <= t -> x t i = x (t - i) 0.
Proof.
  revert t. induction i; intros t Hk Ht; [rewrite Nat.sub_0_r; auto|].
  destruct t; [lia|]. rewrite ts_step_S by auto. rewrite IHi by lia. f_equal.
Qed.
End Run.

Lemma ts_pattern uid s (inn : bool) name e :
  2 <= s -> forall t i, i < s - 1 ->
  run (s - 1) (if inn then 1 else 0) (ts_ssm uid inn name) e no_shocks t i
  = documented_season s (pv e (uid, (name ++ "_coefs")%string)) (t + s - i).
Proof.
  intros Hs. set (init := pv e (uid, (name ++ "_coefs")%string)). induction t; intros i Hi.
  - simpl. fold init. destruct i.
    + rewrite Nat.sub_0_r. replace s with (0 + s) at 2 by lia.
      rewrite D_period, D_0 by auto. auto.
    + rewrite D_small by lia. f_equal. lia.
  - destruct i.
    + rewrite ts_step_0, Nat.sub_0_r. unfold no_shocks.
      rewrite (rsum_ext (s - 1) _ (fun i => documented_season s init (t + 2 + (s - 1 - 1 - i)))).
      2:{ intros i Hi'. rewrite IHt by auto. f_equal. lia. }
      rewrite <- (rsum_rev (s - 1) (fun i => documented_season s init (t + 2 + i))).
      pose proof (D_sum0 s init Hs (t + 1)) as H0.
      assert (exists k, s = S k) as [k Ek] by (exists (s - 1); lia). rewrite Ek in H0 at 1.
      rewrite rsum_S in H0. replace k with (s - 1) in H0 by lia.
      rewrite (rsum_ext (s - 1) (fun i => documented_season s init (t + 1 + S i))
                 (fun i => documented_season s init (t + 2 + i))) in H0 by (intros; f_equal; lia).
      replace (S t + s) with (t + 1 + 0 + s) by lia. rewrite D_period by auto.
      destruct inn; lra.
    + rewrite ts_step_S by lia. rewrite IHt by lia. f_equal.
Qed.
