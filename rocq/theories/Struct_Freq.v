(** FrequencySeasonality and CycleComponent. *)
From Coq Require Import Reals String Ascii Lra.
From Verif Require Import Common Struct_Model Struct_Spec Struct_Proofs.
Open Scope nat_scope.

Lemma rsum_pairs n f : rsum (n * 2) f = rsum n (fun b => (f (2 * b)%nat + f (2 * b + 1)%nat)%R).
Proof.
  induction n; auto. change (S n * 2) with (S (S (n * 2))). cbn [rsum]. rewrite IHn.
  replace (n * 2) with (2 * n) by lia.
  replace (S (2 * n)) with (2 * n + 1) by lia. lra.
Qed.

Lemma div2_even b : Nat.div2 (2 * b) = b.
Proof. apply Nat.div2_double. Qed.
Lemma div2_odd b : Nat.div2 (2 * b + 1) = b.
Proof. rewrite Nat.add_1_r. apply Nat.div2_succ_double. Qed.

(** row 2b + r of a block diagonal matrix only sees its own block *)
Lemma block_row n blocks b r f : b < n -> r < 2 ->
  rsum (n * 2) (fun j => (block_diag2 blocks (2 * b + r)%nat j * f j)%R)
  = (blocks b r 0%nat * f (2 * b)%nat + blocks b r 1%nat * f (2 * b + 1)%nat)%R.
Proof.
  intros Hb Hr. rewrite rsum_pairs. rewrite (rsum_one n _ b); auto.
  - unfold block_diag2.
    assert (Nat.div2 (2 * b + r) = b) as ->
      by (destruct r as [|[|r]]; [rewrite Nat.add_0_r; apply div2_even|apply div2_odd|lia]).
    rewrite div2_even, div2_odd, Nat.eqb_refl.
    replace (2 * b + r - 2 * b) with r by lia. replace (2 * b - 2 * b) with 0 by lia.
    replace (2 * b + 1 - 2 * b) with 1 by lia. reflexivity.
  - intros c Hc Hne. unfold block_diag2.
    assert (Nat.div2 (2 * b + r) = b) as ->
      by (destruct r as [|[|r]]; [rewrite Nat.add_0_r; apply div2_even|apply div2_odd|lia]).
    rewrite div2_even, div2_odd. destruct (Nat.eqb_spec b c); [congruence|]. lra.
Qed.

Definition freq_ssm (uid : nat) (s : R) (n_coefs : nat) (innovations : bool) (name : string) : ssm :=
  Ssm (fun e i => if i <? n_coefs then pv e (uid, name) i else 0%R)
       (fun _ => zmat) (fun _ => zvec) (fun _ => 0%R)
       (fun _ => block_diag2 (fun b => frequency_block s (b + 1)))
       (fun _ _ j => if Nat.even j then 1%R else 0%R)
       (fun _ => if innovations then eye else zmat)
       (fun _ => 0%R)
       (fun e i j => if innovations then (eye i j * pv e (uid, ("sigma_" ++ name)%string) 0%nat ^ 2)%R else 0%R).

Lemma freq_inv uid s n name inn c :
  frequency_seasonality uid s n name inn = Ok c ->
  exists nn, 0 < nn /\ s <> 0%R /\
    (match n with Some z => z = Z.of_nat nn | None => Int_part (s / 2) = Z.of_nat nn end) /\
    c_name c = name /\ c_k_states c = nn * 2 /\ c_k_posdef c = (if inn then nn * 2 else 0) /\
    (exists drop, drop <= 1 /\ (drop = 1 <-> s = (2 * INR nn)%R) /\
       c_ssm c = freq_ssm uid s (nn * 2 - drop) inn name /\
       c_param_info c = (if inn then [(name, [nn * 2 - drop]); (("sigma_" ++ name)%string, [])]
                         else [(name, [nn * 2 - drop])])) /\
    length (c_state_names c) = nn * 2 /\
    c_shock_names c = (if inn then c_state_names c else []) /\
    c_param_names c = (if inn then [name; ("sigma_" ++ name)%string] else [name]) /\
    c_info c = [(name, CInfo (nn * 2) (if inn then nn * 2 else 0) true
                         (Some (map Nat.even (seq 0 (nn * 2)))))] /\
    c_vars c = (map (fun ns => (fst ns, ((uid, fst ns), snd ns))) (c_param_info c)).
Proof.
  unfold frequency_seasonality.
  set (z := match n with Some n0 => n0 | None => Int_part (s / 2) end).
  destruct (Z.eqb_spec z 0); [discriminate|].
  destruct (Z.ltb_spec z 0); [discriminate|].
  destruct (Req_EM_T s 0) as [|Hs]; [discriminate|].
  rewrite mk_component_ok.
  - intros E. inversion E; subst c; clear E. simpl. exists (Z.to_nat z).
    split; [lia|]. split; auto. split.
    { destruct n; subst z; rewrite Z2Nat.id; auto; lia. }
    assert (Hdiv : (s / IZR z)%R = 2%R <-> s = (2 * INR (Z.to_nat z))%R).
    { assert (IZR z <> 0%R) by (apply IZR_neq; auto).
      rewrite INR_IZR_INZ, Z2Nat.id by lia. split; intros E.
      - rewrite <- E. field. auto.
      - rewrite E. field. auto. }
    repeat (split; [reflexivity|]). split.
    { destruct (Req_EM_T (s / IZR z) 2) as [Hd|Hd].
      - exists 1. split; [lia|]. split; [tauto|]. destruct inn; auto.
      - exists 0. split; [lia|]. split; [split; [lia|tauto]|]. destruct inn; auto. }
    split.
    { rewrite <- (seq_length (Z.to_nat z) 0) at 2. generalize (seq 0 (Z.to_nat z)) as l.
      induction l; simpl; auto. }
    repeat split; auto.
  - destruct inn; simpl.
    + constructor; [|constructor; [tauto|constructor]]. intros [E|[]]. 
      apply (append_self_neq "sigma_" name) in E; auto. discriminate.
    + constructor; [tauto|constructor].
  - intros y. destruct inn; simpl; auto.
Qed.

Lemma freq_constructible uid s n name inn :
  s <> 0%R -> 0 < n -> exists c, frequency_seasonality uid s (Some (Z.of_nat n)) name inn = Ok c.
Proof.
  intros Hs Hn. unfold frequency_seasonality.
  destruct (Z.eqb_spec (Z.of_nat n) 0); [lia|]. destruct (Z.ltb_spec (Z.of_nat n) 0); [lia|].
  destruct (Req_EM_T s 0); [contradiction|]. rewrite mk_component_ok; eauto.
  - destruct inn; simpl.
    + constructor; [|constructor; [tauto|constructor]]. intros [E|[]].
      apply (append_self_neq "sigma_" name) in E; auto. discriminate.
    + constructor; [tauto|constructor].
  - intros y. destruct inn; simpl; auto.
Qed.

Lemma even_double b : Nat.even (2 * b) = true.
Proof. rewrite Nat.even_mul. auto. Qed.
Lemma even_double1 b : Nat.even (2 * b + 1) = false.
Proof. rewrite Nat.even_add, Nat.even_mul. auto. Qed.

Section FreqRun.
Variables (uid : nat) (s : R) (nn nc : nat) (inn : bool) (name : string) (e : env).
Let p := if inn then nn * 2 else 0.
Let m := freq_ssm uid s nc inn name.

(** structural.py:1276-1278, the documented two-equation recursion of harmonic b + 1 *)
Lemma freq_step eps t b : b < nn ->
  let lam := (2 * PI * INR (b + 1) / s)%R in
  let x := run (nn * 2) p m e eps in
  x (S t) (2 * b) = (cos lam * x t (2 * b)%nat + sin lam * x t (2 * b + 1)%nat
                      + (if inn then eps t (2 * b)%nat else 0))%R /\
  x (S t) (2 * b + 1) = (- sin lam * x t (2 * b)%nat + cos lam * x t (2 * b + 1)%nat
                      + (if inn then eps t (2 * b + 1)%nat else 0))%R.
Proof.
  intros Hb lam x. unfold x. cbn [run]. change (s_T m e) with (block_diag2 (fun b => frequency_block s (b + 1))); change (s_R m e) with (if inn then eye else zmat); change (s_c m e) with zvec.
  assert (Hr : forall i, i < nn * 2 ->
     rsum p (fun j => ((if inn then eye else zmat) i j * eps t j)%R) = if inn then eps t i else 0%R).
  { intros i Hi. unfold p. destruct inn; [apply rsum_eye; auto|reflexivity]. }
  split; rewrite Hr by lia.
  - pose proof (block_row nn (fun b => frequency_block s (b + 1)) b 0 (run (nn * 2) p m e eps t) Hb
                 ltac:(lia)) as B.
    rewrite Nat.add_0_r in B. rewrite B.
    unfold frequency_block, zvec. fold lam. lra.
  - rewrite block_row by lia. unfold frequency_block, zvec. fold lam. lra.
Qed.

Lemma freq_closed t b : b < nn ->
  let w := (2 * PI * INR (b + 1) * INR t / s)%R in
  let x0 := s_x0 m e in
  let x := run (nn * 2) p m e no_shocks in
  x t (2 * b) = (x0 (2 * b)%nat * cos w + x0 (2 * b + 1)%nat * sin w)%R /\
  x t (2 * b + 1) = (- x0 (2 * b)%nat * sin w + x0 (2 * b + 1)%nat * cos w)%R.
Proof.
  intros Hb. induction t; intros w x0 x.
  - unfold w. simpl INR. rewrite Rmult_0_r. unfold Rdiv. rewrite Rmult_0_l, cos_0, sin_0.
    change (x 0) with x0. lra.
  - destruct IHt as [I1 I2]. destruct (freq_step no_shocks t b Hb) as [S1 S2].
    fold x in I1, I2, S1, S2. rewrite S1, S2, I1, I2. unfold no_shocks.
    assert (w = (2 * PI * INR (b + 1) * INR t / s + 2 * PI * INR (b + 1) / s)%R) as ->.
    { unfold w. rewrite S_INR. unfold Rdiv. ring. }
    rewrite cos_plus, sin_plus. fold x0. destruct inn; split; ring.
Qed.

Lemma freq_obs eps t :
  observe (nn * 2) p m e eps t = rsum nn (fun b => run (nn * 2) p m e eps t (2 * b)).
Proof.
  unfold observe. change (s_d m e) with 0%R. change (s_Z m e t) with (fun j => if Nat.even j then 1%R else 0%R). rewrite rsum_pairs. rewrite Rplus_0_l.
  apply rsum_ext. intros b Hb. rewrite even_double, even_double1. lra.
Qed.

Lemma freq_pattern t :
  observe (nn * 2) p m e no_shocks t
  = harmonic_sum s nn (fun b => s_x0 m e (2 * b)) (fun b => s_x0 m e (2 * b + 1)) t.
Proof.
  rewrite freq_obs. unfold harmonic_sum. apply rsum_ext. intros b Hb.
  destruct (freq_closed t b Hb) as [H _]. exact H.
Qed.
End FreqRun.

Lemma sin_period_nat x k : sin (x + 2 * INR k * PI) = sin x.
Proof. apply sin_period. Qed.
Lemma cos_period_nat x k : cos (x + 2 * INR k * PI) = cos x.
Proof. apply cos_period. Qed.

Lemma harmonic_periodic k n a b t : 0 < k ->
  harmonic_sum (INR k) n a b (t + k) = harmonic_sum (INR k) n a b t.
Proof.
  intros Hk. unfold harmonic_sum. apply rsum_ext. intros j Hj.
  assert (INR k <> 0%R) by (apply not_0_INR; lia).
  assert ((2 * PI * INR (j + 1) * INR (t + k) / INR k)%R
          = (2 * PI * INR (j + 1) * INR t / INR k + 2 * INR (j + 1) * PI)%R) as ->.
  { rewrite (plus_INR t k). field. auto. }
  rewrite sin_period_nat, cos_period_nat. reflexivity.
Qed.

(** sin (pi t) = 0 *)
Lemma sin_pi_nat t : sin (PI * INR t) = 0%R.
Proof.
  induction t; [simpl; rewrite Rmult_0_r; apply sin_0|].
  rewrite S_INR. replace (PI * (INR t + 1))%R with (PI * INR t + PI)%R by ring.
  rewrite neg_sin, IHt. lra.
Qed.

Lemma harmonic_saturated s n a b b' t : 0 < n -> s = (2 * INR n)%R ->
  (forall j, j < n - 1 -> b j = b' j) ->
  harmonic_sum s n a b t = harmonic_sum s n a b' t.
Proof.
  intros Hn -> Hb. unfold harmonic_sum. apply rsum_ext. intros j Hj.
  destruct (Nat.eq_dec j (n - 1)) as [->|]; [|rewrite Hb by lia; reflexivity].
  assert (INR n <> 0%R) by (apply not_0_INR; lia).
  replace (2 * PI * INR (n - 1 + 1) * INR t / (2 * INR n))%R with (PI * INR t)%R.
  - rewrite sin_pi_nat. lra.
  - replace (n - 1 + 1) with n by lia. field. auto.
Qed.

(** *** CycleComponent *)
Definition cycle_ssm (uid : nat) (name : string) (cl : option R) (dampen inn : bool) : ssm :=
  Ssm (fun e => pv e (uid, name)) (fun _ => zmat) (fun _ => zvec) (fun _ => 0%R)
         (fun e i j =>
            ((if dampen then pv e (uid, (name ++ "_dampening_factor")%string) 0%nat else 1)
             * frequency_block (match cl with Some s => s | None => pv e (uid, (name ++ "_length")%string) 0%nat end) 1 i j)%R)
         (fun _ _ j => if Nat.even j then 1%R else 0%R)
         (fun _ => eye) (fun _ => 0%R)
         (fun e i j => if inn then (eye i j * pv e (uid, ("sigma_" ++ name)%string) 0%nat ^ 2)%R else 0%R).

Lemma cycle_placeholders name (est damp inn : bool) :
  let params := ((name, [2]) :: (if est then [((name ++ "_length")%string, [])] else [])
                   ++ (if damp then [((name ++ "_dampening_factor")%string, [])] else [])
                   ++ (if inn then [(("sigma_" ++ name)%string, [])] else []))%list in
  NoDup (map fst params).
Proof.
  assert (N1 : (name ++ "_length")%string <> name) by (apply append_self_neq_r; discriminate).
  assert (N2 : (name ++ "_dampening_factor")%string <> name) by (apply append_self_neq_r; discriminate).
  assert (N3 : ("sigma_" ++ name)%string <> name) by (apply append_self_neq; discriminate).
  assert (N4 : ("sigma_" ++ name)%string <> (name ++ "_length")%string)
    by (apply (append_neq "l"); vm_compute; lia).
  assert (N5 : ("sigma_" ++ name)%string <> (name ++ "_dampening_factor")%string)
    by (apply (append_neq "d"); vm_compute; lia).
  assert (N6 : (name ++ "_length")%string <> (name ++ "_dampening_factor")%string).
  { intros E. apply (f_equal (count_char "l")) in E. rewrite !count_char_append in E.
    change (count_char "l" "_length") with 1 in E.
    change (count_char "l" "_dampening_factor") with 0 in E. lia. }
  destruct est, damp, inn; simpl; repeat constructor; simpl; intuition congruence.
Qed.

Lemma cycle_inv uid name cl est damp inn c :
  cycle uid name cl est damp inn = Ok c ->
  (est = match cl with None => true | Some _ => false end) /\ cl <> Some 0%R /\
  c_name c = name /\ c_k_states c = 2 /\ c_k_posdef c = 2 /\
  c_ssm c = cycle_ssm uid name cl damp inn /\
  length (c_state_names c) = 2 /\
  c_shock_names c = (if inn then c_state_names c else []) /\
  c_info c = [(name, CInfo 2 2 true (Some [true; false]))] /\
  c_param_names c = map fst (c_param_info c) /\
  c_vars c = (map (fun ns => (fst ns, ((uid, fst ns), snd ns))) (c_param_info c)) /\
  NoDup (c_param_names c).
Proof.
  unfold cycle.
  destruct cl as [s|], est; try discriminate.
  - destruct (Req_EM_T s 0); [discriminate|].
    pose proof (cycle_placeholders name false damp inn) as ND.
    rewrite mk_component_ok; [|exact ND|apply incl_refl].
    intros E. inversion E; subst c. simpl. repeat (split; [congruence || auto|]); auto.
  - pose proof (cycle_placeholders name true damp inn) as ND.
    rewrite mk_component_ok; [|exact ND|apply incl_refl].
    intros E. inversion E; subst c. simpl. repeat (split; [congruence || auto|]); auto.
Qed.

Section CycleRun.
Variables (uid : nat) (name : string) (cl : option R) (damp inn : bool) (e : env).
Let m := cycle_ssm uid name cl damp inn.
Definition cycle_rho := (if damp then pv e (uid, (name ++ "_dampening_factor")%string) 0 else 1%R).
Definition cycle_len := (match cl with Some s => s | None => pv e (uid, (name ++ "_length")%string) 0 end).

Lemma cycle_step eps t :
  let lam := (2 * PI / cycle_len)%R in
  let x := run 2 2 m e eps in
  x (S t) 0 = (cycle_rho * (x t 0%nat * cos lam + x t 1%nat * sin lam) + eps t 0%nat)%R /\
  x (S t) 1 = (cycle_rho * (- x t 0%nat * sin lam + x t 1%nat * cos lam) + eps t 1%nat)%R.
Proof.
  intros lam x. unfold x. cbn [run]. unfold m. simpl. unfold zvec, eye, eye_below. simpl.
  fold cycle_rho. fold cycle_len.
  replace (2 * PI * 1 / cycle_len)%R with lam by (unfold lam; rewrite Rmult_1_r; auto).
  split; ring.
Qed.

Lemma cycle_amplitude t :
  let x := run 2 2 m e no_shocks in
  (x t 0%nat ^ 2 + x t 1%nat ^ 2)%R
  = ((cycle_rho ^ 2) ^ t * (x O 0%nat ^ 2 + x O 1%nat ^ 2))%R.
Proof.
  intros x. induction t; [simpl; ring|].
  destruct (cycle_step no_shocks t) as [E0 E1]. fold x in E0, E1. rewrite E0, E1.
  unfold no_shocks.
  change ((cycle_rho ^ 2) ^ S t)%R with (cycle_rho ^ 2 * (cycle_rho ^ 2) ^ t)%R.
  rewrite Rmult_assoc, <- IHt.
  set (lam := (2 * PI / cycle_len)%R).
  pose proof (sin2_cos2 lam) as SC. unfold Rsqr in SC.
  transitivity (cycle_rho ^ 2 * ((x t 0%nat ^ 2 + x t 1%nat ^ 2) * (sin lam * sin lam + cos lam * cos lam)))%R.
  ring. rewrite SC. ring.
Qed.

Lemma cycle_obs eps t : observe 2 2 m e eps t = run 2 2 m e eps t 0.
Proof. unfold observe, m. simpl s_d. simpl s_Z. cbn [rsum]. simpl. ring. Qed.

Lemma cycle_closed t : 
  let w := (2 * PI * INR t / cycle_len)%R in
  let x := run 2 2 m e no_shocks in
  x t 0 = (cycle_rho ^ t * (x O 0%nat * cos w + x O 1%nat * sin w))%R /\
  x t 1 = (cycle_rho ^ t * (- x O 0%nat * sin w + x O 1%nat * cos w))%R.
Proof.
  induction t; intros w x.
  - unfold w. simpl INR. rewrite Rmult_0_r. unfold Rdiv. rewrite Rmult_0_l, cos_0, sin_0.
    simpl. split; ring.
  - destruct IHt as [I1 I2]. destruct (cycle_step no_shocks t) as [S1 S2].
    fold x in I1, I2, S1, S2. rewrite S1, S2, I1, I2. unfold no_shocks.
    assert (w = (2 * PI * INR t / cycle_len + 2 * PI / cycle_len)%R) as ->.
    { unfold w. rewrite S_INR. unfold Rdiv. ring. }
    rewrite cos_plus, sin_plus. cbn [pow]. split; ring.
Qed.
End CycleRun.
