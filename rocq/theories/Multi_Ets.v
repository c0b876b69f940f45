(** Proofs about the ETS matrices. *)
From Coq Require Import Reals String Lra.
From Verif Require Import Common Struct_Model Struct_Proofs Multi_Model Multi_Spec Multi_Varma.
Open Scope nat_scope.

(** *** block structure *)
Definition rows_of (bs : list (nat * nat * mat)) : nat := fold_right (fun b s => fst (fst b) + s) 0 bs.
Definition cols_of (bs : list (nat * nat * mat)) : nat := fold_right (fun b s => snd (fst b) + s) 0 bs.

Lemma bd_app xs ys i j :
  block_diag_l (xs ++ ys) i j = block_diag (rows_of xs) (cols_of xs) (block_diag_l xs) (block_diag_l ys) i j.
Proof.
  revert i j. induction xs as [|[[n m] A] xs IH]; intros i j.
  - simpl. unfold block_diag. simpl. rewrite !Nat.sub_0_r. auto.
  - cbn [app block_diag_l rows_of cols_of fold_right fst snd]. fold (rows_of xs). fold (cols_of xs).
    unfold block_diag. destruct (Nat.ltb_spec i n), (Nat.ltb_spec j m).
    + destruct (Nat.ltb_spec i (n + rows_of xs)); [|lia]. destruct (Nat.ltb_spec j (m + cols_of xs)); [|lia]. auto.
    + destruct (Nat.ltb_spec i (n + rows_of xs)); [|lia]. destruct (j <? m + cols_of xs); auto.
    + destruct (Nat.ltb_spec j (m + cols_of xs)); [|lia]. destruct (i <? n + rows_of xs); auto.
    + rewrite IH. unfold block_diag.
      destruct (Nat.ltb_spec (i - n) (rows_of xs)), (Nat.ltb_spec i (n + rows_of xs)); try lia;
        destruct (Nat.ltb_spec (j - m) (cols_of xs)), (Nat.ltb_spec j (m + cols_of xs)); try lia; auto.
      f_equal; lia.
Qed.

(** k groups of blocks of the same total size *)
Lemma bd_groups (g : nat -> list (nat * nat * mat)) (er ec : nat) k a :
  (forall i, rows_of (g i) = er) -> (forall i, cols_of (g i) = ec) ->
  forall i j r s, i < k -> j < k -> r < er -> s < ec ->
  block_diag_l (flat_map g (seq a k)) (i * er + r) (j * ec + s)
  = if i =? j then block_diag_l (g (a + i)) r s else 0%R.
Proof.
  intros Hr Hc. revert a. induction k; intros a i j r s Hi Hj H1 H2; [lia|].
  cbn [seq flat_map]. rewrite bd_app, Hr, Hc. unfold block_diag.
  destruct i as [|i], j as [|j].
  - simpl. destruct (Nat.ltb_spec r er); [|lia]. destruct (Nat.ltb_spec s ec); [|lia].
    rewrite Nat.add_0_r. auto.
  - simpl. destruct (Nat.ltb_spec r er); [|lia]. destruct (Nat.ltb_spec (ec + j * ec + s) ec); [lia|]. auto.
  - simpl. destruct (Nat.ltb_spec (er + i * er + r) er); [lia|]. destruct (Nat.ltb_spec s ec); [|lia]. auto.
  - destruct (Nat.ltb_spec (S i * er + r) er); [nia|]. destruct (Nat.ltb_spec (S j * ec + s) ec); [nia|].
    replace (S i * er + r - er) with (i * er + r) by nia.
    replace (S j * ec + s - ec) with (j * ec + s) by nia.
    rewrite IHk by lia. replace (S a + i) with (a + S i) by lia. reflexivity.
Qed.

Lemma flat_map_single {A B} (f : A -> B) l : flat_map (fun x => [f x]) l = map f l.
Proof. induction l; simpl; congruence. Qed.

Lemma bd_cols (A : nat -> mat) (er : nat) k i j r :
  i < k -> j < k -> r < er ->
  block_diag_l (map (fun i => (er, 1, A i)) (seq 0 k)) (i * er + r) j = if i =? j then A i r 0 else 0%R.
Proof.
  intros Hi Hj Hr. rewrite <- (flat_map_single (fun i => (er, 1, A i))).
  replace j with (j * 1 + 0) at 1 by lia.
  rewrite (bd_groups (fun i => [(er, 1, A i)]) er 1) by (try (intros; simpl; lia); lia).
  destruct (i =? j); auto. simpl. unfold block_diag.
  destruct (Nat.ltb_spec r er); [|lia]. auto.
Qed.

Lemma concat_vecs_at (f : nat -> vec) e k a i r : i < k -> r < e ->
  concat_vecs (map (fun i => (e, f i)) (seq a k)) (i * e + r) = f (a + i) r.
Proof.
  revert a i. induction k; intros a i Hi Hr; [lia|]. cbn [seq map concat_vecs]. unfold concat_vec.
  destruct i as [|i].
  - simpl. destruct (Nat.ltb_spec r e); [|lia]. rewrite Nat.add_0_r. auto.
  - destruct (Nat.ltb_spec (S i * e + r) e); [nia|]. replace (S i * e + r - e) with (i * e + r) by nia.
    rewrite IHk by lia. f_equal. lia.
Qed.

Lemma concat_cols_at (f : nat -> mat) e k a i j r : j < k -> r < e ->
  concat_cols (map (fun i => (e, f i)) (seq a k)) i (j * e + r) = f (a + j) i r.
Proof.
  revert a j. induction k; intros a j Hj Hr; [lia|]. cbn [seq map concat_cols].
  destruct j as [|j].
  - simpl. destruct (Nat.ltb_spec r e); [|lia]. rewrite Nat.add_0_r. auto.
  - destruct (Nat.ltb_spec (S j * e + r) e); [nia|]. replace (S j * e + r - e) with (j * e + r) by nia.
    rewrite IHk by lia. f_equal. lia.
Qed.

(** *** inversion of the constructor *)
Lemma ets_inv order names k_endog tr da se periods merr trf dense damp v m :
  ets order names k_endog tr da se periods merr trf dense damp v = Ok m ->
  exists trend damped seasonal k mm,
    ets_flags order tr da se = Ok (trend, damped, seasonal) /\ k = snd (ets_names names k_endog) /\
    0 < k /\ (damped = true -> trend = true) /\
    (seasonal = true -> periods = Some mm /\ 0 < mm) /\ (seasonal = false -> mm = match periods with Some x => x | None => 0 end) /\
    let each := 2 + b2n trend + b2n seasonal * mm in
    n_states m = k * each /\ n_shocks m = k /\ n_obs m = k /\ ss_c m = zvec /\ ss_d m = zvec /\ ss_P0 m = e_P0 v /\
    ss_x0 m = concat_vecs (map (fun i => (each, ets_x0 trend seasonal v i)) (seq 0 k)) /\
    ss_T m = ets_T k mm trend damped seasonal 1%R v /\
    ss_Z m = concat_cols (map (fun i => (each, ets_Z trend seasonal i)) (seq 0 k)) /\
    ss_R m = block_diag_l (map (fun i => (each, 1, ets_R_col trend seasonal trf v i)) (seq 0 k)) /\
    ss_H m = (if merr then set_diag_indices zmat k (fun i => (e_sigma_obs v i ^ 2)%R) else zmat) /\
    ss_Q m = (if dense && negb (k =? 1) then e_state_cov v
              else set_diag_indices zmat k (fun i => (e_sigma_state v i ^ 2)%R)).
Proof.
  unfold ets. destruct (ets_flags order tr da se) as [[[trend damped] seasonal]|] eqn:EF; [|discriminate].
  cbn [bind]. destruct (negb (if Rlt_dec 0 damp then _ else _)); [discriminate|].
  destruct (seasonal && match periods with Some _ => false | None => true end) eqn:EP; [discriminate|].
  destruct (ets_names names k_endog) as [nm k] eqn:EN. cbn [snd].
  destruct (Nat.eqb_spec k 0); [discriminate|].
  destruct (damped && negb trend) eqn:ED; [discriminate|].
  destruct (seasonal && (match periods with Some m => m | None => 0 end =? 0)) eqn:EM; [discriminate|].
  intros H. apply (f_equal (fun r => match r with Ok x => x | Err _ => m end)) in H. cbv beta iota zeta in H. subst m.
  exists trend, damped, seasonal, k, (match periods with Some m => m | None => 0 end).
  split; auto. split; auto. split; [lia|]. split; [|split; [|split]].
  - intros ->. destruct trend; auto; discriminate.
  - intros ->. destruct periods as [mm|]; [|discriminate]. split; auto.
    simpl in EM. destruct (Nat.eqb_spec mm 0); [discriminate|lia].
  - auto.
  - cbv zeta.
    assert (EE : ets_each trend seasonal periods * k / k
                 = 2 + b2n trend + b2n seasonal * (match periods with Some m => m | None => 0 end)).
    { rewrite Nat.div_mul by auto. reflexivity. }
    cbn [n_states n_shocks n_obs ss_c ss_d ss_P0 ss_x0 ss_T ss_Z ss_R ss_H ss_Q].
    rewrite EE. repeat split. rewrite Nat.mul_comm. reflexivity.
Qed.

Section Run.
Variables (k mm : nat) (trend damped seasonal trf : bool) (v : epar) (m : ss) (eps : nat -> vec).
Let each := 2 + b2n trend + b2n seasonal * mm.
Hypothesis Hseas : seasonal = true -> 0 < mm.
Hypothesis N1 : n_states m = k * each.
Hypothesis N2 : n_shocks m = k.
Hypothesis Ec : ss_c m = zvec.
Hypothesis Ed : ss_d m = zvec.
Hypothesis E0 : ss_x0 m = concat_vecs (map (fun i => (each, ets_x0 trend seasonal v i)) (seq 0 k)).
Hypothesis ET : ss_T m = ets_T k mm trend damped seasonal 1%R v.
Hypothesis EZ : ss_Z m = concat_cols (map (fun i => (each, ets_Z trend seasonal i)) (seq 0 k)).
Hypothesis ER : ss_R m = block_diag_l (map (fun i => (each, 1, ets_R_col trend seasonal trf v i)) (seq 0 k)).
Let x := states_at m eps.

(** the transition block of series i *)
Definition Tb (i r s : nat) : R :=
  block_diag_l (ets_T_base trend damped 1 (e_phi v i) :: (if seasonal then [ets_T_seasonal mm 1] else [])) r s.

Lemma T_at i j r s : i < k -> j < k -> r < each -> s < each ->
  ss_T m (i * each + r) (j * each + s) = if i =? j then Tb i r s else 0%R.
Proof.
  intros Hi Hj Hr Hs. rewrite ET. unfold ets_T.
  rewrite (bd_groups (fun i => ets_T_base trend damped 1 (e_phi v i) :: (if seasonal then [ets_T_seasonal mm 1] else [])) each each); auto.
  - intros i0. unfold each, ets_T_base, rows_of. destruct trend, seasonal; simpl; lia.
  - intros i0. unfold each, ets_T_base, cols_of. destruct trend, seasonal; simpl; lia.
Qed.

Lemma estep t i r : i < k -> r < each ->
  x (S t) (i * each + r) = (rsum each (fun s => Tb i r s * x t (i * each + s)%nat)
                            + ets_R_col trend seasonal trf v i r 0%nat * eps t i)%R.
Proof.
  intros Hi Hr. unfold x. cbn [states_at]. rewrite Ec, N1, N2. unfold zvec. rewrite Rplus_0_l. f_equal.
  - rewrite rsum_mul, (rsum_one k _ i); auto.
    + apply rsum_ext. intros s Hs. rewrite T_at, Nat.eqb_refl by auto. auto.
    + intros j Hj Hne. apply rsum_0. intros s Hs. rewrite T_at by auto.
      destruct (Nat.eqb_spec i j); [congruence|lra].
  - rewrite (rsum_one k _ i); auto.
    + rewrite ER, bd_cols, Nat.eqb_refl by auto. auto.
    + intros j Hj Hne. rewrite ER, bd_cols by auto. destruct (Nat.eqb_spec i j); [congruence|lra].
Qed.

Lemma e_init i r : i < k -> r < each -> x 0 (i * each + r) = ets_x0 trend seasonal v i r.
Proof. intros Hi Hr. unfold x. simpl. rewrite E0, concat_vecs_at by auto. auto. Qed.

Lemma eobs t i : i < k ->
  observed_at m eps t i = rsum each (fun s => ets_Z trend seasonal i i s * x t (i * each + s)%nat)%R.
Proof.
  intros Hi. unfold observed_at. rewrite Ed, N1, EZ. unfold zvec. rewrite Rplus_0_l.
  rewrite rsum_mul, (rsum_one k _ i); auto.
  - apply rsum_ext. intros s Hs. rewrite concat_cols_at by auto. auto.
  - intros j Hj Hne. apply rsum_0. intros s Hs. rewrite concat_cols_at by auto. simpl.
    unfold ets_Z, set1, zmat. assert (EF : (i =? j) = false) by (apply Nat.eqb_neq; congruence).
    destruct seasonal; rewrite EF; simpl; lra.
Qed.

Let so := 2 + b2n trend.   (* position of the seasonal state *)

(** entries of the transition block *)
Lemma Tb_base i r s : r < so -> s < each ->
  Tb i r s = if s <? so then snd (ets_T_base trend damped 1 (e_phi v i)) r s else 0%R.
Proof.
  intros Hr Hs. unfold Tb, so in *. unfold ets_T_base.
  destruct trend; cbn [block_diag_l snd b2n] in *; unfold block_diag.
  - destruct (Nat.ltb_spec r 3); [|lia]. destruct (Nat.ltb_spec s 3), (Nat.ltb_spec s (2 + 1)); try lia; auto.
  - destruct (Nat.ltb_spec r 2); [|lia]. destruct (Nat.ltb_spec s 2), (Nat.ltb_spec s (2 + 0)); try lia; auto.
Qed.
Lemma Tb_season i r s : seasonal = true -> r < mm -> s < each ->
  Tb i (so + r) s = if s <? so then 0%R
                    else if (r =? 0) && (s - so =? mm - 1) then 1%R else if r =? (s - so) + 1 then 1%R else 0%R.
Proof.
  intros Es Hr Hs. unfold Tb, so, each in *. rewrite Es in *. unfold ets_T_base.
  assert (EQ : forall r s, r < mm -> s < mm -> block_diag_l [ets_T_seasonal mm 1] r s
               = (if (r =? 0) && (s =? mm - 1) then 1%R else if r =? s + 1 then 1%R else 0%R)).
  { intros r' s' H1 H2. simpl. unfold block_diag. destruct (Nat.ltb_spec r' mm); [|lia].
    destruct (Nat.ltb_spec s' mm); [|lia]. unfold set1, eye_below. auto. }
  destruct trend; cbn [b2n] in *.
  - cbn [block_diag_l]. unfold block_diag at 1.
    destruct (Nat.ltb_spec (2 + 1 + r) 3); [lia|].
    destruct (Nat.ltb_spec s 3), (Nat.ltb_spec s (2 + 1)); try lia; auto.
    replace (2 + 1 + r - 3) with r by lia. apply EQ; lia.
  - cbn [block_diag_l]. unfold block_diag at 1.
    destruct (Nat.ltb_spec (2 + 0 + r) 2); [lia|].
    destruct (Nat.ltb_spec s 2), (Nat.ltb_spec s (2 + 0)); try lia; auto.
    replace (2 + 0 + r - 2) with r by lia. apply EQ; lia.
Qed.

Let al i := e_alpha v i.
Let be i := if trf then e_beta v i else (e_alpha v i * e_beta v i)%R.
Let ga i := if trf then e_gamma v i else ((1 - e_alpha v i) * e_gamma v i)%R.
Let ph i := if damped then e_phi v i else 1%R.

Lemma each_ge : so <= each. Proof. unfold so, each. lia. Qed.

Lemma base_sum i r t : i < k -> r < so ->
  rsum each (fun s => (Tb i r s * x t (i * each + s)%nat)%R)
  = rsum so (fun s => (snd (ets_T_base trend damped 1 (e_phi v i)) r s * x t (i * each + s)%nat)%R).
Proof.
  intros Hi Hr. pose proof each_ge. rewrite (rsum_lt_ext so each); auto.
  - apply rsum_ext. intros s Hs. rewrite Tb_base by lia. destruct (Nat.ltb_spec s so); [auto|lia].
  - intros s Hs. rewrite Tb_base by lia. destruct (Nat.ltb_spec s so); [lia|lra].
Qed.

Lemma level_step t i : i < k ->
  x (S t) (i * each + 1) = (x t (i * each + 1)%nat + (if trend then ph i * x t (i * each + 2)%nat else 0) + al i * eps t i)%R.
Proof.
  intros Hi. pose proof each_ge. rewrite estep by (unfold so in *; lia). rewrite base_sum by (unfold so in *; lia).
  f_equal.
  - unfold so, ph, ets_T_base. destruct trend; simpl; [destruct damped|]; unfold set1, zmat; simpl;
      rewrite ?Nat.add_0_r; lra.
  - unfold ets_R_col, al, b2n. destruct trend, seasonal; reflexivity.
Qed.

Lemma trend_step' t i : trend = true -> i < k ->
  x (S t) (i * each + 2) = (ph i * x t (i * each + 2)%nat + be i * eps t i)%R.
Proof.
  intros Et Hi. pose proof each_ge. rewrite estep by (unfold so in *; rewrite Et in *; simpl in *; lia).
  rewrite base_sum by (unfold so in *; rewrite Et in *; simpl in *; lia).
  unfold so, ph, ets_T_base, ets_R_col, be. rewrite Et. f_equal.
  - simpl. destruct damped; unfold set1, zmat; simpl; rewrite ?Nat.add_0_r; lra.
  - destruct seasonal; reflexivity.
Qed.

Lemma innovation_step t i : i < k ->
  x (S t) (i * each) = ((1 - al i - (if seasonal then ga i else 0)) * eps t i)%R.
Proof.
  intros Hi. pose proof each_ge. replace (i * each) with (i * each + 0) at 1 by lia.
  rewrite estep by (unfold so in *; lia). rewrite base_sum by (unfold so in *; lia).
  unfold so, ets_T_base, ets_R_col, al, ga. destruct trend.
  - simpl. destruct damped, seasonal; unfold set1, zmat; simpl; lra.
  - simpl. destruct seasonal; unfold set1, zmat; simpl; lra.
Qed.

Lemma season_step t i : seasonal = true -> i < k ->
  x (S t) (i * each + so) = (x t (i * each + so + (mm - 1))%nat + ga i * eps t i)%R.
Proof.
  intros Es Hi. assert (so + mm = each) by (unfold so, each; rewrite Es; simpl; lia).
  pose proof (Hseas Es) as Hmm. rewrite estep by lia. f_equal.
  - rewrite (rsum_one each _ (so + (mm - 1))).
    + replace so with (so + 0) at 1 by lia. rewrite Tb_season by (auto; lia).
      destruct (Nat.ltb_spec (so + (mm - 1)) so); [lia|].
      replace (so + (mm - 1) - so) with (mm - 1) by lia. rewrite !Nat.eqb_refl. cbn [andb].
      rewrite Nat.add_assoc. lra.
    + lia.
    + intros s Hs Hne. replace so with (so + 0) at 1 by lia. rewrite Tb_season by (auto; lia).
      destruct (Nat.ltb_spec s so); [lra|]. destruct (Nat.eqb_spec (s - so) (mm - 1)); [lia|].
      simpl. rewrite Nat.add_1_r. simpl. lra.
  - unfold ets_R_col, ga, so, b2n. rewrite Es. destruct trend; simpl; unfold set1; simpl; reflexivity.
Qed.

Lemma season_shift t i r : seasonal = true -> i < k -> S r < mm ->
  x (S t) (i * each + so + S r) = x t (i * each + so + r)%nat.
Proof.
  intros Es Hi Hr. assert (so + mm = each) by (unfold so, each; rewrite Es; simpl; lia).
  rewrite <- Nat.add_assoc. rewrite estep by lia.
  rewrite (rsum_one each _ (so + r)).
  - rewrite Tb_season by (auto; lia). destruct (Nat.ltb_spec (so + r) so); [lia|].
    replace (so + r - so) with r by lia. change (S r =? 0) with false.
    rewrite Nat.add_1_r, Nat.eqb_refl, Nat.add_assoc. cbn [andb].
    assert (EC : ets_R_col trend seasonal trf v i (so + S r) 0 = 0%R).
    { unfold ets_R_col, so, set1, zmat, b2n. rewrite Es.
      destruct trend; simpl; rewrite ?Nat.add_succ_r; simpl; reflexivity. }
    rewrite EC. lra.
  - lia.
  - intros s Hs Hne. rewrite Tb_season by (auto; lia).
    destruct (Nat.ltb_spec s so); [lra|]. change (S r =? 0) with false. cbn [andb].
    destruct (Nat.eqb_spec (S r) (s - so + 1)); [lia|lra].
Qed.

Lemma season_lag t i r : seasonal = true -> i < k -> r < mm ->
  x t (i * each + so + r)%nat = if r <=? t then x (t - r) (i * each + so) else e_seasonal v i (r - t).
Proof.
  intros Es Hi. assert (so + mm = each) by (unfold so, each; rewrite Es; simpl; lia).
  revert r. induction t; intros r Hr.
  - destruct r as [|r]; simpl; [rewrite Nat.add_0_r; auto|].
    rewrite <- Nat.add_assoc, e_init by lia. unfold ets_x0. rewrite Es.
    destruct (Nat.leb_spec (2 + b2n trend) (so + S r)); [|unfold so in *; lia].
    f_equal. unfold so. lia.
  - destruct r as [|r]; [rewrite Nat.add_0_r; reflexivity|].
    rewrite season_shift, IHt by (auto; lia). reflexivity.
Qed.

Lemma obs_sum t i : i < k ->
  observed_at m eps t i = (x t (i * each)%nat + x t (i * each + 1)%nat + (if seasonal then x t (i * each + so)%nat else 0))%R.
Proof.
  intros Hi. rewrite eobs by auto. pose proof each_ge.
  assert (ZE : forall s, ets_Z trend seasonal i i s
     = if s =? 0 then 1%R else if s =? 1 then 1%R else if seasonal && (s =? so) then 1%R else 0%R).
  { intros s. unfold ets_Z, so. destruct seasonal; unfold set1, zmat; rewrite !Nat.eqb_refl; cbn [andb].
    - destruct (Nat.eqb_spec s (2 + b2n trend)) as [->|]; auto.
      destruct (Nat.eqb_spec s 1), (Nat.eqb_spec s 0); auto.
    - destruct (Nat.eqb_spec s 1), (Nat.eqb_spec s 0); auto. }
  rewrite (rsum_ext each _ (fun s => (if s =? 0 then x t (i * each)%nat else 0) + ((if s =? 1 then x t (i * each + 1)%nat else 0)
       + (if seasonal && (s =? so) then x t (i * each + so)%nat else 0)))%R).
  2:{ intros s Hs. rewrite ZE. assert (2 <= so) by (unfold so; lia).
      destruct (Nat.eqb_spec s 0) as [->|]; [|destruct (Nat.eqb_spec s 1) as [->|]].
      - destruct (Nat.eqb_spec 0 so); [lia|]. rewrite andb_false_r, Nat.add_0_r. cbn. lra.
      - destruct (Nat.eqb_spec 1 so); [lia|]. rewrite andb_false_r. lra.
      - destruct (Nat.eqb_spec s so) as [->|]; destruct seasonal; cbn [andb]; lra. }
  rewrite !rsum_plus. assert (2 <= so) by (unfold so; lia).
  rewrite (rsum_one each _ 0);
    [|lia|intros s Hs Hne; destruct (Nat.eqb_spec s 0); [congruence|auto]].
  rewrite (rsum_one each _ 1);
    [|lia|intros s Hs Hne; destruct (Nat.eqb_spec s 1); [congruence|auto]].
  rewrite !Nat.eqb_refl.
  destruct seasonal eqn:Es.
  - rewrite (rsum_one each _ so).
    + rewrite Nat.eqb_refl. cbn [andb]. lra.
    + unfold each, so. pose proof (Hseas eq_refl) as Hmm. simpl. lia.
    + intros s Hs Hne. destruct (Nat.eqb_spec s so); [congruence|auto].
  - rewrite rsum_0; [lra|]. auto.
Qed.
End Run.
