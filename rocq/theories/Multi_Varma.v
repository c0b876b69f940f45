(** Proofs about the VARMAX matrices. *)
From Coq Require Import Reals String Lra.
From Verif Require Import Common Struct_Model Struct_Proofs Multi_Model Multi_Spec.
Open Scope nat_scope.

Lemma rsum_mul n k f : rsum (n * k) f = rsum n (fun j => rsum k (fun l => f (j * k + l))).
Proof.
  induction n; auto. replace (S n * k) with (n * k + k) by lia. rewrite rsum_app, IHn. reflexivity.
Qed.
Lemma norm_idx_pos n a : norm_idx n (Z.of_nat a) = Nat.min a n.
Proof. unfold norm_idx. destruct (Z.ltb_spec (Z.of_nat a) 0); [lia|]. rewrite Nat2Z.id. auto. Qed.
Lemma norm_idx_neg n a : 0 < a -> a <= n -> norm_idx n (- Z.of_nat a) = n - a.
Proof. intros H H'. unfold norm_idx. destruct (Z.ltb_spec (- Z.of_nat a) 0); [|lia]. lia. Qed.

Lemma set_block_ok M r0 r1 c0 c1 nr nc A :
  r1 - r0 = nr -> c1 - c0 = nc ->
  set_block M (r0, r1) (c0, c1) nr nc A
  = Ok (fun i j => if (r0 <=? i) && (i <? r1) && (c0 <=? j) && (j <? c1) then A (i - r0) (j - c0) else M i j).
Proof. intros <- <-. unfold set_block. rewrite !Nat.eqb_refl. auto. Qed.

Lemma reshape3E k n a i j l : i < k -> j < n -> l < k -> reshape3 k n a i (j * k + l) = a i j l.
Proof.
  intros Hi Hj Hl. unfold reshape3.
  replace (i * (k * n) + (j * k + l)) with ((i * n + j) * k + l) by lia.
  assert (E1 : ((i * n + j) * k + l) mod k = l).
  { rewrite Nat.add_comm, Nat.mod_add by lia. apply Nat.mod_small; auto. }
  assert (E2 : ((i * n + j) * k + l) / k = i * n + j).
  { rewrite Nat.add_comm, Nat.div_add by lia. rewrite Nat.div_small; auto. }
  rewrite E1. rewrite (Nat.mul_comm n k), <- Nat.div_div by lia. rewrite E2.
  rewrite (Nat.add_comm (i * n) j), Nat.div_add, Nat.mod_add by lia.
  rewrite Nat.div_small, Nat.mod_small by auto. auto.
Qed.

(** closed form of the matrices *)
Definition vT (p q k : nat) (v : vpar) : mat := fun i j =>
  let a := max p 1 in
  if i <? k
  then if j <? k * p then reshape3 k p (v_ar v) i j
       else if (k * a <=? j) && (j <? k * (a + q)) then reshape3 k q (v_ma v) i (j - k * a)
       else 0%R
  else if i <? k * a then (if (j <? k * (p - 1)) then eye (i - k) j else 0%R)
  else if (k * (a + 1) <=? i) && (i <? k * (a + q)) && (k * a <=? j) && (j <? k * (a + q - 1))
       then eye (i - k * (a + 1)) (j - k * a) else 0%R.
Definition vR (p q k : nat) : mat := fun i j =>
  let a := max p 1 in
  if j <? k
  then if i <? k then eye i j
       else if (k * a <=? i) && (i <? k * (a + 1)) && (0 <? q) then eye (i - k * a) j else 0%R
  else 0%R.

Ltac bcase :=
  repeat match goal with
  | |- context [?a <? ?b] => destruct (Nat.ltb_spec a b)
  | |- context [?a <=? ?b] => destruct (Nat.leb_spec a b)
  end; cbn [andb]; try reflexivity; try (exfalso; nia).


Lemma varmax_ok p q k merr v : 0 < k -> exists m, varmax p q k merr v = Ok m /\
  n_states m = k * (max p 1 + q) /\ n_shocks m = k /\ n_obs m = k /\
  ss_x0 m = v_x0 v /\ ss_P0 m = v_P0 v /\ ss_c m = zvec /\ ss_d m = zvec /\
  (forall i j, i < k * (max p 1 + q) -> j < k * (max p 1 + q) -> ss_T m i j = vT p q k v i j) /\
  (forall i j, i < k * (max p 1 + q) -> j < k -> ss_R m i j = vR p q k i j) /\
  ss_Z m = set_diag_indices zmat k (fun _ => 1%R) /\
  ss_H m = (if merr then set_diag_indices zmat k (v_sigma_obs v) else zmat) /\
  ss_Q m = v_state_cov v.
Proof.
  intros Hk. set (a := max p 1). assert (Ha : 1 <= a /\ p <= a) by lia.
  assert (KS : varmax_k_states p q k = k * (a + q)) by reflexivity.
  unfold varmax. rewrite KS. set (ks := k * (a + q)).
  (* T1 *)
  assert (S1 : exists T1, (if 1 <? p
            then set_block zmat (norm_slice ks (Some (Z.of_nat k)) (Some (Z.of_nat k * Z.of_nat p)%Z))
                                (norm_slice ks (Some 0%Z) (Some (Z.of_nat k * (Z.of_nat p - 1))%Z))
                           (k * (p - 1)) (k * (p - 1)) eye
            else Ok zmat) = Ok T1 /\
     forall i j, T1 i j = if (k <=? i) && (i <? k * p) && (j <? k * (p - 1)) then eye (i - k) j else 0%R).
  { destruct (Nat.ltb_spec 1 p).
    - replace (Z.of_nat k * Z.of_nat p)%Z with (Z.of_nat (k * p)) by lia.
      replace (Z.of_nat k * (Z.of_nat p - 1))%Z with (Z.of_nat (k * (p - 1))) by nia.
      unfold norm_slice. change 0%Z with (Z.of_nat 0). rewrite !norm_idx_pos.
      rewrite !Nat.min_l by (unfold ks; nia).
      eexists. split; [apply set_block_ok; nia|]. intros i j. simpl. rewrite Nat.sub_0_r.
      destruct (k <=? i), (i <? k * p), (j <? k * (p - 1)); reflexivity.
    - eexists. split; [reflexivity|]. intros i j. bcase. }
  destruct S1 as [T1 [-> E1]]. cbn [bind].
  assert (S2 : exists T2, (if 1 <? q
            then set_block T1 (norm_slice ks (Some (- Z.of_nat k * (Z.of_nat q - 1))%Z) None)
                              (norm_slice ks (Some (- Z.of_nat k * Z.of_nat q)%Z) (Some (- Z.of_nat k)%Z))
                           (k * (q - 1)) (k * (q - 1)) eye
            else Ok T1) = Ok T2 /\
     forall i j, T2 i j = if (k * (a + 1) <=? i) && (i <? ks) && (k * a <=? j) && (j <? k * (a + q - 1))
                          then eye (i - k * (a + 1)) (j - k * a) else T1 i j).
  { destruct (Nat.ltb_spec 1 q).
    - replace (- Z.of_nat k * (Z.of_nat q - 1))%Z with (- Z.of_nat (k * (q - 1)))%Z by nia.
      replace (- Z.of_nat k * Z.of_nat q)%Z with (- Z.of_nat (k * q))%Z by nia.
      unfold norm_slice. rewrite !norm_idx_neg by (unfold ks; nia).
      replace (ks - k * (q - 1)) with (k * (a + 1)) by (unfold ks; nia).
      replace (ks - k * q) with (k * a) by (unfold ks; nia).
      replace (ks - k) with (k * (a + q - 1)) by (unfold ks; nia).
      eexists. split; [apply set_block_ok; unfold ks; nia|]. intros i j. reflexivity.
    - eexists. split; [reflexivity|]. intros i j. unfold ks. bcase. }
  destruct S2 as [T2 [-> E2]]. cbn [bind].
  assert (S3 : exists T3, (if 0 <? p
            then set_block T2 (norm_slice ks (Some 0%Z) (Some (Z.of_nat k)))
                              (norm_slice ks (Some 0%Z) (Some (Z.of_nat k * Z.of_nat p)%Z))
                           k (k * p) (reshape3 k p (v_ar v))
            else Ok T2) = Ok T3 /\
     forall i j, T3 i j = if (i <? k) && (j <? k * p) then reshape3 k p (v_ar v) i j else T2 i j).
  { destruct (Nat.ltb_spec 0 p).
    - replace (Z.of_nat k * Z.of_nat p)%Z with (Z.of_nat (k * p)) by lia.
      unfold norm_slice. change 0%Z with (Z.of_nat 0). rewrite !norm_idx_pos.
      rewrite !Nat.min_l by (unfold ks; nia).
      eexists. split; [apply set_block_ok; nia|]. intros i j. simpl. rewrite !Nat.sub_0_r.
      destruct (i <? k), (j <? k * p); reflexivity.
    - eexists. split; [reflexivity|]. intros i j. bcase. }
  destruct S3 as [T3 [-> E3]]. cbn [bind].
  assert (SR : exists R1, set_block zmat (norm_slice ks (Some 0%Z) (Some (Z.of_nat k))) (norm_slice k None None) k k eye = Ok R1 /\
     forall i j, R1 i j = if (i <? k) && (j <? k) then eye i j else 0%R).
  { unfold norm_slice. change 0%Z with (Z.of_nat 0). rewrite !norm_idx_pos.
    rewrite !Nat.min_l by (unfold ks; nia).
    eexists. split; [apply set_block_ok; nia|]. intros i j. simpl. rewrite !Nat.sub_0_r.
    destruct (i <? k), (j <? k); reflexivity. }
  destruct SR as [R1 [-> ER]]. cbn [bind].
  assert (S4 : exists T4 R2, (if 0 <? q
            then
              do T4 <- set_block T3 (norm_slice ks (Some 0%Z) (Some (Z.of_nat k)))
                                    (norm_slice ks (Some (Z.of_nat k * Z.max 1 (Z.of_nat p))%Z) None)
                                 k (k * q) (reshape3 k q (v_ma v));
              do R2 <- set_block R1 (norm_slice ks (Some (Z.of_nat k * - Z.of_nat q)%Z)
                                       (if 1 <? q then Some (- Z.of_nat k * (Z.of_nat q - 1))%Z else None))
                                    (norm_slice k None None) k k eye;
              Ok (T4, R2)
            else Ok (T3, R1)) = Ok (T4, R2) /\
     (forall i j, T4 i j = if (i <? k) && (k * a <=? j) && (j <? ks) then reshape3 k q (v_ma v) i (j - k * a) else T3 i j) /\
     (forall i j, R2 i j = if (k * a <=? i) && (i <? k * (a + 1)) && (j <? k) && (0 <? q) then eye (i - k * a) j else R1 i j)).
  { destruct (Nat.ltb_spec 0 q).
    - replace (Z.of_nat k * Z.max 1 (Z.of_nat p))%Z with (Z.of_nat (k * a)) by (unfold a; nia).
      replace (Z.of_nat k * - Z.of_nat q)%Z with (- Z.of_nat (k * q))%Z by nia.
      assert (EN : (norm_slice ks (Some (- Z.of_nat (k * q))%Z)
                     (if 1 <? q then Some (- Z.of_nat k * (Z.of_nat q - 1))%Z else None)) = (k * a, k * (a + 1))).
      { unfold norm_slice. rewrite norm_idx_neg by (unfold ks; nia). f_equal; [unfold ks; nia|].
        destruct (Nat.ltb_spec 1 q).
        - replace (- Z.of_nat k * (Z.of_nat q - 1))%Z with (- Z.of_nat (k * (q - 1)))%Z by nia.
          rewrite norm_idx_neg by (unfold ks; nia). unfold ks; nia.
        - unfold ks. nia. }
      rewrite EN. unfold norm_slice. change 0%Z with (Z.of_nat 0). rewrite !norm_idx_pos.
      rewrite !Nat.min_l by (unfold ks; nia).
      rewrite set_block_ok by (unfold ks; nia). cbn [bind].
      rewrite set_block_ok by (unfold ks; nia). cbn [bind].
      do 2 eexists. split; [reflexivity|]. split; intros i j; simpl; rewrite !Nat.sub_0_r.
      + destruct (i <? k), (k * a <=? j), (j <? ks); reflexivity.
      + destruct (k * a <=? i), (i <? k * (a + 1)), (j <? k); reflexivity.
    - do 2 eexists. split; [reflexivity|]. split; intros i j.
      + unfold ks. bcase.
      + rewrite andb_false_r. auto. }
  destruct S4 as [T4 [R2 [-> [E4 ER2]]]]. cbn [bind].
  eexists. split; [reflexivity|]. simpl. fold ks.
  repeat split.
  - intros i j Hi Hj. rewrite E4, E3, E2, E1. unfold vT. fold a. fold ks.
    assert (Hp : 1 < p \/ p <= 1) by lia.
    bcase; unfold ks in *; try (exfalso; destruct Hp; nia).
  - intros i j Hi Hj. rewrite ER2, ER. unfold vR. fold a. bcase.
Qed.

Section Run.
Variables (p q k : nat) (merr : bool) (v : vpar) (m : ss) (eps : nat -> vec).
Hypothesis Hk : 0 < k.
Hypothesis Hm : varmax p q k merr v = Ok m.
Let a := max p 1.
Let x := states_at m eps.

Lemma vfacts : n_states m = k * (a + q) /\ n_shocks m = k /\ n_obs m = k /\
  ss_x0 m = v_x0 v /\ ss_P0 m = v_P0 v /\ ss_c m = zvec /\ ss_d m = zvec /\
  (forall i j, i < k * (a + q) -> j < k * (a + q) -> ss_T m i j = vT p q k v i j) /\
  (forall i j, i < k * (a + q) -> j < k -> ss_R m i j = vR p q k i j) /\
  ss_Z m = set_diag_indices zmat k (fun _ => 1%R) /\
  ss_H m = (if merr then set_diag_indices zmat k (v_sigma_obs v) else zmat) /\
  ss_Q m = v_state_cov v.
Proof. destruct (varmax_ok p q k merr v Hk) as [m' [E H]]. rewrite Hm in E. inversion E; subst m'. exact H. Qed.

Lemma vstep t i : i < k * (a + q) ->
  x (S t) i = (rsum (k * (a + q)) (fun j => vT p q k v i j * x t j) + rsum k (fun j => vR p q k i j * eps t j))%R.
Proof.
  intros Hi. destruct vfacts as (N1&N2&_&_&_&C&_&ET&ER&_). unfold x. cbn [states_at].
  rewrite N1, N2, C. unfold zvec. rewrite Rplus_0_l. f_equal.
  - apply rsum_ext. intros j Hj. rewrite ET by auto. auto.
  - apply rsum_ext. intros j Hj. rewrite ER by auto. auto.
Qed.

Lemma vobs t i : i < k -> observed_at m eps t i = x t i.
Proof.
  intros Hi. destruct vfacts as (N1&_&_&_&_&_&D&_&_&EZ&_). unfold observed_at. rewrite D, EZ, N1.
  unfold zvec. rewrite (rsum_one _ _ i).
  - unfold set_diag_indices. rewrite set_diag by auto. rewrite Nat.eqb_refl. fold x. lra.
  - unfold a. nia.
  - intros j Hj Hne. unfold set_diag_indices. rewrite set_diag by auto.
    destruct (Nat.eqb_spec i j); [congruence|lra].
Qed.

(** the lag shift *)
Lemma vshift_y t j l : 1 <= j < p -> l < k -> x (S t) (j * k + l) = x t ((j - 1) * k + l).
Proof.
  intros Hj Hl. assert (j < a) by (unfold a; lia). rewrite vstep by nia.
  rewrite (rsum_one _ _ ((j - 1) * k + l)).
  - rewrite (rsum_0 k).
    + unfold vT. fold a. destruct (Nat.ltb_spec (j * k + l) k); [nia|].
      destruct (Nat.ltb_spec (j * k + l) (k * a)); [|nia].
      destruct (Nat.ltb_spec ((j - 1) * k + l) (k * (p - 1))); [|nia].
      replace (j * k + l - k) with ((j - 1) * k + l) by nia.
      unfold eye, eye_below. rewrite Nat.add_0_r, Nat.eqb_refl. lra.
    + intros i Hi. unfold vR. fold a.
      destruct (Nat.ltb_spec i k); [|lia]. destruct (Nat.ltb_spec (j * k + l) k); [nia|].
      destruct (Nat.leb_spec (k * a) (j * k + l)); [nia|]. simpl. lra.
  - nia.
  - intros i Hi Hne. unfold vT. fold a.
    destruct (Nat.ltb_spec (j * k + l) k); [nia|].
    destruct (Nat.ltb_spec (j * k + l) (k * a)); [|nia].
    destruct (i <? k * (p - 1)); [|lra].
    unfold eye, eye_below. rewrite Nat.add_0_r.
    destruct (Nat.eqb_spec (j * k + l - k) i); [|lra]. exfalso. apply Hne. nia.
Qed.

Lemma vshift_e t j l : 1 <= j < q -> l < k -> x (S t) ((a + j) * k + l) = x t ((a + j - 1) * k + l).
Proof.
  intros Hj Hl. rewrite vstep by nia. assert (1 <= a) by (unfold a; lia).
  rewrite (rsum_one _ _ ((a + j - 1) * k + l)).
  - rewrite (rsum_0 k).
    + unfold vT. fold a. destruct (Nat.ltb_spec ((a + j) * k + l) k); [nia|].
      destruct (Nat.ltb_spec ((a + j) * k + l) (k * a)); [nia|].
      destruct (Nat.leb_spec (k * (a + 1)) ((a + j) * k + l)); [|nia].
      destruct (Nat.ltb_spec ((a + j) * k + l) (k * (a + q))); [|nia].
      destruct (Nat.leb_spec (k * a) ((a + j - 1) * k + l)); [|nia].
      destruct (Nat.ltb_spec ((a + j - 1) * k + l) (k * (a + q - 1))); [|nia].
      simpl. replace ((a + j) * k + l - k * (a + 1)) with ((j - 1) * k + l) by nia.
      replace ((a + j - 1) * k + l - k * a) with ((j - 1) * k + l) by nia.
      unfold eye, eye_below. rewrite Nat.add_0_r, Nat.eqb_refl. lra.
    + intros i Hi. unfold vR. fold a.
      destruct (Nat.ltb_spec i k); [|lia]. destruct (Nat.ltb_spec ((a + j) * k + l) k); [nia|].
      destruct (Nat.ltb_spec ((a + j) * k + l) (k * (a + 1))); [nia|].
      rewrite andb_false_r. simpl. lra.
  - nia.
  - intros i Hi Hne. unfold vT. fold a.
    destruct (Nat.ltb_spec ((a + j) * k + l) k); [nia|].
    destruct (Nat.ltb_spec ((a + j) * k + l) (k * a)); [nia|].
    match goal with |- context [if ?b then _ else _] => destruct b eqn:E end; [|lra].
    apply andb_prop in E. destruct E as [E _]. apply andb_prop in E. destruct E as [_ E].
    apply Nat.leb_le in E.
    unfold eye, eye_below. rewrite Nat.add_0_r.
    destruct (Nat.eqb_spec ((a + j) * k + l - k * (a + 1)) (i - k * a)); [|lra]. exfalso. apply Hne. nia.
Qed.

Lemma vnew_e t l : 0 < q -> l < k -> x (S t) (a * k + l) = eps t l.
Proof.
  intros Hq Hl. assert (1 <= a) by (unfold a; lia). rewrite vstep by nia.
  rewrite rsum_0.
  - rewrite (rsum_one k _ l); auto.
    + unfold vR. fold a. destruct (Nat.ltb_spec l k); [|lia].
      destruct (Nat.ltb_spec (a * k + l) k); [nia|].
      destruct (Nat.leb_spec (k * a) (a * k + l)); [|nia].
      destruct (Nat.ltb_spec (a * k + l) (k * (a + 1))); [|nia].
      destruct (Nat.ltb_spec 0 q); [|lia]. simpl.
      replace (a * k + l - k * a) with l by nia.
      unfold eye, eye_below. rewrite Nat.add_0_r, Nat.eqb_refl. lra.
    + intros i Hi Hne. unfold vR. fold a. destruct (Nat.ltb_spec i k); [|lia].
      destruct (Nat.ltb_spec (a * k + l) k); [nia|].
      match goal with |- context [if ?b then _ else _] => destruct b eqn:E end; [|lra].
      replace (a * k + l - k * a) with l by nia.
      unfold eye, eye_below. rewrite Nat.add_0_r. destruct (Nat.eqb_spec l i); [congruence|lra].
  - intros i Hi. unfold vT. fold a.
    destruct (Nat.ltb_spec (a * k + l) k); [nia|].
    destruct (Nat.ltb_spec (a * k + l) (k * a)); [nia|].
    destruct (Nat.leb_spec (k * (a + 1)) (a * k + l)); [nia|]. simpl. lra.
Qed.

Lemma vtop t i : i < k ->
  x (S t) i = (rsum p (fun j => rsum k (fun l => v_ar v i j l * x t (j * k + l)%nat))
               + eps t i
               + rsum q (fun j => rsum k (fun l => v_ma v i j l * x t ((a + j) * k + l)%nat)))%R.
Proof.
  intros Hi. assert (1 <= a /\ p <= a) as [A1 A2] by (unfold a; lia). rewrite vstep by nia.
  replace (rsum k (fun j => (vR p q k i j * eps t j)%R)) with (eps t i).
  2:{ symmetry. rewrite (rsum_one k _ i); auto.
      - unfold vR. destruct (Nat.ltb_spec i k); [|lia]. unfold eye, eye_below.
        rewrite Nat.add_0_r, Nat.eqb_refl. lra.
      - intros j Hj Hne. unfold vR. destruct (Nat.ltb_spec i k); [|lia]. destruct (j <? k); [|lra].
        unfold eye, eye_below. rewrite Nat.add_0_r. destruct (Nat.eqb_spec i j); [congruence|lra]. }
  replace (k * (a + q)) with ((p + ((a - p) + q)) * k) by nia.
  rewrite rsum_mul, rsum_app, rsum_app.
  assert (E1 : forall j, j < p -> rsum k (fun l => (vT p q k v i (j * k + l)%nat * x t (j * k + l)%nat)%R)
               = rsum k (fun l => (v_ar v i j l * x t (j * k + l)%nat)%R)).
  { intros j Hj. apply rsum_ext. intros l Hl. f_equal. unfold vT. destruct (Nat.ltb_spec i k); [|lia].
    destruct (Nat.ltb_spec (j * k + l) (k * p)); [|nia]. apply reshape3E; auto. }
  rewrite (rsum_ext p _ _ E1).
  assert (E2 : rsum (a - p) (fun j => rsum k (fun l => (vT p q k v i ((p + j) * k + l)%nat * x t ((p + j) * k + l)%nat)%R)) = 0%R).
  { apply rsum_0. intros j Hj. apply rsum_0. intros l Hl. unfold vT. fold a.
    destruct (Nat.ltb_spec i k); [|lia].
    destruct (Nat.ltb_spec ((p + j) * k + l) (k * p)); [nia|].
    destruct (Nat.leb_spec (k * a) ((p + j) * k + l)); [nia|]. simpl. lra. }
  rewrite E2.
  assert (E3 : forall j, j < q -> rsum k (fun l => (vT p q k v i ((p + (a - p + j)) * k + l)%nat * x t ((p + (a - p + j)) * k + l)%nat)%R)
               = rsum k (fun l => (v_ma v i j l * x t ((a + j) * k + l)%nat)%R)).
  { intros j Hj. apply rsum_ext. intros l Hl. replace (p + (a - p + j)) with (a + j) by lia. f_equal.
    unfold vT. fold a. destruct (Nat.ltb_spec i k); [|lia].
    destruct (Nat.ltb_spec ((a + j) * k + l) (k * p)); [nia|].
    destruct (Nat.leb_spec (k * a) ((a + j) * k + l)); [|nia].
    destruct (Nat.ltb_spec ((a + j) * k + l) (k * (a + q))); [|nia]. simpl.
    replace ((a + j) * k + l - k * a) with (j * k + l) by nia. apply reshape3E; auto. }
  rewrite (rsum_ext q _ _ E3). lra.
Qed.

Lemma vlag_y t j l : j < a -> l < k ->
  x t (j * k + l) = if j <=? t then x (t - j) l else v_x0 v ((j - t) * k + l).
Proof.
  revert j l. induction t; intros j l Hj Hl.
  - destruct vfacts as (_&_&_&E0&_). destruct j; simpl; auto.
    unfold x. simpl. rewrite E0. auto.
  - destruct j as [|j]; [reflexivity|].
    rewrite vshift_y by (unfold a in Hj; lia). simpl Nat.sub. rewrite Nat.sub_0_r, IHt by lia. reflexivity.
Qed.

Lemma vlag_e t j l : j < q -> l < k ->
  x t ((a + j) * k + l) = if j <? t then eps (t - 1 - j) l else v_x0 v ((a + (j - t)) * k + l).
Proof.
  revert j l. induction t; intros j l Hj Hl.
  - destruct vfacts as (_&_&_&E0&_). simpl. rewrite Nat.sub_0_r. unfold x. simpl. rewrite E0. auto.
  - destruct j as [|j].
    + rewrite Nat.add_0_r, vnew_e by lia. simpl. rewrite !Nat.sub_0_r. auto.
    + rewrite vshift_e by lia. replace (a + S j - 1) with (a + j) by lia. rewrite IHt by lia.
      change (S j <? S t) with (j <? t). destruct (Nat.ltb_spec j t).
      * f_equal. lia.
      * f_equal.
Qed.
End Run.
