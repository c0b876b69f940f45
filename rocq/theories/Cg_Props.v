(** C56: the conjugate gradient solver of utils/linear_cg.py. *)
From Coq Require Import Reals Lra Lia.
From Verif Require Import Common Cg_Model.
Open Scope nat_scope.

(** ** Specification: vectors are functions on 0..n-1. *)
Definition vec := nat -> R.
Definition dot (n : nat) (u v : vec) : R := sumn n (fun i => u i * v i)%R.
(** the matrix-vector product of an array *)
Definition mv (n : nat) (A : arr) (v : vec) : vec := fun i => sumn n (fun j => elt A i j * v j)%R.
(** [is_col n a v]: the array a has shape (n, 1) and holds the vector v *)
Definition is_col (n : nat) (a : arr) (v : vec) : Prop :=
  one_d a = false /\ nr a = n /\ nc a = 1 /\ forall i, i < n -> elt a i 0 = v i.
Definition is_mat (n : nat) (a : arr) : Prop := one_d a = false /\ nr a = n /\ nc a = n.
(** np.linalg.norm(a, 2) of an array of shape (n, 1) is the Euclidean norm of its column. *)
Definition euclid (n : nat) (v : vec) : R := sqrt (dot n v v).
Definition norm2_spec (norm2 : arr -> R) : Prop := forall n a v, is_col n a v -> norm2 a = euclid n v.
Definition col (n : nat) (v : vec) : arr := Arr false n 1 (fun i _ => v i).

(** ** Sums *)
Lemma sumn_ext n f g : (forall i, i < n -> f i = g i) -> sumn n f = sumn n g.
Proof. induction n; intros H; simpl; auto. rewrite IHn, H by auto. auto. Qed.
Lemma sumn_plus n f g : sumn n (fun i => f i + g i)%R = (sumn n f + sumn n g)%R.
Proof. induction n; simpl; [lra|rewrite IHn; lra]. Qed.
Lemma sumn_scal n c f : sumn n (fun i => c * f i)%R = (c * sumn n f)%R.
Proof. induction n; simpl; [lra|rewrite IHn; lra]. Qed.
Lemma sumn_zero n : sumn n (fun _ => 0%R) = 0%R.
Proof. induction n; simpl; [lra|rewrite IHn; lra]. Qed.
Lemma sumn_minus n f g : sumn n (fun i => f i - g i)%R = (sumn n f - sumn n g)%R.
Proof. induction n; simpl; [lra|rewrite IHn; lra]. Qed.
Lemma sumn_swap n m f : sumn n (fun i => sumn m (fun j => f i j)) = sumn m (fun j => sumn n (fun i => f i j)).
Proof.
  induction n; simpl; [symmetry; apply sumn_zero|]. rewrite IHn, <- sumn_plus. reflexivity.
Qed.
Lemma sumn_nonneg n f : (forall i, i < n -> (0 <= f i)%R) -> (0 <= sumn n f)%R.
Proof. induction n; simpl; intros H; [lra|]. assert (0 <= sumn n f)%R by (apply IHn; auto). assert (0 <= f n)%R by auto. lra. Qed.

(** ** Array operations on columns *)
Lemma is_col_ext n a u v : (forall i, i < n -> u i = v i) -> is_col n a u -> is_col n a v.
Proof. intros H (A&B&C&D). repeat split; auto. intros. rewrite D; auto. Qed.
Lemma is_col_self n a : one_d a = false -> nr a = n -> nc a = 1 -> is_col n a (fun i => elt a i 0).
Proof. repeat split; auto. Qed.
Lemma is_col_col n v : is_col n (col n v) v.
Proof. repeat split; auto. Qed.
Lemma bdim_refl n : bdim n n = Some n.
Proof. unfold bdim. rewrite Nat.eqb_refl. auto. Qed.
Lemma bidx_lt n i : i < n -> bidx n i = i.
Proof. unfold bidx. intros. destruct (Nat.eqb_spec n 1); lia. Qed.
Lemma ew_col f n a b u v : is_col n a u -> is_col n b v ->
  exists c, ew f a b = Ok c /\ is_col n c (fun i => f (u i) (v i)).
Proof.
  intros (A&B&C&D) (A'&B'&C'&D'). unfold ew. rewrite B, B', C, C', !bdim_refl. eexists. split; [reflexivity|].
  repeat split; simpl; auto. { rewrite A, A'. auto. }
  intros i Hi. rewrite !bidx_lt by auto. change (bidx 1 0) with 0. rewrite D, D' by auto. auto.
Qed.
(** a 1 by 1 array times a column *)
Lemma ew_sc_col f n a b x v : is_col 1 a (fun _ => x) -> is_col n b v ->
  exists c, ew f a b = Ok c /\ is_col n c (fun i => f x (v i)).
Proof.
  intros (A&B&C&D) (A'&B'&C'&D'). unfold ew. rewrite B, B', C, C', bdim_refl.
  replace (bdim 1 n) with (Some n). 2:{ unfold bdim. destruct (Nat.eqb_spec 1 n); subst; auto. }
  eexists. split; [reflexivity|]. repeat split; simpl; auto. { rewrite A, A'. auto. }
  intros i Hi. rewrite (bidx_lt n) by auto. change (bidx 1 i) with 0. change (bidx 1 0) with 0. rewrite D, D' by auto. auto.
Qed.
Lemma matmul_col n A a u : is_mat n A -> is_col n a u -> exists c, matmul A a = Ok c /\ is_col n c (mv n A u).
Proof.
  intros (P&Q&S) (A1&B1&C1&D1). unfold matmul. rewrite A1, S, B1, Nat.eqb_refl. eexists. split; [reflexivity|].
  repeat split; simpl; auto. intros i Hi. apply sumn_ext. intros j Hj. rewrite D1 by auto. auto.
Qed.
Lemma tr_matmul_col n a b u v : is_col n a u -> is_col n b v ->
  exists c, matmul (tr a) b = Ok c /\ is_col 1 c (fun _ => dot n u v).
Proof.
  intros (A1&B1&C1&D1) (A2&B2&C2&D2). unfold matmul, tr. rewrite A1, A2. simpl. rewrite B1, B2, Nat.eqb_refl.
  eexists. split; [reflexivity|]. repeat split; simpl; auto. intros i Hi. assert (i = 0) by lia. subst.
  unfold dot. apply sumn_ext. intros j Hj. rewrite D1, D2 by auto. auto.
Qed.
Lemma fill_where_sc p m v x y z : is_col 1 m (fun _ => x) -> is_col 1 v (fun _ => y) ->
  is_col 1 (fill_where p m v z) (fun _ => if p x then z else y).
Proof.
  intros (A1&B1&C1&D1) (A2&B2&C2&D2). repeat split; simpl; auto. intros i Hi. assert (i = 0) by lia. subst.
  rewrite D1, D2 by auto. auto.
Qed.
Lemma fill_if_sc b v y z : is_col 1 v (fun _ => y) -> is_col 1 (fill_if b v z) (fun _ => if b then z else y).
Proof. intros (A2&B2&C2&D2). destruct b; repeat split; simpl; auto. Qed.
Lemma amap_col f n a u : is_col n a u -> is_col n (amap f a) (fun i => f (u i)).
Proof. intros (A2&B2&C2&D2). repeat split; simpl; auto. intros. rewrite D2 by auto. auto. Qed.

(** ** The textbook iteration *)
Definition alpha_of (o : options) (A : arr) (n : nat) (conv : bool) (rr : R) (p : vec) : R :=
  if conv || ltb (dot n p (mv n A p)) (eps o) then 0%R else (rr / dot n p (mv n A p))%R.
Definition beta_of (o : options) (rr rr' : R) : R := if ltb rr (eps o) then 0%R else (rr' / rr)%R.
Definition sol (n : nat) (s : state) (x r : vec) (rr : R) (p : vec) : Prop :=
  is_col n (result s) x /\ is_col n (residual s) r /\ is_col 1 (inner s) (fun _ => rr) /\ is_col n (curr s) p.

Lemma step_col norm2 o z n A s x r rr p : preconditioner o = None -> is_mat n A -> sol n s x r rr p ->
  let al := alpha_of o A n (converged s) rr p in
  let x' := (fun i => x i + al * p i)%R in
  let r' := (fun i => r i - al * mv n A p i)%R in
  let rr' := dot n r' r' in
  let be := beta_of o rr rr' in
  let p' := (fun i => be * p i + r' i)%R in
  exists s' rn, cg_step norm2 o z A s = Ok (s', rn) /\ sol n s' x' r' rr' p' /\
    rn = (if z then 0%R else norm2 (residual s')) /\ converged s' = ltb rn (stop_updating_after o).
Proof.
  intros HP HA (H1&H2&H3&H4). intros al x' r' rr' be p'. unfold cg_step. rewrite HP.
  destruct (matmul_col n A _ _ HA H4) as (mvms&E1&I1). rewrite E1. cbn [bind].
  destruct (tr_matmul_col n _ _ _ _ H4 I1) as (a0&E2&I2). rewrite E2. cbn [bind].
  pose proof (fill_where_sc (fun x => ltb x (eps o)) _ _ _ _ 1%R I2 I2) as I3.
  destruct (ew_col Rdiv 1 _ _ _ _ H3 I3) as (a2&E3&I4). cbv zeta. rewrite E3. cbn [bind].
  pose proof (fill_where_sc (fun x => ltb x (eps o)) _ _ _ _ 0%R I2 I4) as I5.
  pose proof (fill_if_sc (converged s) _ _ 0%R I5) as I6. cbv beta in I6.
  assert (Eal : al = (if converged s then 0%R else if ltb (dot n p (mv n A p)) (eps o) then 0%R else
     (rr / (if ltb (dot n p (mv n A p)) (eps o) then 1 else dot n p (mv n A p)))%R)).
  { unfold al, alpha_of. destruct (converged s); simpl; auto. destruct (ltb _ _); auto. }
  rewrite <- Eal in I6.
  destruct (ew_sc_col Rmult n _ _ _ _ I6 I1) as (am&E4&I7). rewrite E4. cbn [bind].
  destruct (ew_col Rminus n _ _ _ _ H2 I7) as (re&E5&I8). rewrite E5. cbn [bind].
  destruct (ew_sc_col Rmult n _ _ _ _ I6 H4) as (ac&E6&I9). rewrite E6. cbn [bind].
  destruct (ew_col Rplus n _ _ _ _ H1 I9) as (rs&E7&I10). rewrite E7. cbn [bind].
  destruct (tr_matmul_col n _ _ _ _ I8 I8) as (inn&E8&I11). rewrite E8. cbn [bind].
  pose proof (fill_where_sc (fun x => ltb x (eps o)) _ _ _ _ 1%R H3 H3) as I12.
  destruct (ew_col Rdiv 1 _ _ _ _ I11 I12) as (b2&E9&I13). rewrite E9. cbn [bind].
  pose proof (fill_where_sc (fun x => ltb x (eps o)) _ _ _ _ 0%R H3 I13) as I14. cbv beta in I14.
  destruct (ew_sc_col Rmult n _ _ _ _ I14 H4) as (bc&E10&I15). rewrite E10. cbn [bind].
  destruct (ew_col Rplus n _ _ _ _ I15 I8) as (cu&E11&I16). rewrite E11. cbn [bind].
  eexists. eexists. split; [reflexivity|]. split; [|split; [reflexivity|reflexivity]].
  repeat split; try apply I10; try apply I8; try apply I11; try apply I16.
  simpl. intros i Hi. destruct I16 as (_&_&_&I16). rewrite I16 by auto. unfold p', be, beta_of.
  destruct (ltb rr (eps o)); auto.
Qed.

(** The invariant: residual = b - A x, and its inner product. *)
Definition inv (n : nat) (A : arr) (b : vec) (x r : vec) (rr : R) : Prop :=
  (forall i, i < n -> (r i = b i - mv n A x i)%R) /\ rr = dot n r r.
Lemma mv_plus n A x c p i : mv n A (fun i => x i + c * p i)%R i = (mv n A x i + c * mv n A p i)%R.
Proof.
  unfold mv. rewrite <- sumn_scal, <- sumn_plus. apply sumn_ext. intros. lra.
Qed.
Lemma mv_scal n A c p i : mv n A (fun i => p i * c)%R i = (mv n A p i * c)%R.
Proof. unfold mv. rewrite Rmult_comm, <- sumn_scal. apply sumn_ext. intros. lra. Qed.

(** The solver run for m passes (the loop without its exit). *)
Fixpoint steps (norm2 : arr -> R) (o : options) (z : bool) (A : arr) (m : nat) (s : state) : res state :=
  match m with O => Ok s | S k => do s' <- steps norm2 o z A k s; do (s'', _) <- cg_step norm2 o z A s'; Ok s'' end.

(** C56: at every pass the tracked residual is rhs minus the matrix applied to the current solution. *)
Theorem C56_residual_invariant norm2 o z n A b x0 m s0 : preconditioner o = None -> is_mat n A ->
  is_col n (result s0) x0 -> is_col n (residual s0) (fun i => b i - mv n A x0 i)%R ->
  is_col n (curr s0) (fun i => b i - mv n A x0 i)%R ->
  is_col 1 (inner s0) (fun _ => dot n (fun i => b i - mv n A x0 i)%R (fun i => b i - mv n A x0 i)%R) ->
  exists s x r, steps norm2 o z A m s0 = Ok s /\ is_col n (result s) x /\ is_col n (residual s) r /\
    forall i, i < n -> r i = (b i - mv n A x i)%R.
Proof.
  intros HP HA H1 H2 H3 H4.
  assert (G : exists s x r rr p, steps norm2 o z A m s0 = Ok s /\ sol n s x r rr p /\ inv n A b x r rr).
  { induction m.
    - exists s0, x0, (fun i => b i - mv n A x0 i)%R.
      exists (dot n (fun i => b i - mv n A x0 i)%R (fun i => b i - mv n A x0 i)%R), (fun i => b i - mv n A x0 i)%R.
      split; [reflexivity|]. split; [exact (conj H1 (conj H2 (conj H4 H3)))|]. split; reflexivity.
    - destruct IHm as (s&x&r&rr&p&E&S&I1&I2). simpl. rewrite E. cbn [bind].
      destruct (step_col norm2 o z n A s x r rr p HP HA S) as (s'&rn&E'&S'&_). rewrite E'. cbn [bind].
      do 5 eexists. split; [reflexivity|]. split; [exact S'|]. split; [|reflexivity].
      intros i Hi. cbv beta. rewrite mv_plus, I1 by auto. lra. }
  destruct G as (s&x&r&rr&p&E&(S1&S2&_)&I&_). exists s, x, r. auto.
Qed.

Lemma loop_col norm2 o tol z n A b fuel k s x r rr p : preconditioner o = None -> is_mat n A -> sol n s x r rr p ->
  inv n A b x r rr -> forall y reached, cg_loop norm2 o tol z A fuel k s = Ok (y, reached) ->
  exists x' r' a, is_col n y x' /\ is_col n a r' /\ (forall i, i < n -> (r' i = b i - mv n A x' i)%R) /\
     (reached = true -> z = false -> (norm2 a < tol)%R).
Proof.
  intros HP HA. revert k s x r rr p. induction fuel; intros k s x r rr p S (I1&I2) y reached; cbn [cg_loop].
  - intros E. inversion E; subst. destruct S as (S1&S2&_). exists x, r, (residual s). repeat (split; auto). discriminate.
  - destruct (step_col norm2 o z n A s x r rr p HP HA S) as (s'&rn&E&S'&Ern&_). rewrite E. cbn [bind].
    assert (I' : forall i, i < n -> (r i - alpha_of o A n (converged s) rr p * mv n A p i =
       b i - mv n A (fun i => x i + alpha_of o A n (converged s) rr p * p i) i)%R).
    { intros i Hi. rewrite mv_plus, I1 by auto. lra. }
    destruct (_ && _) eqn:EB.
    + intros E'. inversion E'; subst. apply andb_prop in EB as (_&EB). destruct S' as (S1&S2&_).
      do 2 eexists. exists (residual s'). split; [exact S1|]. split; [exact S2|]. split; [exact I'|]. intros _ Hz. subst z.
      unfold ltb in EB. destruct (Rlt_dec _ _); [auto|discriminate].
    + intros E'. eapply IHfuel; [exact S'| |exact E']. split; [exact I'|reflexivity].
Qed.

Definition tol_of (o : options) : R :=
  match tolerance o with Some t => t | None => if use_eval_tolerance o then (1 / 100)%R else 1%R end.

(** ... hence a returned solution of a system with a non-negligible right-hand side has relative residual below the
    tolerance (or below stop_updating_after). *)
Lemma euclid_scal n c v : (0 <= c)%R -> euclid n (fun i => c * v i)%R = (c * euclid n v)%R.
Proof.
  intros. unfold euclid. replace (dot n (fun i => c * v i)%R (fun i => c * v i)%R) with (c * c * dot n v v)%R.
  - rewrite sqrt_mult, sqrt_square; auto. nra. apply sumn_nonneg. intros. nra.
  - unfold dot. rewrite <- sumn_scal. apply sumn_ext. intros. lra.
Qed.
Lemma euclid_ext n u v : (forall i, i < n -> u i = v i) -> euclid n u = euclid n v.
Proof. intros H. unfold euclid, dot. f_equal. apply sumn_ext. intros. rewrite H; auto. Qed.

Theorem C56_solution norm2 o n A rhs b y :
  norm2_spec norm2 -> preconditioner o = None -> is_mat n A -> is_col n rhs b -> (0 < eps o)%R ->
  (initial_guess o = None \/ exists g x0, initial_guess o = Some g /\ is_col n g x0) ->
  (eps o <= euclid n b)%R -> 0 < max_iter o -> 0 < n ->
  linear_cg norm2 o A rhs = Ok y ->
  exists x, is_col n y x /\
    (euclid n (fun i => b i - mv n A x i) < Rmax (tol_of o) (stop_updating_after o) * euclid n b)%R.
Proof.
  intros HN HP HA Hb He Hg Hz Hm Hn. unfold linear_cg. fold (tol_of o).
  destruct (max_iter o <? max_tridiag_iter o); [discriminate|].
  assert (Hg' : exists x0, is_col n (match initial_guess o with Some g => g | None => amap (fun _ => 0%R) rhs end) x0).
  { destruct Hg as [->|(g&x0&->&H)]; [|eauto]. eexists. eapply amap_col. eauto. }
  clear Hg. destruct Hg' as (x0&Hg). set (guess := match initial_guess o with Some g => g | None => _ end) in *. clearbody guess.
  pose proof Hb as (O1&O2&O3&O4). rewrite O1.
  assert (ES : size rhs = n) by (unfold size; rewrite O1, O2, O3; lia). rewrite ES.
  rewrite (HN n rhs b Hb). replace (ltb (euclid n b) (eps o)) with false by (symmetry; unfold ltb; destruct (Rlt_dec _ _); auto; lra).
  set (N := euclid n b) in *. assert (HNp : (0 < N)%R) by lra.
  pose proof (amap_col (fun x => (x / N)%R) n _ _ Hb) as Hb1. cbv beta in Hb1. cbv zeta.
  destruct (matmul_col n A _ _ HA Hg) as (mg&E1&I1). rewrite E1. cbn [bind].
  destruct (ew_col Rminus n _ _ _ _ Hb1 I1) as (re&E2&I2). rewrite E2. cbn [bind].
  assert (Fin : forall (y' : arr) x r a, is_col n y' x -> is_col n a r ->
     (forall i, i < n -> (r i = b i / N - mv n A x i)%R) ->
     (norm2 a < Rmax (tol_of o) (stop_updating_after o))%R ->
     exists x', is_col n (amap (fun x => (x * N)%R) y') x' /\
        (euclid n (fun i => b i - mv n A x' i) < Rmax (tol_of o) (stop_updating_after o) * N)%R).
  { intros y' x r a Hy Ha Hr Hlt. eexists. split; [apply amap_col; exact Hy|].
    rewrite (euclid_ext n _ (fun i => N * r i)%R).
    - rewrite euclid_scal by lra. rewrite (HN n a r Ha) in Hlt. nra.
    - intros i Hi. rewrite Hr by auto. rewrite (mv_scal n A N x i). field. lra. }
  unfold ltb at 1. destruct (Rlt_dec (norm2 re) (stop_updating_after o)) as [L|L].
  - intros E. inversion E. subst y. eapply Fin; [exact Hg|exact I2|reflexivity|].
    eapply Rlt_le_trans; [exact L|apply Rmax_r].
  - rewrite HP. destruct (tr_matmul_col n _ _ _ _ I2 I2) as (inn&E3&I3). rewrite E3. cbn [bind].
    set (ni := if terminate_cg_by_size o then Nat.min (max_iter o) n else max_iter o).
    destruct (cg_loop _ _ _ _ _ _ _ _) as [[y' reached]|] eqn:EL; [|discriminate]. cbn [bind].
    replace (ltb (norm2 re) (stop_updating_after o)) with false in EL by (unfold ltb; destruct (Rlt_dec _ _); auto; lra).
    assert (HS : sol n (State guess re inn re false) x0 (fun i => b i / N - mv n A x0 i)%R
       (dot n (fun i => b i / N - mv n A x0 i)%R (fun i => b i / N - mv n A x0 i)%R) (fun i => b i / N - mv n A x0 i)%R)
      by exact (conj Hg (conj I2 (conj I3 I2))).
    destruct (loop_col norm2 o (tol_of o) false n A (fun i => b i / N)%R ni 0 _ _ _ _ _ HP HA
       HS (conj (fun i _ => eq_refl) eq_refl) _ _ EL) as (x'&r'&a&J1&J2&J3&J4).
    destruct reached.
    + simpl. intros E. inversion E. subst y. eapply Fin; eauto. eapply Rlt_le_trans; [apply J4; auto|apply Rmax_l].
    + replace (0 <? ni) with true. discriminate. symmetry. apply Nat.ltb_lt. unfold ni. destruct (terminate_cg_by_size o); lia.
Qed.

(** Progress: for a symmetric matrix no pass increases the error (x - x* )' A (x - x* ), whatever was masked. *)
Definition symmetric (n : nat) (A : arr) : Prop := forall i j, i < n -> j < n -> elt A i j = elt A j i.
Definition aerr (n : nat) (A : arr) (xs x : vec) : R := dot n (fun i => x i - xs i)%R (mv n A (fun i => x i - xs i)%R).

Lemma dot_ext n u u' v v' : (forall i, i < n -> u i = u' i) -> (forall i, i < n -> v i = v' i) -> dot n u v = dot n u' v'.
Proof. intros H1 H2. apply sumn_ext. intros. rewrite H1, H2; auto. Qed.
Lemma dot_comm n u v : dot n u v = dot n v u.
Proof. apply sumn_ext. intros. lra. Qed.
Lemma dot_plus_l n u c v w : dot n (fun i => u i + c * v i)%R w = (dot n u w + c * dot n v w)%R.
Proof. unfold dot. rewrite <- sumn_scal, <- sumn_plus. apply sumn_ext. intros. lra. Qed.
Lemma dot_plus_r n u c v w : dot n w (fun i => u i + c * v i)%R = (dot n w u + c * dot n w v)%R.
Proof. rewrite dot_comm, dot_plus_l, (dot_comm n u), (dot_comm n v). auto. Qed.
Lemma dot_mv_sym n A u v : symmetric n A -> dot n u (mv n A v) = dot n v (mv n A u).
Proof.
  intros H. unfold dot, mv.
  rewrite (sumn_ext n _ (fun i => sumn n (fun j => u i * (elt A i j * v j)))%R) by (intros; rewrite sumn_scal; auto).
  rewrite (sumn_ext n (fun i => v i * _)%R (fun i => sumn n (fun j => v i * (elt A i j * u j)))%R) by (intros; rewrite sumn_scal; auto).
  rewrite sumn_swap. apply sumn_ext. intros. apply sumn_ext. intros. rewrite (H i i0) by auto. lra.
Qed.

Theorem C56_error_never_grows norm2 o z n A b xs x0 m s0 : preconditioner o = None -> is_mat n A -> symmetric n A ->
  (0 < eps o)%R -> (forall i, i < n -> mv n A xs i = b i) ->
  is_col n (result s0) x0 -> is_col n (residual s0) (fun i => b i - mv n A x0 i)%R ->
  is_col n (curr s0) (fun i => b i - mv n A x0 i)%R ->
  is_col 1 (inner s0) (fun _ => dot n (fun i => b i - mv n A x0 i)%R (fun i => b i - mv n A x0 i)%R) ->
  exists s s' x x', steps norm2 o z A m s0 = Ok s /\ steps norm2 o z A (S m) s0 = Ok s' /\
    is_col n (result s) x /\ is_col n (result s') x' /\ (aerr n A xs x' <= aerr n A xs x)%R.
Proof.
  intros HP HA HS He Hx H1 H2 H3 H4.
  assert (Step : forall s x r rr p, sol n s x r rr p -> inv n A b x r rr -> (rr <= dot n p r)%R ->
    exists s' rn x' r' rr' p', cg_step norm2 o z A s = Ok (s', rn) /\ sol n s' x' r' rr' p' /\ inv n A b x' r' rr' /\
      (rr' <= dot n p' r')%R /\ (aerr n A xs x' <= aerr n A xs x)%R).
  { intros s x r rr p S (I1&I2) I3.
    destruct (step_col norm2 o z n A s x r rr p HP HA S) as (s'&rn&E'&S'&_).
    set (al := alpha_of o A n (converged s) rr p) in *.
    exists s', rn, (fun i => x i + al * p i)%R, (fun i => r i - al * mv n A p i)%R. do 2 eexists.
    split; [exact E'|]. split; [exact S'|].
    assert (Err0 : (0 <= rr)%R) by (rewrite I2; apply sumn_nonneg; intros; nra).
    set (q := dot n p (mv n A p)) in *.
    assert (Hal : al = 0%R \/ (0 < q /\ al * q = rr)%R).
    { unfold al, alpha_of. fold q. destruct (converged s); simpl; auto. unfold ltb. destruct (Rlt_dec q (eps o)); auto.
      right. split; [lra|]. field. lra. }
    assert (Hrp : (dot n p (fun i => r i - al * mv n A p i) = dot n p r - al * q)%R).
    { rewrite (dot_ext n p p _ (fun i => r i + (- al) * mv n A p i)%R) by (intros; auto; lra).
      rewrite dot_plus_r. fold q. lra. }
    split; [|split].
    - split; [|reflexivity]. intros i Hi. cbv beta. rewrite mv_plus, I1 by auto. lra.
    - set (r' := fun i => (r i - al * mv n A p i)%R) in *. set (rr' := dot n r' r').
      set (be := beta_of o rr rr').
      assert (0 <= be)%R.
      { unfold be, beta_of, ltb. destruct (Rlt_dec rr (eps o)); [lra|]. apply Rmult_le_pos; [apply sumn_nonneg; intros; nra|].
        left. apply Rinv_0_lt_compat. lra. }
      change (rr' <= dot n (fun i => be * p i + r' i) r')%R.
      rewrite (dot_ext n _ (fun i => r' i + be * p i)%R r' r') by (intros; auto; ring).
      rewrite dot_plus_l, Hrp. fold rr'. assert (0 <= dot n p r - al * q)%R by (destruct Hal as [-> | (?&->)]; lra). nra.
    - unfold aerr.
      set (e := fun i => (x i - xs i)%R).
      rewrite (dot_ext n _ (fun i => e i + al * p i)%R _ (fun i => mv n A e i + al * mv n A p i)%R).
      2:{ intros. unfold e. lra. }
      2:{ intros. rewrite <- mv_plus. apply sumn_ext. intros. unfold e. lra. }
      rewrite dot_plus_l, !dot_plus_r. fold q. rewrite (dot_mv_sym n A e p) by auto.
      assert (Hpe : dot n p (mv n A e) = (- dot n p r)%R).
      { rewrite (dot_ext n p p r (fun i => 0 + (-1) * mv n A e i)%R); auto.
        - rewrite dot_plus_r. replace (dot n p (fun _ => 0%R)) with 0%R. lra.
          symmetry. unfold dot. rewrite (sumn_ext n _ (fun _ => 0%R)) by (intros; lra). apply sumn_zero.
        - intros i Hi. rewrite I1, <- Hx by auto.
          assert (M : mv n A e i = (mv n A x i - mv n A xs i)%R).
          { unfold mv. rewrite <- sumn_minus. apply sumn_ext. intros; unfold e; ring. }
          rewrite M. lra. }
      rewrite Hpe. destruct Hal as [-> | (Hq&Ha)]; [lra|]. assert (0 <= al)%R by nra. nra. }
  assert (G : forall m, exists s x r rr p, steps norm2 o z A m s0 = Ok s /\ sol n s x r rr p /\ inv n A b x r rr /\ (rr <= dot n p r)%R).
  { clear m. intros m. induction m.
    - exists s0, x0, (fun i => b i - mv n A x0 i)%R.
      exists (dot n (fun i => b i - mv n A x0 i)%R (fun i => b i - mv n A x0 i)%R), (fun i => b i - mv n A x0 i)%R.
      split; [reflexivity|]. split; [exact (conj H1 (conj H2 (conj H4 H3)))|]. split; [split; reflexivity|]. lra.
    - destruct IHm as (s&x&r&rr&p&E&S&I1&I2). destruct (Step s x r rr p S I1 I2) as (s'&rn&x'&r'&rr'&p'&E'&S'&I'&J'&_).
      exists s', x', r', rr', p'. simpl. rewrite E. cbn [bind]. rewrite E'. auto. }
  destruct (G m) as (s&x&r&rr&p&E&S&I1&I2). destruct (Step s x r rr p S I1 I2) as (s'&rn&x'&r'&rr'&p'&E'&S'&I'&J'&K).
  exists s, s', x, x'. split; [exact E|]. split; [simpl; rewrite E; cbn [bind]; rewrite E'; reflexivity|].
  split; [apply S|]. split; [apply S'|]. exact K.
Qed.

(** ** What does not hold *)

Lemma loop_too_short norm2 o tol z A fuel : forall k s y reached, k + fuel <= Nat.min 10 (max_iter o - 1) ->
  cg_loop norm2 o tol z A fuel k s = Ok (y, reached) -> reached = false.
Proof.
  induction fuel; cbn [cg_loop]; intros k s y reached H.
  - intros E. inversion E. auto.
  - destruct (cg_step norm2 o z A s) as [[s' rn]|]; [|discriminate]. cbn [bind].
    replace (Nat.min 10 (max_iter o - 1) <=? k) with false by (symmetry; apply Nat.leb_gt; lia). simpl.
    intros E. eapply IHfuel; [|exact E]. lia.
Qed.

(** What happens before the loop, for an (n, 1) right-hand side and no initial guess. *)
Lemma start_col norm2 o n A rhs b : norm2_spec norm2 -> is_mat n A -> is_col n rhs b -> initial_guess o = None ->
  (0 < eps o <= euclid n b)%R -> (stop_updating_after o <= 1)%R -> max_tridiag_iter o <= max_iter o ->
  exists re, is_col n re (fun i => b i / euclid n b)%R /\
    linear_cg norm2 o A rhs =
      (do inner <- matmul (tr re) (match preconditioner o with Some f => f re | None => re end);
       do (result, reached) <- cg_loop norm2 o (tol_of o) false A (if terminate_cg_by_size o then Nat.min (max_iter o) n else max_iter o) 0
           (State (amap (fun _ => 0%R) rhs) re inner (match preconditioner o with Some f => f re | None => re end) false);
       if negb reached && (0 <? (if terminate_cg_by_size o then Nat.min (max_iter o) n else max_iter o))
       then Err RuntimeError else Ok (amap (fun x => (x * euclid n b)%R) result)).
Proof.
  intros HN HA Hb Hg He Hst Hmt. unfold linear_cg. fold (tol_of o). rewrite Hg.
  replace (max_iter o <? max_tridiag_iter o) with false by (symmetry; apply Nat.ltb_ge; auto).
  pose proof Hb as (O1&O2&O3&O4). rewrite O1.
  assert (ES : size rhs = n) by (unfold size; rewrite O1, O2, O3; lia). rewrite ES.
  rewrite (HN n rhs b Hb). replace (ltb (euclid n b) (eps o)) with false by (symmetry; unfold ltb; destruct (Rlt_dec _ _); auto; lra).
  set (N := euclid n b) in *. cbv zeta.
  pose proof (amap_col (fun x => (x / N)%R) n _ _ Hb) as Hb1. cbv beta in Hb1.
  pose proof (amap_col (fun _ => 0%R) n _ _ Hb) as Hg0. cbv beta in Hg0.
  destruct (matmul_col n A _ _ HA Hg0) as (mg&E1&I1). rewrite E1. cbn [bind].
  destruct (ew_col Rminus n _ _ _ _ Hb1 I1) as (re&E2&I2). rewrite E2. cbn [bind].
  assert (I2' : is_col n re (fun i => b i / N)%R).
  { eapply is_col_ext; [|exact I2]. intros i Hi. cbv beta. unfold mv.
    rewrite (sumn_ext n _ (fun _ => 0%R)) by (intros; lra). rewrite sumn_zero. lra. }
  assert (E1n : norm2 re = 1%R).
  { rewrite (HN n re _ I2'). rewrite (euclid_ext n _ (fun i => / N * b i)%R) by (intros; unfold Rdiv; ring).
    rewrite euclid_scal by (left; apply Rinv_0_lt_compat; lra). fold N. field. lra. }
  replace (ltb (norm2 re) (stop_updating_after o)) with false by (symmetry; unfold ltb; rewrite E1n; destruct (Rlt_dec _ _); auto; lra).
  exists re. split; auto.
Qed.

(** terminate_cg_by_size=True can never succeed for systems of at most 10 unknowns: however good the solution, the call
    raises RuntimeError, because the tolerance is only looked at from the 11th pass on. *)
Theorem C56_terminate_by_size_refuted norm2 o n A rhs b :
  norm2_spec norm2 -> is_mat n A -> is_col n rhs b -> initial_guess o = None -> preconditioner o = None ->
  (0 < eps o <= euclid n b)%R -> (stop_updating_after o <= 1)%R ->
  terminate_cg_by_size o = true -> 0 < n <= 10 -> n < max_iter o ->
  linear_cg norm2 o A rhs = Err RuntimeError.
Proof.
  intros HN HA Hb Hg HP He Hst Ht Hn Hm.
  destruct (Nat.le_gt_cases (max_tridiag_iter o) (max_iter o)) as [Hmt|Hmt].
  2:{ unfold linear_cg. apply Nat.ltb_lt in Hmt. rewrite Hmt. auto. }
  destruct (start_col norm2 o n A rhs b HN HA Hb Hg He Hst Hmt) as (re&Ire&->). rewrite HP, Ht.
  rewrite Nat.min_r by lia.
  destruct (tr_matmul_col n _ _ _ _ Ire Ire) as (inn&E3&I3). rewrite E3. cbn [bind].
  assert (HS : sol n (State (amap (fun _ => 0%R) rhs) re inn re false) (fun _ => 0%R) (fun i => b i / euclid n b)%R
       (dot n (fun i => b i / euclid n b)%R (fun i => b i / euclid n b)%R) (fun i => b i / euclid n b)%R).
  { split; [|exact (conj Ire (conj I3 Ire))]. apply (amap_col (fun _ => 0%R) n _ _ Hb). }
  assert (T : forall fuel k s x r rr p, sol n s x r rr p -> exists y, cg_loop norm2 o (tol_of o) false A fuel k s = Ok y).
  { induction fuel; intros k s x r rr p S; cbn [cg_loop]; [eauto|].
    destruct (step_col norm2 o false n A s x r rr p HP HA S) as (s'&rn&E&S'&_). rewrite E. cbn [bind].
    destruct (_ && _); eauto. }
  destruct (T n 0 _ _ _ _ _ HS) as ((y&reached)&EL). rewrite EL. cbn [bind].
  apply loop_too_short in EL; [|lia]. subst. replace (0 <? n) with true by (symmetry; apply Nat.ltb_lt; lia). reflexivity.
Qed.

(** A preconditioner can not be used with an (n, 1) right-hand side, n <> 1: the first pass multiplies two (n, 1)
    arrays and raises ValueError. *)
Theorem C56_preconditioner_refuted norm2 o n A rhs b f :
  norm2_spec norm2 -> is_mat n A -> is_col n rhs b -> initial_guess o = None -> preconditioner o = Some f ->
  (forall a u, is_col n a u -> exists v, is_col n (f a) v) ->
  (0 < eps o <= euclid n b)%R -> (stop_updating_after o <= 1)%R ->
  terminate_cg_by_size o = false -> n <> 1 -> 0 < max_iter o -> max_tridiag_iter o <= max_iter o ->
  linear_cg norm2 o A rhs = Err ValueError.
Proof.
  intros HN HA Hb Hg HP Hf He Hst Ht Hn Hm Hmt.
  destruct (start_col norm2 o n A rhs b HN HA Hb Hg He Hst Hmt) as (re&Ire&->). rewrite HP, Ht.
  destruct (Hf re _ Ire) as (v&Iv).
  destruct (tr_matmul_col n _ _ _ _ Ire Iv) as (inn&E3&I3). rewrite E3. cbn [bind].
  destruct (max_iter o) as [|mi]; [lia|]. cbn [cg_loop]. unfold cg_step. rewrite HP. cbn [curr].
  destruct (matmul_col n A _ _ HA Iv) as (mvms&E1&I1). rewrite E1. cbn [bind].
  replace (matmul (f re) mvms) with (Err ValueError : res arr); [reflexivity|].
  destruct Iv as (A1&B1&C1&_), I1 as (A2&B2&C2&_). unfold matmul. rewrite A2, C1, B2.
  replace (1 =? n) with false by (symmetry; apply Nat.eqb_neq; auto). auto.
Qed.

(** A right-hand side below eps counts as solved after the first pass, whatever the initial guess: the solution of
    A x = 0 started at g stops at the first conjugate gradient step, for every tolerance and number of passes. *)
Lemma loop_frozen norm2 o tol n A fuel : preconditioner o = None -> is_mat n A -> (0 < stop_updating_after o)%R ->
  forall k s x r rr p, sol n s x r rr p -> converged s = true ->
  forall y reached, cg_loop norm2 o tol true A fuel k s = Ok (y, reached) -> is_col n y x.
Proof.
  intros HP HA Hst. induction fuel; intros k s x r rr p S C y reached; cbn [cg_loop].
  - intros E. inversion E; subst. apply S.
  - destruct (step_col norm2 o true n A s x r rr p HP HA S) as (s'&rn&E&S'&Ern&C'). rewrite E. cbn [bind].
    assert (X : is_col n (result s') x).
    { destruct S' as (S1&_). eapply is_col_ext; [|exact S1]. intros i Hi. cbv beta. unfold alpha_of. rewrite C. simpl. lra. }
    destruct (_ && _).
    + intros E'. inversion E'; subst. exact X.
    + intros E'. eapply IHfuel; [|  |exact E'].
      * destruct S' as (_&S2&S3&S4). split; [exact X|]. split; [exact S2|]. split; [exact S3|exact S4].
      * rewrite C', Ern. unfold ltb. destruct (Rlt_dec _ _); auto.
Qed.
Theorem C56_zero_rhs_stops_early norm2 o n A rhs b g x0 y :
  norm2_spec norm2 -> preconditioner o = None -> is_mat n A -> is_col n rhs b -> initial_guess o = Some g -> is_col n g x0 ->
  (euclid n b < eps o)%R -> (0 < stop_updating_after o)%R -> terminate_cg_by_size o = false -> 0 < max_iter o ->
  (stop_updating_after o <= euclid n (fun i => b i - mv n A x0 i))%R ->
  linear_cg norm2 o A rhs = Ok y ->
  let r := (fun i => b i - mv n A x0 i)%R in
  let q := dot n r (mv n A r) in
  is_col n y (fun i => x0 i + (if ltb q (eps o) then 0 else dot n r r / q) * r i)%R.
Proof.
  intros HN HP HA Hb Hg Hx He Hst Ht Hm Hr. unfold linear_cg. fold (tol_of o). rewrite Hg, Ht, HP.
  destruct (max_iter o <? max_tridiag_iter o); [discriminate|].
  pose proof Hb as (O1&O2&O3&O4). rewrite O1.
  rewrite (HN n rhs b Hb). replace (ltb (euclid n b) (eps o)) with true by (symmetry; unfold ltb; destruct (Rlt_dec _ _); auto; lra).
  cbv zeta. pose proof (amap_col (fun x => (x / 1)%R) n _ _ Hb) as Hb1. cbv beta in Hb1.
  destruct (matmul_col n A _ _ HA Hx) as (mg&E1&I1). rewrite E1. cbn [bind].
  destruct (ew_col Rminus n _ _ _ _ Hb1 I1) as (re&E2&I2). rewrite E2. cbn [bind].
  set (r := fun i => (b i - mv n A x0 i)%R) in *. cbv beta in I2.
  assert (I2' : is_col n re r) by (eapply is_col_ext; [|exact I2]; intros; cbv beta; unfold r; field).
  rewrite (HN n re r I2'). replace (ltb (euclid n r) (stop_updating_after o)) with false by (symmetry; unfold ltb; destruct (Rlt_dec _ _); auto; lra).
  destruct (tr_matmul_col n _ _ _ _ I2' I2') as (inn&E3&I3). rewrite E3. cbn [bind].
  destruct (max_iter o) as [|mi] eqn:Emi; [lia|]. cbn [cg_loop].
  destruct (step_col norm2 o true n A (State g re inn re false) x0 r (dot n r r) r HP HA (conj Hx (conj I2' (conj I3 I2'))))
    as (s'&rn&E&S'&Ern&C'). rewrite E. cbn [bind].
  assert (X : is_col n (result s') (fun i => x0 i + (if ltb (dot n r (mv n A r)) (eps o) then 0 else dot n r r / dot n r (mv n A r)) * r i)%R).
  { destruct S' as (S1&_). exact S1. }
  assert (Fin : forall y', is_col n y' (fun i => x0 i + (if ltb (dot n r (mv n A r)) (eps o) then 0 else dot n r r / dot n r (mv n A r)) * r i)%R ->
     is_col n (amap (fun x => (x * 1)%R) y') (fun i => x0 i + (if ltb (dot n r (mv n A r)) (eps o) then 0 else dot n r r / dot n r (mv n A r)) * r i)%R).
  { intros y' Hy. eapply is_col_ext; [|apply amap_col; exact Hy]. intros; cbv beta; ring. }
  destruct (_ && _).
  - cbn [bind negb andb]. intros E'. inversion E'. apply Fin. exact X.
  - destruct (cg_loop _ _ _ _ _ _ _ _) as [[y' reached]|] eqn:EL; [|discriminate]. cbn [bind].
    apply loop_frozen with (n := n) (x := fun i => (x0 i + (if ltb (dot n r (mv n A r)) (eps o) then 0 else dot n r r / dot n r (mv n A r)) * r i)%R)
       (r := fun i => (r i - alpha_of o A n false (dot n r r) r * mv n A r i)%R)
       (rr := dot n (fun i => (r i - alpha_of o A n false (dot n r r) r * mv n A r i)%R) (fun i => (r i - alpha_of o A n false (dot n r r) r * mv n A r i)%R))
       (p := fun i => (beta_of o (dot n r r) (dot n (fun i => (r i - alpha_of o A n false (dot n r r) r * mv n A r i)%R) (fun i => (r i - alpha_of o A n false (dot n r r) r * mv n A r i)%R)) * r i + (r i - alpha_of o A n false (dot n r r) r * mv n A r i))%R) in EL; auto.
    + destruct (_ && _); [discriminate|]. intros E'. inversion E'. apply Fin. exact EL.
    + rewrite C', Ern. unfold ltb. destruct (Rlt_dec _ _); auto.
Qed.
Lemma loop_zero_ok norm2 o tol n A fuel : preconditioner o = None -> is_mat n A -> (0 < tol)%R ->
  forall k s x r rr p, sol n s x r rr p -> k + S fuel = max_iter o ->
  exists y, cg_loop norm2 o tol true A (S fuel) k s = Ok (y, true).
Proof.
  intros HP HA Ht. induction fuel; intros k s x r rr p S Hk; cbn [cg_loop];
    destruct (step_col norm2 o true n A s x r rr p HP HA S) as (s'&rn&E&S'&Ern&C'); rewrite E; cbn [bind].
  - replace (Nat.min 10 (max_iter o - 1) <=? k) with true by (symmetry; apply Nat.leb_le; lia).
    replace (ltb rn tol) with true by (symmetry; unfold ltb; rewrite Ern; destruct (Rlt_dec _ _); auto). simpl. eauto.
  - destruct (_ && _); [eauto|]. eapply (IHfuel (Datatypes.S k)); [exact S'|lia].
Qed.
Theorem C56_zero_rhs_accepted norm2 o n A rhs b g x0 :
  norm2_spec norm2 -> preconditioner o = None -> is_mat n A -> is_col n rhs b -> initial_guess o = Some g -> is_col n g x0 ->
  (euclid n b < eps o)%R -> terminate_cg_by_size o = false -> 0 < max_iter o -> max_tridiag_iter o <= max_iter o ->
  (0 < tol_of o)%R -> exists y, linear_cg norm2 o A rhs = Ok y.
Proof.
  intros HN HP HA Hb Hg Hx He Ht Hm Hmt Htol. unfold linear_cg. fold (tol_of o). rewrite Hg, Ht, HP.
  replace (max_iter o <? max_tridiag_iter o) with false by (symmetry; apply Nat.ltb_ge; auto).
  pose proof Hb as (O1&O2&O3&O4). rewrite O1.
  rewrite (HN n rhs b Hb). replace (ltb (euclid n b) (eps o)) with true by (symmetry; unfold ltb; destruct (Rlt_dec _ _); auto; lra).
  cbv zeta. pose proof (amap_col (fun x => (x / 1)%R) n _ _ Hb) as Hb1. cbv beta in Hb1.
  destruct (matmul_col n A _ _ HA Hx) as (mg&E1&I1). rewrite E1. cbn [bind].
  destruct (ew_col Rminus n _ _ _ _ Hb1 I1) as (re&E2&I2). rewrite E2. cbn [bind].
  destruct (ltb (norm2 re) (stop_updating_after o)); [eauto|].
  destruct (tr_matmul_col n _ _ _ _ I2 I2) as (inn&E3&I3). rewrite E3. cbn [bind].
  destruct (max_iter o) as [|mi] eqn:Emi; [lia|].
  destruct (loop_zero_ok norm2 o (tol_of o) n A mi HP HA Htol 0 (State g re inn re false) _ _ _ _ (conj Hx (conj I2 (conj I3 I2)))) as (y&->).
  { rewrite Emi. auto. }
  cbn [bind negb andb]. eauto.
Qed.

(** Example: diag(1, 2) x = 0 started at (1, 1).  For every tolerance the call returns (4/9, -1/9). *)
Definition A_ex : arr := Arr false 2 2 (fun i j => if i =? j then INR (i + 1) else 0%R).
Definition g_ex : arr := col 2 (fun _ => 1%R).
Definition o_ex (tol : R) : options := Options (Some tol) (/ 10000000000) (/ 10000000000) 1000 20 (Some g_ex) None false false.
Theorem C56_zero_rhs_refuted norm2 tol : norm2_spec norm2 -> (0 < tol)%R ->
  exists y, linear_cg norm2 (o_ex tol) A_ex (col 2 (fun _ => 0%R)) = Ok y /\
    elt y 0 0 = (4 / 9)%R /\ elt y 1 0 = (- 1 / 9)%R /\ mv 2 A_ex (fun i => elt y i 0) 0 <> 0%R.
Proof.
  intros HN Ht. assert (HA : is_mat 2 A_ex) by (repeat split).
  assert (E0 : euclid 2 (fun _ => 0%R) = 0%R).
  { unfold euclid, dot. simpl. replace (0 + 0 * 0 + 0 * 0)%R with 0%R by ring. apply sqrt_0. }
  assert (Hr : forall i, i < 2 -> (0 - mv 2 A_ex (fun _ => 1) i = (if i =? 0 then -1 else -2))%R).
  { intros i Hi. unfold mv. destruct i as [|[|i]]; simpl; [lra|lra|lia]. }
  destruct (C56_zero_rhs_accepted norm2 (o_ex tol) 2 A_ex (col 2 (fun _ => 0%R)) (fun _ => 0%R) g_ex (fun _ => 1%R) HN eq_refl HA
     (is_col_col _ _) eq_refl (is_col_col _ _)) as (y&E); simpl; auto; try lia; try (rewrite E0; lra).
  pose proof (C56_zero_rhs_stops_early norm2 (o_ex tol) 2 A_ex (col 2 (fun _ => 0%R)) (fun _ => 0%R) g_ex (fun _ => 1%R) y HN eq_refl HA
     (is_col_col _ _) eq_refl (is_col_col _ _)) as H.
  destruct H as (_&_&_&H); auto; try (simpl; lia); try (rewrite E0; simpl; lra); try (simpl; lra).
  - simpl. rewrite (euclid_ext 2 _ (fun i => if i =? 0 then -1 else -2)%R Hr).
    unfold euclid, dot. simpl. apply Rle_trans with (sqrt 1); [rewrite sqrt_1; lra|]. apply sqrt_le_1; lra.
  - set (r := fun i => (0 - mv 2 A_ex (fun _ => 1%R) i)%R) in *. cbv zeta beta in H.
    assert (R0 : r 0 = (-1)%R) by apply (Hr 0 ltac:(lia)). assert (R1 : r 1 = (-2)%R) by apply (Hr 1 ltac:(lia)).
    assert (Q : dot 2 r (mv 2 A_ex r) = 9%R).
    { unfold dot, mv. cbn [sumn]. rewrite R0, R1. simpl. lra. }
    assert (P : dot 2 r r = 5%R) by (unfold dot; cbn [sumn]; rewrite R0, R1; lra).
    rewrite Q, P in H. replace (ltb 9 (eps (o_ex tol))) with false in H by (symmetry; unfold ltb; simpl; destruct (Rlt_dec _ _); auto; lra).
    assert (Y0 : elt y 0 0 = (4 / 9)%R) by (rewrite (H 0) by lia; fold (r 0); rewrite R0; lra).
    assert (Y1 : elt y 1 0 = (- 1 / 9)%R) by (rewrite (H 1) by lia; fold (r 1); rewrite R1; lra).
    exists y. split; [exact E|]. split; [exact Y0|]. split; [exact Y1|]. unfold mv. cbn [sumn]. rewrite Y0, Y1. simpl. lra.
Qed.

(** A 1-d right-hand side of length n gives an (n, n) array instead of a solution of length n. *)
Definition is_sq (n : nat) (a : arr) : Prop := one_d a = false /\ nr a = n /\ nc a = n.
Lemma ew_sq f n a b : is_sq n a -> is_sq n b -> exists c, ew f a b = Ok c /\ is_sq n c.
Proof.
  intros (A&B&C) (A'&B'&C'). unfold ew. rewrite B, B', C, C', !bdim_refl. eexists. split; [reflexivity|]. repeat split; simpl; auto.
  rewrite A. auto.
Qed.
Lemma matmul_sq n a b : is_sq n a -> is_sq n b -> exists c, matmul a b = Ok c /\ is_sq n c.
Proof. intros (A&B&C) (A'&B'&C'). unfold matmul. rewrite A', C, B', Nat.eqb_refl. eexists. split; [reflexivity|]. repeat split; auto. Qed.
Lemma tr_sq n a : is_sq n a -> is_sq n (tr a).
Proof. intros (A&B&C). unfold tr. rewrite A. repeat split; auto. Qed.
Lemma fill_where_sq p m v x n : is_sq n v -> is_sq n (fill_where p m v x).
Proof. intros (A&B&C). repeat split; auto. Qed.
Lemma fill_if_sq b v x n : is_sq n v -> is_sq n (fill_if b v x).
Proof. intros (A&B&C). destruct b; repeat split; auto. Qed.
Definition row_or_sq (n : nat) (a : arr) : Prop := is_sq n a \/ (one_d a = true /\ nr a = 1 /\ nc a = n).
Lemma ew_row_sq f n a b : row_or_sq n a -> is_sq n b -> exists c, ew f a b = Ok c /\ is_sq n c.
Proof.
  intros [H|(A&B&C)] H'; [apply ew_sq; auto|]. destruct H' as (A'&B'&C'). unfold ew. rewrite B, B', C, C', bdim_refl.
  replace (bdim 1 n) with (Some n). 2:{ unfold bdim. destruct (Nat.eqb_spec 1 n); subst; auto. }
  eexists. split; [reflexivity|]. repeat split; simpl; auto. rewrite A, A'. auto.
Qed.
Lemma step_sq norm2 o z n A s : preconditioner o = None -> is_sq n A -> row_or_sq n (result s) -> is_sq n (residual s) ->
  is_sq n (inner s) -> is_sq n (curr s) -> exists s' rn, cg_step norm2 o z A s = Ok (s', rn) /\
  is_sq n (result s') /\ is_sq n (residual s') /\ is_sq n (inner s') /\ is_sq n (curr s').
Proof.
  intros HP HA H1 H2 H3 H4. unfold cg_step. rewrite HP.
  destruct (matmul_sq n A _ HA H4) as (mvms&E1&I1). rewrite E1. cbn [bind].
  destruct (matmul_sq n _ _ (tr_sq _ _ H4) I1) as (a0&E2&I2). rewrite E2. cbn [bind]. cbv zeta.
  destruct (ew_sq Rdiv n (inner s) (fill_where (fun x => ltb x (eps o)) a0 a0 1%R) H3 (fill_where_sq _ _ _ _ _ I2)) as (a2&->&I3). cbn [bind].
  pose proof (fill_if_sq (converged s) _ 0%R n (fill_where_sq (fun x => ltb x (eps o)) a0 a2 0%R n I3)) as I4.
  set (alpha := fill_if _ _ _) in *.
  destruct (ew_sq Rmult n _ _ I4 I1) as (am&->&I5). cbn [bind].
  destruct (ew_sq Rminus n _ _ H2 I5) as (re&->&I6). cbn [bind].
  destruct (ew_sq Rmult n _ _ I4 H4) as (ac&->&I7). cbn [bind].
  destruct (ew_row_sq Rplus n _ _ H1 I7) as (rs&->&I8). cbn [bind].
  destruct (matmul_sq n _ _ (tr_sq _ _ I6) I6) as (inn&->&I9). cbn [bind].
  destruct (ew_sq Rdiv n inn (fill_where (fun x => ltb x (eps o)) (inner s) (inner s) 1%R) I9 (fill_where_sq _ _ _ _ _ H3)) as (b2&->&I10). cbn [bind].
  destruct (ew_sq Rmult n (fill_where (fun x => ltb x (eps o)) (inner s) b2 0%R) (curr s) (fill_where_sq _ _ _ _ _ I10) H4) as (bc&->&I11). cbn [bind].
  destruct (ew_sq Rplus n _ _ I11 I6) as (cu&->&I12). cbn [bind].
  do 2 eexists. split; [reflexivity|]. simpl. auto.
Qed.
Lemma loop_sq norm2 o tol z n A fuel : preconditioner o = None -> is_sq n A -> forall k s y reached,
  row_or_sq n (result s) -> is_sq n (residual s) -> is_sq n (inner s) -> is_sq n (curr s) ->
  cg_loop norm2 o tol z A (S fuel) k s = Ok (y, reached) -> is_sq n y.
Proof.
  intros HP HA. induction fuel; intros k s y reached H1 H2 H3 H4; cbn [cg_loop];
    destruct (step_sq norm2 o z n A s HP HA H1 H2 H3 H4) as (s'&rn&E&J1&J2&J3&J4); rewrite E; cbn [bind]; destruct (_ && _).
  - intros E'. inversion E'; subst; auto.
  - intros E'. inversion E'; subst; auto.
  - intros E'. inversion E'; subst; auto.
  - apply IHfuel; auto. left. auto.
Qed.
Theorem C56_vector_rhs_refuted norm2 o n A rhs y :
  norm2_spec norm2 -> (forall a, 0 < nc a -> (euclid (nr a) (fun i => elt a i 0) <= norm2 a)%R) ->
  preconditioner o = None -> initial_guess o = None -> is_mat n A ->
  one_d rhs = true -> nr rhs = 1 -> nc rhs = n -> 2 <= n ->
  (0 < eps o <= euclid n (fun i => elt rhs 0 i))%R -> (stop_updating_after o <= 1)%R -> 0 < max_iter o ->
  linear_cg norm2 o A rhs = Ok y -> shape y = [n; n] /\ shape rhs = [n].
Proof.
  intros HN HD HP Hg HA R1 R2 R3 Hn He Hst Hm. unfold linear_cg. rewrite Hg, HP, R1.
  destruct (max_iter o <? max_tridiag_iter o); [discriminate|]. rewrite R3.
  rewrite (HN n (Arr false n 1 (fun i _ => elt rhs 0 i)) (fun i => elt rhs 0 i)) by (repeat split).
  set (N := euclid n _) in *.
  replace (ltb N (eps o)) with false by (symmetry; unfold ltb; destruct (Rlt_dec _ _); auto; lra).
  cbv zeta. unfold matmul at 1. destruct HA as (A1&A2&A3). cbn [amap one_d nc]. rewrite R1, A1, A3, R3, Nat.eqb_refl. cbn [bind].
  unfold ew at 1. cbn [amap nr nc].
  replace (bdim n 1) with (Some n). 2:{ unfold bdim. destruct (Nat.eqb_spec n 1); [lia|]. destruct (Nat.eqb_spec n 1); auto. }
  rewrite A2. replace (bdim 1 n) with (Some n). 2:{ unfold bdim. destruct (Nat.eqb_spec 1 n); [lia|]. auto. }
  cbn [bind]. set (re := Arr _ n n _). assert (Ire : is_sq n re) by (repeat split).
  assert (HNr : (1 <= norm2 re)%R).
  { eapply Rle_trans; [|apply HD; subst re; cbn [nc]; lia]. subst re. cbn [nr elt].
    rewrite (euclid_ext n _ (fun i => / N * elt rhs 0 i)%R).
    - rewrite euclid_scal by (left; apply Rinv_0_lt_compat; lra). change (1 <= / N * N)%R. right. field. lra.
    - intros i Hi. rewrite !bidx_lt by auto. cbn [amap elt].
      rewrite (sumn_ext n _ (fun _ => 0%R)) by (intros; lra). rewrite sumn_zero. unfold Rdiv. ring. }
  replace (ltb (norm2 re) (stop_updating_after o)) with false by (symmetry; unfold ltb; destruct (Rlt_dec _ _); auto; lra).
  destruct (matmul_sq n _ _ (tr_sq _ _ Ire) Ire) as (inn&->&I3). cbn [bind].
  destruct (cg_loop _ _ _ _ _ _ _ _) as [[y' reached]|] eqn:EL; [|discriminate]. cbn [bind].
  assert (Hpos : exists m, (if terminate_cg_by_size o then Nat.min (max_iter o) (size (Arr false n 1 (fun i _ => elt rhs 0 i))) else max_iter o) = S m).
  { unfold size. cbn [one_d nr nc]. destruct (terminate_cg_by_size o).
    - exists (Nat.min (max_iter o) (n * 1) - 1). lia.
    - exists (max_iter o - 1). lia. }
  destruct Hpos as (m&Em). rewrite Em in EL.
  apply loop_sq with (n := n) in EL; auto; [|exact (conj A1 (conj A2 A3))|right; cbn; auto].
  destruct (negb reached && _); [intros E; discriminate E|]. intros E. inversion E. unfold shape. simpl. destruct EL as (->&->&->). rewrite R1, R3. auto.
Qed.

(** The hypotheses are met: the Frobenius norm is a [norm2], and the solver succeeds on the 2 by 2 identity. *)
Definition frob (a : arr) : R := sqrt (sumn (nr a) (fun i => sumn (nc a) (fun j => elt a i j * elt a i j)%R)).
Example C56_norm_example : norm2_spec frob /\ forall a, 0 < nc a -> (euclid (nr a) (fun i => elt a i 0) <= frob a)%R.
Proof.
  split.
  - intros n a v (A&B&C&D). unfold frob, euclid, dot. f_equal. rewrite B, C. apply sumn_ext. intros i Hi. simpl. rewrite D by auto. lra.
  - intros a Ha. unfold frob, euclid, dot. apply sqrt_le_1_alt.
    assert (L : forall n f g, (forall i, i < n -> (f i <= g i)%R) -> (sumn n f <= sumn n g)%R).
    { induction n; simpl; intros f g H; [lra|]. pose proof (IHn f g ltac:(auto)). pose proof (H n ltac:(auto)). lra. }
    apply L. intros i Hi. destruct (nc a) as [|c]; [lia|]. clear Ha. induction c; cbn [sumn] in *; [lra|]. nra.
Qed.
(** A 1-d right-hand side (3, 4) with the identity matrix: the call succeeds (for a suitable tolerance) with shape (2, 2). *)
Definition o1_ex (tol : R) : options := Options (Some tol) (/ 10000000000) (/ 10000000000) 1 1 None None false false.
Definition b1_ex : arr := Arr true 1 2 (fun _ j => INR (j + 3)).
Example C56_vector_rhs_example : exists tol y, linear_cg frob (o1_ex tol) (Arr false 2 2 (fun i j => if i =? j then 1%R else 0%R)) b1_ex = Ok y
  /\ shape y = [2; 2].
Proof.
  set (I2 := Arr false 2 2 _). destruct C56_norm_example as (HN&HD).
  assert (E5 : euclid 2 (fun i => elt b1_ex 0 i) = 5%R).
  { unfold euclid, dot. simpl. replace (0 + (1 + 1 + 1) * (1 + 1 + 1) + (1 + 1 + 1 + 1) * (1 + 1 + 1 + 1))%R with (5 * 5)%R by ring.
    apply sqrt_square. lra. }
  assert (G : exists tol y, linear_cg frob (o1_ex tol) I2 b1_ex = Ok y).
  { unfold linear_cg. cbn [o1_ex initial_guess max_iter max_tridiag_iter Nat.ltb Nat.leb preconditioner terminate_cg_by_size eps
      stop_updating_after tolerance b1_ex one_d].
    set (g := amap (fun _ => 0%R) b1_ex). set (rhs := Arr false (nc b1_ex) 1 _).
    destruct (matmul I2 g) as [mg|] eqn:EM; [|discriminate]. cbn [bind].
    destruct (ew Rminus (amap (fun x => (x / (if ltb (frob rhs) (/ 10000000000) then 1 else frob rhs))%R) rhs) mg) as [re|] eqn:EW;
      [|inversion EM; subst mg; discriminate]. cbn [bind].
    assert (Ire : is_sq 2 re) by (inversion EM; subst mg; inversion EW; repeat split).
    destruct (ltb (frob re) _) eqn:EB; [exists 1%R; eauto|].
    destruct (matmul_sq 2 _ _ (tr_sq _ _ Ire) Ire) as (inn&->&I3). cbn [bind].
    match goal with |- context [State ?g re inn re false] => set (s := State g re inn re false) end.
    match goal with |- context [cg_loop frob _ _ ?b I2] => set (z := b) end.
    destruct (step_sq frob (o1_ex 0) z 2 I2 s) as (s'&rn&E&_); auto; try (repeat split; auto; fail). { right. repeat split. }
    exists (rn + 1)%R. cbn [cg_loop].
    change (cg_step frob (o1_ex (rn + 1)) z I2 s)
      with (cg_step frob (o1_ex 0) z I2 s). rewrite E. cbn [bind].
    replace (ltb rn (rn + 1)) with true by (symmetry; unfold ltb; destruct (Rlt_dec _ _); auto; lra). cbn. eauto. }
  destruct G as (tol&y&E). exists tol, y. split; auto.
  destruct (C56_vector_rhs_refuted frob (o1_ex tol) 2 I2 b1_ex y) as (S&_); auto; try (repeat split; auto; fail).
  - rewrite E5. simpl. lra.
  - simpl. lra.
Qed.
