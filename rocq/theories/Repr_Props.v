(** C39: reading and writing system matrices. *)
From Verif Require Import Common Dict.
Import List ListNotations.
From Verif Require Import Repr_Model.
Open Scope nat_scope.

Section P.
Context {V : Type}.
Notation tensor := (tensor V).
Notation value := (value V).

(** ** Specification *)

(** A valid index into an array of shape sh. *)
Definition valid (idx sh : list nat) : Prop := Forall2 lt idx sh.
(** t is an array of shape sh with entries f *)
Definition is_array (t : tensor) (sh : list nat) (f : list nat -> V) : Prop :=
  tsh t = sh /\ exists g, tval t = Ok g /\ forall idx, valid idx sh -> g idx = f idx.

(** Python's rule for a slice bound *)
Definition clip (n : nat) (z : Z) : Z := Z.max 0 (Z.min (Z.of_nat n) (if (z <? 0)%Z then z + Z.of_nat n else z)).
(** [selects sh l idx o]: entry idx of an array of shape sh is entry o of the sub-array selected by the indices l. *)
Inductive selects : list nat -> list ix -> list nat -> list nat -> Prop :=
| s_nil : selects [] [] [] []
| s_rest n sh i idx o : i < n -> selects sh [] idx o -> selects (n :: sh) [] (i :: idx) (i :: o)
| s_int n sh l z i idx o : i < n -> (z = Z.of_nat i \/ z = Z.of_nat i - Z.of_nat n)%Z ->
    selects sh l idx o -> selects (n :: sh) (I z :: l) (i :: idx) o
| s_all n sh l i idx o : i < n -> selects sh l idx o -> selects (n :: sh) (All :: l) (i :: idx) (i :: o)
| s_slice n sh l a b st i j idx o : i < n -> 0 < st -> (Z.of_nat i = clip n a + Z.of_nat (j * st))%Z -> (Z.of_nat i < clip n b)%Z ->
    selects sh l idx o -> selects (n :: sh) (Sl a b st :: l) (i :: idx) (j :: o).
(** numpy broadcasting: the entry of an array of shape vs used for entry o of the target *)
Definition broadcast (vs o : list nat) : list nat :=
  map (fun k => if nth k vs 0 =? 1 then 0 else nth (k + length o - length vs) o 0) (seq 0 (length vs)).

(** the lengths a matrix must have, without time *)
Definition core (ke ks kp : nat) (n : string) : list nat :=
  if String.eqb n "design" then [ke; ks] else if String.eqb n "obs_intercept" then [ke] else if String.eqb n "obs_cov" then [ke; ke]
  else if String.eqb n "transition" then [ks; ks] else if String.eqb n "state_intercept" then [ks]
  else if String.eqb n "selection" then [ks; kp] else if String.eqb n "state_cov" then [kp; kp]
  else if String.eqb n "initial_state" then [ks] else [ks; ks].
Definition names : list string := dkeys (shapes0 0 0 0).

(** The states reached from the constructor by successful assignments of numpy arrays and partial assignments (C39_wf_init,
    C39_whole, C39_partial_wf): every matrix has its registered shape, which is its core shape, with a time axis unless it is
    one of the never time-varying ones. *)
Definition wf_at ke ks kp (shapes : dict (list nat)) (mats : dict tensor) (n : string) : Prop :=
  exists sh t, dget shapes n = Some sh /\ dget mats n = Some t /\ tsh t = sh /\
    (if never n then sh = core ke ks kp n else exists d, sh = d :: core ke ks kp n).
Definition wf ke ks kp shapes mats : Prop := forall n, In n names -> wf_at ke ks kp shapes mats n.

(** ** Indexing lemmas *)

Lemma wrap_spec n z p : wrap n z = Some p <-> p < n /\ (z = Z.of_nat p \/ z = Z.of_nat p - Z.of_nat n)%Z.
Proof.
  unfold wrap. destruct (Z.ltb_spec z 0).
  - destruct (Z.leb_spec 0 (z + Z.of_nat n)); simpl; [|split; [discriminate|lia]].
    destruct (Z.ltb_spec (z + Z.of_nat n) (Z.of_nat n)); [|split; [discriminate|lia]]. split; [intros E; inversion E; lia|].
    intros. f_equal. lia.
  - destruct (Z.leb_spec 0 z); simpl; [|lia]. destruct (Z.ltb_spec z (Z.of_nat n)); [|split; [discriminate|lia]].
    split; [intros E; inversion E; lia|]. intros. f_equal. lia.
Qed.
Lemma bound_clip n z : Z.of_nat (bound n z) = clip n z.
Proof. unfold bound, clip. destruct (Z.ltb_spec z 0); lia. Qed.

Lemma last_at_nth i ps : forall k j, last_at i ps k = Some j -> k <= j /\ nth_error ps (j - k) = Some i.
Proof.
  induction ps as [|q r IH]; intros k j; simpl; [discriminate|]. destruct (last_at i r (S k)) eqn:E.
  - intros X; inversion X; subst. apply IH in E as (A&B). split; [lia|]. replace (j - k) with (S (j - S k)) by lia. auto.
  - destruct (Nat.eqb_spec q i); [|discriminate]. intros X; inversion X; subst. split; [lia|]. rewrite Nat.sub_diag. auto.
Qed.
Lemma last_at_some i ps : forall k, In i ps -> last_at i ps k <> None.
Proof.
  induction ps as [|q r IH]; intros k; simpl; [tauto|]. intros [E|H].
  - destruct (last_at i r (S k)); [discriminate|]. subst. rewrite Nat.eqb_refl. discriminate.
  - specialize (IH (S k) H). destruct (last_at i r (S k)); [discriminate|congruence].
Qed.
Lemma last_at_spec i ps j : NoDup ps -> last_at i ps 0 = Some j <-> nth_error ps j = Some i.
Proof.
  intros ND. split.
  - intros E. apply last_at_nth in E as (_&E). rewrite Nat.sub_0_r in E. auto.
  - intros E. destruct (last_at i ps 0) as [j'|] eqn:F.
    + apply last_at_nth in F as (_&F). rewrite Nat.sub_0_r in F. f_equal. 
      apply (proj1 (NoDup_nth_error ps) ND); [apply nth_error_Some; congruence|congruence].
    + exfalso. eapply last_at_some; [eapply nth_error_In; eauto|eauto].
Qed.
Lemma nth_error_seq n i j : nth_error (seq 0 n) j = Some i <-> i < n /\ i = j.
Proof.
  split.
  - intros E. assert (j < n) by (rewrite <- (seq_length n 0); apply nth_error_Some; congruence).
    apply nth_error_nth with (d := 0) in E. rewrite seq_nth in E by auto. lia.
  - intros (H&->). rewrite (nth_error_nth' _ 0) by (rewrite seq_length; auto). rewrite seq_nth by auto. auto.
Qed.
Definition slice_pos n a b st := map (fun j => bound n a + j * st) (seq 0 ((bound n b - bound n a + st - 1) / st)).
Lemma div_lt_spec a b st j : 0 < st -> j < (b - a + st - 1) / st <-> a + j * st < b.
Proof.
  intros H. pose proof (Nat.div_mod (b - a + st - 1) st ltac:(lia)) as D. pose proof (Nat.mod_upper_bound (b - a + st - 1) st ltac:(lia)) as M.
  set (q := (b - a + st - 1) / st) in *. set (r := (b - a + st - 1) mod st) in *. split; intros L.
  - assert (st * q >= st * (j + 1)) by nia. nia.
  - assert (~ q <= j); [|lia]. intros C. assert (st * q <= st * j) by nia. nia.
Qed.
Lemma nth_error_slice n a b st i j : 0 < st -> nth_error (slice_pos n a b st) j = Some i <-> i = bound n a + j * st /\ i < bound n b.
Proof.
  intros H. unfold slice_pos. rewrite nth_error_map. destruct (nth_error (seq 0 _) j) as [x|] eqn:E; simpl.
  - apply nth_error_seq in E as (E1&E2). subst x. pose proof (proj1 (div_lt_spec (bound n a) (bound n b) st j H) E1) as L.
    split; [intros X; inversion X; subst; lia|]. intros (->&_). auto.
  - split; [discriminate|]. intros (->&L). apply (div_lt_spec _ _ st j H) in L.
    rewrite (proj2 (nth_error_seq _ j j)) in E; [discriminate|auto].
Qed.
Lemma NoDup_slice n a b st : 0 < st -> NoDup (slice_pos n a b st).
Proof.
  intros H. unfold slice_pos. apply NoDup_nth_error. intros i j Hi E. rewrite map_length, seq_length in Hi.
  destruct (nth_error (map _ _) i) eqn:F; [|apply nth_error_None in F; rewrite map_length, seq_length in F; lia].
  apply (nth_error_slice n a b st) in F; auto. symmetry in E. apply (nth_error_slice n a b st) in E; auto. nia.
Qed.
Lemma bound_le n z : bound n z <= n.
Proof. pose proof (bound_clip n z). unfold clip in H. lia. Qed.

Definition good (i : ix) : Prop := match i with Sl _ _ st => 0 < st | _ => True end.

Lemma locate_spec sh : forall l ss idx o, sels sh l = Ok ss -> length l <= length sh -> Forall good l -> valid idx sh ->
  locate ss idx = Some o <-> selects sh l idx o.
Proof.
  induction sh as [|n sh IH]; intros l ss idx o E L G Hv.
  - inversion E; subst. inversion Hv; subst. destruct l; [|simpl in L; lia]. simpl. split; [intros X; inversion X; constructor|].
    intros X; inversion X; auto.
  - inversion Hv as [|i n' idx' sh' Hi Hv']; subst. destruct l as [|x l].
    + simpl in E. destruct (sels sh []) as [r|] eqn:Er; [|discriminate]. inversion E; subst. cbn [locate].
      specialize (IH [] r idx'). assert (LA : last_at i (seq 0 n) 0 = Some i).
      { apply last_at_spec; [apply seq_NoDup|]. apply nth_error_seq. auto. }
      rewrite LA. split.
      * intros X. destruct (locate r idx') eqn:F; [|discriminate]. inversion X; subst. constructor; auto. apply IH; auto; simpl; lia.
      * intros X. inversion X; subst. rewrite (proj2 (IH o0 Er ltac:(simpl; lia) G Hv')) by auto. auto.
    + simpl in E. destruct (sel_ix n x) as [s|] eqn:Es; [|discriminate]. simpl in E. destruct (sels sh l) as [r|] eqn:Er; [|discriminate].
      inversion E; subst. inversion G; subst. simpl in L. specialize (IH l r idx').
      destruct x as [z| |a b st]; cbn [sel_ix] in Es.
      * destruct (wrap n z) as [p|] eqn:W; [|discriminate]. inversion Es; subst. apply wrap_spec in W as (W1&W2). cbn [locate].
        destruct (Nat.eqb_spec i p); subst.
        -- rewrite (IH o) by (auto; lia). split; [intros; constructor; auto|]. intros X; inversion X; subst; auto.
        -- split; [discriminate|]. intros X; inversion X; subst. exfalso. lia.
      * inversion Es; subst. cbn [locate]. assert (LA : last_at i (seq 0 n) 0 = Some i).
        { apply last_at_spec; [apply seq_NoDup|]. apply nth_error_seq. auto. }
        rewrite LA. split.
        -- intros X. destruct (locate r idx') eqn:F; [|discriminate]. inversion X; subst. constructor; auto. apply IH; auto; lia.
        -- intros X. inversion X; subst. rewrite (proj2 (IH o0 Er ltac:(lia) H2 Hv')) by auto. auto.
      * inversion Es; subst. cbn [locate]. fold (slice_pos n a b st) in *. simpl in H1.
        destruct (last_at i (slice_pos n a b st) 0) as [j|] eqn:LA.
        -- apply last_at_spec in LA; [|apply NoDup_slice; auto]. apply nth_error_slice in LA as (P1&P2); auto. split.
           ++ intros X. destruct (locate r idx') eqn:F; [|discriminate]. inversion X; subst. constructor; auto.
              ** rewrite <- bound_clip. lia.
              ** rewrite <- bound_clip. lia.
              ** apply IH; auto; lia.
           ++ intros X. inversion X; subst. rewrite <- !bound_clip in *.
              rewrite (proj2 (IH o0 Er ltac:(lia) H2 Hv')) by auto. repeat f_equal. nia.
        -- split; [discriminate|]. intros X. inversion X; subst. exfalso. rewrite <- !bound_clip in *.
           assert (nth_error (slice_pos n a b st) j = Some i) as Q by (apply nth_error_slice; auto; lia).
           apply (last_at_some i (slice_pos n a b st) 0); auto. eapply nth_error_In; eauto.
Qed.

Lemma src_spec sh : forall l ss o, sels sh l = Ok ss -> length l <= length sh -> Forall good l -> valid o (sel_shape sh l) ->
  selects sh l (src ss o) o /\ valid (src ss o) sh.
Proof.
  induction sh as [|n sh IH]; intros l ss o E L G Hv.
  - inversion E; subst. destruct l; [|simpl in L; lia]. inversion Hv; subst. split; constructor.
  - destruct l as [|x l].
    + simpl in E. destruct (sels sh []) as [r|] eqn:Er; [|discriminate]. inversion E; subst. cbn [sel_shape] in Hv.
      inversion Hv as [|i n' o' sh' Hi Hv']; subst. cbn [src hd tl]. rewrite seq_nth by auto. simpl.
      destruct (IH [] r o' Er ltac:(simpl; lia) G Hv') as (A&B). split; constructor; auto.
    + simpl in E. destruct (sel_ix n x) as [s|] eqn:Es; [|discriminate]. simpl in E. destruct (sels sh l) as [r|] eqn:Er; [|discriminate].
      inversion E; subst. inversion G; subst. simpl in L. cbn [sel_shape] in Hv. rewrite Es in Hv.
      destruct x as [z| |a b st]; cbn [sel_ix] in Es.
      * destruct (wrap n z) as [p|] eqn:W; [|discriminate]. inversion Es; subst. apply wrap_spec in W as (W1&W2). cbn [src].
        destruct (IH l r o Er ltac:(lia) H2 Hv) as (A&B). split; constructor; auto.
      * inversion Es; subst. rewrite seq_length in Hv. inversion Hv as [|i n' o' sh' Hi Hv']; subst. cbn [src hd tl]. rewrite seq_nth by auto.
        destruct (IH l r o' Er ltac:(lia) H2 Hv') as (A&B). split; constructor; auto.
      * inversion Es; subst. fold (slice_pos n a b st) in *. inversion Hv as [|j n' o' sh' Hi Hv']; subst. cbn [src hd tl].
        destruct (IH l r o' Er ltac:(lia) H2 Hv') as (A&B). simpl in H1.
        pose proof (nth_error_nth' (slice_pos n a b st) 0 Hi) as Q. apply nth_error_slice in Q as (Q1&Q2); auto.
        pose proof (bound_le n b). split; constructor; auto; try lia.
        -- rewrite <- bound_clip. lia.
        -- rewrite <- bound_clip. lia.
Qed.

Lemma selects_valid sh l idx o : selects sh l idx o -> valid idx sh.
Proof. intros H. induction H; constructor; auto. Qed.
Lemma valid_length idx sh : valid idx sh -> length idx = length sh.
Proof. intros H. induction H; simpl; auto. Qed.

Lemma nth_skipn {A} (d : A) l : forall m k, nth k (skipn m l) d = nth (m + k) l d.
Proof. induction l as [|a l IH]; intros [|m] k; simpl; auto. destruct k; auto. Qed.
Lemma bcast_idx_spec vs sh o : length o = length sh -> length vs <= length sh -> bcast_idx vs sh o = broadcast vs o.
Proof.
  intros E L. unfold bcast_idx, broadcast. rewrite <- E.
  assert (G : forall (a b : list nat), length b = length a -> 
     map (fun '(x, i) => if x =? 1 then 0 else i) (combine a b) = map (fun k => if nth k a 0 =? 1 then 0 else nth k b 0) (seq 0 (length a))).
  { induction a as [|x a IH]; intros [|y b] Hl; simpl in *; try discriminate; auto. f_equal. rewrite IH by lia.
    rewrite <- seq_shift, map_map. auto. }
  rewrite G by (rewrite skipn_length; lia). apply map_ext_in. intros k Hk. apply in_seq in Hk. rewrite nth_skipn.
  replace (k + length o - length vs) with (length o - length vs + k) by lia. auto.
Qed.
Lemma selects_out sh l idx o : selects sh l idx o -> Forall good l -> valid o (sel_shape sh l).
Proof.
  intros H. induction H; intros G; cbn [sel_shape].
  - constructor.
  - constructor; auto. apply IHselects. constructor.
  - inversion G; subst. cbn [sel_ix]. destruct (wrap n z); apply IHselects; auto.
  - inversion G; subst. cbn [sel_ix]. rewrite seq_length. constructor; [auto|apply IHselects; auto].
  - inversion G; subst. cbn [sel_ix]. rewrite <- !bound_clip in *. constructor; [|apply IHselects; auto]. rewrite map_length, seq_length.
    apply div_lt_spec; auto. nia.
Qed.

Lemma sels_pad sh : forall l m, length l + m <= length sh -> sels sh (l ++ repeat All m) = sels sh l /\ sel_shape sh (l ++ repeat All m) = sel_shape sh l.
Proof.
  induction sh as [|n sh IH]; intros l m L; [destruct l; auto; simpl in L; lia|]. destruct l as [|x l].
  - destruct m as [|m]; auto. simpl app. simpl repeat. cbn [sels sel_shape sel_ix]. rewrite seq_length.
    destruct (IH [] m) as (A&B); [simpl in *; lia|]. simpl app in A, B. rewrite A, B. auto.
  - simpl app. cbn [sels sel_shape]. destruct (IH l m) as (A&B); [simpl in *; lia|]. rewrite A, B. auto.
Qed.

(** ** Whole matrices *)

Lemma names_vector n : In n names -> forall ke ks kp, length (core ke ks kp n) = if vector n then 1 else 2.
Proof. unfold names. simpl. intros H ke ks kp. repeat (destruct H as [H|H]; [subst; reflexivity|]). destruct H. Qed.
Lemma shape_eqb_spec a b : shape_eqb a b = true <-> a = b.
Proof. unfold shape_eqb. destruct (list_eq_dec Nat.eq_dec a b); split; congruence. Qed.
Lemma shape_eqb_refl a : shape_eqb a a = true.
Proof. apply shape_eqb_spec. auto. Qed.

Lemma lastn_cons {A} (x : A) l : lastn (length l) (x :: l) = l.
Proof. unfold lastn. replace (length (x :: l) - length l) with 1 by (cbn [length]; lia). auto. Qed.
Lemma lastn_all {A} (l : list A) : lastn (length l) l = l.
Proof. unfold lastn. rewrite Nat.sub_diag. auto. Qed.
Lemma combine_eq l : forallb (fun '(a, b) => a =? b) (combine l l) = true.
Proof. induction l; simpl; auto. rewrite Nat.eqb_refl. auto. Qed.

Lemma index_first (t : tensor) d rest f : tsh t = S d :: rest -> tval t = Ok f ->
  exists x, index t (I 0 :: repeat All (length (tsh t) - 1)) = Ok x /\ is_array x rest (fun idx => f (0 :: idx)).
Proof.
  intros E F. unfold index. rewrite E. replace (length (S d :: rest) - 1) with (length rest) by (cbn [length]; lia).
  replace (length (S d :: rest) <? length (I 0 :: repeat All (length rest))) with false
    by (symmetry; apply Nat.ltb_ge; simpl; rewrite repeat_length; lia).
  eexists. split; [reflexivity|]. unfold is_array, getsub. cbn [tsh tval]. rewrite F.
  destruct (sels_pad (S d :: rest) [I 0] (length rest)) as (A&B); [simpl; lia|]. simpl app in A, B. rewrite A, B.
  cbn [sel_shape sel_ix wrap]. change (wrap (S d) 0) with (Some 0). cbn [sels sel_ix]. change (wrap (S d) 0) with (Some 0). cbn [bind].
  assert (C : sel_shape rest [] = rest) by (clear; induction rest; simpl; congruence).
  assert (D : exists r, sels rest [] = Ok r /\ forall idx, valid idx rest -> src r idx = idx).
  { clear. induction rest as [|n rest IH].
    - exists []. split; auto. intros idx H. inversion H; auto.
    - destruct IH as (r&R1&R2). exists (Keep (seq 0 n) :: r). simpl. rewrite R1. split; auto. intros idx H. inversion H; subst.
      cbn [src hd tl]. rewrite seq_nth by auto. simpl. f_equal. auto. }
  destruct D as (r&D1&D2). rewrite D1, C. cbn [bind]. split; auto. eexists. split; [reflexivity|]. intros idx H. cbn [src]. rewrite D2; auto.
Qed.

(** Assigning an array of the right shape, static or (where allowed) time-varying, succeeds, and reading the matrix gives it
    back; an array with a time axis of length one comes back without it. *)
Theorem C39_whole ke ks kp shapes mats n s f : wf ke ks kp shapes mats -> In n names ->
  s = core ke ks kp n \/ (never n = false /\ exists d, s = S d :: core ke ks kp n) ->
  exists shapes' mats' t, setitem shapes mats (Name n) (Np s f) = (shapes', mats', None) /\ wf ke ks kp shapes' mats' /\
    getitem shapes' mats' (Name n) = Ok t /\
    (if never n then is_array t s f
     else if list_eq_dec Nat.eq_dec s (1 :: core ke ks kp n) then is_array t (core ke ks kp n) (fun idx => f (0 :: idx))
     else is_array t s f).
Proof.
  intros W Hn Hs. pose proof (names_vector n Hn ke ks kp) as Hl. set (c := core ke ks kp n) in *.
  destruct (W n Hn) as (old&t0&E1&E2&E3&E4). fold c in E4.
  assert (Upd : forall sh tn, tsh tn = sh -> update_shape n old sh = Ok sh ->
     (if never n then sh = c else exists d, sh = d :: c) -> wf ke ks kp (dset shapes n sh) (dset mats n tn)).
  { intros sh tn H1 H2 H3 n' Hn'. destruct (String.string_dec n' n) as [->|N].
    - exists sh, tn. rewrite !dget_dset, String.eqb_refl. repeat split; auto.
    - destruct (W n' Hn') as (a&b&c0). exists a, b. rewrite !dget_dset. apply String.eqb_neq in N. rewrite N. auto. }
  unfold setitem. rewrite E1. unfold numpy_to_pytensor.
  assert (Val : validate_matrix_shape n old s = true).
  { unfold validate_matrix_shape. destruct (never n) eqn:Nv.
    - destruct Hs as [->|(X&_)]; [|discriminate]. rewrite Hl. apply Nat.eqb_refl.
    - destruct E4 as (d0&->). simpl tl. destruct Hs as [->|(_&d&->)].
      + rewrite Hl. destruct (vector n); auto.
      + simpl length. simpl tl. rewrite Hl, shape_eqb_refl. destruct (vector n); auto. }
  rewrite Val. cbn [negb].
  assert (Ok1 : forall sh, (if never n then sh = c else exists d, sh = d :: c) -> update_shape n old sh = Ok sh).
  { intros sh Hsh. unfold update_shape. rewrite <- Hl. destruct (never n) eqn:Nv.
    - rewrite E4, Hsh, !lastn_all, combine_eq. auto.
    - destruct E4 as (d0&->), Hsh as (d&->). rewrite !lastn_cons, combine_eq. cbn [negb]. simpl length. rewrite Hl.
      destruct (vector n); auto. }
  destruct (never n) eqn:Nv.
  - destruct Hs as [->|(X&_)]; [|discriminate]. cbn [negb andb]. cbn [tsh]. rewrite (Ok1 c eq_refl). do 2 eexists. exists (T c (Ok f)). split; [reflexivity|].
    split; [apply Upd; auto|]. split.
    + unfold getitem. rewrite !dget_dset, String.eqb_refl. cbn [tsh]. rewrite Nv. destruct c as [|x c'] eqn:Ec; [simpl in Hl; destruct (vector n); discriminate|].
      rewrite andb_false_r. reflexivity.
    + split; auto. exists f. auto.
  - cbn [negb andb]. destruct Hs as [->|(_&d&->)].
    + rewrite Hl, Nat.eqb_refl. cbn [tsh]. rewrite (Ok1 (1 :: c)) by eauto.
      destruct (index_first (T (1 :: c) (Ok (fun idx : list nat => f (tl idx)))) 0 c _ eq_refl eq_refl) as (x&X1&X2).
      do 2 eexists. exists x. split; [reflexivity|]. split; [apply Upd; auto; eauto|]. split.
      * unfold getitem. rewrite !dget_dset, String.eqb_refl. cbn [tsh]. rewrite Nv. cbn [Nat.eqb andb negb].
        cbn [tsh] in X1. rewrite X1. cbn [bind tl]. unfold specify_shape. destruct X2 as (X2&X3). rewrite X2, Nat.eqb_refl, shape_eqb_refl.
        reflexivity.
      * destruct (list_eq_dec Nat.eq_dec c (1 :: c)) as [F|_]; [apply (f_equal (@length nat)) in F; simpl in F; lia|]. exact X2.
    + simpl length. rewrite Hl. replace (S (if vector n then 1 else 2) =? (if vector n then 1 else 2)) with false by (destruct (vector n); auto).
      cbn [tsh]. rewrite (Ok1 (S d :: c)) by eauto. destruct d as [|d].
      * destruct (index_first (T (1 :: c) (Ok f)) 0 c _ eq_refl eq_refl) as (x&X1&X2).
        do 2 eexists. exists x. split; [reflexivity|]. split; [apply Upd; auto; eauto|]. split.
        -- unfold getitem. rewrite !dget_dset, String.eqb_refl. cbn [tsh]. rewrite Nv. cbn [Nat.eqb andb negb].
           cbn [tsh] in X1. rewrite X1. cbn [bind tl]. unfold specify_shape. destruct X2 as (X2&X3). rewrite X2, Nat.eqb_refl, shape_eqb_refl.
           reflexivity.
        -- destruct (list_eq_dec Nat.eq_dec (1 :: c) (1 :: c)); [exact X2|congruence].
      * do 3 eexists. split; [reflexivity|]. split; [apply Upd; auto; eauto|]. split.
        -- unfold getitem. rewrite !dget_dset, String.eqb_refl. cbn [tsh Nat.eqb andb]. reflexivity.
        -- destruct (list_eq_dec Nat.eq_dec (S (S d) :: c) (1 :: c)); [congruence|]. split; auto. exists f. auto.
Qed.

(** The constructor, with no matrices given or with arrays of the right static shape, is in the class. *)
Theorem C39_wf_init zero ke ks kp given :
  (forall n, In n names -> given n = None \/ exists f, given n = Some (Np (core ke ks kp n) f)) ->
  exists mats, init_all zero (shapes0 ke ks kp) given = Ok mats /\ wf ke ks kp (shapes0 ke ks kp) mats.
Proof.
  intros H.
  assert (One : forall n sh, In n names -> sh = (if never n then core ke ks kp n else 1 :: core ke ks kp n) ->
     exists t, init_one zero n sh (given n) = Ok t /\ tsh t = sh).
  { intros n sh Hn Hsh. pose proof (names_vector n Hn ke ks kp) as Hl. destruct (H n Hn) as [E|(f&E)]; rewrite E; cbn [init_one]; [eauto|].
    unfold numpy_to_pytensor, validate_matrix_shape. rewrite Hl. destruct (never n); cbn [negb andb]; [|destruct (vector n); cbn; eauto].
    rewrite Nat.eqb_refl. cbn. subst. eauto.
    all: subst; eauto. }
  unfold shapes0.
  cbn [init_all].
  repeat match goal with |- context [init_one zero ?n ?sh (given ?n)] =>
    let t := fresh "t" in let A := fresh "A" in let B := fresh "B" in
    destruct (One n sh) as (t&A&B); [unfold names; simpl; tauto|reflexivity|]; rewrite A; cbn [bind]; clear A end.
  eexists. split; [reflexivity|].
  intros n Hn. unfold names in Hn. simpl in Hn.
  repeat (destruct Hn as [<-|Hn]; [unfold wf_at; cbn [dget String.eqb Ascii.eqb Bool.eqb]; do 2 eexists; split; [reflexivity|]; split; [reflexivity|];
    split; [eassumption|]; cbn; eauto|]). destruct Hn.
Qed.

(** ** Other matrices are never touched, whether the assignment succeeds or not *)

Definition key_name (k : key) : string := match k with Name n => n | At n _ => n end.
Theorem C39_others_unchanged shapes mats k (v : value) shapes' mats' e k' :
  setitem shapes mats k v = (shapes', mats', e) -> key_name k' <> key_name k ->
  getitem shapes' mats' k' = getitem shapes mats k'.
Proof.
  intros E N. assert (G : dget shapes' (key_name k') = dget shapes (key_name k') /\ dget mats' (key_name k') = dget mats (key_name k')).
  { destruct k as [n|n l]; cbn [setitem key_name] in *; apply String.eqb_neq in N.
    - destruct (dget shapes n); [|inversion E; auto]. destruct (match v with Np _ _ => _ | _ => _ end); [|inversion E; auto].
      destruct (update_shape n l (tsh a)); inversion E; subst; rewrite ?dget_dset, ?N; auto.
    - destruct (dget shapes n), (dget mats n); try (inversion E; subst; auto; fail).
      match type of E with match ?x with _ => _ end = _ => destruct x end; inversion E; subst; rewrite ?dget_dset, ?N; auto. }
  destruct G as (G1&G2). destruct k' as [n|n l]; cbn [key_name] in *; unfold getitem; rewrite G1, G2; auto.
Qed.

(** A rejected partial assignment changes nothing at all. *)
Theorem C39_rejected_partial shapes mats n l (v : value) shapes' mats' e :
  setitem shapes mats (At n l) v = (shapes', mats', Some e) -> shapes' = shapes /\ mats' = mats.
Proof.
  cbn [setitem]. intros E. destruct (dget shapes n), (dget mats n); try (inversion E; subst; auto; fail).
  match type of E with match ?x with _ => _ end = _ => destruct x end; inversion E; subst; auto.
Qed.
(** So does an array with the wrong number of axes, or a time-varying one of the wrong shape. *)
Theorem C39_rejected_ndim ke ks kp shapes mats n s f : wf ke ks kp shapes mats -> In n names ->
  (length s <> length (core ke ks kp n) /\ (never n = true \/ (length s <> S (length (core ke ks kp n)) \/ tl s <> core ke ks kp n))) ->
  setitem shapes mats (Name n) (Np s f) = (shapes, mats, Some ValueError).
Proof.
  intros W Hn (H1&H2). pose proof (names_vector n Hn ke ks kp) as Hl. destruct (W n Hn) as (old&t0&E1&E2&E3&E4). set (c := core ke ks kp n) in *.
  unfold setitem. rewrite E1. unfold numpy_to_pytensor.
  replace (validate_matrix_shape n old s) with false; [reflexivity|]. symmetry. unfold validate_matrix_shape.
  destruct (never n) eqn:Nv; [apply Nat.eqb_neq; congruence|]. destruct E4 as (d&->). simpl tl.
  assert (S1 : (length s =? S (length c)) && shape_eqb (tl s) c = false).
  { apply andb_false_iff. destruct H2 as [X|[X|X]]; [discriminate|left; apply Nat.eqb_neq; auto|].
    right. destruct (shape_eqb (tl s) c) eqn:Q; auto. apply shape_eqb_spec in Q. congruence. }
  apply Nat.eqb_neq in H1. rewrite Hl in S1, H1. destruct (vector n); rewrite H1; exact S1.
Qed.
(** But an array with the right number of axes and wrong lengths is stored first and rejected afterwards: the matrix is lost. *)
Theorem C39_rejected_whole_refuted ke ks kp shapes mats n s f : wf ke ks kp shapes mats -> In n names ->
  length s = length (core ke ks kp n) -> s <> core ke ks kp n ->
  exists mats' t, setitem shapes mats (Name n) (Np s f) = (shapes, mats', Some ValueError) /\
    dget mats' n = Some t /\ is_array t (if never n then s else 1 :: s) (if never n then f else fun idx => f (tl idx)).
Proof.
  intros W Hn H1 H2. pose proof (names_vector n Hn ke ks kp) as Hl. destruct (W n Hn) as (old&t0&E1&E2&E3&E4). set (c := core ke ks kp n) in *.
  unfold setitem. rewrite E1. unfold numpy_to_pytensor.
  assert (Val : validate_matrix_shape n old s = true).
  { unfold validate_matrix_shape. rewrite H1, Hl. destruct (never n), (vector n); auto. }
  rewrite Val. cbn [negb]. rewrite H1, Hl, Nat.eqb_refl, andb_true_r.
  assert (C : forall a b : list nat, length a = length b -> a <> b -> forallb (fun '(x, y) => x =? y) (combine a b) = false).
  { clear. induction a as [|x a IH]; intros [|y b] L N; simpl in *; try discriminate; [congruence|].
    destruct (Nat.eqb_spec x y); auto. subst. simpl. apply IH; [lia|congruence]. }
  assert (U : forall sh, lastn (length c) sh = s -> update_shape n old sh = Err ValueError).
  { intros sh L. unfold update_shape. rewrite <- Hl, L.
    assert (O : lastn (length c) old = c) by (destruct (never n); [rewrite E4; apply lastn_all|destruct E4 as (d&->); apply lastn_cons]).
    rewrite O, C by auto. auto. }
  destruct (never n); cbn [negb]; cbn [tsh].
  - rewrite U by (rewrite <- H1; apply lastn_all). do 2 eexists. split; [reflexivity|]. rewrite dget_dset, String.eqb_refl. split; [reflexivity|].
    split; auto. eexists. split; [reflexivity|]. auto.
  - rewrite U by (rewrite <- H1; apply lastn_cons). do 2 eexists. split; [reflexivity|]. rewrite dget_dset, String.eqb_refl. split; [reflexivity|].
    split; auto. eexists. split; [reflexivity|]. auto.
Qed.

(** ** Parts of matrices *)

Definition val_of (v : value) : tensor := match v with Num x => T [] (Ok (fun _ => x)) | Np s f => T s (Ok f) | Pt t => t end.
(** the indices with the time index 0 added when the time axis was left out *)
Definition full (n : string) (nd : nat) (l : list ix) : list ix := if never n || (length l =? nd) then l else I 0 :: l.
(** the cases where the code hands pytensor a list made of ints only *)
Definition ints_only (n : string) (nd : nat) (l : list ix) : bool := (never n || (length l =? nd)) && forallb is_int l.

Lemma add_time_set n sh l r : ints_only n (length sh) l = false -> add_time_dim true n sh l = Some r ->
  match r with Ok (s, os) => s = sels sh (full n (length sh) l) /\ os = sel_shape sh (full n (length sh) l) /\ length (full n (length sh) l) <= length sh | _ => True end.
Proof.
  unfold ints_only, add_time_dim, full, pick. cbn [andb].
  destruct (never n); cbn [orb andb].
  - intros E H. inversion H; subst. rewrite E. destruct (Nat.ltb_spec (length sh) (length l)); auto.
  - destruct (Nat.eqb_spec (length l) (length sh)).
    + cbn [andb]. intros E H. inversion H; subst. rewrite E. destruct (Nat.ltb_spec (length sh) (length l)); auto.
    + cbn [andb]. intros _. destruct (Nat.ltb_spec (length l) (length sh)) as [L|L]; [|discriminate]. intros H. inversion H; subst.
      destruct (sels_pad sh (I 0 :: l) (length sh - length l - 1)) as (A&B); [simpl; lia|]. simpl app in A, B. rewrite A, B.
      destruct (length sh <? _); simpl; auto.
Qed.
Lemma specify_same (t : tensor) sh r : specify_shape t sh = Ok r -> tsh r = tsh t /\ (forall g, tval r = Ok g -> tval t = Ok g).
Proof.
  unfold specify_shape. destruct (negb _); [discriminate|]. destruct (shape_eqb _ _); intros E; inversion E; subst; auto.
  split; auto. cbn. destruct (tval t); discriminate.
Qed.

(** What a successful partial assignment does: exactly the selected entries get the value (broadcast), all others keep theirs,
    and the matrix keeps its shape.  ([ints_only] excludes the case of C39_ints_only_refuted.) *)
Theorem C39_partial shapes mats n l (v : value) shapes' mats' t :
  dget mats n = Some t -> Forall good l -> ints_only n (length (tsh t)) l = false ->
  setitem shapes mats (At n l) v = (shapes', mats', None) ->
  shapes' = shapes /\ exists t', dget mats' n = Some t' /\ tsh t' = tsh t /\
    forall g', tval t' = Ok g' ->
    exists f g, tval t = Ok f /\ tval (val_of v) = Ok g /\ forall idx, valid idx (tsh t) ->
      (forall o, selects (tsh t) (full n (length (tsh t)) l) idx o -> g' idx = g (broadcast (tsh (val_of v)) o)) /\
      ((forall o, ~ selects (tsh t) (full n (length (tsh t)) l) idx o) -> g' idx = f idx).
Proof.
  intros Ht G IO E. cbn [setitem] in E. rewrite Ht in E. destruct (dget shapes n) as [sh|]; [|inversion E]. fold (val_of v) in E.
  destruct (add_time_dim true n (tsh t) l) as [r|] eqn:A; [|inversion E].
  pose proof (add_time_set _ _ _ _ IO A) as P. destruct r as [(s&os)|]; [|inversion E]. destruct P as (P1&P2&P3). cbn [bind] in E.
  destruct (setsub t s os (val_of v)) as [m|] eqn:Es; [|inversion E]. cbn [bind] in E.
  destruct (specify_shape m sh) as [m'|] eqn:Esp; [|inversion E]. inversion E; subst shapes' mats'. split; auto. exists m'.
  rewrite dget_dset, String.eqb_refl. split; auto. apply specify_same in Esp as (Q1&Q2).
  unfold setsub in Es. destruct (Nat.ltb_spec (length os) (length (tsh (val_of v)))) as [|Lv]; [discriminate|]. inversion Es; subst m. cbn [tsh] in Q1. split; auto.
  intros g' Hg. apply Q2 in Hg. cbn [tval] in Hg. destruct (tval t) as [f|]; [|discriminate]. cbn [bind] in Hg.
  destruct s as [ss|] eqn:Ess; [|discriminate]. cbn [bind] in Hg. destruct (tval (val_of v)) as [g|]; [|discriminate]. cbn [bind] in Hg.
  destruct (bcast_ok (tsh (val_of v)) os); [|discriminate]. inversion Hg; subst g'. exists f, g. split; auto. split; auto.
  assert (G' : Forall good (full n (length (tsh t)) l)) by (unfold full; destruct (never n || _); auto; constructor; simpl; auto).
  intros idx Hv. pose proof (fun o => locate_spec (tsh t) _ ss idx o (eq_sym P1) P3 G' Hv) as LS. split.
  - intros o Ho. pose proof (proj2 (LS o) Ho) as L1. rewrite L1. f_equal.
    assert (length o = length os) by (subst os; apply valid_length; eapply selects_out; eauto). apply bcast_idx_spec; auto.
  - intros No. destruct (locate ss idx) as [o|] eqn:L1; auto. exfalso. apply (No o). apply LS. auto.
Qed.

(** A number can be assigned to any part whose ints are in range, in every state of the class. *)
Definition in_range (n : nat) (i : ix) : Prop := match i with I z => (- Z.of_nat n <= z < Z.of_nat n)%Z | _ => True end.
Fixpoint ranges (sh : list nat) (l : list ix) : Prop :=
  match sh, l with _, [] => True | [], _ :: _ => False | n :: sh', i :: l' => in_range n i /\ ranges sh' l' end.
Lemma ranges_sels sh : forall l, ranges sh l -> exists ss, sels sh l = Ok ss.
Proof.
  induction sh as [|n sh IH]; intros l H; [simpl; eauto|]. destruct l as [|i l].
  - simpl. destruct (IH []) as (r&R); [destruct sh; simpl; auto|]. rewrite R. simpl. eauto.
  - simpl in H. destruct H as (H1&H2). destruct (IH l H2) as (r&R). simpl. rewrite R. destruct i as [z| |a b st]; simpl; eauto.
    destruct (wrap n z) as [p|] eqn:W; simpl; eauto. exfalso. simpl in H1.
    assert (wrap n z = Some (Z.to_nat (if (z <? 0)%Z then z + Z.of_nat n else z)%Z)); [|congruence].
    apply wrap_spec. destruct (Z.ltb_spec z 0); lia.
Qed.
Lemma ranges_length sh : forall l, ranges sh l -> length l <= length sh.
Proof. induction sh as [|n sh IH]; intros [|i l] H; simpl in *; try lia; try tauto. destruct H. specialize (IH l H0). lia. Qed.
Theorem C39_partial_accepts ke ks kp shapes mats n l x t f : wf ke ks kp shapes mats -> In n names -> dget mats n = Some t ->
  tval t = Ok f -> ints_only n (length (tsh t)) l = false -> ranges (tsh t) (full n (length (tsh t)) l) ->
  exists mats' t' g', setitem shapes mats (At n l) (Num x) = (shapes, mats', None) /\ dget mats' n = Some t' /\ tval t' = Ok g' /\
    wf ke ks kp shapes mats'.
Proof.
  intros W Hn Ht Hf IO R. destruct (W n Hn) as (sh&t0&E1&E2&E3&E4). rewrite Ht in E2. inversion E2; subst t0. clear E2.
  cbn [setitem]. rewrite E1, Ht.
  assert (A : exists s os, add_time_dim true n (tsh t) l = Some (Ok (s, os)) /\ s = sels (tsh t) (full n (length (tsh t)) l)).
  { pose proof (ranges_length _ _ R) as RL. destruct (add_time_dim true n (tsh t) l) as [r|] eqn:A.
    - pose proof (add_time_set _ _ _ _ IO A) as P. destruct r as [(s&os)|e]; [destruct P as (P1&P2&P3); eauto|]. exfalso.
      unfold add_time_dim, pick, full, ints_only in *. destruct (never n); cbn [orb andb] in *.
      + rewrite IO in A. destruct (Nat.ltb_spec (length (tsh t)) (length l)); [lia|discriminate].
      + destruct (length l =? length (tsh t)) eqn:Le; cbn [andb] in *.
        * rewrite IO in A. destruct (Nat.ltb_spec (length (tsh t)) (length l)); [lia|discriminate].
        * destruct (Nat.ltb_spec (length l) (length (tsh t))); [|discriminate].
          destruct (Nat.ltb_spec (length (tsh t)) (length (I 0 :: l ++ repeat All (length (tsh t) - length l - 1)))) as [L2|]; [|discriminate].
          simpl in L2. rewrite app_length, repeat_length in L2. lia.
    - exfalso. unfold add_time_dim, full in *. destruct (never n); [discriminate|]. cbn [orb] in *.
      destruct (Nat.eqb_spec (length l) (length (tsh t))); [discriminate|]. destruct (Nat.ltb_spec (length l) (length (tsh t))); [discriminate|].
      simpl in RL. lia. }
  destruct A as (s&os&A1&A2). rewrite A1. cbn [bind]. unfold setsub. cbn [tsh length]. change (length os <? 0) with false. cbn iota. cbn [bind].
  unfold specify_shape. cbn [tsh]. rewrite E3, Nat.eqb_refl, shape_eqb_refl. cbn [negb].
  destruct (ranges_sels _ _ R) as (ss&Hss). rewrite E3 in *. rewrite A2, Hss, Hf. cbn [bind tval]. unfold bcast_ok. cbn [rev combine forallb].
  do 3 eexists. split; [reflexivity|]. rewrite dget_dset, String.eqb_refl. split; [reflexivity|]. split; [reflexivity|].
  intros n' Hn'. destruct (String.string_dec n' n) as [->|N].
  - exists sh. eexists. rewrite dget_dset, String.eqb_refl. split; [auto|]. split; [reflexivity|]. cbn [tsh]. auto.
  - destruct (W n' Hn') as (a&b&c0). exists a, b. rewrite !dget_dset. apply String.eqb_neq in N. rewrite N. auto.
Qed.

(** Reading the part just assigned gives the value back, except for [ssm["initial_state_cov", :]] and [ssm["initial_state",]]
    (see C39_read_never_refuted). *)
Theorem C39_readback shapes mats n l (v : value) shapes' mats' t r h :
  dget mats n = Some t -> Forall good l -> ints_only n (length (tsh t)) l = false ->
  (never n = true -> alls (length (tsh t) - 1) l = false) ->
  setitem shapes mats (At n l) v = (shapes', mats', None) ->
  getitem shapes' mats' (At n l) = Ok r -> tval r = Ok h ->
  exists g, tval (val_of v) = Ok g /\ forall o, valid o (tsh r) -> h o = g (broadcast (tsh (val_of v)) o).
Proof.
  intros Ht G IO NR E Gt Hr. destruct (C39_partial _ _ _ _ _ _ _ _ Ht G IO E) as (->&t'&T1&T2&T3).
  assert (G' : Forall good (full n (length (tsh t)) l)) by (unfold full; destruct (never n || _); auto; constructor; simpl; auto).
  assert (R : exists g', tval t' = Ok g' /\ (exists ss, sels (tsh t) (full n (length (tsh t)) l) = Ok ss /\ length (full n (length (tsh t)) l) <= length (tsh t) /\
     tsh r = sel_shape (tsh t) (full n (length (tsh t)) l) /\ forall o, valid o (tsh r) -> h o = g' (src ss o))).
  { unfold getitem in Gt. rewrite T1 in Gt. destruct (dget shapes n) as [sh|]; [|discriminate]. rewrite T2 in Gt.
    destruct (alls (length (tsh t)) l) eqn:A1.
    - inversion Gt; subst r. exists h. split; auto. unfold alls in A1. apply andb_true_iff in A1 as (A1&A2). apply Nat.eqb_eq in A1.
      assert (Fl : full n (length (tsh t)) l = repeat All (length (tsh t))).
      { unfold full. rewrite A1, Nat.eqb_refl, orb_true_r. rewrite <- A1. clear -A2. induction l as [|x l IH]; auto. simpl in *.
        apply andb_true_iff in A2 as (A&B). destruct x; try discriminate. f_equal. auto. }
      rewrite Fl, repeat_length. destruct (sels_pad (tsh t) [] (length (tsh t)) ltac:(simpl; lia)) as (S1&S2). simpl app in S1, S2. rewrite S1, S2.
      assert (D : exists r, sels (tsh t) [] = Ok r /\ forall idx, valid idx (tsh t) -> src r idx = idx).
      { clear. induction (tsh t) as [|m rest IH].
        - exists []. split; auto. intros idx H. inversion H; auto.
        - destruct IH as (r&R1&R2). exists (Keep (seq 0 m) :: r). simpl. rewrite R1. split; auto. intros idx H. inversion H; subst.
          cbn [src hd tl]. rewrite seq_nth by auto. simpl. f_equal. auto. }
      destruct D as (ss&D1&D2). exists ss. split; auto. split; auto. split.
      + rewrite T2. clear. induction (tsh t); simpl; congruence.
      + intros o Ho. rewrite T2 in Ho. rewrite D2; auto.
    - destruct (alls (length (tsh t) - 1) l) eqn:A2.
      + assert (Nv : never n = false) by (destruct (never n); auto; specialize (NR eq_refl); discriminate).
        unfold alls in A2. apply andb_true_iff in A2 as (A2&A3). apply Nat.eqb_eq in A2.
        destruct (index t' (I 0 :: repeat All (length (tsh t) - 1))) as [x|] eqn:Ix; [|discriminate]. cbn [bind] in Gt.
        apply specify_same in Gt as (Q1&Q2). apply Q2 in Hr. unfold index in Ix. destruct (_ <? _) eqn:Lt in Ix; [discriminate|].
        apply Nat.ltb_ge in Lt. simpl in Lt. rewrite repeat_length, T2 in Lt. inversion Ix; subst x. cbn [getsub tsh tval] in *. rewrite T2 in *.
        assert (Fl : full n (length (tsh t)) l = I 0 :: repeat All (length (tsh t) - 1)).
        { unfold full. rewrite Nv. cbn [orb]. destruct (Nat.eqb_spec (length l) (length (tsh t))); [lia|]. f_equal. rewrite <- A2. clear -A3.
          induction l as [|x l IH]; auto. simpl in *. apply andb_true_iff in A3 as (A&B). destruct x; try discriminate. f_equal. auto. }
        rewrite Fl. destruct (tval t') as [g'|]; [|discriminate]. cbn [bind] in Hr.
        destruct (sels (tsh t) (I 0 :: repeat All (length (tsh t) - 1))) as [ss|]; [|discriminate]. cbn [bind] in Hr. inversion Hr; subst h.
        exists g'. split; auto. exists ss. split; auto. split; [simpl; rewrite repeat_length; lia|]. split; auto.
      + destruct (add_time_dim false n (tsh t) l) as [q|] eqn:A3.
        * assert (Q : match q with Ok (s, os) => s = sels (tsh t) (full n (length (tsh t)) l) /\ os = sel_shape (tsh t) (full n (length (tsh t)) l) /\ length (full n (length (tsh t)) l) <= length (tsh t) | _ => True end).
          { unfold add_time_dim, full, pick in *. cbn [andb] in A3. destruct (never n); cbn [orb].
            - inversion A3; subst. destruct (Nat.ltb_spec (length (tsh t)) (length l)); auto.
            - destruct (Nat.eqb_spec (length l) (length (tsh t))).
              + inversion A3; subst. destruct (Nat.ltb_spec (length (tsh t)) (length l)); auto.
              + destruct (Nat.ltb_spec (length l) (length (tsh t))) as [L|L]; [|discriminate]. inversion A3; subst.
                destruct (sels_pad (tsh t) (I 0 :: l) (length (tsh t) - length l - 1)) as (A&B); [simpl; lia|]. simpl app in A, B. rewrite A, B.
                destruct (length (tsh t) <? _); simpl; auto. }
          destruct q as [(s&os)|]; [|discriminate]. cbn [bind] in Gt. destruct Q as (Q1&Q2&Q3). inversion Gt; subst r. cbn [getsub tsh tval] in *.
          destruct (tval t') as [g'|]; [|discriminate]. cbn [bind] in Hr. destruct s as [ss|]; [|discriminate]. cbn [bind] in Hr. inversion Hr; subst h.
          exists g'. split; auto. exists ss. split; auto.
        * exfalso. cbn [setitem] in E. rewrite Ht in E. destruct (dget shapes n); [|discriminate]. unfold add_time_dim in *. destruct (never n); [discriminate|].
          destruct (length l =? _); [discriminate|]. destruct (length l <? _); discriminate. }
  destruct R as (g'&R1&ss&R2&R3&R4&R5). destruct (T3 g' R1) as (f&g&_&F2&F3). exists g. split; auto. intros o Ho. rewrite R5 by auto.
  rewrite R4 in Ho. destruct (src_spec (tsh t) _ ss o R2 R3 G' Ho) as (S1&S2). apply (proj1 (F3 _ S2)). exact S1.
Qed.

(** ** Where the claim fails *)

Lemma sels_nil_src sh : exists r, sels sh [] = Ok r /\ forall idx, valid idx sh -> src r idx = idx /\ locate r idx = Some idx.
Proof.
  induction sh as [|m rest IH].
  - exists []. split; auto. intros idx H. inversion H; auto.
  - destruct IH as (r&R1&R2). exists (Keep (seq 0 m) :: r). simpl. rewrite R1. split; auto. intros idx H. inversion H as [|i m' idx' sh' Hi Hv]; subst.
    destruct (R2 _ Hv) as (A&B). cbn [src hd tl locate]. rewrite seq_nth by auto. simpl. rewrite A, B. split; auto.
    rewrite (proj2 (last_at_spec i (seq 0 m) i (seq_NoDup m 0))); auto. apply nth_error_seq. auto.
Qed.
Lemma wraps_spec m zs : Forall (fun z => (0 <= z < Z.of_nat m)%Z) zs -> wraps m zs = Ok (map Z.to_nat zs).
Proof.
  induction zs as [|z r IH]; intros H; auto. inversion H; subst. simpl. rewrite IH by auto.
  replace (wrap m z) with (Some (Z.to_nat z)); auto. symmetry. apply wrap_spec. lia.
Qed.

(** [ssm["initial_state_cov", i, j] = x] and [ssm[name, t, i, j] = x] do not set one entry: every int is taken as an index of the
    first axis, and all the rows (or time steps) so numbered are overwritten, over all other axes. *)
Theorem C39_ints_only_refuted ke ks kp shapes mats n zs x t f m rest : wf ke ks kp shapes mats -> In n names -> dget mats n = Some t ->
  tval t = Ok f -> tsh t = m :: rest -> (never n = true \/ length zs = length (tsh t)) ->
  Forall (fun z => (0 <= z < Z.of_nat m)%Z) zs ->
  exists mats' t' g', setitem shapes mats (At n (map I zs)) (Num x) = (shapes, mats', None) /\ dget mats' n = Some t' /\ tval t' = Ok g' /\
    forall i idx, valid (i :: idx) (tsh t) -> g' (i :: idx) = if existsb (Nat.eqb i) (map Z.to_nat zs) then x else f (i :: idx).
Proof.
  intros W Hn Ht Hf Es C R. destruct (W n Hn) as (sh&t0&E1&E2&E3&E4). rewrite Ht in E2. inversion E2; subst t0. clear E2.
  cbn [setitem]. rewrite E1, Ht.
  assert (AI : forallb is_int (map I zs) = true) by (clear; induction zs; auto).
  assert (IN : ints (map I zs) = zs) by (clear; induction zs; simpl; congruence).
  assert (A : add_time_dim true n (tsh t) (map I zs) = Some (Ok (sels_rows (tsh t) zs, rows_shape (tsh t) zs))).
  { unfold add_time_dim, pick. rewrite AI, IN. cbn [andb]. rewrite map_length.
    assert (M : match tsh t with [] => Err IndexError | _ => Ok (sels_rows (tsh t) zs, rows_shape (tsh t) zs) end = Ok (sels_rows (tsh t) zs, rows_shape (tsh t) zs)) by (rewrite Es; auto).
    rewrite M. destruct (never n); auto.
    destruct C as [C|C]; [discriminate|]. rewrite C, Nat.eqb_refl. auto. }
  rewrite A. cbn [bind]. unfold setsub. cbn [tsh length]. change (length (rows_shape (tsh t) zs) <? 0) with false. cbn iota. cbn [bind].
  unfold specify_shape. cbn [tsh]. rewrite E3, Nat.eqb_refl, shape_eqb_refl. cbn [negb]. rewrite <- E3, Es, Hf.
  unfold sels_rows. rewrite wraps_spec by auto. destruct (sels_nil_src rest) as (r&R1&R2). rewrite R1. cbn [bind tval]. unfold bcast_ok. cbn [rev combine forallb].
  do 3 eexists. split; [reflexivity|]. rewrite dget_dset, String.eqb_refl. split; [reflexivity|]. split; [reflexivity|].
  intros i idx Hv. inversion Hv; subst. cbn [locate]. destruct (R2 _ H4) as (_&->).
  destruct (last_at i (map Z.to_nat zs) 0) eqn:LA.
  - apply last_at_nth in LA as (_&LA). apply nth_error_In in LA. rewrite (proj2 (existsb_exists _ _)); auto. exists i. rewrite Nat.eqb_refl. auto.
  - destruct (existsb (Nat.eqb i) (map Z.to_nat zs)) eqn:Ex; auto. apply existsb_exists in Ex as (j&J1&J2). apply Nat.eqb_eq in J2. subst j.
    exfalso. eapply last_at_some; eauto.
Qed.

(** [ssm["initial_state_cov", :]] is the first row, not the matrix; [ssm["initial_state",]] is its first entry. *)
Theorem C39_read_never_refuted ke ks kp shapes mats n l t f : wf ke (S ks) kp shapes mats -> In n names -> never n = true ->
  dget mats n = Some t -> tval t = Ok f -> l = repeat All (length (core ke (S ks) kp n) - 1) ->
  exists r, getitem shapes mats (At n l) = Ok r /\ is_array r (tl (core ke (S ks) kp n)) (fun idx => f (0 :: idx)).
Proof.
  intros W Hn Nv Ht Hf ->. destruct (W n Hn) as (sh&t0&E1&E2&E3&E4). rewrite Ht in E2. inversion E2; subst t0. clear E2. rewrite Nv in E4.
  unfold getitem. rewrite E1, Ht, E3, E4. set (c := core ke (S ks) kp n).
  assert (Hc : exists c', c = S ks :: c').
  { subst c. unfold names in Hn. simpl in Hn. repeat (destruct Hn as [<-|Hn]; [try discriminate Nv; cbn; eauto|]). destruct Hn. }
  destruct Hc as (c'&Hc). rewrite Hc. replace (length (S ks :: c') - 1) with (length c') by (cbn [length]; lia).
  unfold alls. rewrite repeat_length. replace (length c' =? length (S ks :: c')) with false by (symmetry; apply Nat.eqb_neq; simpl; lia). cbn [andb].
  rewrite Nat.eqb_refl. assert (FA : forallb is_all (repeat All (length c')) = true) by (clear; induction c'; auto).
  rewrite FA. cbn [andb].
  destruct (index_first t ks c' f) as (x&X1&X2); [rewrite E3, E4; exact Hc|auto|]. rewrite E3, E4 in X1. fold c in X1. rewrite Hc in X1.
  replace (length (S ks :: c') - 1) with (length c') in X1 by (cbn [length]; lia). rewrite X1. cbn [bind tl]. unfold specify_shape.
  destruct X2 as (X2&X3). rewrite X2, Nat.eqb_refl, shape_eqb_refl. eexists. split; [reflexivity|]. split; auto.
Qed.

(** A whole matrix given as a tensor keeps no time axis.  If its first length is 1, it cannot be read back at all; and in any
    case no part of it can be assigned afterwards. *)
Theorem C39_tensor_unit_refuted ke ks kp shapes mats n (t : tensor) rest : wf ke ks kp shapes mats -> In n names -> never n = false ->
  core ke ks kp n = 1 :: rest -> tsh t = core ke ks kp n ->
  exists shapes' mats', setitem shapes mats (Name n) (Pt t) = (shapes', mats', None) /\ getitem shapes' mats' (Name n) = Err ValueError.
Proof.
  intros W Hn Nv Ec Et. pose proof (names_vector n Hn ke ks kp) as Hl. destruct (W n Hn) as (old&t0&E1&E2&E3&E4). rewrite Nv in E4.
  destruct E4 as (d&E4). set (c := core ke ks kp n) in *.
  assert (U : update_shape n old c = Ok (1 :: c)).
  { unfold update_shape. rewrite <- Hl, E4, lastn_cons, lastn_all, combine_eq, Nv. cbn [negb]. rewrite Hl. destruct (vector n); auto. }
  cbn [setitem]. rewrite E1, Et, U. do 2 eexists. split; [reflexivity|]. unfold getitem. rewrite !dget_dset, String.eqb_refl, Et, Ec, Nv.
  cbn [Nat.eqb negb andb]. unfold index. rewrite Et, Ec.
  replace (length (1 :: rest) <? length (I 0 :: repeat All (length (1 :: rest) - 1))) with false
    by (symmetry; apply Nat.ltb_ge; cbn [length]; rewrite repeat_length; lia).
  cbn [bind]. unfold specify_shape, getsub. cbn [tsh tl length].
  destruct (sels_pad (1 :: rest) [I 0] (length rest)) as (_&B); [simpl; lia|]. simpl app in B.
  replace (S (length rest) - 1) with (length rest) by lia. rewrite B. cbn [sel_shape sel_ix]. change (wrap 1 0) with (Some 0). cbn iota.
  assert (C : sel_shape rest [] = rest) by (clear; induction rest; simpl; congruence). rewrite C.
  replace (length rest =? S (length rest)) with false by (symmetry; apply Nat.eqb_neq; lia). reflexivity.
Qed.
Theorem C39_tensor_then_part_refuted ke ks kp shapes mats n (t : tensor) l v : wf ke ks kp shapes mats -> In n names -> never n = false ->
  tsh t = core ke ks kp n ->
  exists shapes' mats', setitem shapes mats (Name n) (Pt t) = (shapes', mats', None) /\
    exists e, setitem shapes' mats' (At n l) v = (shapes', mats', Some e).
Proof.
  intros W Hn Nv Et. pose proof (names_vector n Hn ke ks kp) as Hl. destruct (W n Hn) as (old&t0&E1&E2&E3&E4). rewrite Nv in E4.
  destruct E4 as (d&E4). set (c := core ke ks kp n) in *.
  assert (U : update_shape n old c = Ok (1 :: c)).
  { unfold update_shape. rewrite <- Hl, E4, lastn_cons, lastn_all, combine_eq, Nv. cbn [negb]. rewrite Hl. destruct (vector n); auto. }
  cbn [setitem]. rewrite E1, Et, U. do 2 eexists. split; [reflexivity|]. rewrite !dget_dset, String.eqb_refl.
  destruct (add_time_dim true n (tsh t) l) as [[(s&os)|]|]; cbn [bind]; eauto. unfold setsub.
  destruct (length os <? _); cbn [bind]; eauto. unfold specify_shape. cbn [tsh]. rewrite Et.
  replace (length c =? length (1 :: c)) with false by (symmetry; apply Nat.eqb_neq; simpl; lia). cbn [negb]. eauto.
Qed.

(** ** Copies *)

(** A registered shape of the class *)
Definition shok ke ks kp (shapes : dict (list nat)) : Prop := forall n, In n names -> exists sh, dget shapes n = Some sh /\
  (if never n then sh = core ke ks kp n else exists d, sh = d :: core ke ks kp n).
Lemma setitem_shok ke ks kp shapes mats k (v : value) shapes' mats' e : shok ke ks kp shapes -> In (key_name k) names ->
  (match v with Pt _ => False | _ => True end) -> setitem shapes mats k v = (shapes', mats', e) -> shok ke ks kp shapes'.
Proof.
  intros W Hn Hv E. destruct k as [n|n l]; cbn [setitem key_name] in *.
  2:{ destruct (dget shapes n), (dget mats n); try (inversion E; subst; auto; fail).
      match type of E with match ?x with _ => _ end = _ => destruct x end; inversion E; subst; auto. }
  destruct (dget shapes n) as [old|] eqn:E1; [|inversion E; subst; auto]. destruct v as [x|s f|t]; [inversion E; subst; auto| |destruct Hv].
  destruct (numpy_to_pytensor n old s f) as [t|] eqn:Nt; [|inversion E; subst; auto].
  destruct (update_shape n old (tsh t)) as [sh|] eqn:U; [|inversion E; subst; auto]. inversion E; subst.
  intros n' Hn'. destruct (String.string_dec n' n) as [->|Ne].
  2:{ destruct (W n' Hn') as (a&A&B). exists a. rewrite dget_dset. apply String.eqb_neq in Ne. rewrite Ne. auto. }
  exists sh. rewrite dget_dset, String.eqb_refl. split; auto. destruct (W n Hn) as (o&O1&O2). rewrite E1 in O1. inversion O1; subst o. clear O1.
  pose proof (names_vector n Hn ke ks kp) as Hl. set (c := core ke ks kp n) in *.
  assert (Lo : lastn (length c) old = c) by (destruct (never n); [rewrite O2; apply lastn_all|destruct O2 as (d&->); apply lastn_cons]).
  unfold update_shape in U. rewrite <- Hl, Lo in U. destruct (negb (forallb _ _)) eqn:F; [discriminate|]. apply negb_false_iff in F.
  assert (EQ : forall a b : list nat, length a = length b -> forallb (fun '(x, y) => x =? y) (combine a b) = true -> a = b).
  { clear. induction a as [|x a IH]; intros [|y b] L H; simpl in *; try discriminate; auto. apply andb_true_iff in H as (H1&H2).
    apply Nat.eqb_eq in H1. f_equal; auto. }
  unfold numpy_to_pytensor, validate_matrix_shape in Nt. destruct (never n) eqn:Nv.
  - cbn [negb andb] in Nt. rewrite <- Hl in Nt. destruct (Nat.eqb_spec (length s) (length c)) as [L|]; [|discriminate]. inversion Nt; subst t. cbn [tsh] in *.
    inversion U; subst sh. rewrite <- L, lastn_all in F. apply EQ; auto.
  - cbn [negb andb] in Nt. rewrite <- Hl in Nt.
    assert (X : tsh t = 1 :: s /\ length s = length c \/ tsh t = s /\ length s = S (length c)).
    { destruct (vector n).
      - destruct (Nat.eqb_spec (length s) 1) as [L|L]; cbn [orb negb] in Nt.
        + rewrite Hl, L in Nt. cbn in Nt. inversion Nt. left. cbn. split; auto. congruence.
        + destruct (Nat.eqb_spec (length s) 2) as [L2|]; cbn in Nt; [|discriminate]. destruct (shape_eqb (tl s) (tl old)); cbn in Nt; [|discriminate].
          rewrite Hl, L2 in Nt. cbn in Nt. inversion Nt. right. cbn. split; auto. congruence.
      - destruct (Nat.eqb_spec (length s) 2) as [L|L]; cbn [orb negb] in Nt.
        + rewrite Hl, L in Nt. cbn in Nt. inversion Nt. left. cbn. split; auto. congruence.
        + destruct (Nat.eqb_spec (length s) 3) as [L2|]; cbn in Nt; [|discriminate]. destruct (shape_eqb (tl s) (tl old)); cbn in Nt; [|discriminate].
          rewrite Hl, L2 in Nt. cbn in Nt. inversion Nt. right. cbn. split; auto. congruence. }
    assert (Y : exists d, tsh t = d :: c).
    { destruct X as [(X1&X2)|(X1&X2)].
      - exists 1. rewrite X1. f_equal. rewrite X1, <- X2, lastn_cons in F. apply EQ; auto.
      - destruct s as [|d s]; [discriminate|]. exists d. rewrite X1. f_equal. simpl in X2. rewrite X1 in F.
        replace (length c) with (length s) in F by lia. rewrite lastn_cons in F. apply EQ; auto. }
    destruct Y as (d&Y). rewrite Y in U. simpl length in U. rewrite Hl in U. destruct (vector n); inversion U; eauto.
Qed.

(** An arbitrary history of assignments (numbers and numpy arrays, successful or not) to some objects, and copies of any. *)
Inductive op := Copy (o : nat) | Set_ (o : nat) (k : key) (v : value).
Definition run_op (w : world V) (x : op) : world V := match x with Copy o => w_copy w o | Set_ o k v => fst (w_set w o k v) end.
Definition ok_op (me : nat) (x : op) : Prop :=
  match x with Copy _ => True | Set_ o k v => o <> me /\ In (key_name k) names /\ match v with Pt _ => False | _ => True end end.
Definition world_ok ke ks kp (w : world V) : Prop :=
  Forall (shok ke ks kp) (heap w) /\ Forall (fun ob => fst ob < length (heap w)) (objs w).

Lemma set_nth_other {A} (x d : A) l : forall m i, i <> m -> m < length l -> nth i (set_nth m x l) d = nth i l d.
Proof.
  unfold set_nth. induction l as [|a l IH]; intros [|m] i N L; simpl in *; try lia.
  - destruct i; [congruence|]. auto.
  - destruct i; auto. apply IH; lia.
Qed.
Lemma set_nth_same {A} (x d : A) l : forall m, m < length l -> nth m (set_nth m x l) d = x.
Proof. unfold set_nth. induction l as [|a l IH]; intros [|m] L; simpl in *; try lia; auto. apply IH. lia. Qed.
Lemma set_nth_length {A} (x : A) l : forall m, m < length l -> length (set_nth m x l) = length l.
Proof. unfold set_nth. induction l as [|a l IH]; intros [|m] L; simpl in *; try lia. rewrite IH; lia. Qed.
Lemma Forall_set_nth {A} (P : A -> Prop) x l : forall m, Forall P l -> P x -> Forall P (set_nth m x l).
Proof.
  unfold set_nth. induction l as [|a l IH]; intros [|m] F Px; simpl; try (constructor; auto; fail).
  - inversion F; subst. constructor; auto.
  - inversion F; subst. constructor; auto. apply IH; auto.
Qed.

(** Reading an object that is never written gives the same results throughout, whatever happens to its copies (and to the
    objects it was copied from). *)
Lemma getitem_shok ke ks kp sh1 sh2 mats k : shok ke ks kp sh1 -> shok ke ks kp sh2 -> In (key_name k) names ->
  @getitem V sh1 mats k = getitem sh2 mats k.
Proof.
  intros W1 W2 Hn. destruct (W1 _ Hn) as (a&A1&A2), (W2 _ Hn) as (b&B1&B2).
  assert (TL : tl a = tl b) by (destruct (never (key_name k)); [congruence|]; destruct A2 as (d&->), B2 as (d'&->); auto).
  destruct k as [n|n l]; cbn [key_name] in *; unfold getitem; rewrite A1, B1; destruct (dget mats n); auto; rewrite TL; auto.
Qed.
Theorem C39_copies_read ke ks kp (w : world V) me h k : world_ok ke ks kp w -> me < length (objs w) -> Forall (ok_op me) h -> In (key_name k) names ->
  w_get (fold_left run_op h w) me k = w_get w me k.
Proof.
  intros W M H Hk. revert w W M. induction H as [|x h Hx Hh IH]; intros w W M; auto. simpl.
  assert (X : world_ok ke ks kp (run_op w x) /\ me < length (objs (run_op w x)) /\ w_get (run_op w x) me k = w_get w me k).
  { destruct W as (W1&W2). destruct x as [o|o k' v]; cbn [run_op].
    - unfold w_copy, world_ok, w_get. cbn [heap objs]. rewrite app_length. split; [|split; [lia|]].
      + split; auto. apply Forall_app. split; auto. constructor; auto. destruct (Nat.lt_ge_cases o (length (objs w))) as [L|L].
        * rewrite Forall_forall in W2. apply W2. apply nth_In. auto.
        * rewrite nth_overflow by auto. simpl. destruct (objs w) as [|ob r]; [simpl in M; lia|]. inversion W2; subst. lia.
      + rewrite app_nth1 by auto. auto.
    - destruct Hx as (N&Hk'&Hv). unfold w_set. destruct (nth o (objs w) (0, [])) as (p, m) eqn:Eo.
      destruct (setitem (nth p (heap w) []) m k' v) as ((s'&m')&e) eqn:Es. cbn [fst].
      assert (HP : p < length (heap w)).
      { destruct (Nat.lt_ge_cases o (length (objs w))) as [L|L].
        - rewrite Forall_forall in W2. specialize (W2 (p, m)). apply W2. rewrite <- Eo. apply nth_In. auto.
        - rewrite nth_overflow in Eo by auto. inversion Eo; subst. destruct (objs w) as [|ob r]; [simpl in M; lia|]. inversion W2; subst. lia. }
      assert (S0 : shok ke ks kp (nth p (heap w) [])) by (rewrite Forall_forall in W1; apply W1, nth_In; auto).
      assert (S1 : shok ke ks kp s') by exact (setitem_shok _ _ _ _ _ _ _ _ _ _ S0 Hk' Hv Es).
      assert (LO : me < length (set_nth o (p, m') (objs w))).
      { unfold set_nth. rewrite app_length, firstn_length. cbn [length]. rewrite skipn_length. lia. }
      unfold world_ok, w_get. cbn [heap objs]. split; [|split].
      + split; [apply Forall_set_nth; auto|]. rewrite set_nth_length by auto. apply Forall_set_nth; auto.
      + auto.
      + destruct (Nat.lt_ge_cases o (length (objs w))) as [L|L].
        * rewrite set_nth_other by auto. destruct (nth me (objs w) (0, [])) as (p2, m2) eqn:E2.
          assert (HP2 : p2 < length (heap w)) by (rewrite Forall_forall in W2; specialize (W2 (p2, m2)); apply W2; rewrite <- E2; apply nth_In; auto).
          apply (getitem_shok ke ks kp); auto.
          -- destruct (Nat.eq_dec p2 p) as [->|Np2]; [rewrite set_nth_same; auto|]. rewrite set_nth_other by auto.
             rewrite Forall_forall in W1. apply W1, nth_In. auto.
          -- rewrite Forall_forall in W1. apply W1, nth_In. auto.
        * replace (set_nth o (p, m') (objs w)) with (objs w ++ (p, m') :: skipn (S o) (objs w)) by (unfold set_nth; rewrite (firstn_all2 (objs w)) by lia; auto).
          rewrite app_nth1 by auto. destruct (nth me (objs w) (0, [])) as (p2, m2) eqn:E2.
          assert (HP2 : p2 < length (heap w)) by (rewrite Forall_forall in W2; specialize (W2 (p2, m2)); apply W2; rewrite <- E2; apply nth_In; auto).
          apply (getitem_shok ke ks kp); auto.
          -- destruct (Nat.eq_dec p2 p) as [->|Np2]; [rewrite set_nth_same; auto|]. rewrite set_nth_other by auto.
             rewrite Forall_forall in W1. apply W1, nth_In. auto.
          -- rewrite Forall_forall in W1. apply W1, nth_In. auto. }
  destruct X as (X1&X2&X3). rewrite IH; auto.
Qed.
End P.

(** Writing is not independent: copies share the registered shapes.  After a time-varying matrix is assigned to the copy, a
    partial assignment to the original, which raises nothing, leaves it impossible to evaluate. *)
Definition w0 : world nat := World [shapes0 1 1 1] [(0, match init_all 0 (shapes0 1 1 1) (fun _ => None) with Ok m => m | _ => [] end)].
Definition evaluates (r : res (tensor nat)) : bool := match r with Ok t => is_ok (tval t) | Err _ => false end.
Theorem C39_copies_write_refuted :
  let w1 := w_copy w0 0 in
  let w2 := fst (w_set w1 1 (Name "transition") (Np [2; 1; 1] (fun _ => 7))) in
  let part := At "transition" [I 0; I 0] in
  snd (w_set w1 1 (Name "transition") (Np [2; 1; 1] (fun _ => 7))) = None /\
  snd (w_set w1 0 part (Num 5)) = None /\ snd (w_set w2 0 part (Num 5)) = None /\
  evaluates (w_get (fst (w_set w1 0 part (Num 5))) 0 (Name "transition")) = true /\
  evaluates (w_get (fst (w_set w2 0 part (Num 5))) 0 (Name "transition")) = false.
Proof. vm_compute. auto 10. Qed.
(** Likewise for a time-varying matrix given to the constructor, which does not register its shape. *)
Theorem C39_init_time_varying_refuted : exists mats mats' t,
  init_all 0 (shapes0 1 1 1) (fun n => if String.eqb n "design" then Some (Np [2; 1; 1] (fun _ => 7)) else None) = Ok mats /\
  setitem (shapes0 1 1 1) mats (At "design" [I 0; I 0]) (Num 5) = (shapes0 1 1 1, mats', None) /\
  getitem (shapes0 1 1 1) mats' (Name "design") = Ok t /\ tval t = Err AssertionError.
Proof. vm_compute. do 3 eexists. split; [reflexivity|]. split; [reflexivity|]. split; reflexivity. Qed.

(** The hypotheses are met: the docstring's example. *)
Example C39_example : exists mats, init_all 0 (shapes0 1 3 1) (fun _ => None) = Ok mats /\ wf 1 3 1 (shapes0 1 3 1) mats /\
  match getitem (shapes0 1 3 1) (snd (fst (setitem (shapes0 1 3 1) mats (At "design" [I 0; Sl 0 3 2]) (Np [2] (fun idx => 1 + hd 0 idx))))) (Name "design") with
  | Ok t => tsh t = [1; 3] /\ match tval t with Ok g => map (fun j => g [0; j]) [0; 1; 2] = [1; 0; 2] | _ => False end
  | _ => False end.
Proof.
  destruct (C39_wf_init 0 1 3 1 (fun _ => None)) as (mats&A&B); [auto|]. exists mats. split; auto. split; auto.
  vm_compute in A. inversion A. vm_compute. auto.
Qed.
Example C39_world_example : world_ok 1 1 1 w0.
Proof.
  split; repeat constructor. intros n H. unfold names in H. simpl in H.
  repeat (destruct H as [<-|H]; [eexists; split; [reflexivity|]; cbn; eauto|]). destruct H.
Qed.
