From Verif Require Import Common KalmanScan_Model KalmanScan_Spec.

(** ** C17 *)
Section R.
Context {V : Type}.
Implicit Types x : param V.

Lemma legal_dec x n len : legal x n len ->
  (time_varies x n = Ok false /\ forall t, value_at x n t = Some (whole x)) \/
  (time_varies x n = Ok true /\ length (slices x) = len /\ forall t, value_at x n t = nth_error (slices x) t).
Proof.
  unfold legal, time_varies, value_at. destruct (vector_valued n); intros [E|[E Hl]]; rewrite E; simpl; auto.
Qed.

Lemma nth_ok {X} (l : list X) len t : length l = len -> t < len -> exists v, nth_error l t = Some v.
Proof.
  intros Hl Ht. destruct (nth_error l t) eqn:E; [eauto|]. apply nth_error_None in E. lia.
Qed.

Lemma route_all (c d T Z R H Q : param V) len t y a P :
  legal c Pc len -> legal d Pd len -> legal T PT len -> legal Z PZ len ->
  legal R PR len -> legal H PH len -> legal Q PQ len -> t < len ->
  exists sp vc vd vT vZ vR vH vQ,
    split_vars (combine [c; d; T; Z; R; H; Q] PARAM_NAMES) = Ok sp /\
    step_args true sp t y a P = Some [y; a; P; vc; vd; vT; vZ; vR; vH; vQ] /\
    value_at c Pc t = Some vc /\ value_at d Pd t = Some vd /\ value_at T PT t = Some vT /\
    value_at Z PZ t = Some vZ /\ value_at R PR t = Some vR /\ value_at H PH t = Some vH /\ value_at Q PQ t = Some vQ.
Proof.
  intros Hc Hd HT HZ HR HH HQ Ht.
  Ltac one X nm H E V' :=
    destruct (legal_dec X nm _ H) as [[E V']|[E [H V']]].
  cbn [combine PARAM_NAMES split_vars].
  destruct (legal_dec c Pc len Hc) as [[Ec Vc]|[Ec [Lc Vc]]];
  destruct (legal_dec d Pd len Hd) as [[Ed Vd]|[Ed [Ld Vd]]];
  destruct (legal_dec T PT len HT) as [[ET VT]|[ET [LT VT]]];
  destruct (legal_dec Z PZ len HZ) as [[EZ VZ]|[EZ [LZ VZ]]];
  destruct (legal_dec R PR len HR) as [[ER VR]|[ER [LR VR]]];
  destruct (legal_dec H PH len HH) as [[EH VH]|[EH [LH VH]]];
  destruct (legal_dec Q PQ len HQ) as [[EQ VQ]|[EQ [LQ VQ]]];
  rewrite Ec, Ed, ET, EZ, ER, EH, EQ; cbn [bind seqs nonseqs seq_names nonseq_names];
  rewrite Vc, Vd, VT, VZ, VR, VH, VQ;
  unfold step_args, scan_args; cbn [seqs nonseqs seq_names nonseq_names map];
  repeat match goal with
  | L : length (slices ?x) = len |- _ =>
      let v := fresh "v" in let E := fresh "E" in
      destruct (nth_ok (slices x) len t L Ht) as [v E]; rewrite ?E; clear L
  end; 
  do 8 eexists; (split; [reflexivity|]);
  cbn [seqs nonseqs map]; rewrite ?E, ?E0, ?E1, ?E2, ?E3, ?E4, ?E5;
  (split; [reflexivity | repeat split; reflexivity]).
Qed.
End R.

(** ** C16 *)
Section F.
Context {A C Ob OC L Y : Type} (st : Y -> A -> C -> @step_out A C Ob OC L).

Lemma scan_length ys : forall a P, length (scan st ys a P) = length ys.
Proof. induction ys as [|y ys IH]; intros a P; simpl; auto. Qed.

Lemma scan_nth ys : forall a P k y, nth_error ys k = Some y ->
  nth_error (scan st ys a P) k = Some (st y (fst (before st ys a P k)) (snd (before st ys a P k))).
Proof.
  induction ys as [|y0 ys IH]; intros a P [|k] y H; try discriminate; simpl in *.
  - now injection H as ->.
  - now apply IH.
Qed.

Lemma before_S ys : forall a P k y, nth_error ys k = Some y ->
  before st ys a P (S k) =
  (o_ahat (st y (fst (before st ys a P k)) (snd (before st ys a P k))),
   o_Phat (st y (fst (before st ys a P k)) (snd (before st ys a P k)))).
Proof.
  induction ys as [|y0 ys IH]; intros a P [|k] y H; try discriminate; simpl in H.
  - injection H as ->. simpl. destruct ys; reflexivity.
  - cbn [before]. rewrite <- (IH _ _ _ _ H). reflexivity.
Qed.

Lemma drop_last_length {X} (l : list X) : length (drop_last l) = length l - 1.
Proof. unfold drop_last. rewrite firstn_length. lia. Qed.

Lemma nth_error_firstn {X} (l : list X) n k : k < n -> nth_error (firstn n l) k = nth_error l k.
Proof. revert n k. induction l as [|x l IH]; intros [|n] [|k] H; simpl; try lia; auto. apply IH. lia. Qed.

Lemma build_ok ys a0 P0 : ys <> [] -> exists f, build_graph st ys a0 P0 = Ok f /\
  length (filtered_states f) = length ys /\ length (predicted_states f) = length ys /\
  length (observed_states f) = length ys /\ length (filtered_covs f) = length ys /\
  length (predicted_covs f) = length ys /\ length (observed_covs f) = length ys /\
  length (loglike_obs f) = length ys /\
  (forall t y, nth_error ys t = Some y ->
     let o := st y (fst (before st ys a0 P0 t)) (snd (before st ys a0 P0 t)) in
     nth_error (predicted_states f) t = Some (fst (before st ys a0 P0 t)) /\
     nth_error (predicted_covs f) t = Some (snd (before st ys a0 P0 t)) /\
     nth_error (filtered_states f) t = Some (o_af o) /\ nth_error (filtered_covs f) t = Some (o_Pf o) /\
     nth_error (observed_states f) t = Some (o_mu o) /\ nth_error (observed_covs f) t = Some (o_cov o) /\
     nth_error (loglike_obs f) t = Some (o_ll o)).
Proof.
  intros Hne. assert (Hpos : 0 < length ys) by (destruct ys; [contradiction | simpl; lia]).
  unfold build_graph, postprocess.
  cbn [filtered_states predicted_states observed_states filtered_covs predicted_covs observed_covs loglike_obs length].
  rewrite !drop_last_length, !map_length, scan_length.
  replace (S (length ys - 1)) with (length ys) by lia.
  cbn [forallb]. rewrite !Nat.eqb_refl. cbn [andb].
  eexists; split; [reflexivity|].
  cbn [filtered_states predicted_states observed_states filtered_covs predicted_covs observed_covs loglike_obs length].
  rewrite !drop_last_length, !map_length, scan_length.
  replace (S (length ys - 1)) with (length ys) by lia.
  do 6 (split; [reflexivity|]).
  split; [reflexivity|].
  intros t y Hy. pose proof (scan_nth ys a0 P0 t y Hy) as Hs.
  assert (Ht : t < length ys) by (apply nth_error_Some; congruence).
  split; [|split].
  - destruct t as [|t]; [destruct ys; reflexivity|]. cbn [nth_error].
    unfold drop_last. rewrite nth_error_firstn by (rewrite map_length, scan_length; lia).
    destruct (nth_error ys t) as [y'|] eqn:Ey; [|apply nth_error_None in Ey; lia].
    rewrite (before_S ys a0 P0 t y' Ey). cbn [fst].
    rewrite (map_nth_error _ _ _ (scan_nth ys a0 P0 t y' Ey)). reflexivity.
  - destruct t as [|t]; [destruct ys; reflexivity|]. cbn [nth_error].
    unfold drop_last. rewrite nth_error_firstn by (rewrite map_length, scan_length; lia).
    destruct (nth_error ys t) as [y'|] eqn:Ey; [|apply nth_error_None in Ey; lia].
    rewrite (before_S ys a0 P0 t y' Ey). cbn [snd].
    rewrite (map_nth_error _ _ _ (scan_nth ys a0 P0 t y' Ey)). reflexivity.
  - repeat split; exact (map_nth_error _ _ _ Hs).
Qed.
End F.

(** ** C21 *)
Section B.
Context {St M : Type} (st : St -> St -> M -> St).

Lemma scan2_length xs : forall ms s, length xs <= length ms -> length (scan2 st xs ms s) = length xs.
Proof. induction xs as [|x xs IH]; intros [|m ms] s H; simpl in *; try lia. f_equal. apply IH. lia. Qed.

Lemma scan2_nth xs : forall ms s k x m, nth_error xs k = Some x -> nth_error ms k = Some m ->
  exists prev, nth_error (s :: scan2 st xs ms s) k = Some prev /\
    nth_error (scan2 st xs ms s) k = Some (st x prev m).
Proof.
  induction xs as [|x0 xs IH]; intros [|m0 ms] s [|k] x m Hx Hm; try discriminate; simpl in *.
  - injection Hx as ->. injection Hm as ->. exists s. auto.
  - destruct (IH ms (st x0 s m0) k x m Hx Hm) as [prev [H1 H2]]. exists prev. split; [|exact H2].
    destruct k; simpl in *; exact H1.
Qed.

Lemma nth_error_rev {X} (l : list X) k : k < length l -> nth_error (rev l) k = nth_error l (length l - 1 - k).
Proof.
  revert k. induction l as [|x l IH]; intros k H; simpl in *; [lia|].
  destruct (Nat.eq_dec k (length l)) as [->|Hne].
  - rewrite nth_error_app2 by (rewrite rev_length; lia). rewrite rev_length, Nat.sub_diag.
    replace (length l - 0 - length l) with 0 by lia. reflexivity.
  - rewrite nth_error_app1 by (rewrite rev_length; lia). rewrite IH by lia.
    replace (length l - 0 - k) with (Datatypes.S (length l - 1 - k)) by lia. reflexivity.
Qed.

(** for any list of matrices of length n: entry t uses the matrices of time t+1 *)
Lemma smooth_spec filtered ms : filtered <> [] -> length ms = length filtered ->
  exists out, smooth st filtered ms = Ok out /\ length out = length filtered /\
    nth_error out (length filtered - 1) = nth_error filtered (length filtered - 1) /\
    forall t f m next, nth_error filtered t = Some f -> nth_error ms (t + 1) = Some m ->
      nth_error out (t + 1) = Some next ->
      nth_error out t = Some (st f next m).
Proof.
  intros Hne Hl. assert (Hpos : 0 < length filtered) by (destruct filtered; [contradiction | simpl; lia]).
  set (n := length filtered) in *. unfold smooth.
  destruct (rev filtered) as [|last rest] eqn:Er.
  { apply (f_equal (@length _)) in Er. rewrite rev_length in Er. simpl in Er. lia. }
  assert (Hlast : nth_error filtered (n - 1) = Some last).
  { assert (H0 : nth_error (rev filtered) 0 = Some last) by now rewrite Er.
    rewrite nth_error_rev in H0 by lia. now replace (length filtered - 1 - 0) with (n - 1) in H0 by lia. }
  set (xs := rev (drop_last filtered)).
  assert (Hxl : length xs = n - 1) by (unfold xs; rewrite rev_length; apply drop_last_length).
  set (out := scan2 st xs (rev ms) last).
  assert (Hol : length out = n - 1) by (unfold out; rewrite scan2_length; [exact Hxl | rewrite rev_length; lia]).
  eexists; split; [reflexivity|]. split; [rewrite app_length, rev_length, Hol; simpl; lia|]. split.
  - rewrite Hlast, nth_error_app2 by (rewrite rev_length; lia). rewrite rev_length, Hol, Nat.sub_diag. reflexivity.
  - intros t f m next Hf Hm Hn.
    assert (Ht : t + 1 < n).
    { rewrite <- Hl. apply nth_error_Some. congruence. }
    (* position of time t in the backward scan *)
    set (k := n - 2 - t).
    assert (Hxk : nth_error xs k = Some f).
    { unfold xs. rewrite nth_error_rev by (rewrite drop_last_length; fold n; unfold k; lia).
      rewrite drop_last_length. fold n. replace (n - 1 - 1 - k) with t by (unfold k; lia).
      unfold drop_last. rewrite nth_error_firstn by (fold n; lia). exact Hf. }
    assert (Hmk : nth_error (rev ms) k = Some m).
    { rewrite nth_error_rev by (unfold k; lia). replace (length ms - 1 - k) with (t + 1) by (unfold k; lia). exact Hm. }
    destruct (scan2_nth xs (rev ms) last k f m Hxk Hmk) as [prev [Hp Ho]]. fold out in Hp, Ho.
    rewrite nth_error_app1 by (rewrite rev_length; lia).
    rewrite nth_error_rev by lia. replace (length out - 1 - t) with k by (unfold k; lia).
    rewrite Ho. f_equal. f_equal.
    (* the previous scan value is the smoothed value at t+1 *)
    destruct (Nat.eq_dec (t + 1) (n - 1)) as [He|He].
    + replace k with 0 in Hp by (unfold k; lia). simpl in Hp. injection Hp as <-.
      rewrite nth_error_app2 in Hn by (rewrite rev_length; lia).
      replace (t + 1 - length (rev out)) with 0 in Hn by (rewrite rev_length; lia). now injection Hn.
    + rewrite nth_error_app1 in Hn by (rewrite rev_length; lia).
      rewrite nth_error_rev in Hn by lia. replace (length out - 1 - (t + 1)) with (k - 1) in Hn by (unfold k; lia).
      destruct k as [|k'] eqn:Ek; [unfold k in Ek; lia|]. simpl in Hp.
      replace (Datatypes.S k' - 1) with k' in Hn by lia. congruence.
Qed.
End B.
