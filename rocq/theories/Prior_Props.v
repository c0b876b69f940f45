(** C44 (flat layout of prior_from_idata) and C45 (its arguments). *)
From Verif Require Import Common Dict.
Import List ListNotations.
From Verif Require Import Prior_Model.
Open Scope nat_scope.

Section Props.
Context {V : Type} (zero : V) (add mul : V -> V -> V) (avg : list V -> V).
Notation tensor := (@tensor V).
Notation transform := (@transform V).
Notation cfg := (@cfg V).
Notation var_info := (@var_info V).
Notation trace := (@trace V).

(** * Specification *)
(** n draws, each variable with one shape of its own (after its transform) *)
Definition good_trace (posterior : trace) (cfgs : dict cfg) (n : nat) (widths : list nat) : Prop :=
  Forall2 (fun kc w => exists draws shape, dget posterior (fst kc) = Some draws /\ length draws = n /\
     forall x, In x draws -> tshape (transformed (snd kc) x) = shape /\ length (entries (transformed (snd kc) x)) = w) cfgs widths.
(** draw s of a variable *)
Definition draw (posterior : trace) (key : string) (s : nat) : option tensor := match dget posterior key with Some draws => nth_error draws s | None => None end.
(** what a variable must be rebuilt to from its own draw: the draw itself, or its image under the transform and back *)
Definition there_and_back (c : cfg) (x : tensor) : tensor :=
  match c_transform c with Some t => backward t (forward t x) | None => x end.

Lemma Forall2_len {A B} (R : A -> B -> Prop) l l' : Forall2 R l l' -> length l = length l'.
Proof. induction 1; cbn; congruence. Qed.
Lemma flatten_from_ok posterior cfgs n widths : n > 0 -> good_trace posterior cfgs n widths -> forall b,
  exists vars info, flatten_from posterior b cfgs = Ok (vars, info) /\ length vars = length cfgs /\
    Forall2 (fun (kcw : (string * cfg) * nat) v => length v = n /\ exists draws, dget posterior (fst (fst kcw)) = Some draws /\ v = map (fun x => entries (transformed (snd (fst kcw)) x)) draws
        /\ Forall (fun r => length r = snd kcw) v) (combine cfgs widths) vars /\
    map (fun i => (v_cfg i, v_begin i, v_end i)) info
      = (fix layout (b : nat) (l : list ((string * cfg) * nat)) := match l with [] => [] | ((_, c), w) :: l' => (c, b, b + w) :: layout (b + w) l' end) b (combine cfgs widths) /\
    Forall2 (fun kc i => forall x draws, dget posterior (fst kc) = Some draws -> In x draws -> v_shape i = tshape (transformed (snd kc) x)) cfgs info.
Proof.
  intros Hn. induction 1 as [|[k c] w cfgs widths (draws & shape & Hd & Hl & Hx) _ IH]; intros b.
  - exists [], []. repeat split; constructor.
  - cbn [flatten_from fst snd] in *. rewrite Hd. destruct draws as [|x0 draws]; [cbn in Hl; lia|]. cbn [map].
    destruct (Hx x0 (or_introl eq_refl)) as (Hs0 & Hw0). rewrite Hw0.
    destruct (IH (b + w)) as (vars & info & E & El & Ev & Ei & Es). rewrite E. cbn [bind]. eexists; eexists; split; [reflexivity|]. cbn [length combine map]. split; [lia|]. split; [|split].
    + constructor; [|exact Ev]. cbn [fst snd]. split; [cbn [length]; rewrite !map_length; exact Hl|].
      exists (x0 :: draws). split; auto. split; [cbn [map]; rewrite map_map; reflexivity|].
      constructor; auto. apply Forall_forall. intros r Hr. rewrite in_map_iff in Hr. destruct Hr as (y & <- & Hy). rewrite in_map_iff in Hy. destruct Hy as (z & <- & Hz).
      apply Hx. right; auto.
    + cbn [v_cfg v_begin v_end]. rewrite Ei. reflexivity.
    + constructor; auto. cbn [fst snd v_shape]. intros x draws' Hd' Hin. rewrite Hd in Hd'. injection Hd' as <-. rewrite Hs0. symmetry. now apply Hx.
Qed.
Fixpoint layout (b : nat) (l : list ((string * cfg) * nat)) : list (cfg * nat * nat) :=
  match l with [] => [] | ((_, c), w) :: l' => (c, b, b + w) :: layout (b + w) l' end.

(** row s of the stacked array *)
Lemma hstack_length n (vars : list (list (list V))) : Forall (fun v => length v = n) vars -> length (hstack n vars) = n.
Proof.
  induction 1 as [|v vs Hv _ IH]; cbn [hstack]; [apply repeat_length|]. rewrite map_length, combine_length, IH, Hv. lia.
Qed.
Lemma hstack_nth n (vars : list (list (list V))) s : s < n -> Forall (fun v => length v = n) vars -> nth s (hstack n vars) [] = concat (map (fun v => nth s v []) vars).
Proof.
  intros Hs H. induction H as [|v vs Hv Hvs IH]; cbn [hstack map concat].
  - generalize n Hs. clear. intros n. revert s. induction n; intros [|s] H; cbn; auto; try lia. apply IHn. lia.
  - assert (L : length (hstack n vs) = n) by (apply hstack_length; auto).
    assert (MN : forall (f : list V * list V -> list V) l d k, k < length l -> nth k (map f l) [] = f (nth k l d)).
    { clear. intros f l d k Hk. rewrite (nth_indep _ [] (f d)) by (rewrite map_length; auto). apply map_nth. }
    rewrite (MN _ _ ([], [])) by (rewrite combine_length; lia). rewrite combine_nth by lia. cbn [fst snd]. now rewrite IH.
Qed.

Lemma flatten_ok posterior cfgs n widths : cfgs <> [] -> n > 0 -> good_trace posterior cfgs n widths ->
  exists vars rows info, flatten posterior cfgs = Ok (rows, info) /\ length rows = n /\ length vars = length cfgs /\
    Forall2 (fun (kcw : (string * cfg) * nat) v => length v = n /\ exists draws, dget posterior (fst (fst kcw)) = Some draws /\ v = map (fun x => entries (transformed (snd (fst kcw)) x)) draws
        /\ Forall (fun r => length r = snd kcw) v) (combine cfgs widths) vars /\
    (forall s, s < n -> nth s rows [] = concat (map (fun v => nth s v []) vars)) /\
    map (fun i => (v_cfg i, v_begin i, v_end i)) info = layout 0 (combine cfgs widths) /\
    Forall2 (fun kc i => forall x draws, dget posterior (fst kc) = Some draws -> In x draws -> v_shape i = tshape (transformed (snd kc) x)) cfgs info.
Proof.
  intros Hc Hn G. destruct (flatten_from_ok _ _ _ _ Hn G 0) as (vars & info & E & El & Ev & Ei & Es).
  assert (Hv : Forall (fun v => length v = n) vars).
  { clear -Ev. induction Ev as [|a v l vs (H & _) _ IH]; constructor; auto. }
  assert (Hlen : length cfgs = length widths) by (eapply Forall2_len; exact G).
  unfold flatten. rewrite E. cbn [bind]. destruct vars as [|v vs].
  - exfalso. cbn in El. destruct cfgs; [congruence|discriminate].
  - assert (L : length v = n) by (inversion Hv; auto).
    replace (forallb _ (v :: vs)) with true.
    2: { symmetry. apply forallb_forall. intros w Hw. rewrite Forall_forall in Hv. rewrite (Hv w Hw), L. apply Nat.eqb_refl. }
    rewrite L. exists (v :: vs). eexists; eexists; split; [reflexivity|]. split; [apply hstack_length; auto|]. split; auto. split; auto. split; [intros; now apply hstack_nth|]. split; auto.
Qed.

(** slices of a concatenation *)
Lemma slice_app_l (a b : list V) : slice (a ++ b)%list 0 (length a) = a.
Proof. unfold slice. cbn [skipn]. rewrite Nat.sub_0_r, firstn_app, Nat.sub_diag, firstn_all. cbn. apply app_nil_r. Qed.
Lemma slice_shift (a x : list V) b e : slice (a ++ x)%list (length a + b) (length a + e) = slice x b e.
Proof.
  unfold slice. replace (length a + e - (length a + b)) with (e - b) by lia. f_equal. rewrite skipn_app.
  replace (length a + b - length a) with b by lia. rewrite skipn_all2 by lia. reflexivity.
Qed.
Lemma layout_shift b l : layout b l = map (fun t => (fst (fst t), b + snd (fst t), b + snd t)) (layout 0 l).
Proof.
  revert b. induction l as [|[[k c] w] l IH]; intros b; cbn [layout map fst snd]; [reflexivity|]. f_equal; [rewrite Nat.add_0_r; reflexivity|].
  rewrite (IH (b + w)), (IH (0 + w)). rewrite map_map. apply map_ext. intros [[c' b'] e']. cbn [fst snd]. replace (b + w + b') with (b + (0 + w + b')) by lia. replace (b + w + e') with (b + (0 + w + e')) by lia. reflexivity.
Qed.
Lemma layout_slices (l : list ((string * cfg) * nat)) (parts : list (list V)) : Forall2 (fun kcw p => length p = snd kcw) l parts ->
  map (fun t => slice (concat parts) (snd (fst t)) (snd t)) (layout 0 l) = parts.
Proof.
  induction 1 as [|[[k c] w] p l parts Hp _ IH]; [reflexivity|]. cbn [layout map concat fst snd] in *. subst w. cbn [plus]. f_equal; [apply slice_app_l|].
  rewrite layout_shift, map_map. cbn [fst snd]. transitivity (map (fun t => slice (concat parts) (snd (fst t)) (snd t)) (layout 0 l)); [|exact IH]. apply map_ext. intros [[c' b] e]. cbn [fst snd]. apply slice_shift.
Qed.

(** ** C44 *)
(** The slices are contiguous, in order, start at 0 and end at the row's length; hence any flat vector of that length is the concatenation of the blocks. *)
Theorem C44_contiguous posterior cfgs n widths : cfgs <> [] -> n > 0 -> good_trace posterior cfgs n widths ->
  exists rows info, flatten posterior cfgs = Ok (rows, info) /\ length rows = n /\
    map v_cfg info = map snd cfgs /\
    map (fun i => v_end i - v_begin i) info = widths /\
    (forall i, i < length info -> v_begin (nth i info (Build_var_info [] 0 0 (arg_to_param_cfg "" ANone))) = fold_right plus 0 (firstn i widths)) /\
    Forall (fun row => length row = fold_right plus 0 widths) rows.
Proof.
  intros Hc Hn G. destruct (flatten_ok _ _ _ _ Hc Hn G) as (vars & rows & info & E & Er & El & Ev & Erow & Ei & _).
  exists rows, info. split; auto. split; auto.
  assert (Hlen : length cfgs = length widths) by (eapply Forall2_len; exact G).
  assert (P : forall b (cf : dict cfg) ws, length cf = length ws ->
     map (fun t => fst (fst t)) (layout b (combine cf ws)) = map snd cf /\ map (fun t => snd t - snd (fst t)) (layout b (combine cf ws)) = ws /\
     forall i, i < length ws -> snd (fst (nth i (layout b (combine cf ws)) (arg_to_param_cfg "" ANone, 0, 0))) = b + fold_right plus 0 (firstn i ws)).
  { clear. intros b cf. revert b. induction cf as [|[k c] cf IH]; intros b [|w ws] H; try discriminate; [repeat split; cbn; intros; lia|].
    cbn [length] in H. destruct (IH (b + w) ws) as (A & B & C); [lia|]. cbn [combine layout map fst snd]. split; [f_equal; auto|]. split; [f_equal; [lia|auto]|].
    intros [|i] Hi; cbn [nth fst snd firstn fold_right] in *; [lia|]. rewrite C by (cbn in Hi; lia). lia. }
  destruct (P 0 cfgs widths Hlen) as (A & B & C). rewrite <- Ei in A, B, C. rewrite map_map in A, B. cbn [fst snd] in A, B. split; auto. split; auto. split.
  - intros i Hi. assert (Hi' : i < length widths) by (rewrite <- B, map_length; auto). specialize (C i Hi'). cbn [plus] in C. rewrite <- C.
    change (arg_to_param_cfg "" ANone, 0, 0) with ((fun i => (v_cfg i, v_begin i, v_end i)) (Build_var_info [] 0 0 (arg_to_param_cfg (V := V) "" ANone))).
    rewrite map_nth. reflexivity.
  - apply Forall_forall. intros row Hr. destruct (In_nth _ _ [] Hr) as (s & Hs & <-). rewrite Er in Hs. rewrite Erow by auto.
    clear -Ev Hs Hlen. revert widths vars Hlen Ev. induction cfgs as [|kc cfgs IH]; intros [|w widths] vars Hlen Ev; try discriminate; cbn [combine] in Ev; inversion Ev; subst; [reflexivity|].
    cbn [map concat fold_right]. rewrite app_length. cbn in Hlen. rewrite (IH widths l') by (auto; lia). f_equal. destruct H1 as (H1 & draws & _ & _ & HF). cbn [snd] in HF.
    rewrite Forall_forall in HF. apply HF. apply nth_In. lia.
Qed.
(** A draw of the posterior, laid out flat and rebuilt: every variable gets back its own draw, with its own shape. *)
Theorem C44_roundtrip posterior cfgs n widths : cfgs <> [] -> n > 0 -> good_trace posterior cfgs n widths ->
  exists rows info, flatten posterior cfgs = Ok (rows, info) /\
    forall s, s < n -> Forall2 (fun kc out => exists x, draw posterior (fst kc) s = Some x /\ out = (c_name (snd kc), there_and_back (snd kc) x)) cfgs (rebuild_all (nth s rows []) info).
Proof.
  intros Hc Hn G. destruct (flatten_ok _ _ _ _ Hc Hn G) as (vars & rows & info & E & Er & El & Ev & Erow & Ei & Es).
  exists rows, info. split; auto. intros s Hs. rewrite Erow by auto.
  assert (Hlen : length cfgs = length widths) by (eapply Forall2_len; exact G).
  set (parts := map (fun v => nth s v []) vars).
  assert (Hp : Forall2 (fun kcw p => length p = snd kcw) (combine cfgs widths) parts).
  { unfold parts. clear -Ev Hs. induction Ev as [|kcw v l vs (H1 & draws & _ & _ & HF) _ IH]; cbn [map]; constructor; auto.
    rewrite Forall_forall in HF. apply HF, nth_In. lia. }
  pose proof (layout_slices _ _ Hp) as HS. rewrite <- Ei, map_map in HS. cbn [fst snd] in HS.
  assert (HC : map v_cfg info = map snd cfgs).
  { destruct (C44_contiguous posterior cfgs n widths Hc Hn G) as (r' & i' & E' & _ & H' & _). rewrite E in E'. inversion E'; subst. auto. }
  clear Ei Er Erow Hp. unfold rebuild_all. revert HS HC. generalize (concat parts) as x. intros x. unfold parts. clear parts. clear E rows El.
  revert widths vars info Hlen Ev Es G. induction cfgs as [|[k c] cfgs IH]; intros widths vars info Hlen Ev Es G HS HC.
  - inversion Es; subst. constructor.
  - destruct widths as [|w widths]; [discriminate|]. cbn [combine] in Ev. inversion Ev as [|? v ? vs (Hv & draws & Hd & Evv & HF) Ev']; subst. inversion Es as [|? i ? info' Hi Es']; subst.
    cbn [map fst snd] in *. injection HS as HS1 HS2. injection HC as HC1 HC2. inversion G as [|? ? ? ? (draws' & shape & Hd' & Hl & _) G']; subst. cbn [fst snd] in *.
    rewrite Hd in Hd'. injection Hd' as <-. constructor.
    + cbn [fst snd]. destruct (nth_error draws s) as [y|] eqn:Ey; [|apply nth_error_None in Ey; lia]. exists y. unfold draw. rewrite Hd. split; auto.
      unfold rebuild. f_equal.
      assert (Et : {| tshape := v_shape i; entries := slice x (v_begin i) (v_end i) |} = transformed (v_cfg i) y).
      { rewrite HS1. rewrite (nth_indep _ [] (entries (transformed (v_cfg i) y))) by (rewrite map_length; lia). rewrite (map_nth (fun x => entries (transformed (v_cfg i) x))).
        rewrite (nth_error_nth draws s y Ey). rewrite (Hi y draws Hd (nth_error_In _ _ Ey)). destruct (transformed (v_cfg i) y); reflexivity. }
      rewrite Et. unfold there_and_back, transformed. destruct (c_transform (v_cfg i)); reflexivity.
    + destruct cfgs as [|kc' cfgs']; [inversion Es'; subst; constructor|]. apply (IH ltac:(discriminate) widths vs info'); auto.
Qed.
(** The centre of the new prior: each variable's block of the mean is the mean of its own draws. *)
Theorem C44_mean posterior cfgs n widths : cfgs <> [] -> n > 0 -> good_trace posterior cfgs n widths ->
  exists rows info, flatten posterior cfgs = Ok (rows, info) /\
    Forall2 (fun kc i => forall draws, dget posterior (fst kc) = Some draws ->
       slice (mean zero avg rows) (v_begin i) (v_end i) = mean zero avg (map (fun x => entries (transformed (snd kc) x)) draws)) cfgs info.
Proof.
  intros Hc Hn G. destruct (flatten_ok _ _ _ _ Hc Hn G) as (vars & rows & info & E & Er & El & Ev & Erow & Ei & Es).
  exists rows, info. split; auto.
  assert (Hlen : length cfgs = length widths) by (eapply Forall2_len; exact G).
  assert (HC : map v_cfg info = map snd cfgs /\ Forall (fun row => length row = fold_right plus 0 widths) rows).
  { destruct (C44_contiguous posterior cfgs n widths Hc Hn G) as (r' & i' & E' & _ & H' & _ & _ & H''). rewrite E in E'. inversion E'; subst. auto. }
  destruct HC as (HC & HR).
  assert (MW : forall m w, m <> [] -> Forall (fun row : list V => length row = w) m -> mean zero avg m = map (fun j => avg (column zero m j)) (seq 0 w)).
  { intros m w Hm Hw. unfold mean. destruct m as [|r m]; [congruence|]. inversion Hw; subst. reflexivity. }
  assert (ME : mean zero avg rows = concat (map (mean zero avg) vars)).
  { rewrite (MW rows (fold_right plus 0 widths)); [|destruct rows; cbn in Er; [lia|discriminate]|auto].
    assert (Hrow : rows = map (fun s => concat (map (fun v => nth s v []) vars)) (seq 0 n)).
    { apply nth_ext with (d := []) (d' := []); [rewrite map_length, seq_length; auto|]. intros s Hs. rewrite Er in Hs. rewrite Erow by auto.
      rewrite (nth_indep (map _ _) [] ((fun s => concat (map (fun v => nth s v []) vars)) 0)) by (rewrite map_length, seq_length; auto).
      rewrite (map_nth (fun s => concat (map (fun v => nth s v []) vars))), seq_nth by auto. reflexivity. }
    rewrite Hrow. clear -Ev Hn MW Hlen. revert widths vars Hlen Ev. induction cfgs as [|kc cfgs IH]; intros [|w widths] vars Hlen Ev; try discriminate; cbn [combine] in Ev; inversion Ev; subst; [reflexivity|].
    destruct H1 as (Hy & draws & _ & _ & HF). cbn [snd] in HF. cbn [fold_right map concat]. rewrite seq_app, map_app. cbn [plus]. cbn in Hlen. rename l' into vs. rename y into v. f_equal.
    - rewrite (MW v w); [|destruct v; cbn in Hy; [lia|discriminate]|auto]. apply map_ext_in. intros j Hj. apply in_seq in Hj. f_equal. unfold column. rewrite map_map.
      apply nth_ext with (d := zero) (d' := zero); [rewrite !map_length, seq_length; auto|]. intros s Hs. rewrite map_length, seq_length in Hs.
      rewrite (nth_indep (map _ (seq 0 n)) zero ((fun s => nth j (nth s v [] ++ concat (map (fun v => nth s v []) vs))%list zero) 0)) by (rewrite map_length, seq_length; auto).
      rewrite (map_nth (fun s => nth j (nth s v [] ++ concat (map (fun v => nth s v []) vs))%list zero)), seq_nth by auto. cbn [plus].
      rewrite (nth_indep (map _ v) zero ((fun row => nth j row zero) [])) by (rewrite map_length; lia). rewrite (map_nth (fun row => nth j row zero)).
      apply app_nth1. rewrite Forall_forall in HF. rewrite (HF (nth s v [])) by (apply nth_In; lia). lia.
    - rewrite <- (IH widths vs) by (auto; lia). rewrite <- (Nat.add_0_r w) at 1. 
      assert (Sh : forall a b, seq (w + a) b = map (fun j => w + j) (seq a b)) by (clear; intros a b; revert a; induction b; intros a; cbn; auto; rewrite <- Nat.add_succ_r, IHb; auto).
      rewrite Sh, map_map. apply map_ext. intros j. f_equal. unfold column. rewrite !map_map. apply map_ext_in. intros s Hs. apply in_seq in Hs.
      assert (Lw : length (nth s v []) = w) by (rewrite Forall_forall in HF; apply HF, nth_In; lia).
      rewrite app_nth2 by lia. f_equal. lia. }
  rewrite ME.
  assert (Hp : Forall2 (fun kcw p => length p = snd kcw) (combine cfgs widths) (map (mean zero avg) vars)).
  { clear -Ev MW Hn. induction Ev as [|kcw v l vs (H1 & draws & _ & _ & HF) _ IH]; cbn [map]; constructor; auto.
    rewrite (MW v (snd kcw)); [rewrite map_length, seq_length; auto|destruct v; cbn in H1; [lia|discriminate]|auto]. }
  pose proof (layout_slices _ _ Hp) as HS. rewrite <- Ei, map_map in HS. cbn [fst snd] in HS.
  revert HS. generalize (concat (map (mean zero avg) vars)) as x. intros x HS. clear -HS Ev Es Hlen.
  revert widths vars info Hlen Ev Es HS. induction cfgs as [|[k c] cfgs IH]; intros widths vars info Hlen Ev Es HS.
  - inversion Es; constructor.
  - destruct widths as [|w widths]; [discriminate|]. cbn [combine] in Ev. inversion Ev as [|? v ? vs (Hv & draws & Hd & Evv & HF) Ev']; subst. inversion Es as [|? i ? info' Hi Es']; subst.
    cbn [map fst snd] in *. injection HS as HS1 HS2. constructor.
    + cbn [fst snd]. intros draws' Hd'. rewrite Hd in Hd'. inversion Hd'; subst. exact HS1.
    + apply (IH widths vs info'); auto.
Qed.

(** ** C45 *)
(** the configuration of a variable: the one in the keyword argument, else the plain one if it is in var_names *)
Lemma fold_dset_get {A B} (f : A -> string) (g : A -> B) l : forall d k, NoDup (map f l) ->
  dget (fold_left (fun acc a => dset acc (f a) (g a)) l d) k = match find (fun a => String.eqb k (f a)) l with Some a => Some (g a) | None => dget d k end.
Proof.
  induction l as [|a l IH]; intros d k ND; [reflexivity|]. cbn [fold_left find map] in *. inversion ND as [|? ? Hn ND']; subst. rewrite IH by auto.
  destruct (find (fun a0 => String.eqb k (f a0)) l) as [b|] eqn:Ef.
  - destruct (String.eqb_spec k (f a)); auto. subst. exfalso. apply find_some in Ef as (Hb & Eb). apply String.eqb_eq in Eb. apply Hn. rewrite Eb. now apply in_map.
  - rewrite dget_dset. destruct (String.eqb k (f a)); auto.
Qed.
Theorem C45_precedence var_names (kwargs : dict (@arg V)) k : NoDup (dkeys kwargs) ->
  dget (parse_args var_names kwargs) k = match dget kwargs k with
    | Some v => Some (arg_to_param_cfg k v)
    | None => if smem k var_names then Some (arg_to_param_cfg k ANone) else None
    end.
Proof.
  intros ND. unfold parse_args. rewrite (fold_dset_get fst (fun kv => arg_to_param_cfg (fst kv) (snd kv)) kwargs) by exact ND.
  assert (F : find (fun a => String.eqb k (fst a)) kwargs = match dget kwargs k with Some v => Some (k, v) | None => None end).
  { clear. induction kwargs as [|[a v] r IH]; cbn [find dget fst]; auto. destruct (String.eqb_spec k a); [subst; auto|auto]. }
  rewrite F. destruct (dget kwargs k); [reflexivity|]. clear.
  assert (K : forall d, dget (fold_left (fun acc v => dset acc v (arg_to_param_cfg v ANone)) var_names d) k
     = if smem k var_names then Some (arg_to_param_cfg (V := V) k ANone) else dget d k).
  { induction var_names as [|v l IH]; intros d; [reflexivity|]. cbn [fold_left smem existsb]. rewrite IH. fold (smem k l). rewrite dget_dset.
    destruct (String.eqb_spec k v); [subst; cbn [orb]; destruct (smem v l); auto|reflexivity]. }
  rewrite K. reflexivity.
Qed.
(** renamed, dimensioned, transformed exactly as asked, everything not asked for left at its default *)
Theorem C45_configuration key n t d :
  arg_to_param_cfg (V := V) key (AStr n) = ({| c_name := n; c_transform := None; c_dims := None |} : cfg) /\
  arg_to_param_cfg (V := V) key (ATuple d) = ({| c_name := key; c_transform := None; c_dims := Some d |} : cfg) /\
  arg_to_param_cfg key (ATransform t) = ({| c_name := key; c_transform := Some t; c_dims := None |} : cfg) /\
  arg_to_param_cfg key (ADict (Some n) (Some t) (Some d)) = ({| c_name := n; c_transform := Some t; c_dims := Some d |} : cfg) /\
  arg_to_param_cfg (V := V) key (ADict None None None) = arg_to_param_cfg key ANone.
Proof. repeat split. Qed.
(** a variable that is not in the posterior is rejected *)
Theorem C45_unknown_variable (posterior : trace) (cfgs : dict cfg) k c : In (k, c) cfgs -> dget posterior k = None -> is_ok (flatten posterior cfgs) = false.
Proof.
  intros Hin Hn. assert (E : forall b, is_ok (flatten_from posterior b cfgs) = false).
  { revert Hin. induction cfgs as [|[k' c'] r IH]; intros Hin b; [easy|]. cbn [flatten_from]. destruct Hin as [H|H].
    - inversion H; subst. now rewrite Hn.
    - destruct (dget posterior k'); [|reflexivity]. specialize (IH H (b + match map (transformed c') l with [] => 0 | x :: _ => length (entries x) end)).
      destruct (flatten_from posterior _ r); [discriminate|reflexivity]. }
  unfold flatten. specialize (E 0). destruct (flatten_from posterior 0 cfgs); [discriminate|reflexivity].
Qed.
Lemma register_ok taken vars : NoDup (map (fun v => fst (fst v)) vars) -> (forall v, In v vars -> ~ In (fst (fst v)) taken) ->
  register taken vars = Ok (map (fun v => (fst (fst v), (snd (fst v), snd v))) vars : dict (tensor * option (list string))).
Proof.
  revert taken. induction vars as [|[[n x] d] r IH]; intros taken ND H; [reflexivity|]. cbn [register map fst snd] in *. inversion ND as [|? ? Hn ND']; subst.
  replace (smem n taken) with false; [|symmetry; apply smem_false; apply (H _ (or_introl eq_refl))].
  rewrite IH; [reflexivity|auto|]. intros v Hv [E|E]; [|exact (H v (or_intror Hv) E)]. apply Hn. rewrite E. now apply (in_map (fun v => fst (fst v))).
Qed.
Lemma register_err taken vars : (~ NoDup (map (fun v => fst (fst v)) vars) \/ exists v, In v vars /\ In (fst (fst v)) taken) ->
  register (V := V) taken vars = Err ValueError.
Proof.
  revert taken. induction vars as [|[[n x] d] r IH]; intros taken H.
  - destruct H as [H|(v & [] & _)]. exfalso. apply H. constructor.
  - cbn [register map fst snd] in *. destruct (smem n taken) eqn:E; [reflexivity|]. apply smem_false in E. rewrite IH; [reflexivity|].
    destruct H as [H|(v & [Hv|Hv] & Ht)].
    + destruct (in_dec string_dec n (map (fun v => fst (fst v)) r)) as [Hi|Hi].
      * right. apply in_map_iff in Hi as (v & Ev & Hv). exists v. split; auto. left. auto.
      * left. intros ND. apply H. constructor; auto.
    + subst v. contradiction.
    + right. exists v. split; auto. right. auto.
Qed.
(** what a call must register for one requested variable: under its configured name and dims, the block of the flat draw that belongs to it, in its own shape, mapped back by its own transform *)
Definition answer (x : list V) (posterior : trace) (b : nat) (kc : string * cfg) (w : nat) (out : string * (tensor * option (list string))) : Prop :=
  exists draws y, dget posterior (fst kc) = Some draws /\ In y draws /\
    out = (c_name (snd kc), (let block := {| tshape := tshape (transformed (snd kc) y); entries := firstn w (skipn b x) |} in
                             match c_transform (snd kc) with Some t => backward t block | None => block end, c_dims (snd kc))).
(** Every requested variable is answered under the configuration its argument asks for (C45_precedence), when the new names are distinct and free. *)
Theorem C45_result_partial taken name chol base (posterior : trace) var_names kwargs n widths :
  let cfgs := parse_args var_names kwargs in
  cfgs <> [] -> n > 0 -> good_trace posterior cfgs n widths ->
  ~ In "idata"%string (dkeys cfgs) ->
  NoDup (map (fun kc => c_name (snd kc)) cfgs) -> (forall kc, In kc cfgs -> ~ In (c_name (snd kc)) (name :: taken)) -> ~ In name taken ->
  exists result rows info, prior_from_idata zero add mul avg taken name chol base posterior var_names kwargs = Ok result /\ flatten posterior cfgs = Ok (rows, info) /\
    length result = length cfgs /\
    forall i kc w, nth_error cfgs i = Some kc -> nth_error widths i = Some w ->
      exists out, nth_error result i = Some out /\ answer (interim zero add mul avg rows (chol rows) base) posterior (fold_right plus 0 (firstn i widths)) kc w out.
Proof.
  intros cfgs Hc Hn G Hid ND Hfree Hname.
  destruct (flatten_ok _ _ _ _ Hc Hn G) as (vars & rows & info & E & Er & El & Ev & Erow & Ei & Es).
  destruct (C44_contiguous posterior cfgs n widths Hc Hn G) as (r' & i' & E' & _ & HC & HW & HB & _). rewrite E in E'. injection E' as <- <-.
  set (x := interim zero add mul avg rows (chol rows) base).
  eexists; exists rows, info. split; [|split; [exact E|]].
  - unfold prior_from_idata. fold cfgs. destruct cfgs as [|kc0 cr] eqn:Ec; [congruence|]. rewrite <- Ec in *.
    replace (dmem cfgs "idata") with false; [|symmetry; unfold dmem; rewrite (proj2 (dget_none cfgs "idata"%string) Hid); reflexivity].
    rewrite E. cbn [bind]. unfold mvn_prior. rewrite (proj2 (smem_false name taken) Hname). fold x. apply register_ok.
    + rewrite map_map. cbn [fst snd rebuild]. rewrite <- (map_map v_cfg c_name), HC, map_map. exact ND.
    + intros v Hv. apply in_map_iff in Hv as (i & <- & Hi). cbn [fst snd rebuild]. assert (Hi2 : In (v_cfg i) (map snd cfgs)) by (rewrite <- HC; now apply in_map).
      apply in_map_iff in Hi2 as (kc & <- & Hkc). now apply Hfree.
  - assert (Hli : length info = length cfgs) by (rewrite <- (map_length v_cfg info), HC, map_length; auto).
    split; [rewrite !map_length; exact Hli|]. intros i kc w Hkc Hw.
    assert (Hi : i < length info) by (rewrite Hli; apply nth_error_Some; congruence).
    destruct (nth_error info i) as [vi|] eqn:Evi; [|apply nth_error_None in Evi; lia].
    eexists. split.
    + rewrite map_map. apply map_nth_error. exact Evi.
    + cbn [fst snd rebuild].
      assert (Ecf : v_cfg vi = snd kc).
      { pose proof (map_nth_error v_cfg i info Evi) as A. rewrite HC in A. rewrite (map_nth_error snd i cfgs Hkc) in A. now injection A. }
      assert (Ewd : v_end vi - v_begin vi = w).
      { pose proof (map_nth_error (fun i => v_end i - v_begin i) i info Evi) as A. rewrite HW, Hw in A. now injection A. }
      assert (Ebg : v_begin vi = fold_right plus 0 (firstn i widths)).
      { rewrite <- (HB i Hi). f_equal. symmetry. now apply nth_error_nth. }
      assert (D : exists draws y, dget posterior (fst kc) = Some draws /\ In y draws).
      { clear -G Hkc Hn. revert i widths G Hkc. induction cfgs as [|kc' cs IH]; intros i ws G Hkc; [destruct i; discriminate|]. inversion G as [|? ? ? ? (dr & sh & Hd & Hl & _) G']; subst.
        destruct i as [|i]; cbn in Hkc; [injection Hkc as ->|eapply IH; eauto]. destruct dr as [|z dr]; [cbn in Hn; lia|]. exists (z :: dr), z. split; auto. now left. }
      destruct D as (draws & y & Hd & Hy). exists draws, y. split; auto. split; auto.
      assert (Esh : v_shape vi = tshape (transformed (snd kc) y)).
      { clear -Es Hkc Evi Hd Hy. revert i Hkc Evi. induction Es as [|kc' vi' l l' Hh _ IH]; intros i Hkc Evi; [destruct i; discriminate|].
        destruct i as [|i]; cbn in Hkc, Evi; [injection Hkc as ->; injection Evi as ->; eapply Hh; eauto|eapply IH; eauto]. }
      rewrite Ecf, Esh. unfold slice. rewrite Ewd, Ebg. reflexivity.
Qed.
(** Two variables asked for under one name, or a name the model already uses: refused, nothing silently overwritten. *)
Theorem C45_name_clash taken name chol base (posterior : trace) var_names kwargs :
  let cfgs := parse_args var_names kwargs in
  cfgs <> [] -> (~ NoDup (map (fun kc => c_name (snd kc)) cfgs) \/ exists kc, In kc cfgs /\ In (c_name (snd kc)) (name :: taken)) ->
  is_ok (prior_from_idata zero add mul avg taken name chol base posterior var_names kwargs) = false.
Proof.
  intros cfgs Hc H. unfold prior_from_idata. fold cfgs. destruct cfgs as [|kc0 cr] eqn:Ec; [congruence|]. rewrite <- Ec in *.
  destruct (dmem cfgs "idata"); [reflexivity|]. destruct (flatten posterior cfgs) as [[m info]|e] eqn:E; [|reflexivity]. cbn [bind]. unfold mvn_prior.
  destruct (smem name taken); [reflexivity|]. rewrite register_err; [reflexivity|].
  assert (HC : map v_cfg info = map snd cfgs).
  { unfold flatten in E. destruct (flatten_from posterior 0 cfgs) as [[vars inf]|] eqn:F; [|discriminate]. cbn [bind] in E.
    assert (inf = info) by (destruct vars as [|v vs]; [discriminate|]; destruct (forallb _ _); [injection E as _ ->; reflexivity|discriminate]). subst inf. clear -F.
    revert vars info F. generalize 0. induction cfgs as [|[k c] r IH]; intros b vars info F; cbn [flatten_from] in F.
    - injection F as <- <-. reflexivity.
    - destruct (dget posterior k); [|discriminate]. destruct (flatten_from posterior _ r) as [[v2 i2]|] eqn:F2; [|discriminate]. cbn [bind] in F. injection F as <- <-.
      cbn [map snd v_cfg]. f_equal. eapply IH; eauto. }
  destruct H as [H|(kc & Hk & Ht)].
  - left. rewrite map_map. cbn [fst snd rebuild]. rewrite <- (map_map v_cfg c_name), HC, map_map. exact H.
  - right. assert (Hs : In (snd kc) (map v_cfg info)) by (rewrite HC; now apply in_map). apply in_map_iff in Hs as (i & Ei & Hi).
    exists (rebuild (interim zero add mul avg m (chol m) base) i, c_dims (v_cfg i)). split; [now apply in_map with (f := fun i => (rebuild _ i, c_dims (v_cfg i)))|]. cbn [fst snd rebuild]. rewrite Ei. exact Ht.
Qed.
(** A posterior variable called idata can never be taken over, whatever is asked. *)
Theorem C45_idata_refuted taken name chol base (posterior : trace) var_names kwargs :
  In "idata"%string var_names -> prior_from_idata zero add mul avg taken name chol base posterior var_names kwargs = Err TypeError.
Proof.
  intros H. unfold prior_from_idata.
  assert (M : dmem (parse_args var_names kwargs) "idata" = true).
  { unfold parse_args. assert (P1 : forall d, dmem d "idata" = true -> dmem (fold_left (fun acc kv => dset acc (fst kv) (arg_to_param_cfg (V := V) (fst kv) (snd kv))) kwargs d) "idata" = true).
    { clear. induction kwargs as [|kv r IH]; intros d Hd; auto. cbn [fold_left]. apply IH. unfold dmem in *. rewrite dget_dset. destruct (String.eqb _ _); auto. }
    apply P1. clear -H. assert (P2 : forall d, dmem d "idata" = true \/ In "idata"%string var_names -> dmem (fold_left (fun acc v => dset acc v (arg_to_param_cfg (V := V) v ANone)) var_names d) "idata" = true).
    { clear. induction var_names as [|v r IH]; intros d Hd; [destruct Hd as [?|[]]; auto|]. cbn [fold_left]. apply IH. unfold dmem in *. rewrite dget_dset.
      destruct (String.eqb_spec "idata" v); auto. destruct Hd as [Hd|[Hd|Hd]]; auto; congruence. }
    apply P2. auto. }
  rewrite M. destruct (parse_args var_names kwargs); [discriminate|reflexivity].
Qed.
End Props.
(** two variables, a vector with a shift as transform and a scalar *)
Definition ex_shift : @transform nat := {| forward := fun x => {| tshape := tshape x; entries := map S (entries x) |}; backward := fun x => {| tshape := tshape x; entries := map pred (entries x) |} |}.
Definition ex_trace : @trace nat := [("a"%string, [{| tshape := [2]; entries := [1; 2] |}; {| tshape := [2]; entries := [3; 4] |}]); ("b"%string, [{| tshape := []; entries := [7] |}; {| tshape := []; entries := [9] |}])].
Example C44_example : exists cfgs info,
  parse_args ["b"%string] [("a"%string, ATransform ex_shift)] = cfgs /\ good_trace ex_trace cfgs 2 [1; 2] /\
  flatten ex_trace cfgs = Ok ([[7; 2; 3]; [9; 4; 5]], info) /\
  rebuild_all [9; 4; 5] info = [("b"%string, {| tshape := []; entries := [9] |}); ("a"%string, {| tshape := [2]; entries := [3; 4] |})].
Proof.
  eexists; eexists; split; [reflexivity|]. split; [|split; reflexivity].
  cbn. constructor; [|constructor; [|constructor]]; cbn [fst snd]; eexists; eexists; (split; [reflexivity|]); (split; [reflexivity|]); intros x [<-|[<-|[]]]; split; reflexivity.
Qed.
