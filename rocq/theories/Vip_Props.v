(** C47 (the VIP reparametrization leaves the model unchanged) and C48 (its lambdas). *)
From Verif Require Import Common Dict.
Import List ListNotations.
From Verif Require Import Repr_Model Vip_Model.
From Coq Require Import Reals Lra Psatz.
Open Scope R_scope.

(** * C47 *)
Lemma pow_split scale lam : scale > 0 -> powr scale (1 - lam) * powr scale lam = scale.
Proof. intros H. unfold powr. rewrite <- Rpower_plus. replace (1 - lam + lam) with 1 by ring. now apply Rpower_1. Qed.
(** one variable: the same function of the noise, for every lambda *)
Theorem C47_normal loc scale lam noise : scale > 0 -> vip_normal loc scale lam (vip_normal_tau loc scale lam noise) = normal_rv loc scale noise.
Proof. intros H. unfold vip_normal, vip_normal_tau, normal_rv. rewrite <- (pow_split scale lam H) at 3. ring. Qed.
Theorem C47_exponential scale lam noise : scale > 0 -> vip_exponential scale lam (vip_exponential_tau scale lam noise) = exponential_rv scale noise.
Proof. intros H. unfold vip_exponential, vip_exponential_tau, exponential_rv. rewrite <- (pow_split scale lam H) at 3. ring. Qed.
(** the ends: lambda 1 is the original (centered) variable, lambda 0 is standard noise (non-centered) *)
Theorem C47_ends loc scale noise tau : scale > 0 ->
  vip_normal_tau loc scale 1 noise = normal_rv loc scale noise /\ vip_normal loc scale 1 tau = tau /\
  vip_normal_tau loc scale 0 noise = noise /\ vip_normal loc scale 0 tau = loc + scale * tau.
Proof.
  intros H. unfold vip_normal_tau, vip_normal, normal_rv, powr. rewrite Rminus_diag_eq by reflexivity. replace (1 - 0) with 1 by ring. rewrite Rpower_1, Rpower_O by auto. repeat split; ring.
Qed.
(** the densities agree too: density of tau = density of the variable it maps to, times the derivative of the map *)
Definition normal_pdf (mu sigma x : R) : R := / (sigma * sqrt (2 * PI)) * exp (- ((x - mu) / sigma)² / 2).
Definition exponential_pdf (scale x : R) : R := if Rlt_dec x 0 then 0 else / scale * exp (- (x / scale)).
Theorem C47_normal_density loc scale lam tau : scale > 0 ->
  derivable_pt_lim (vip_normal loc scale lam) tau (powr scale (1 - lam)) /\
  normal_pdf (lam * loc) (powr scale lam) tau = normal_pdf loc scale (vip_normal loc scale lam tau) * powr scale (1 - lam).
Proof.
  intros H. assert (P : forall l, 0 < powr scale l) by (intros; apply exp_pos). pose proof (P lam) as P1. pose proof (P (1 - lam)) as P2. pose proof (pow_split scale lam H) as PS.
  assert (S : 0 < sqrt (2 * PI)) by (apply sqrt_lt_R0; pose proof PI_RGT_0; lra). split.
  - intros eps He. exists (mkposreal 1 Rlt_0_1). intros h Hh _. unfold vip_normal.
    match goal with |- Rabs ?x < _ => replace x with 0 by (field; auto) end. now rewrite Rabs_R0.
  - unfold normal_pdf, vip_normal. clear P. revert P1 P2 PS. generalize (powr scale lam) as b, (powr scale (1 - lam)) as a. intros a b P1 P2 PS. subst scale.
    replace ((loc + b * (tau - lam * loc) - loc) / (b * a)) with ((tau - lam * loc) / a) by (field; split; lra). field. repeat split; lra.
Qed.
Theorem C47_exponential_density scale lam tau : scale > 0 ->
  derivable_pt_lim (vip_exponential scale lam) tau (powr scale (1 - lam)) /\
  exponential_pdf (powr scale lam) tau = exponential_pdf scale (vip_exponential scale lam tau) * powr scale (1 - lam).
Proof.
  intros H. assert (P : forall l, 0 < powr scale l) by (intros; apply exp_pos). pose proof (P lam) as P1. pose proof (P (1 - lam)) as P2. pose proof (pow_split scale lam H) as PS. split.
  - intros eps He. exists (mkposreal 1 Rlt_0_1). intros h Hh _. unfold vip_exponential.
    match goal with |- Rabs ?x < _ => replace x with 0 by (field; auto) end. now rewrite Rabs_R0.
  - unfold exponential_pdf, vip_exponential. destruct (Rlt_dec tau 0) as [L|L], (Rlt_dec (powr scale (1 - lam) * tau) 0) as [M|M]; try (exfalso; nra); [ring|].
    clear P M. revert P1 P2 PS. generalize (powr scale lam) as b, (powr scale (1 - lam)) as a. intros a b P1 P2 PS. subst scale.
    replace (b * tau / (b * a)) with (tau / a) by (field; split; lra). field. split; lra.
Qed.
(** whole models: any hierarchy, any choice of variables and lambdas *)
Fixpoint scales_positive (m : list node) (noise earlier : list R) : Prop :=
  match m, noise with
  | n :: m', z :: noise' => (match n with Normal _ s | Exponential s => s earlier > 0 | Other _ => True end) /\ scales_positive m' noise' (earlier ++ [draw n earlier z])
  | _, _ => True
  end.
Fixpoint supported (m : list node) (lams : list (option R)) : Prop :=
  match m, lams with
  | n :: m', l :: lams' => match n, l with Other _, Some _ => False | _, _ => supported m' lams' end
  | [], [] => True
  | _, _ => False
  end.
Theorem C47_model m lams noise : supported m lams -> length noise = length m -> scales_positive m noise [] ->
  vip_sample m lams noise [] = Ok (sample m noise []).
Proof.
  generalize (@nil R) as e. revert lams noise. induction m as [|n m IH]; intros [|l lams] [|z noise] e Hs Hl Hp; try discriminate; try contradiction; [reflexivity|].
  cbn [vip_sample sample]. cbn in Hp. destruct Hp as (Hp1 & Hp2). cbn [length] in Hl. injection Hl as Hl.
  assert (E : match l with Some lam => vip_draw n lam e z | None => Ok (draw n e z) end = Ok (draw n e z) /\ supported m lams).
  { cbn in Hs. destruct l as [lam|]; [|destruct n; auto]. destruct n; [| |contradiction]; cbn [vip_draw draw]; (split; [f_equal|auto]); [now apply C47_normal|now apply C47_exponential]. }
  destruct E as (E & Hs'). rewrite E. cbn [bind]. rewrite (IH lams noise) by auto. reflexivity.
Qed.
(** variables of other kinds are refused *)
Theorem C47_other_kinds m lams noise i f lam : nth_error m i = Some (Other f) -> nth_error lams i = Some (Some lam) -> length noise = length m -> length lams = length m ->
  is_ok (vip_sample m lams noise []) = false.
Proof.
  generalize (@nil R) as e. revert lams noise i. induction m as [|n m IH]; intros [|l lams] [|z noise] [|i] e Hm Hl H1 H2; try discriminate.
  - cbn in Hm, Hl. injection Hm as ->. injection Hl as ->. reflexivity.
  - cbn [vip_sample]. destruct (match l with Some lam => _ | None => _ end) as [x|]; [|reflexivity]. cbn [bind].
    cbn in H1, H2. specialize (IH lams noise i (e ++ [x]) Hm Hl ltac:(lia) ltac:(lia)). destruct (vip_sample m lams noise (e ++ [x])); [discriminate|reflexivity].
Qed.
(** eight schools in the small: mean, spread and one effect, half-centered *)
Example C47_example : let m := [Normal (fun _ => 0) (fun _ => 5); Exponential (fun _ => 2); Normal (fun e => nth 0 e 0) (fun e => nth 1 e 0)] in
  supported m [None; None; Some (1 / 2)] /\ scales_positive m [1; 3; 1] [] /\ vip_sample m [None; None; Some (1 / 2)] [1; 3; 1] [] = Ok [5; 6; 11].
Proof.
  cbv zeta. split; [cbn; auto|]. split; [cbn; unfold normal_rv, exponential_rv; lra|]. rewrite C47_model; [|cbn; auto|reflexivity|cbn; unfold normal_rv, exponential_rv; lra].
  cbn. unfold normal_rv, exponential_rv. repeat f_equal; lra.
Qed.

(** * C48 *)
(** ** Specification *)
(** the lambda of a variable at an index, as get_lambda reports it *)
Definition lam (st : state) (name : string) (idx : list nat) : option er := option_map (fun a => aval a idx) (dget (get_lambda st) name).
Definition shape_of (st : state) (name : string) : option (list nat) := option_map ash (dget st name).
Definition valid (idx sh : list nat) : Prop := Forall2 lt idx sh.
(** what can be a lambda; anything else is stored as NaN *)
Definition stored (x y : er) : Prop :=
  match x with
  | Fin p => (0 <= p <= 1 -> y = Fin p) /\ (p < 0 \/ 1 < p -> y = NaN)
  | _ => y = NaN
  end.
(** ** Proofs *)
Lemma lam_eq st name idx : lam st name idx = option_map (fun a => expit (aval a idx)) (dget st name).
Proof. unfold lam, get_lambda. induction st as [|[k a] st IH]; [reflexivity|]. cbn. destruct (String.eqb name k); auto. Qed.
Lemma expit_logit x : stored x (expit (logit x)).
Proof.
  destruct x as [p| | |]; cbn; auto. destruct (Rlt_dec p 0) as [L|L]; [split; [lra|auto]|]. destruct (Req_EM_T p 0) as [->|N]; [split; [auto|lra]|].
  destruct (Rlt_dec p 1) as [M|M].
  - split; [|lra]. intros _. cbn. f_equal. rewrite exp_Ropp, exp_ln; [|apply Rdiv_lt_0_compat; lra]. field. lra.
  - destruct (Req_EM_T p 1) as [->|N1]; [split; [auto|lra]|]. split; [lra|auto].
Qed.
Lemma stored_fun x y z : stored x y -> stored x z -> y = z.
Proof.
  destruct x as [p| | |]; cbn; try congruence. intros (A & B) (C & D). destruct (Rlt_dec p 0); [rewrite B, D; auto|]. destruct (Rlt_dec 1 p); [rewrite B, D; auto|]. rewrite A, C; auto; lra.
Qed.
Lemma expit_range x : (exists p, expit x = Fin p /\ 0 <= p <= 1) \/ expit x = NaN.
Proof.
  destruct x as [r| | |]; cbn; auto; left; [|exists 1; split; auto; lra|exists 0; split; auto; lra]. eexists; split; [reflexivity|]. pose proof (exp_pos (- r)).
  split; [apply Rlt_le, Rinv_0_lt_compat; lra|]. rewrite <- Rinv_1. apply Rinv_le_contravar; lra.
Qed.
Lemma set_frame kw : forall st k, ~ In k (dkeys kw) -> dget (fst (set_lambda st kw)) k = dget st k.
Proof.
  induction kw as [|[k' v] kw IH]; intros st k H; [reflexivity|]. cbn [set_lambda dkeys map fst] in *. destruct (dget st k') as [sh|]; [|reflexivity].
  destruct (broadcast_to _ _) as [fill|]; [|reflexivity]. rewrite IH by (intros E; apply H; now right). rewrite dget_dset. destruct (String.eqb_spec k k'); auto. subst. exfalso. apply H. now left.
Qed.
Lemma broadcast_shape v sh a : broadcast_to v sh = Ok a -> ash a = sh.
Proof. unfold broadcast_to. destruct (_ && _)%bool; [|discriminate]. intros H. injection H as <-. reflexivity. Qed.
Lemma set_shapes kw : forall st k, shape_of (fst (set_lambda st kw)) k = shape_of st k.
Proof.
  induction kw as [|[k' v] kw IH]; intros st k; [reflexivity|]. cbn [set_lambda]. destruct (dget st k') as [sh|] eqn:E; [|reflexivity].
  destruct (broadcast_to _ _) as [fill|] eqn:B; [|reflexivity]. rewrite IH. unfold shape_of. rewrite dget_dset. destruct (String.eqb_spec k k'); auto. subst. rewrite E. cbn.
  now rewrite (broadcast_shape _ _ _ B).
Qed.
Lemma dkeys_set kw : forall st, dkeys (fst (set_lambda st kw)) = dkeys st.
Proof.
  induction kw as [|[k' v] kw IH]; intros st; [reflexivity|]. cbn [set_lambda]. destruct (dget st k') as [sh|] eqn:E; [|reflexivity].
  destruct (broadcast_to _ _) as [fill|] eqn:B; [|reflexivity]. rewrite IH, dkeys_dset. replace (smem k' (dkeys st)) with true; auto. symmetry. apply smem_in.
  apply dget_in in E. apply (in_map fst) in E. exact E.
Qed.
(** ** set_lambda *)
(** Every variable named gets the values given (repeated along the axes of length 1, as numpy broadcasts them); values outside [0, 1] become NaN. *)
Theorem C48_set st kw st' : NoDup (dkeys kw) -> set_lambda st kw = (st', None) ->
  forall k v, In (k, v) kw -> exists sh, shape_of st k = Some sh /\ shape_of st' k = Some sh /\
    forall idx, exists y, lam st' k idx = Some y /\ stored (aval v (bcast_idx (ash v) sh idx)) y.
Proof.
  revert st. induction kw as [|[k' v'] kw IH]; intros st ND H k v Hin; [easy|]. cbn [set_lambda] in H. cbn [dkeys map fst] in ND. inversion ND as [|? ? Hn ND']; subst.
  destruct (dget st k') as [sh|] eqn:E; [|discriminate]. destruct (broadcast_to _ _) as [fill|] eqn:B; [|discriminate]. destruct Hin as [Hin|Hin].
  - injection Hin as <- <-. exists (ash sh). split; [unfold shape_of; now rewrite E|].
    assert (D : dget st' k' = Some fill).
    { replace st' with (fst (set_lambda (dset st k' fill) kw)) by now rewrite H. rewrite set_frame by auto. rewrite dget_dset, String.eqb_refl. reflexivity. }
    split; [unfold shape_of; rewrite D; cbn; now rewrite (broadcast_shape _ _ _ B)|]. intros idx. rewrite lam_eq, D. cbn [option_map]. eexists; split; [reflexivity|].
    unfold broadcast_to in B. destruct (_ && _)%bool; [|discriminate]. injection B as <-. cbn [aval ash]. apply expit_logit.
  - destruct (IH _ ND' H k v Hin) as (sh' & A & C & D). exists sh'. split; [|auto]. rewrite <- A. unfold shape_of. rewrite dget_dset. destruct (String.eqb_spec k k'); auto. subst.
    exfalso. apply Hn. now apply (in_map fst) in Hin.
Qed.
(** Which calls are accepted: known variables and values that broadcast to their shape. *)
Theorem C48_set_accepted st kw : NoDup (dkeys kw) ->
  (snd (set_lambda st kw) = None <-> forall k v, In (k, v) kw -> exists sh, shape_of st k = Some sh /\ (length (ash v) <= length sh)%nat /\ bcast_ok (ash v) sh = true).
Proof.
  revert st. induction kw as [|[k' v'] kw IH]; intros st ND; [cbn; split; [easy|auto]|]. cbn [set_lambda dkeys map fst] in *. inversion ND as [|? ? Hn ND']; subst. split.
  - destruct (dget st k') as [sh|] eqn:E; [|discriminate]. destruct (broadcast_to _ _) as [fill|] eqn:B; [|discriminate]. intros H k v [Hin|Hin].
    + injection Hin as <- <-. exists (ash sh). split; [unfold shape_of; now rewrite E|]. unfold broadcast_to in B. cbn [ash] in B.
      destruct (Nat.leb_spec (length (ash v')) (length (ash sh))); [|discriminate]. destruct (bcast_ok (ash v') (ash sh)); [auto|discriminate].
    + destruct (proj1 (IH _ ND') H k v Hin) as (sh' & A & C). exists sh'. split; auto. rewrite <- A. unfold shape_of. rewrite dget_dset. destruct (String.eqb_spec k k'); auto. subst.
      exfalso. apply Hn. now apply (in_map fst) in Hin.
  - intros H. destruct (H k' v' (or_introl eq_refl)) as (sh & A & B & C). unfold shape_of in A. destruct (dget st k') as [a|] eqn:E; [|discriminate]. cbn in A. injection A as <-.
    unfold broadcast_to. cbn [ash]. rewrite (proj2 (Nat.leb_le _ _) B), C. cbn [andb]. apply IH; auto. intros k v Hin. destruct (H k v (or_intror Hin)) as (sh' & A & D). exists sh'. split; auto.
    rewrite <- A. unfold shape_of. rewrite dget_dset. destruct (String.eqb_spec k k'); auto. subst. exfalso. apply Hn. now apply (in_map fst) in Hin.
Qed.
(** ** only the variables named *)
Definition names_not (k : string) (c : call) : Prop :=
  match c with Set_ kw => ~ In k (dkeys kw) | Truncate kw => ~ In k (dkeys kw) | SetAll _ | TruncateAll _ => False end.
Lemma truncate_keys lams kw u : truncate_update lams kw = Ok u -> dkeys u = dkeys kw.
Proof.
  revert u. induction kw as [|[k e] kw IH]; intros u H; cbn in H; [injection H as <-; reflexivity|]. destruct (dget lams k); [|discriminate].
  destruct (truncate_update lams kw) as [u'|]; [|discriminate]. cbn in H. injection H as <-. cbn. f_equal. now apply IH.
Qed.
(** whatever the history of calls, also calls that raise: a variable none of them names keeps its lambdas, and every variable keeps its shape *)
Theorem C48_named_only st cs k : Forall (names_not k) cs -> dget (run st cs) k = dget st k.
Proof.
  revert st. unfold run. induction cs as [|c cs IH]; intros st H; [reflexivity|]. inversion H as [|? ? H1 H2]; subst. cbn [fold_left]. rewrite IH by auto.
  destruct c as [kw|v|kw|e]; cbn [names_not run1] in *; try contradiction; [now apply set_frame|]. unfold run1, truncate_lambda. destruct (truncate_update _ _) as [u|] eqn:E; [|reflexivity].
  apply set_frame. now rewrite (truncate_keys _ _ _ E).
Qed.
Theorem C48_shapes_kept st cs k : shape_of (run st cs) k = shape_of st k.
Proof.
  revert st. unfold run. induction cs as [|c cs IH]; intros st; [reflexivity|]. cbn [fold_left]. rewrite IH.
  destruct c as [kw|v|kw|e]; unfold run1, set_all_lambda, truncate_all_lambda, truncate_lambda; try apply set_shapes; destruct (truncate_update _ _); try apply set_shapes; reflexivity.
Qed.
(** ** truncation *)
Lemma bcast_self sh idx : valid idx sh -> bcast_idx sh sh idx = idx.
Proof.
  unfold bcast_idx. rewrite Nat.sub_diag. cbn [skipn]. induction 1 as [|i n idx sh Hi _ IH]; [reflexivity|]. cbn [combine map]. rewrite IH. f_equal. destruct (Nat.eqb_spec n 1); auto. lia.
Qed.
Lemma bcast_ok_self sh : bcast_ok sh sh = true.
Proof. unfold bcast_ok. induction (rev sh) as [|n l IH]; [reflexivity|]. cbn. rewrite Nat.eqb_refl. exact IH. Qed.
Lemma truncate_update_ok st kw : (forall k e, In (k, e) kw -> shape_of st k <> None) -> exists u, truncate_update (get_lambda st) kw = Ok u /\
  forall k a, In (k, a) u -> exists e b, In (k, e) kw /\ dget st k = Some b /\ ash a = ash b /\ forall idx, aval a idx = piecewise e (expit (aval b idx)).
Proof.
  induction kw as [|[k e] kw IH]; intros H; [exists []; split; [reflexivity|easy]|]. destruct IH as (u & E & F); [intros; eapply H; right; eauto|]. cbn [truncate_update].
  assert (G : dget (get_lambda st) k = option_map (fun a => {| ash := ash a; aval := fun i => expit (aval a i) |}) (dget st k)).
  { clear. induction st as [|[k' a] st IH]; [reflexivity|]. cbn. destruct (String.eqb k k'); auto. }
  specialize (H k e (or_introl eq_refl)). unfold shape_of in H. rewrite G. destruct (dget st k) as [b|] eqn:D; [|cbn in H; congruence]. cbn [option_map]. rewrite E. cbn [bind].
  eexists; split; [reflexivity|]. intros k0 a [Hin|Hin].
  - injection Hin as <- <-. exists e, b. repeat split; auto. now left.
  - destruct (F k0 a Hin) as (e0 & b0 & A & B). exists e0, b0. split; [now right|auto].
Qed.
(** one entry: clipped to 0 below eps, to 1 above 1 - eps, to one of the two where both hold (eps > 1/2), kept otherwise *)
Definition clipped (eps : R) (x y : er) : Prop :=
  match x with
  | Fin l => (l < eps -> ~ l > 1 - eps -> y = Fin 0) /\ (l > 1 - eps -> ~ l < eps -> y = Fin 1) /\ (l < eps -> l > 1 - eps -> y = Fin 0 \/ y = Fin 1) /\ (eps <= l <= 1 - eps -> y = Fin l)
  | _ => y = x
  end.
Lemma truncate_effect st kw : NoDup (dkeys kw) -> (forall k e, In (k, e) kw -> shape_of st k <> None) ->
  exists st', truncate_lambda st kw = (st', None) /\ dkeys st' = dkeys st /\
    forall k e, In (k, e) kw -> forall sh idx, shape_of st k = Some sh -> valid idx sh -> exists x, lam st k idx = Some x /\ lam st' k idx = Some (piecewise e x).
Proof.
  intros ND H. destruct (truncate_update_ok st kw H) as (u & E & F). unfold truncate_lambda. rewrite E.
  assert (NDu : NoDup (dkeys u)) by (rewrite (truncate_keys _ _ _ E); auto).
  assert (A : snd (set_lambda st u) = None).
  { apply C48_set_accepted; auto. intros k a Hin. destruct (F k a Hin) as (e & b & _ & D & S & _). exists (ash b). split; [unfold shape_of; now rewrite D|]. rewrite S. split; auto. apply bcast_ok_self. }
  destruct (set_lambda st u) as [st' o] eqn:ES. cbn in A. subst o. exists st'. split; auto. split; [replace st' with (fst (set_lambda st u)) by (rewrite ES; auto); apply dkeys_set|].
  intros k e Hin sh idx Hsh Hv. assert (Hk : In k (dkeys u)) by (rewrite (truncate_keys _ _ _ E); apply (in_map fst) in Hin; exact Hin).
  apply in_map_iff in Hk as ((k0 & a) & Ek & Hk). cbn in Ek. subst k0. destruct (F k a Hk) as (e' & b & He & D & S & V).
  assert (e' = e). { pose proof (in_dget kw k e ND Hin) as Q1. pose proof (in_dget kw k e' ND He) as Q2. congruence. } subst e'.
  unfold shape_of in Hsh. rewrite D in Hsh. cbn in Hsh. injection Hsh as <-. exists (expit (aval b idx)). rewrite !lam_eq, D. split; [reflexivity|].
  destruct (C48_set st u st' NDu ES k a Hk) as (sh' & S1 & S2 & L). unfold shape_of in S1. rewrite D in S1. cbn in S1. injection S1 as <-.
  destruct (L idx) as (y & Ly & St). rewrite <- lam_eq, Ly. f_equal. rewrite S, bcast_self, V in St by auto.
  eapply stored_fun; [exact St|]. destruct (expit_range (aval b idx)) as [(p & Ep & Hp)|Ep]; rewrite Ep; cbn.
  - unfold piecewise, er_lt. destruct (Rlt_dec (1 - e) p); [cbn; split; [auto|lra]|]. destruct (Rlt_dec p e); cbn; split; auto; lra.
  - reflexivity.
Qed.
Theorem C48_truncate st kw : NoDup (dkeys kw) -> (forall k e, In (k, e) kw -> shape_of st k <> None) ->
  exists st', truncate_lambda st kw = (st', None) /\
    forall k e, In (k, e) kw -> forall sh idx, shape_of st k = Some sh -> valid idx sh -> exists x y, lam st k idx = Some x /\ lam st' k idx = Some y /\ clipped e x y.
Proof.
  intros ND H. destruct (truncate_effect st kw ND H) as (st' & E & _ & T). exists st'. split; auto. intros k e Hin sh idx Hs Hv.
  destruct (T k e Hin sh idx Hs Hv) as (x & A & B). exists x, (piecewise e x). split; auto. split; auto. destruct x as [l| | |]; cbn; auto.
  unfold piecewise, er_lt. destruct (Rlt_dec (1 - e) l), (Rlt_dec l e); repeat split; auto; lra.
Qed.
Lemma piecewise_idem e x : (exists p, x = Fin p /\ 0 <= p <= 1) \/ x = NaN -> piecewise e (piecewise e x) = piecewise e x.
Proof.
  intros [(p & -> & Hp)| ->]; [|reflexivity]. unfold piecewise, er_lt.
  repeat match goal with |- context [Rlt_dec ?a ?b] => destruct (Rlt_dec a b) end; auto; try lra.
Qed.
(** truncating twice is truncating once, for every threshold *)
Theorem C48_idempotent st kw : NoDup (dkeys kw) -> (forall k e, In (k, e) kw -> shape_of st k <> None) ->
  exists st' st'', truncate_lambda st kw = (st', None) /\ truncate_lambda st' kw = (st'', None) /\
    forall k sh idx, shape_of st k = Some sh -> valid idx sh -> lam st'' k idx = lam st' k idx.
Proof.
  intros ND H. destruct (truncate_effect st kw ND H) as (st' & E & _ & T). exists st'.
  assert (S : forall k, shape_of st' k = shape_of st k) by (intros k; pose proof (C48_shapes_kept st [Truncate kw] k) as Q; unfold run, run1 in Q; cbn [fold_left] in Q; rewrite E in Q; exact Q).
  destruct (truncate_effect st' kw ND) as (st'' & E' & _ & T'); [intros k e Hin; rewrite S; eapply H; eauto|]. exists st''. split; auto. split; auto.
  intros k sh idx Hs Hv. destruct (in_dec string_dec k (dkeys kw)) as [Hk|Hk].
  - apply in_map_iff in Hk as ((k0 & e) & Ek & Hk). cbn in Ek. subst k0. destruct (T k e Hk sh idx Hs Hv) as (x & A & B).
    destruct (T' k e Hk sh idx (eq_trans (S k) Hs) Hv) as (x' & A' & B'). rewrite B in A'. injection A' as <-. rewrite B', B. f_equal. apply piecewise_idem.
    rewrite lam_eq in A. destruct (dget st k); [|discriminate]. injection A as <-. apply expit_range.
  - assert (F : dget st'' k = dget st' k) by (pose proof (C48_named_only st' [Truncate kw] k) as Q; unfold run, run1 in Q; cbn [fold_left] in Q; rewrite E' in Q; apply Q; constructor; auto). rewrite !lam_eq, F. reflexivity.
Qed.
(** ** the calls for all variables *)
Theorem C48_set_all st p st' : NoDup (dkeys st) -> 0 <= p <= 1 -> set_all_lambda st (scalar p) = (st', None) -> forall k idx, In k (dkeys st) -> lam st' k idx = Some (Fin p).
Proof.
  intros ND Hp H k idx Hk. unfold set_all_lambda in H.
  assert (Ek : dkeys (map (fun kv => (fst kv, scalar p)) st) = dkeys st) by (unfold dkeys; rewrite map_map; reflexivity).
  assert (Hin : In (k, scalar p) (map (fun kv => (fst kv, scalar p)) st)).
  { apply in_map_iff in Hk as (kv & <- & Hk). now apply (in_map (fun kv => (fst kv, scalar p))) in Hk. }
  destruct (C48_set st _ st' ltac:(rewrite Ek; auto) H k _ Hin) as (sh & _ & _ & L). destruct (L idx) as (y & Ly & St). rewrite Ly. cbn in St. f_equal. now apply St.
Qed.
Theorem C48_set_all_accepted st p : NoDup (dkeys st) -> snd (set_all_lambda st (scalar p)) = None.
Proof.
  intros ND. unfold set_all_lambda. apply C48_set_accepted; [unfold dkeys; rewrite map_map; exact ND|]. intros k v Hin. apply in_map_iff in Hin as (kv & E & Hin). injection E as <- <-.
  exists (ash (snd kv)). unfold shape_of. destruct kv as [k a]. cbn [fst snd]. rewrite (in_dget st k a ND Hin). cbn [option_map]. split; [reflexivity|]. split; [cbn; lia|]. reflexivity.
Qed.
Theorem C48_truncate_all st e : NoDup (dkeys st) -> exists st', truncate_all_lambda st e = (st', None) /\
  forall k sh idx, shape_of st k = Some sh -> valid idx sh -> exists x y, lam st k idx = Some x /\ lam st' k idx = Some y /\ clipped e x y.
Proof.
  intros ND. unfold truncate_all_lambda. destruct (C48_truncate st (map (fun kv => (fst kv, e)) st)) as (st' & E & T).
  - unfold dkeys. rewrite map_map. exact ND.
  - intros k e0 Hin. apply in_map_iff in Hin as ((k0 & a) & Ek & Hin). cbn in Ek. injection Ek as <- <-. unfold shape_of. rewrite (in_dget st k0 a ND Hin). discriminate.
  - exists st'. split; auto. intros k sh idx Hs Hv. apply (T k e) with (sh := sh); auto. unfold shape_of in Hs. destruct (dget st k) as [a|] eqn:D; [|discriminate].
    apply dget_in in D. now apply (in_map (fun kv => (fst kv, e))) in D.
Qed.
(** ** where the code does something else than documented *)
(** the documentation clips at the thresholds themselves, the code only beyond them *)
Theorem C48_boundary_refuted st k sh idx e : NoDup (dkeys st) -> shape_of st k = Some sh -> valid idx sh -> 0 < e < 1 / 2 -> lam st k idx = Some (Fin e) ->
  exists st', truncate_lambda st [(k, e)] = (st', None) /\ lam st' k idx = Some (Fin e) /\ Fin e <> Fin 0.
Proof.
  intros ND Hs Hv He Hl. destruct (C48_truncate st [(k, e)]) as (st' & E & T); [repeat constructor; easy|intros k0 e0 [H|[]]; injection H as <- <-; congruence|].
  exists st'. split; auto. destruct (T k e (or_introl eq_refl) sh idx Hs Hv) as (x & y & A & B & C). rewrite Hl in A. injection A as <-. cbn in C. rewrite B. split; [f_equal; apply C; lra|].
  intros H. injection H as H. lra.
Qed.
(** a value outside [0, 1] is accepted and turns the lambda into NaN *)
Theorem C48_outside_refuted st k a p : dget st k = Some a -> 1 < p -> exists st', set_lambda st [(k, scalar p)] = (st', None) /\ forall idx, lam st' k idx = Some NaN.
Proof.
  intros D Hp. destruct (set_lambda st [(k, scalar p)]) as [st' o] eqn:E.
  assert (o = None).
  { change o with (snd (st', o)). rewrite <- E. apply C48_set_accepted; [repeat constructor; easy|]. intros k0 v [H|[]]. injection H as <- <-. exists (ash a). unfold shape_of. rewrite D.
    split; [reflexivity|]. split; [cbn; lia|reflexivity]. }
  subst o. exists st'. split; auto. intros idx. destruct (C48_set st [(k, scalar p)] st' ltac:(repeat constructor; easy) E k (scalar p) (or_introl eq_refl)) as (sh & _ & _ & L).
  destruct (L idx) as (y & Ly & St). rewrite Ly. f_equal. cbn in St. apply St. now right.
Qed.
(** two variables, one with three entries *)
Example C48_example : let st := [("a"%string, {| ash := [3%nat]; aval := fun _ => Fin 0 |}); ("b"%string, {| ash := []; aval := fun _ => Fin 0 |})] in
  NoDup (dkeys st) /\ shape_of st "a" = Some [3%nat] /\ lam st "a" [1%nat] = Some (Fin (1 / 2)) /\ valid [1%nat] [3%nat] /\
  exists st', set_lambda st [("a"%string, scalar (1 / 10))] = (st', None) /\ lam st' "a" [2%nat] = Some (Fin (1 / 10)) /\ lam st' "b" [] = Some (Fin (1 / 2)).
Proof.
  cbv zeta. split; [repeat constructor; cbn; intuition discriminate|]. split; [reflexivity|]. split; [cbn; do 2 f_equal; rewrite Ropp_0, exp_0; lra|]. split; [repeat constructor|].
  eexists. split; [reflexivity|]. split.
  - rewrite lam_eq. cbn [dget String.eqb Ascii.eqb Bool.eqb dset option_map aval ash]. f_equal.
    match goal with |- expit (logit ?x) = _ => pose proof (expit_logit x) as S end. cbn [stored] in S. apply S. lra.
  - cbn. do 2 f_equal. rewrite Ropp_0, exp_0. lra.
Qed.
