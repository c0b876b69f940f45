(** C51 (the tempering loop), C52 (particles to variables) for the SMC sampler. *)
From Verif Require Import Common Dict.
Import List ListNotations.
From Verif Require Import Flat_Model FindMap_Model Laplace_Model Smc_Model Flat_Props FindMap_Props.
Open Scope nat_scope.

(** * C51 *)
Section Loop.
Context {S I K Q : Type} (zero : Q) (below_one : S -> bool) (split : K -> K * K) (step : K -> S -> S * I) (quantities : S -> I -> Q).
(** The run, independently of the loop: keys and states of iteration t, and what iteration t computes *)
Fixpoint key_at (key : K) (t : nat) : K := match t with 0 => key | Datatypes.S t => fst (split (key_at key t)) end.
Fixpoint state_at (key : K) (s0 : S) (t : nat) : S :=
  match t with 0 => s0 | Datatypes.S t => fst (step (snd (split (key_at key t))) (state_at key s0 t)) end.
Definition quantities_of (key : K) (s0 : S) (t : nat) : Q :=
  let r := step (snd (split (key_at key t))) (state_at key s0 t) in quantities (fst r) (snd r).
(** the history after t iterations *)
Definition history (key : K) (s0 : S) (cap t : nat) : list Q :=
  map (fun i => if i <? t then quantities_of key s0 i else zero) (seq 0 cap).

Lemma at_set_nth (h : list Q) i v : forall j d, nth j (at_set h i v) d = if (j =? i) && (j <? length h) then v else nth j h d.
Proof.
  revert i. induction h as [|x h IH]; intros i j d; cbn [at_set length]; [destruct j; cbn; rewrite ?andb_false_r; auto|].
  destruct i; destruct j; cbn [nth]; auto. rewrite IH. reflexivity.
Qed.
Lemma at_set_length (h : list Q) i v : length (at_set h i v) = length h.
Proof. revert i. induction h as [|x h IH]; intros [|i]; cbn; auto. Qed.
Lemma history_length key s0 cap t : length (history key s0 cap t) = cap.
Proof. unfold history. now rewrite map_length, seq_length. Qed.
Lemma history_nth key s0 cap t j : j < cap -> nth j (history key s0 cap t) zero = if j <? t then quantities_of key s0 j else zero.
Proof.
  intros H. unfold history. rewrite (nth_indep _ zero ((fun i => if i <? t then quantities_of key s0 i else zero) 0)) by (rewrite map_length, seq_length; auto).
  rewrite (map_nth (fun i => if i <? t then quantities_of key s0 i else zero)), seq_nth by auto. reflexivity.
Qed.
Lemma history_step key s0 cap t : at_set (history key s0 cap t) t (quantities_of key s0 t) = history key s0 cap (t + 1).
Proof.
  apply nth_ext with zero zero; [rewrite at_set_length, !history_length; auto|]. rewrite at_set_length, history_length. intros j Hj.
  rewrite at_set_nth, history_length, !history_nth by auto. destruct (Nat.ltb_spec j cap); [|lia]. rewrite andb_true_r.
  destruct (Nat.eqb_spec j t), (Nat.ltb_spec j t), (Nat.ltb_spec j (t + 1)); subst; auto; lia.
Qed.
Lemma history_0 key s0 cap : history key s0 cap 0 = initial_diagnosis zero cap.
Proof.
  unfold history, initial_diagnosis. generalize 0 at 2. induction cap; intros a; cbn; auto. f_equal. apply IHcap.
Qed.
Definition carry_at key s0 cap t : carry := (t, state_at key s0 t, key_at key t, history key s0 cap t).
Lemma one_step_at key s0 cap t : one_step split step quantities (carry_at key s0 cap t) = carry_at key s0 cap (t + 1).
Proof.
  unfold carry_at, one_step. rewrite <- history_step. rewrite Nat.add_1_r. cbn [state_at key_at]. unfold quantities_of.
  destruct (split (key_at key t)) as [k subk]. cbn [fst snd]. destruct (step subk (state_at key s0 t)). reflexivity.
Qed.
Lemma while_from key s0 cap t c' : while_loop below_one split step quantities (carry_at key s0 cap t) c' ->
  exists n, t <= n /\ c' = carry_at key s0 cap n /\ below_one (state_at key s0 n) = false /\ forall j, t <= j < n -> below_one (state_at key s0 j) = true.
Proof.
  remember (carry_at key s0 cap t) as c eqn:Ec. intros H. revert t Ec. induction H as [c Hc|c c' Hc H IH]; intros t ->.
  - exists t. repeat split; auto. intros; lia.
  - rewrite one_step_at in IH. destruct (IH (t + 1) eq_refl) as (n & Hn & E & Hb & Hj). exists n. repeat split; auto; [lia|].
    intros j Hj'. destruct (Nat.eq_dec j t) as [->|]; [exact Hc|]. apply Hj. lia.
Qed.
Lemma while_to key s0 cap n : below_one (state_at key s0 n) = false -> forall d t, t + d = n -> (forall j, t <= j < n -> below_one (state_at key s0 j) = true) ->
  while_loop below_one split step quantities (carry_at key s0 cap t) (carry_at key s0 cap n).
Proof.
  intros Hb. induction d as [|d IH]; intros t Ht Hj.
  - rewrite Nat.add_0_r in Ht. subst. apply while_stop. exact Hb.
  - apply while_step; [apply Hj; lia|]. rewrite one_step_at. apply IH; [lia|]. intros j Hj'. apply Hj. lia.
Qed.
(** The loop ends with n iterations exactly when n is the first iteration count whose temperature is not below one; it returns that state, and row j of the diagnosis is what
    iteration j computed (zero where there was no iteration j), for every j below the cap *)
Theorem C51_loop key s0 cap n final diagnosis :
  inference_loop zero below_one split step quantities key s0 cap n final diagnosis <->
  below_one (state_at key s0 n) = false /\ (forall j, j < n -> below_one (state_at key s0 j) = true) /\
  final = state_at key s0 n /\ length diagnosis = cap /\
  (forall j, j < cap -> nth j diagnosis zero = if j <? n then quantities_of key s0 j else zero).
Proof.
  unfold inference_loop. rewrite <- (history_0 key s0 cap). change (0, s0, key, history key s0 cap 0) with (carry_at key s0 cap 0). split.
  - intros (k & H). destruct (while_from _ _ _ _ _ H) as (n' & _ & E & Hb & Hj). injection E as -> -> -> ->. repeat split; auto.
    + intros j Hj'. apply Hj. lia.
    + apply history_length.
    + intros j Hj'. apply history_nth; auto.
  - intros (Hb & Hj & -> & Hl & Hd). exists (key_at key n).
    replace diagnosis with (history key s0 cap n).
    + apply while_to with (d := n); auto. intros j Hj'. apply Hj. lia.
    + apply nth_ext with zero zero; [rewrite history_length; auto|]. rewrite history_length. intros j Hj'. rewrite history_nth, Hd; auto.
Qed.
(** the number of iterations and the result are determined by the schedule *)
Theorem C51_deterministic key s0 cap n n' final final' d d' :
  inference_loop zero below_one split step quantities key s0 cap n final d -> inference_loop zero below_one split step quantities key s0 cap n' final' d' ->
  n = n' /\ final = final' /\ d = d'.
Proof.
  intros H H'. apply C51_loop in H, H'. destruct H as (Hb & Hj & -> & Hl & Hd), H' as (Hb' & Hj' & -> & Hl' & Hd').
  assert (n = n').
  { destruct (Nat.lt_trichotomy n n') as [Hlt|[|Hlt]]; auto; [rewrite Hj' in Hb by auto|rewrite Hj in Hb' by auto]; discriminate. }
  subst n'. repeat split. apply nth_ext with zero zero; [congruence|]. rewrite Hl. intros j Hj2. rewrite Hd, Hd' by auto. reflexivity.
Qed.
End Loop.
Definition temper : nat -> nat * nat := fun s => (s + 4, s).
Example C51_case : inference_loop 0 (fun s => s <? 10) (fun k : nat => (k + 1, k)) (fun _ s => temper s) (fun s i => s) 0 0 2 3 12 [4; 8].
Proof.
  apply C51_loop. cbn. repeat split; auto.
  - intros [|[|[|j]]] H; try reflexivity; lia.
  - intros [|[|j]] H; try reflexivity; lia.
Qed.
(** the run is reported under its own names unless an inner-kernel parameter has the same name *)
Theorem C51_attributes {A} (attrs experiment kernel : dict A) evolutions pack cap time k v :
  NoDup (dkeys experiment) -> NoDup (dkeys kernel) -> k <> "running_time_seconds"%string ->
  dget experiment k = Some v ->
  dget (add_to_inference_data attrs experiment kernel evolutions pack cap time) k = match dget kernel k with Some w => Some w | None => Some v end.
Proof.
  intros H1 H2 Hk Hv. unfold add_to_inference_data. rewrite dget_dset. destruct (String.eqb_spec k "running_time_seconds"); [congruence|].
  rewrite !dget_dupdate by auto. rewrite Hv. destruct (dget kernel k); auto.
Qed.
Theorem C51_attributes_diagnosis {A} (attrs experiment kernel : dict A) evolutions pack cap time k v :
  NoDup (dkeys experiment) -> NoDup (dkeys kernel) -> NoDup (dkeys evolutions) -> k <> "running_time_seconds"%string ->
  dget experiment k = None -> dget kernel k = None -> dget evolutions k = Some v ->
  dget (add_to_inference_data attrs experiment kernel evolutions pack cap time) k = Some (pack (firstn cap v)).
Proof.
  intros H1 H2 H3 Hk Hn1 Hn2 Hv. unfold add_to_inference_data. rewrite dget_dset. destruct (String.eqb_spec k "running_time_seconds"); [congruence|].
  rewrite !dget_dupdate by auto. rewrite Hn1, Hn2. clear Hn1 Hn2 H1 H2. revert attrs. induction evolutions as [|[k' w] r IH]; [discriminate|]. intros attrs. cbn [fold_left fst snd].
  inversion H3; subst. cbn [dget] in Hv. destruct (String.eqb_spec k k') as [->|N].
  - injection Hv as <-. clear -H1. revert attrs.
    assert (G : forall attrs x, dget attrs k' = Some x -> dget (fold_left (fun acc kv => dset acc (fst kv) (pack (firstn cap (snd kv)))) r attrs) k' = Some x).
    { induction r as [|[k2 w2] r IH]; intros attrs x Hx; auto. cbn [fold_left fst snd]. apply IH.
      - cbn in H1. tauto.
      - rewrite dget_dset. destruct (String.eqb_spec k' k2); auto. subst. cbn in H1. tauto. }
    intros attrs. apply G. rewrite dget_dset, String.eqb_refl. reflexivity.
  - apply IH; auto.
Qed.
(** the warning that iterations are missing from the diagnosis is given when none are, and not given when some are *)
Theorem C51_warning_refuted total cap : total <> cap -> (warns total cap = true <-> ~ cap < total).
Proof. intros H. unfold warns. rewrite Nat.ltb_lt. lia. Qed.
(** kernels: anything but HMC and NUTS is refused; the required parameters must be given *)
Theorem C51_kernel {A} kernel (params : dict A) : is_ok (mcmc_parameters kernel params) = true <->
  (kernel = "HMC"%string /\ In "step_size"%string (dkeys params) /\ In "integration_steps"%string (dkeys params)) \/
  (kernel = "NUTS"%string /\ In "step_size"%string (dkeys params)).
Proof.
  unfold mcmc_parameters. assert (G : forall k, (exists v, dget params k = Some v) <-> In k (dkeys params)).
  { intros k. pose proof (dget_none params k) as E. destruct (dget params k) as [v|]; split; eauto.
    - intros _. destruct (in_dec string_dec k (dkeys params)); auto. apply E in n. discriminate.
    - intros [v H]; discriminate.
    - intros H. exfalso. now apply E. }
  rewrite <- !G. destruct (String.eqb_spec kernel "HMC") as [->|N].
  - destruct (dget params "step_size"%string); cbn; [destruct (dget params "integration_steps"%string); cbn|].
    + split; auto. intros _. left. eauto.
    + split; [discriminate|]. intros [(_ & _ & [v H])|(H & _)]; discriminate.
    + split; [discriminate|]. intros [(_ & [v H] & _)|(H & _)]; discriminate.
  - destruct (String.eqb_spec kernel "NUTS") as [->|N2].
    + destruct (dget params "step_size"%string); cbn; split; auto; [intros _; right; eauto|discriminate|]. intros [(H & _)|(_ & [v H])]; discriminate.
    + split; [discriminate|]. intros [(H & _)|(H & _)]; congruence.
Qed.

(** * C52, the SMC part *)
Section Particles.
Context {V : Type}.
Lemma Forall2_length {A B} (R : A -> B -> Prop) l l' : Forall2 R l l' -> length l = length l'.
Proof. induction 1; cbn; congruence. Qed.
(** the i-th draw of an array of draws *)
Definition draw_of (a : arr V) (shape : list nat) (i : nat) : arr V := {| ashape := shape; adata := firstn (size shape) (skipn (i * size shape) (adata a)) |}.
(** n draws of a variable of a shape; a scalar's draws may carry the extra unit axis *)
Definition draws_of (n : nat) (shape : list nat) (a : arr V) : Prop := wf a /\ (ashape a = n :: shape \/ (shape = [] /\ ashape a = [n; 1])).
Lemma squeeze_draws n shape a : n <> 1 -> Forall (fun d => d <> 1) shape -> draws_of n shape a -> ashape (squeeze a) = n :: shape.
Proof.
  intros Hn Hs [_ [E|[-> E]]]; unfold squeeze; cbn [ashape]; rewrite E; cbn [filter].
  - destruct (Nat.eqb_spec n 1); [congruence|]. cbn [negb]. f_equal. apply filter_all. intros d Hd. rewrite Forall_forall in Hs. specialize (Hs d Hd).
    destruct (Nat.eqb_spec d 1); [congruence|reflexivity].
  - destruct (Nat.eqb_spec n 1); [congruence|]. reflexivity.
Qed.
Lemma particle_ok n shape a i : i < n -> n <> 1 -> Forall (fun d => d <> 1) shape -> draws_of n shape a -> particle a i = Ok (draw_of a shape i).
Proof.
  intros Hi Hn Hs Hd. unfold particle. cbv zeta. rewrite (squeeze_draws n shape a) by auto. rewrite Nat.min_l by lia. unfold index0. rewrite (squeeze_draws n shape a) by auto.
  destruct (Nat.ltb_spec i n); [|lia]. unfold draw_of, squeeze; cbn [adata]. rewrite slice_skip. reflexivity.
Qed.
(** every recorded point holds, under every variable's name, that variable's own draw with its own shape *)
Theorem C52_smc_particles (vars : list (string * list nat)) (particles : list (arr V)) n :
  NoDup (map fst vars) -> vars <> [] -> n >= 2 -> Forall (fun v => Forall (fun d => d <> 1) (snd v)) vars ->
  Forall2 (fun v a => draws_of n (snd v) a) vars particles ->
  exists points, arviz_from_particles vars particles = Ok points /\ length points = n /\
    forall i, i < n -> dkeys (nth i points []) = map fst vars /\
      forall j v a, nth_error vars j = Some v -> nth_error particles j = Some a -> dget (nth i points []) (fst v) = Some (draw_of a (snd v) i).
Proof.
  intros ND Hne Hn Hu HF.
  assert (Hl : length vars = length particles) by (eapply Forall2_length; eauto).
  set (pt := fun i => map (fun p => (fst (fst p), draw_of (snd p) (snd (fst p)) i)) (combine vars particles)).
  exists (map pt (seq 0 n)). split; [|split].
  - unfold arviz_from_particles. destruct particles as [|a ps]; [destruct vars; [congruence|discriminate]|].
    assert (Hs : ashape a = n :: tl (ashape a)). { inversion HF as [|v ? vs ? (_ & [E|[_ E]]) _]; subst; rewrite E; reflexivity. }
    rewrite Hs. rewrite <- Hl, firstn_all.
    assert (Hall : forallb (fun p => smem (fst p) (map fst vars)) vars = true).
    { apply forallb_forall. intros p Hp. apply smem_in. now apply in_map. }
    rewrite Hall. apply mapM_ok. intros i Hi. apply in_seq in Hi. unfold record_point. unfold pt. apply mapM_ok.
    intros [v b] Hin. cbn [fst snd]. assert (Hd : draws_of n (snd v) b /\ In v vars).
    { split; [|apply in_combine_l in Hin; auto]. clear -HF Hin. induction HF; [destruct Hin|]. destruct Hin as [E|Hin]; auto. injection E as <- <-. auto. }
    destruct Hd as [Hd Hv]. rewrite (particle_ok n (snd v)) by (first [lia|assumption|rewrite Forall_forall in Hu; auto]). cbn [bind].
    unfold draw_of at 1; cbn [ashape]. destruct (list_eq_dec Nat.eq_dec (snd v) (snd v)); [reflexivity|congruence].
  - rewrite map_length, seq_length. reflexivity.
  - intros i Hi. rewrite (nth_indep _ [] (pt 0)) by (rewrite map_length, seq_length; auto). rewrite map_nth, seq_nth by auto. cbn [Nat.add].
    assert (K : dkeys (pt i) = map fst vars).
    { unfold pt, dkeys. rewrite map_map. cbn [fst]. clear -Hl. revert particles Hl. induction vars; destruct particles; cbn; intros H; auto; try discriminate. f_equal. auto. }
    split; [exact K|]. intros j v a Hv Ha. apply in_dget; [rewrite K; auto|]. unfold pt. apply in_map_iff. exists (v, a). split; auto.
    clear -Hv Ha. revert vars particles Hv Ha. induction j; destruct vars, particles; cbn; intros; try discriminate.
    + injection Hv as <-. injection Ha as <-. auto.
    + right. eauto.
Qed.
(** from the prior population to the result, with no step in between *)
Theorem C52_smc_population (vars : list (string * list nat)) (population : dict (arr V)) n :
  NoDup (map fst vars) -> vars <> [] -> n >= 2 -> Forall (fun v => Forall (fun d => d <> 1) (snd v)) vars ->
  (forall v, In v vars -> exists a, dget population (fst v) = Some a /\ wf a /\ ashape a = n :: snd v) ->
  exists particles points, particles_from_population (map fst vars) population = Ok particles /\ arviz_from_particles vars particles = Ok points /\ length points = n /\
    forall i v a, i < n -> In v vars -> dget population (fst v) = Some a -> dget (nth i points []) (fst v) = Some (draw_of a (snd v) i).
Proof.
  intros ND Hne Hn Hu Hp.
  set (get := fun v => match dget population v with Some a => format_particles a | None => {| ashape := []; adata := [] |} end).
  exists (map get (map fst vars)).
  assert (E : particles_from_population (map fst vars) population = Ok (map get (map fst vars))).
  { unfold particles_from_population. apply mapM_ok. intros x Hx. apply in_map_iff in Hx. destruct Hx as (v & <- & Hv). destruct (Hp v Hv) as (a & Ha & _).
    unfold get. rewrite Ha. reflexivity. }
  assert (Hdat : forall a : arr V, adata (format_particles a) = adata a).
  { intros a. unfold format_particles. destruct (ashape a) as [|? [|]]; reflexivity. }
  destruct (C52_smc_particles vars (map get (map fst vars)) n ND Hne Hn Hu) as (points & E1 & E2 & E3).
  { rewrite map_map. clear -Hp. induction vars as [|v r IH]; cbn; [constructor|]. constructor; [|apply IH; intros w Hw; apply Hp; right; auto].
    destruct (Hp v (or_introl eq_refl)) as (a & Ha & Hw & Hs). unfold get. rewrite Ha. unfold format_particles, draws_of, wf in *. rewrite Hs in *. destruct (snd v) as [|d s].
    - split; [|right; auto]. cbn in *. lia.
    - split; [rewrite Hs; auto|left; auto]. }
  exists points. repeat split; auto. intros i v a Hi Hv Ha. destruct (E3 i Hi) as [_ G].
  apply In_nth_error in Hv. destruct Hv as (j & Hj).
  rewrite (G j v (get (fst v))); auto.
  - unfold get. rewrite Ha. unfold draw_of. rewrite Hdat. reflexivity.
  - rewrite map_map. rewrite nth_error_map, Hj. reflexivity.
Qed.
(** One particle, or a variable with an axis of length one: refused with an error (the squeeze loses the axis) *)
Lemma filter_shorter {A} (f : A -> bool) l : length (filter f l) <= length l.
Proof. induction l as [|x l IH]; cbn; auto. destruct (f x); cbn; lia. Qed.
Lemma filter_drops {A} (f : A -> bool) l x : In x l -> f x = false -> length (filter f l) < length l.
Proof.
  induction l as [|y l IH]; cbn; [tauto|]. intros [->|H] Hf.
  - rewrite Hf. pose proof (filter_shorter f l). lia.
  - specialize (IH H Hf). destruct (f y); cbn; lia.
Qed.
Theorem C52_smc_unit_refused (vars : list (string * list nat)) (particles : list (arr V)) n :
  vars <> [] -> n >= 1 -> Forall2 (fun v a => wf a /\ ashape a = n :: match snd v with [] => [1] | s => s end) vars particles ->
  n = 1 \/ Exists (fun v => In 1 (snd v)) vars ->
  is_err (arviz_from_particles vars particles) = true.
Proof.
  intros Hne Hn HF Hc.
  assert (Hbad : exists v a, In (v, a) (combine vars particles) /\ ashape a = n :: match snd v with [] => [1] | s => s end /\ (n = 1 \/ In 1 (snd v))).
  { destruct Hc as [->|Hex].
    - destruct HF as [|v a vs ps [_ H] HF]; [congruence|]. exists v, a. split; [left; auto|]. auto.
    - clear Hne. induction HF as [|v a vs ps [_ H] HF IH]; [inversion Hex|]. inversion Hex; subst.
      + exists v, a. split; [left; auto|]. auto.
      + destruct IH as (v' & a' & Hin & Hr); auto. exists v', a'. split; [right; auto|auto]. }
  destruct Hbad as (v & a & Hin & Hs & Hu).
  destruct HF as [|v0 a0 vs ps [_ H0] HF]; [congruence|]. unfold arviz_from_particles. rewrite H0.
  destruct (forallb _ _); [|reflexivity].
  apply mapM_err with (x := 0); [apply in_seq; lia|]. unfold record_point. apply mapM_err with (x := (v, a)); auto. cbn [fst snd].
  unfold particle. cbv zeta. unfold squeeze at 1; cbn [ashape]. rewrite Hs.
  destruct (filter (fun d => negb (d =? 1)) (n :: match snd v with [] => [1] | s => s end)) as [|m r] eqn:Ef; [reflexivity|].
  unfold index0. unfold squeeze at 1; cbn [ashape]. rewrite Hs, Ef. destruct (Nat.min 0 (m - 1) <? m); [|reflexivity]. cbn [bind ashape].
  destruct (list_eq_dec Nat.eq_dec r (snd v)) as [E|]; [|reflexivity]. exfalso. subst r.
  assert (Hlen : length (filter (fun d => negb (d =? 1)) (n :: match snd v with [] => [1] | s => s end)) = S (length (snd v))) by (rewrite Ef; reflexivity).
  destruct Hu as [->|Hu].
  - cbn [filter Nat.eqb negb] in Hlen. destruct (snd v) as [|d s]; [cbn in Hlen; discriminate|].
    pose proof (filter_shorter (fun d => negb (d =? 1)) (d :: s)) as Hx. rewrite Hlen in Hx. lia.
  - destruct (snd v) as [|d s]; [destruct Hu|]. pose proof (filter_drops (fun d => negb (d =? 1)) (n :: d :: s) 1 (or_intror Hu) eq_refl) as Hx. rewrite Hlen in Hx. cbn in Hx. lia.
Qed.
Example C52_smc_case : exists points, arviz_from_particles [("mu", []); ("beta", [2])]%string
    [{| ashape := [2; 1]; adata := [10; 20] |}; {| ashape := [2; 2]; adata := [1; 2; 3; 4] |}] = Ok points /\
  nth 1 points [] = [("mu", {| ashape := []; adata := [20] |}); ("beta", {| ashape := [2]; adata := [3; 4] |})]%string.
Proof. eexists. split; reflexivity. Qed.

(** the mass matrix has one row per entry of the flat particle *)
Theorem C52_smc_dimensions (value_vars : list string) (ip : dict (arr V)) : NoDup value_vars -> dkeys ip = value_vars -> all_wf ip ->
  exists vm, var_map value_vars ip = Ok vm /\ dkeys vm = value_vars /\ posterior_dimensions vm = total (layout_of ip) /\
    forall v a, dget ip v = Some a -> dget vm v = Some (ashape a, size (ashape a)).
Proof.
  intros ND Hk Hw. set (g := fun v => match dget ip v with Some a => (v, (ashape a, length (adata a))) | None => (v, ([], 0)) end).
  assert (Hg : forall v, fst (g v) = v) by (intros v; unfold g; destruct (dget ip v); reflexivity).
  assert (Hkeys : dkeys (map g value_vars) = value_vars). { unfold dkeys. rewrite map_map. erewrite map_ext by (intros; apply Hg). apply map_id. }
  exists (map g value_vars). split; [|split; [|split]]; auto.
  - unfold var_map. rewrite (mapM_ok _ g).
    + cbn [bind]. rewrite dupdate_nil_l; auto. rewrite Hkeys. auto.
    + intros v Hv. unfold g. destruct (dget ip v) eqn:E; auto. exfalso. apply dget_none in E. rewrite Hk in E. auto.
  - subst value_vars. unfold posterior_dimensions. rewrite map_map. clear Hkeys.
    assert (G : forall l : dict (arr V), NoDup (dkeys l) -> (forall k a, In (k, a) l -> dget ip k = Some a) -> fold_right Nat.add 0 (map (fun x => snd (snd (g x))) (dkeys l)) = total (layout_of l)).
    { induction l as [|[k a] r IH]; intros NDl Hl; auto. cbn [dkeys map fst fold_right layout_of total snd]. inversion NDl; subst. unfold total, layout_of, dkeys in *. rewrite IH; auto.
      2: { intros k' a' H'. apply Hl. right; auto. }
      f_equal. unfold g. rewrite (Hl k a) by (left; auto). cbn. apply (Hw k). apply dget_in. apply Hl. left; auto. }
    apply G; auto. intros k a Hin. apply in_dget; auto.
  - intros v a Hv. apply in_dget; [rewrite Hkeys; auto|]. apply in_map_iff. exists v. split.
    + unfold g. rewrite Hv. f_equal. f_equal. apply (Hw v). now apply dget_in.
    + rewrite <- Hk. apply dget_in in Hv. apply in_map_iff. exists (v, a). auto.
Qed.
End Particles.
