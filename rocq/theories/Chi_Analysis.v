(** Real analysis behind the Chi and Maxwell distributions: the Gaussian integral, and improper integrals over (0, oo) under substitution. No model code here. *)
From Coq Require Import Reals Lra Psatz.
From Coquelicot Require Import Coquelicot.
Local Open Scope R_scope.
Ltac eqR := match goal with |- @eq _ ?a ?b => change (@eq R a b) end.

(** * int_0^oo exp(-t^2) dt = sqrt(PI)/2 *)
Definition gs (t : R) : R := exp (- t ^ 2).
Lemma gs_cont t : continuous gs t.
Proof. apply (ex_derive_continuous gs). unfold gs. auto_derive. trivial. Qed.
Lemma gs_int a b : ex_RInt gs a b.
Proof. apply (@ex_RInt_continuous R_CompleteNormedModule). intros; apply gs_cont. Qed.
Definition ga (x : R) := RInt gs 0 x.
Lemma ga_d (x : R) : is_derive ga x (gs x).
Proof. apply (is_derive_RInt gs ga 0). apply filter_forall. intros b. apply (@RInt_correct R_CompleteNormedModule gs), gs_int. apply gs_cont. Qed.
Definition gb1 (x t : R) := exp (- x ^ 2 * (1 + t ^ 2)) / (1 + t ^ 2).
Lemma one_sq t : 1 + t ^ 2 <> 0. Proof. pose proof (pow2_ge_0 t). lra. Qed.
Lemma gb1_d (x t : R) : is_derive (fun u => gb1 u t) x (- 2 * x * exp (- x ^ 2 * (1 + t ^ 2))).
Proof. unfold gb1. auto_derive. trivial. eqR. set (E := exp _). simpl in E. field. pose proof (pow2_ge_0 t). nra. Qed.
Lemma gb1_ct x t : continuous (gb1 x) t.
Proof. apply (ex_derive_continuous (gb1 x)). unfold gb1. auto_derive. pose proof (one_sq t). simpl in H. repeat split; exact H. Qed.
Lemma gb1_int x a b : ex_RInt (gb1 x) a b.
Proof. apply (@ex_RInt_continuous R_CompleteNormedModule (gb1 x)). intros; apply gb1_ct. Qed.
Definition gb (x : R) := RInt (gb1 x) 0 1.
Lemma cont_1d f x : continuous f x -> continuity_pt f x.
Proof. intros H. apply continuity_pt_filterlim. exact H. Qed.
Lemma gb_d (x : R) : is_derive gb x (RInt (fun t => - 2 * x * exp (- x ^ 2 * (1 + t ^ 2))) 0 1).
Proof.
  assert (E : RInt (fun t => Derive (fun u => gb1 u t) x) 0 1 = RInt (fun t => - 2 * x * exp (- x ^ 2 * (1 + t ^ 2))) 0 1).
  { apply RInt_ext. intros t _. apply is_derive_unique, gb1_d. }
  rewrite <- E. apply (is_derive_RInt_param gb1 0 1 x).
  - apply filter_forall. intros y t _. eexists. apply gb1_d.
  - intros t _. apply continuity_2d_pt_ext with (f := fun u v => (- 2 * u) * exp (- u ^ 2 * (1 + v ^ 2))).
    { intros u v. symmetry. apply is_derive_unique, gb1_d. }
    apply continuity_2d_pt_mult.
    + apply (continuity_1d_2d_pt_comp (fun z => -2 * z) (fun u v => u)); [|apply continuity_2d_pt_id1]. apply cont_1d, (ex_derive_continuous (fun z => -2 * z)). auto_derive; trivial.
    + apply (continuity_1d_2d_pt_comp exp (fun u v => - u ^ 2 * (1 + v ^ 2))). { apply cont_1d, (ex_derive_continuous exp). auto_derive; trivial. }
      apply (continuity_2d_pt_mult (fun u v => - u ^ 2) (fun u v => 1 + v ^ 2)).
      * apply (continuity_1d_2d_pt_comp (fun z => - z ^ 2) (fun u v => u)); [|apply continuity_2d_pt_id1]. apply cont_1d, (ex_derive_continuous (fun z => - z ^ 2)). auto_derive; trivial.
      * apply (continuity_1d_2d_pt_comp (fun z => 1 + z ^ 2) (fun u v => v)); [|apply continuity_2d_pt_id2]. apply cont_1d, (ex_derive_continuous (fun z => 1 + z ^ 2)). auto_derive; trivial.
  - apply filter_forall. intros y. apply gb1_int.
Qed.
Lemma gb_d_eq x : RInt (fun t => - 2 * x * exp (- x ^ 2 * (1 + t ^ 2))) 0 1 = - 2 * gs x * ga x.
Proof.
  assert (E : ga x = RInt (fun t => x * gs (x * t)) 0 1).
  { unfold ga. assert (H := RInt_comp gs (fun t => x * t) (fun _ => x) 0 1).
    replace 0 with (x * 0) at 1 by ring. replace x with (x * 1) at 2 by ring. rewrite <- H.
    - apply RInt_ext. intros t _. reflexivity.
    - intros. apply gs_cont.
    - intros. split. auto_derive; trivial. ring. apply continuous_const. }
  rewrite E. replace (-2 * gs x * RInt (fun t => x * gs (x * t)) 0 1) with (scal (-2 * gs x) (RInt (fun t => x * gs (x * t)) 0 1)) by reflexivity.
  rewrite <- (RInt_scal (fun t => x * gs (x * t)) 0 1 (-2 * gs x)).
  - apply RInt_ext. intros t _. change (-2 * x * exp (- x ^ 2 * (1 + t ^ 2)) = -2 * gs x * (x * gs (x * t))). unfold gs.
    replace (- x ^ 2 * (1 + t ^ 2)) with (- x ^ 2 + - (x * t) ^ 2) by ring. rewrite exp_plus. ring.
  - apply (@ex_RInt_continuous R_CompleteNormedModule (fun t => x * gs (x * t))). intros. apply (ex_derive_continuous (fun t => x * gs (x * t))). unfold gs. auto_derive; trivial.
Qed.
Lemma gb0 : gb 0 = PI / 4.
Proof.
  unfold gb. rewrite (RInt_ext _ (fun t => / (1 + t ^ 2))).
  2: { intros t _. unfold gb1. replace (- 0 ^ 2 * (1 + t ^ 2)) with 0 by ring. rewrite exp_0. unfold Rdiv. eqR. ring. }
  assert (H : is_RInt (fun t => / (1 + t ^ 2)) 0 1 (minus (atan 1) (atan 0))).
  { apply (is_RInt_derive atan).
    - intros t _. apply is_derive_Reals. apply derivable_pt_lim_atan.
    - intros t _. apply (ex_derive_continuous (fun t => / (1 + t ^ 2))). auto_derive. pose proof (one_sq t) as Q. simpl in Q. repeat split; exact Q. }
  rewrite (is_RInt_unique _ _ _ _ H). rewrite atan_1, atan_0. unfold minus, plus, opp. simpl. lra.
Qed.
Lemma ga_gb x : 0 < x -> ga x ^ 2 + gb x = PI / 4.
Proof.
  intros Hx. rewrite <- gb0.
  assert (D : forall t, is_derive (fun z => ga z ^ 2 + gb z) t 0).
  { intros t. evar_last. apply (is_derive_plus (fun z => ga z ^ 2) gb).
    - apply (is_derive_pow ga 2 t (gs t)). apply ga_d.
    - apply gb_d.
    - rewrite gb_d_eq. unfold plus. simpl. ring. }
  assert (E := eq_is_derive (fun z => ga z ^ 2 + gb z) 0 x (fun t _ => D t) Hx). cbv beta in E.
  assert (ga 0 = 0) by (unfold ga; apply (RInt_point 0 gs)). rewrite H in E. lra.
Qed.
Lemma gb_bound x : 0 <= gb x <= exp (- x ^ 2).
Proof.
  assert (P : forall t, 0 < 1 + t ^ 2) by (intros t; pose proof (pow2_ge_0 t); lra).
  split.
  - apply (RInt_ge_0 (gb1 x) 0 1); [lra | apply gb1_int |]. intros t _. apply Rlt_le. unfold gb1. apply Rdiv_lt_0_compat; [apply exp_pos | apply P].
  - replace (exp (- x ^ 2)) with (RInt (fun _ => exp (- x ^ 2)) 0 1).
    2: { rewrite RInt_const. unfold scal. simpl. unfold mult. simpl. ring. }
    apply RInt_le; [lra | apply gb1_int | apply ex_RInt_const |]. intros t _. unfold gb1. apply Rle_div_l; [apply P |].
    rewrite <- (Rmult_1_r (exp (- x ^ 2 * (1 + t ^ 2)))). apply Rmult_le_compat.
    + apply Rlt_le, exp_pos.
    + lra.
    + pose proof (pow2_ge_0 t). pose proof (pow2_ge_0 x). destruct (Rle_lt_or_eq_dec (- x ^ 2 * (1 + t ^ 2)) (- x ^ 2)) as [L | Q]; [nra | apply Rlt_le, exp_increasing, L | rewrite Q; lra].
    + pose proof (pow2_ge_0 t). lra.
Qed.
Lemma exp_m2_lim : is_lim (fun x => exp (- x ^ 2)) p_infty 0.
Proof.
  apply is_lim_comp with (l := m_infty).
  - apply is_lim_exp_m.
  - apply (is_lim_le_m_loc (fun x => - x)).
    + exists 1. intros x Hx. nra.
    + evar_last. apply (is_lim_opp (fun x => x)). apply is_lim_id. reflexivity.
  - exists 0. intros x _. discriminate.
Qed.
Lemma gb_lim : is_lim gb p_infty 0.
Proof.
  apply (is_lim_le_le_loc (fun _ => 0) (fun x => exp (- x ^ 2))).
  - exists 0. intros x _. apply gb_bound.
  - apply is_lim_const.
  - apply exp_m2_lim.
Qed.
Lemma ga_pos x : 0 < x -> 0 < ga x.
Proof. intros Hx. unfold ga. apply (RInt_gt_0 gs); [exact Hx | intros; apply exp_pos | intros; apply gs_cont]. Qed.
Lemma gauss_lim : is_lim ga p_infty (sqrt PI / 2).
Proof.
  apply (is_lim_ext_loc (fun x => sqrt (PI / 4 - gb x))).
  { exists 0. intros x Hx. rewrite <- (ga_gb x Hx). replace (ga x ^ 2 + gb x - gb x) with (ga x ^ 2) by ring. rewrite <- Rsqr_pow2. apply sqrt_Rsqr. apply Rlt_le, ga_pos, Hx. }
  assert (S : sqrt PI / 2 = sqrt (PI / 4 - 0)).
  { rewrite Rminus_0_r. unfold Rdiv. rewrite sqrt_mult_alt; [|apply Rlt_le, PI_RGT_0]. f_equal. replace (/ 4) with ((/ 2)²) by (unfold Rsqr; lra). rewrite sqrt_Rsqr; lra. }
  rewrite S. apply (is_lim_comp_continuous (fun x => PI / 4 - gb x) sqrt).
  - evar_last. apply is_lim_minus'. apply is_lim_const. apply gb_lim. reflexivity.
  - apply continuity_pt_filterlim, continuity_pt_sqrt. pose proof PI_RGT_0. lra.
Qed.

(** * Improper integrals over (0, oo) *)
Notation pos2 := (filter_prod (at_right 0) (Rbar_locally p_infty)).
Notation is_RInt0 f l := (is_RInt_gen f (at_right 0) (Rbar_locally p_infty) l).
Lemma pos2_pos : pos2 (fun ab => 0 < fst ab <= snd ab).
Proof.
  exists (fun x => 0 < x <= 1) (fun x => 1 < x).
  - exists (mkposreal 1 Rlt_0_1). intros y B H. unfold ball in B. simpl in B. unfold AbsRing_ball, abs, minus, plus, opp in B. simpl in B. apply Rabs_def2 in B. lra.
  - exists 1. easy.
  - intros x y Hx Hy. simpl. lra.
Qed.
Lemma RInt0_of (f : R -> R) (l : R) : (forall x, 0 < x -> continuous f x) -> filterlim (fun ab => RInt f (fst ab) (snd ab)) pos2 (locally l) -> is_RInt0 f l.
Proof.
  intros C L P HP. unfold filtermapi. assert (K : pos2 (fun ab => P (RInt f (fst ab) (snd ab)) /\ 0 < fst ab <= snd ab)). { apply filter_and; [apply (L P HP) | apply pos2_pos]. } revert K. apply filter_imp. intros [a b] [K1 K2]. simpl in *. exists (RInt f a b). split; [|exact K1].
  apply (@RInt_correct R_CompleteNormedModule f). apply (@ex_RInt_continuous R_CompleteNormedModule). intros z Hz. apply C. rewrite Rmin_left in Hz by lra. lra.
Qed.
Lemma RInt0_to (f : R -> R) (l : R) : is_RInt0 f l -> filterlim (fun ab => RInt f (fst ab) (snd ab)) pos2 (locally l).
Proof. intros L P HP. specialize (L P HP). unfold filtermapi in L. unfold filtermap. revert L. apply filter_imp. intros [a b] [y [I Py]]. simpl in *. rewrite (is_RInt_unique _ _ _ _ I). exact Py. Qed.
Lemma RInt0_unique (f : R -> R) (l l' : R) : is_RInt0 f l -> is_RInt0 f l' -> l = l'.
Proof. intros H H'. transitivity (RInt_gen f (at_right 0) (Rbar_locally p_infty)); [symmetry; exact (is_RInt_gen_unique f l H) | exact (is_RInt_gen_unique f l' H')]. Qed.
Lemma RInt0_ext (f g : R -> R) (l : R) : (forall x, 0 < x -> f x = g x) -> is_RInt0 f l -> is_RInt0 g l.
Proof. intros E. apply is_RInt_gen_ext. generalize pos2_pos. apply filter_imp. intros [a b] H x [Hx _]. apply E. simpl in *. rewrite Rmin_left in Hx by lra. lra. Qed.
Lemma RInt0_scal (f : R -> R) (k l : R) : is_RInt0 f l -> is_RInt0 (fun x => k * f x) (k * l).
Proof. intros H. apply (is_RInt_gen_scal f k l H). Qed.
(** substitution *)
Lemma RInt0_comp (f g dg : R -> R) (l : R) : (forall x, 0 < x -> continuous f x) -> (forall x, 0 < x -> 0 < g x) -> (forall x, 0 < x -> is_derive g x (dg x)) -> (forall x, 0 < x -> continuous dg x) ->
  filterlim g (at_right 0) (at_right 0) -> filterlim g (Rbar_locally p_infty) (Rbar_locally p_infty) -> is_RInt0 f l -> is_RInt0 (fun x => dg x * f (g x)) l.
Proof.
  intros C G D CD L0 L1 I. apply RInt0_of.
  { intros x Hx. apply (continuous_mult dg (fun x => f (g x))); [apply CD, Hx |]. apply continuous_comp; [|apply C, G, Hx]. apply (ex_derive_continuous g). eexists; apply D, Hx. }
  apply filterlim_ext_loc with (f := fun ab => RInt f (fst (g (fst ab), g (snd ab))) (snd (g (fst ab), g (snd ab)))).
  { generalize pos2_pos. apply filter_imp. intros [a b] H. simpl in *. symmetry. apply (RInt_comp f g dg a b); rewrite Rmin_left, Rmax_right by lra; intros x Hx; [apply C, G; lra | split; [apply D | apply CD]; lra]. }
  apply (filterlim_comp _ _ _ (fun ab => (g (fst ab), g (snd ab))) (fun ab => RInt f (fst ab) (snd ab)) _ pos2); [|apply RInt0_to, I].
  apply filterlim_pair; [apply (filterlim_comp _ _ _ fst g _ (at_right 0)); [apply filterlim_fst | exact L0] | apply (filterlim_comp _ _ _ snd g _ (Rbar_locally p_infty)); [apply filterlim_snd | exact L1]].
Qed.
(** antiderivatives vanishing at both ends *)
Lemma RInt0_derive (F f : R -> R) (la lb : R) : (forall x, 0 < x -> is_derive F x (f x)) -> (forall x, 0 < x -> continuous f x) ->
  filterlim F (at_right 0) (locally la) -> filterlim F (Rbar_locally p_infty) (locally lb) -> is_RInt0 f (lb - la).
Proof.
  intros D C L0 L1. apply RInt0_of; [exact C |].
  apply filterlim_ext_loc with (f := fun ab => minus (F (snd ab)) (F (fst ab))).
  { generalize pos2_pos. apply filter_imp. intros [a b] H. simpl in *. symmetry. apply is_RInt_unique. apply (is_RInt_derive F); rewrite Rmin_left, Rmax_right by lra; intros x Hx; [apply D | apply C]; lra. }
  unfold minus. apply (filterlim_comp_2 (fun ab : R * R => F (snd ab)) (fun ab : R * R => opp (F (fst ab))) plus (F := pos2) (G := locally lb) (H := locally (opp la))).
  - apply (filterlim_comp _ _ _ snd F _ (Rbar_locally p_infty)); [apply filterlim_snd | exact L1].
  - apply (filterlim_comp _ _ _ (fun ab : R * R => F (fst ab)) opp _ (locally la)); [|apply (filterlim_opp la)]. apply (filterlim_comp _ _ _ fst F _ (at_right 0)); [apply filterlim_fst | exact L0].
  - apply (filterlim_plus lb (opp la)).
Qed.
