(** C54 and C100 for shapes that are treated as zero without being zero (0 < |xi| <= 1e-8): the Gumbel formula on the support of the original shape. *)
From Coq Require Import Reals Lra.
From Coquelicot Require Import Coquelicot.
From Verif Require Import Common LogR Dist_Model Dist_Gev Gev_Spec Gev_Moments.
Open Scope R_scope.

(** A probability is reached exactly when the Gumbel quantile lies in the support of the original shape. *)
Theorem C54_small_xi_range mu sigma xi p : valid sigma xi -> xi <> 0 -> Rabs xi <= 1 / 100000000 -> 0 < p < 1 ->
  (exists x, in_support mu sigma xi x /\ cdf mu sigma xi x = p) <-> 0 < 1 - xi * ln (- ln p).
Proof.
  intros V N Hc Hp. assert (V' := V). destruct V' as (Hs & _).
  assert (EC : isclose0 xi = true) by (unfold isclose0; destruct (Rle_dec _ _); [reflexivity | contradiction]).
  assert (HL : 0 < - ln p) by (assert (ln p < ln 1) by (apply ln_increasing; lra); rewrite ln_1 in *; lra).
  split.
  - intros (x & Hx & E). unfold cdf in E. rewrite logcdf_in in E by auto. cbn [lexp] in E. unfold lc in E. rewrite EC in E.
    rewrite <- E, ln_exp, Ropp_involutive, ln_exp. unfold in_support in Hx. lra.
  - intros H. exists (mu - sigma * ln (- ln p)).
    assert (ES : (mu - sigma * ln (- ln p) - mu) / sigma = - ln (- ln p)) by (field; lra).
    assert (IS : in_support mu sigma xi (mu - sigma * ln (- ln p))) by (unfold in_support; rewrite ES; lra).
    split; [exact IS|]. unfold cdf. rewrite logcdf_in by auto. cbn [lexp]. unfold lc. rewrite EC, ES, Ropp_involutive, exp_ln by auto.
    rewrite Ropp_involutive. apply exp_ln. lra.
Qed.

Section Mass.
Variables mu sigma xi : R.
Hypothesis V : valid sigma xi.
Hypothesis N : xi <> 0.
Hypothesis Hc : Rabs xi <= 1 / 100000000.
Let F x := exp (- exp (- ((x - mu) / sigma))).
Let g x := F x * (exp (- ((x - mu) / sigma)) / sigma).
Lemma F_derive x : is_derive F x (g x).
Proof. destruct V as (Hs & _). unfold F, g. auto_derive; [trivial|]. unfold F. unfold Rdiv, Rminus. ring. Qed.
Lemma g_cont x : continuous g x.
Proof. destruct V as (Hs & _). apply (ex_derive_continuous g). unfold g, F. auto_derive. trivial. Qed.
Lemma pdf_is x : in_support mu sigma xi x -> pdf mu sigma xi x = g x.
Proof.
  intros H. destruct V as (Hs & _). unfold pdf, gev_logp. rewrite gev_check_ok by auto. unfold in_support, gtb in *.
  destruct (Rlt_dec 0 (1 + xi * ((x - mu) / sigma))); [|contradiction]. cbn [lexp].
  unfold isclose0. destruct (Rle_dec _ _); [|contradiction].
  unfold g, F. replace (- ln sigma - (x - mu) / sigma - exp (- ((x - mu) / sigma))) with (- exp (- ((x - mu) / sigma)) + (- ((x - mu) / sigma) + - ln sigma)) by ring.
  rewrite !exp_plus, (exp_Ropp (ln sigma)), exp_ln by auto. reflexivity.
Qed.
Lemma F_end : F (mu - sigma / xi) = exp (- exp (1 / xi)).
Proof. destruct V as (Hs & _). unfold F. do 3 f_equal. field. lra. Qed.
Lemma F_top : filterlim F (Rbar_locally p_infty) (locally 1).
Proof.
  destruct V as (Hs & _). unfold F.
  apply (filterlim_comp _ _ _ (fun x => exp (- ((x - mu) / sigma))) (fun t => exp (- t)) _ (locally 0)).
  - apply (filterlim_comp _ _ _ (fun x => - ((x - mu) / sigma)) exp _ (Rbar_locally m_infty)); [|exact is_lim_exp_m].
    intros P (M & HM). exists (mu - sigma * M). intros x Hx. apply HM.
    apply (Rmult_lt_reg_r sigma); [auto|]. replace (- ((x - mu) / sigma) * sigma) with (mu - x) by (field; lra). lra.
  - replace 1 with (exp (- 0)) by (rewrite Ropp_0; apply exp_0). apply (ex_derive_continuous (fun t => exp (- t))). auto_derive. trivial.
Qed.
Lemma F_bottom : filterlim F (Rbar_locally m_infty) (locally 0).
Proof.
  destruct V as (Hs & _). unfold F.
  apply (filterlim_comp _ _ _ (fun x => - exp (- ((x - mu) / sigma))) exp _ (Rbar_locally m_infty)); [|exact is_lim_exp_m].
  intros P (M & HM). assert (L := is_lim_exp_p). destruct (L (fun y => - M < y)) as (K & HK); [exists (- M); auto|].
  exists (mu - sigma * K). intros x Hx. apply HM. apply Ropp_lt_cancel. rewrite Ropp_involutive. apply HK.
  apply (Rmult_lt_reg_r sigma); [auto|]. replace (- ((x - mu) / sigma) * sigma) with (mu - x) by (field; lra). lra.
Qed.
Lemma F_cont x : continuous F x.
Proof. apply (ex_derive_continuous F). exists (g x). apply F_derive. Qed.
Lemma F_within (D : R -> Prop) c : filterlim F (within D (locally c)) (locally (F c)).
Proof. intros P HP. unfold filtermap, within. assert (H := F_cont c P HP). unfold filtermap in H. revert H. apply filter_imp. auto. Qed.
(** What logp integrates to over the documented support. *)
Theorem C100_small_xi_total : total_is mu sigma xi (pdf mu sigma xi) (if Rlt_dec 0 xi then 1 - exp (- exp (1 / xi)) else exp (- exp (1 / xi))).
Proof.
  unfold total_is, integral_support.
  assert (D : forall x, Derive F x = g x) by (intros x; apply is_derive_unique, F_derive).
  assert (G : forall (Fa Fb : (R -> Prop) -> Prop) (FFa : Filter Fa) (FFb : Filter Fb) la lb,
    filter_prod Fa Fb (fun ab => forall x, Rmin (fst ab) (snd ab) < x < Rmax (fst ab) (snd ab) -> in_support mu sigma xi x) ->
    filterlim F Fa (locally la) -> filterlim F Fb (locally lb) -> is_RInt_gen (pdf mu sigma xi) Fa Fb (lb - la)).
  { intros Fa Fb FFa FFb la lb Hin Ha Hb. apply (is_RInt_gen_ext (Derive F)).
    - revert Hin. apply filter_imp. intros ab H x Hx. rewrite D. symmetry. apply pdf_is, H, Hx.
    - apply is_RInt_gen_Derive; auto; apply filter_forall; intros ab x _.
      + exists (g x). apply F_derive.
      + apply (continuous_ext g); [intros; symmetry; apply D | apply g_cont]. }
  destruct V as (Hs & _). unfold lower_end, upper_end.
  assert (SP : forall x, in_support mu sigma xi x <-> (0 < xi /\ mu - sigma / xi < x \/ xi < 0 /\ x < mu - sigma / xi)).
  { intros x. unfold in_support. assert (E : 1 + xi * ((x - mu) / sigma) = xi * (x - (mu - sigma / xi)) / sigma) by (field; lra).
    rewrite E. assert (Hi : 0 < / sigma) by (apply Rinv_0_lt_compat; auto). set (d := mu - sigma / xi). split.
    - intros H. assert (0 < xi * (x - d)) by (apply (Rmult_lt_reg_r (/ sigma)); [auto | rewrite Rmult_0_l; exact H]).
      destruct (Rlt_le_dec 0 xi); [left | right]; split; try lra; nra.
    - intros H. apply Rmult_lt_0_compat; [|auto]. destruct H as [[? ?]|[? ?]]; nra. }
  destruct (Rlt_dec 0 xi) as [P|P]; destruct (Rlt_dec xi 0) as [Q|Q]; try lra.
  - rewrite <- F_end. apply (G _ _ _ _ _ _); [|apply F_within|exact F_top].
    apply (Filter_prod _ _ _ (fun a => mu - sigma / xi < a) (fun b => mu - sigma / xi < b)).
    + exists (mkposreal 1 Rlt_0_1). intros y _ H. exact H.
    + exists (mu - sigma / xi). auto.
    + intros a b Ha Hb x [Hx _]. apply SP. left. split; [auto|]. simpl in Hx. revert Hx. apply Rlt_trans, Rmin_glb_lt; auto.
  - rewrite <- F_end. replace (F (mu - sigma / xi)) with (F (mu - sigma / xi) - 0) by ring.
    apply (G _ _ _ _ _ _); [|exact F_bottom|apply F_within].
    apply (Filter_prod _ _ _ (fun a => a < mu - sigma / xi) (fun b => b < mu - sigma / xi)).
    + exists (mu - sigma / xi). auto.
    + exists (mkposreal 1 Rlt_0_1). intros y _ H. exact H.
    + intros a b Ha Hb x [_ Hx]. apply SP. right. split; [auto|]. simpl in Hx. apply (Rlt_trans _ _ _ Hx), Rmax_lub_lt; auto.
Qed.
(** It is below one, so C100_total does not extend to these shapes. *)
Theorem C100_small_xi_total_refuted : exists l, total_is mu sigma xi (pdf mu sigma xi) l /\ 0 < l < 1.
Proof.
  eexists. split; [exact C100_small_xi_total|]. assert (E := exp_pos (1 / xi)). assert (A := exp_increasing (- exp (1 / xi)) 0). rewrite exp_0 in A. assert (exp (- exp (1 / xi)) < 1) by (apply A; lra).
  assert (H2 := exp_pos (- exp (1 / xi))). destruct (Rlt_dec 0 xi); lra.
Qed.
End Mass.
Example Gev_small_case : valid 2 (1 / 1000000000) /\ 1 / 1000000000 <> 0 /\ Rabs (1 / 1000000000) <= 1 / 100000000 /\ valid 2 (- (1 / 1000000000)).
Proof. unfold valid. rewrite Rabs_pos_eq by lra. repeat split; lra. Qed.

(** ** The same as C54_cdf_onto and C100, with the tolerance of pt.isclose written out: exactly the shapes at most 1e-8 away from zero are special. *)
Lemma far_from_zero xi : 1 / 100000000 < Rabs xi -> isclose0 xi = false.
Proof. intros H. unfold isclose0. destruct (Rle_dec _ _); [lra | reflexivity]. Qed.
Theorem C54_cdf_onto_shapes mu sigma xi p : valid sigma xi -> xi = 0 \/ 1 / 100000000 < Rabs xi -> 0 < p < 1 ->
  exists x, in_support mu sigma xi x /\ cdf mu sigma xi x = p.
Proof.
  intros V H Hp. exists (quantile mu sigma xi p). apply C54_cdf_onto; auto. destruct H as [H|H]; [right; auto | left; apply far_from_zero, H].
Qed.
Theorem C100_total_shapes mu sigma xi : valid sigma xi -> xi = 0 \/ 1 / 100000000 < Rabs xi -> total_is mu sigma xi (pdf mu sigma xi) 1.
Proof. intros V H. apply C100_total; auto. destruct H as [H|H]; [right; auto | left; apply far_from_zero, H]. Qed.
Theorem C100_moments_shapes mu sigma xi g1 : valid sigma xi -> 1 / 100000000 < Rabs xi -> Gamma_is (1 - xi) g1 ->
  gev_mean_is mu sigma xi (pdf mu sigma xi) (mu + sigma * (g1 - 1) / xi) /\
  forall g2, xi < 1 / 2 -> Gamma_is (1 - 2 * xi) g2 ->
    gev_variance_is mu sigma xi (pdf mu sigma xi) (mu + sigma * (g1 - 1) / xi) (sigma ^ 2 * (g2 - g1 ^ 2) / xi ^ 2).
Proof.
  intros V H H1. assert (HC := far_from_zero _ H). split; [apply C100_mean | intros g2 Hx H2; apply C100_variance]; auto.
Qed.
