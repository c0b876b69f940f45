(** C92: reported covariances are exactly symmetric in computer arithmetic. *)
From Coq Require Import ZArith.
From Flocq Require Import IEEE754.BinarySingleNaN.
From mathcomp Require Import all_ssreflect all_algebra.
From Verif Require Common KalmanScan_Model KalmanScan_Proofs.
From Verif Require Import KFloat_Model KFloat_Double.
Set Implicit Arguments.
Unset Strict Implicit.
Unset Printing Implicit Defensive.
Import GRing.Theory.
Local Open Scope ring_scope.

(** entry (i, k) and entry (k, i) are the same number *)
Definition exactly_symmetric (F : Type) n (X : 'M[F]_n) : Prop := forall i k, X i k = X k i.

Section Sym.
Context (A : arith).
Hypothesis addC : forall x y : num A, add x y = add y x.
Lemma sym_add n (X Y : 'M[num A]_n) : exactly_symmetric X -> exactly_symmetric Y -> exactly_symmetric (madd X Y).
Proof. move=> sX sY i k. by rewrite !mxE (sX i k) (sY i k). Qed.
Lemma sym_quad m n (X : 'M[num A]_(m, n)) B : exactly_symmetric (quad_form_sym X B).
Proof. move=> i k. rewrite !mxE. by rewrite [X in mul _ X]addC. Qed.
Lemma sym_half n (X : 'M[num A]_n) c : exactly_symmetric (mscale c (madd X X^T)).
Proof. move=> i k. rewrite !mxE. by rewrite [X in mul _ X]addC. Qed.
Lemma sym_stab n (X : 'M[num A]_n) j : exactly_symmetric X -> exactly_symmetric (stabilize X j).
Proof. move=> sX i k. rewrite !mxE (sX i k). by rewrite (eq_sym i k). Qed.
Lemma in_firstn (X : Type) q (l : list X) x : List.In x (List.firstn q l) -> List.In x l.
Proof. elim: q l => [|q IH] [|z l] //= [-> | H]; [by left | right; exact: IH]. Qed.
Section Run.
Context (A' Ob OC L Y : Type) (n : nat) (st : Y -> A' -> 'M[num A]_n -> @KalmanScan_Model.step_out A' 'M[num A]_n Ob OC L).
Hypothesis stS : forall u a P, exactly_symmetric (KalmanScan_Model.o_Pf (st u a P)) /\ exactly_symmetric (KalmanScan_Model.o_Phat (st u a P)).
Lemma scan_sym us a P : List.Forall (fun o => exactly_symmetric (KalmanScan_Model.o_Pf o) /\ exactly_symmetric (KalmanScan_Model.o_Phat o)) (KalmanScan_Model.scan st us a P).
Proof. elim: us a P => [|u us IH] a P /=; constructor; [exact: stS | exact: IH]. Qed.
Lemma run_sym us a0 P0 f : KalmanScan_Model.build_graph st us a0 P0 = Common.Ok f ->
  List.Forall (@exactly_symmetric _ n) (KalmanScan_Model.filtered_covs f) /\
  exists Ps, KalmanScan_Model.predicted_covs f = P0 :: Ps /\ List.Forall (@exactly_symmetric _ n) Ps.
Proof.
  rewrite /KalmanScan_Model.build_graph /KalmanScan_Model.postprocess. case: ifP => // _ [<-] /=. have S := scan_sym us a0 P0. split.
  - apply/List.Forall_map. apply: List.Forall_impl S => o []. by [].
  - eexists; split; first by []. rewrite /KalmanScan_Model.drop_last. apply/List.Forall_forall => x Hx. have {}Hx : List.In x (List.map KalmanScan_Model.o_Phat (KalmanScan_Model.scan st us a0 P0)).
    { exact: in_firstn Hx. }
    move/List.in_map_iff: Hx => [o [<- Io]]. by have [] := proj1 (List.Forall_forall _ _) S o Io.
Qed.
End Run.
End Sym.

(** Whatever the rounding and whatever the linear algebra routines return, if addition of two numbers is commutative then every filtered covariance and every predicted covariance after the initial
    one is exactly symmetric -- also when the initial covariance, H, Q or the solver's results are not. *)
Theorem C92_standard_filter_exactly_symmetric :
  forall (A : arith) (jitter fill mvn_const : num A) n p r (us : seq (inputs A n p r)) a0 P0 f,
  (forall x y : num A, add x y = add y x) ->
  std_filter jitter fill mvn_const us a0 P0 = Common.Ok f ->
  List.Forall (@exactly_symmetric _ n) (KalmanScan_Model.filtered_covs f) /\
  exists Ps, KalmanScan_Model.predicted_covs f = P0 :: Ps /\ List.Forall (@exactly_symmetric _ n) Ps.
Proof.
  move=> A jitter fill mvn n p r us a0 P0 f addC. apply: run_sym => u a P. split=> /=; [apply: sym_stab |]; apply: sym_add; exact: sym_quad.
Qed.
Print Assumptions C92_standard_filter_exactly_symmetric.

Theorem C92_univariate_filter_exactly_symmetric :
  forall (A : arith) (jitter mvn_const : num A) count n p r (us : seq (inputs A n p r)) a0 P0 f,
  (forall x y : num A, add x y = add y x) ->
  uni_filter jitter mvn_const count us a0 P0 = Common.Ok f ->
  List.Forall (@exactly_symmetric _ n) (KalmanScan_Model.filtered_covs f) /\
  exists Ps, KalmanScan_Model.predicted_covs f = P0 :: Ps /\ List.Forall (@exactly_symmetric _ n) Ps.
Proof.
  move=> A jitter mvn count n p r us a0 P0 f addC. apply: run_sym => u a P. rewrite /uni_step. case: (uni_scan _ _ _ _ _) => [[[a_f P_s] [mu Fj]] ls] /=. split=> /=.
  - apply: sym_stab. exact: sym_half.
  - apply: sym_add; exact: sym_quad.
Qed.
Print Assumptions C92_univariate_filter_exactly_symmetric.

(** The smoother keeps exact symmetry of the filtered covariances. *)
Theorem C92_smoother_exactly_symmetric :
  forall (A : arith) (jitter jitter_default : num A) n r (filtered : seq ('cV[num A]_n * 'M[num A]_n)) (Ms : seq ('M[num A]_n * 'M[num A]_(n, r) * 'M[num A]_r)) out,
  (forall x y : num A, add x y = add y x) ->
  List.Forall (fun f => exactly_symmetric f.2) filtered ->
  smoother jitter jitter_default filtered Ms = Common.Ok out ->
  List.Forall (fun s => exactly_symmetric s.2) out.
Proof.
  move=> A jitter jd n r filtered Ms out addC. rewrite /smoother /KalmanScan_Model.smooth => S. have Sr := List.Forall_rev S. case: (List.rev filtered) Sr => // last rest Sr [<-].
  have Sl : exactly_symmetric last.2 by inversion Sr.
  apply/List.Forall_app; split; last by constructor. apply: List.Forall_rev.
  have : List.Forall (fun f : 'cV[num A]_n * 'M[num A]_n => exactly_symmetric f.2) (List.rev (KalmanScan_Model.drop_last filtered)).
  { apply: List.Forall_rev. apply/List.Forall_forall => x Hx. apply: (proj1 (List.Forall_forall _ _) S). exact: in_firstn Hx. }
  move: (List.rev _) (List.rev Ms) last Sl {Sr S}. elim=> [|[a P] xs IH] [|[[T Rm] Q] ms] [a_s P_s] Sl Sx /=; try by constructor. inversion Sx; subst.
  have S2 : exactly_symmetric (smoother_step jitter jd (a, P) (a_s, P_s) (T, Rm, Q)).2. { apply: sym_stab. apply: sym_stab. apply: sym_add => //. exact: sym_quad. }
  constructor; first exact: S2. apply: IH => //.
Qed.
Print Assumptions C92_smoother_exactly_symmetric.

(** Filter, then smoother. *)
Theorem C92_filter_then_smoother :
  forall (A : arith) (jitter jitter_default fill mvn_const : num A) n p r (us : seq (inputs A n p r)) a0 P0 f (Ms : seq ('M[num A]_n * 'M[num A]_(n, r) * 'M[num A]_r)) out,
  (forall x y : num A, add x y = add y x) ->
  std_filter jitter fill mvn_const us a0 P0 = Common.Ok f ->
  smoother jitter jitter_default (List.combine (KalmanScan_Model.filtered_states f) (KalmanScan_Model.filtered_covs f)) Ms = Common.Ok out ->
  List.Forall (fun s => exactly_symmetric s.2) out.
Proof.
  move=> A jitter jd fill mvn n p r us a0 P0 f Ms out addC E. apply: C92_smoother_exactly_symmetric => //.
  have [S _] := C92_standard_filter_exactly_symmetric addC E. apply/List.Forall_forall => -[a P] I0. have I := List.in_combine_r _ _ _ _ I0. exact: (proj1 (List.Forall_forall _ _) S P I).
Qed.
Print Assumptions C92_filter_then_smoother.

(** IEEE 754 addition is commutative in every format and rounding mode, signed zeros, infinities and NaN included (one NaN value). *)
Theorem C92_ieee_addition_commutative : forall prec emax (Hp : FLX.Prec_gt_0 prec) (Hpe : Prec_lt_emax prec emax) (m : mode) (x y : binary_float prec emax),
  Bplus m x y = Bplus m y x.
Proof.
  move=> prec emax Hp Hpe m [sx|sx| |sx mx ex Hx] [sy|sy| |sy my ey Hy] //=; try by case: sx; case: sy; case: m.
  rewrite /Bplus /Fplus_naive. by rewrite Z.min_comm Z.add_comm.
Qed.
Print Assumptions C92_ieee_addition_commutative.

(** the forecast covariance of the observations, entry by entry, when matrix products are loops *)
Lemma obs_entry (A : arith) (dot : seq (num A * num A) -> num A) (jitter fill mvn : num A) (u : inputs A 1 2 1) a P :
  (forall m n k (X : 'M[num A]_(m, n)) (Y : 'M[num A]_(n, k)) i j, matmul X Y i j = dot [seq (X i l, Y l j) | l <- enum 'I_n]) ->
  (forall i, nan_mask fill (in_y u) i = false) ->
  let F := KalmanScan_Model.o_cov (std_step jitter fill mvn u a P) in
  let z1 := dot [:: (one A, in_Z u ord0 ord0); (zero A, in_Z u ord_max ord0)] in let z2 := dot [:: (zero A, in_Z u ord0 ord0); (one A, in_Z u ord_max ord0)] in
  let h1 := dot [:: (one A, in_H u ord0 ord_max); (zero A, in_H u ord_max ord_max)] in let h2 := dot [:: (zero A, in_H u ord0 ord0); (one A, in_H u ord_max ord0)] in
  F ord0 ord_max = add (dot [:: (z1, dot [:: (P ord0 ord0, z2)])]) (add h1 (mul (zero A) jitter)) /\
  F ord_max ord0 = add (dot [:: (z2, dot [:: (P ord0 ord0, z1)])]) (add h2 (mul (zero A) jitter)).
Proof.
  move=> EM nm.
  have e2 : enum 'I_2 = [:: ord0; ord_max]. { apply: (inj_map val_inj). by rewrite val_enum_ord. }
  have e1 : enum 'I_1 = [:: ord0]. { apply: (inj_map val_inj). by rewrite val_enum_ord. }
  have EZ : forall i : 'I_2, matmul (maskW A (nan_mask fill (in_y u))) (in_Z u) i ord0 = dot [:: (if i == ord0 then one A else zero A, in_Z u ord0 ord0); (if i == ord_max then one A else zero A, in_Z u ord_max ord0)].
  { move=> i. rewrite EM e2 /= !mxE !nm. by case: i => [[|[|i]] Hi]. }
  have EH : forall i k : 'I_2, matmul (maskW A (nan_mask fill (in_y u))) (in_H u) i k = dot [:: (if i == ord0 then one A else zero A, in_H u ord0 k); (if i == ord_max then one A else zero A, in_H u ord_max k)].
  { move=> i k. rewrite EM e2 /= !mxE !nm. by case: i => [[|[|i]] Hi]. }
  set Zm := matmul _ (in_Z u) in EZ *. set Hm := matmul _ (in_H u) in EH *.
  have EP : forall k, matmul P Zm^T ord0 k = dot [:: (P ord0 ord0, Zm k ord0)]. { move=> k. by rewrite EM e1 /= !mxE. }
  have EF : forall i k, KalmanScan_Model.o_cov (std_step jitter fill mvn u a P) i k = add (dot [:: (Zm i ord0, dot [:: (P ord0 ord0, Zm k ord0)])]) (add (Hm i k) (mul (if i == k then one A else zero A) jitter)).
  { move=> i k. rewrite /= [LHS]mxE. congr (add _ _); first by rewrite -/Zm EM e1 /= EP. by rewrite !mxE. }
  move=> /=. split; rewrite EF !EZ EH; by [].
Qed.
(** IEEE double precision, rounding to nearest even, matrix products as plain loops; the solver, determinant and pseudo-inverse do not matter for what follows and return dummies. *)
Definition double : arith := {|
  num := d64; add := dadd; sub := dsub; mul := dmul; div := ddiv; zero := d0; one := d1; half := dhalf; log := fun x => x; isnan := disnan; eqb := deqb;
  matmul := fun m n k (X : 'M[d64]_(m, n)) (Y : 'M[d64]_(n, k)) => \matrix_(i, j) ddot [seq (X i l, Y l j) | l <- enum 'I_n];
  solve := fun m n _ B => B; pinv := fun m X => X; det := fun m _ => d1 |}.
Theorem C92_doubles_commute : forall x y : num double, add x y = add y x.
Proof. move=> x y. exact: C92_ieee_addition_commutative. Qed.
Print Assumptions C92_doubles_commute.
(** one state with variance 0.1, two series with loadings 3 and 5, no noise *)
Definition two_series : inputs double 1 2 1 := @Inputs double 1 2 1 (\matrix_(i, k) d1) (\matrix_(i, k) d0) (\matrix_(i, k) d0) (\matrix_(i, k) d1)
  (\matrix_(i, k) (if i == ord0 then d3 else d5)) (\matrix_(i, k) d1) (\matrix_(i, k) d0) (\matrix_(i, k) d1).
Opaque dadd dmul ddiv dsub d0 d1 d3 d5 dtenth dfill dhalf ddot disnan deqb.
(** The forecast covariance of the observations carries no such guarantee: in double precision it can be asymmetric. *)
Theorem C92_observed_covs_refuted : exists f F,
  std_filter (A := double) d0 dfill d0 [:: two_series] (\matrix_(i, k) d0) (\matrix_(i, k) dtenth) = Common.Ok f /\
  List.nth_error (KalmanScan_Model.observed_covs f) 0 = Some F /\ ~ exactly_symmetric F.
Proof.
  pose P : 'M[d64]_1 := \matrix_(i, k) dtenth. pose a : 'cV[d64]_1 := \matrix_(i, k) d0.
  have nm : forall i : 'I_2, nan_mask (A := double) dfill (in_y two_series) i = false. { move=> i. rewrite /nan_mask mxE. exact: fill_is_not_one. }
  have EM : forall m n k (X : 'M[d64]_(m, n)) (Y : 'M[d64]_(n, k)) i j, (@matmul double m n k X Y : 'M[d64]_(m, k)) i j = ddot [seq (X i l, Y l j) | l <- enum 'I_n] by move=> *; rewrite mxE.
  have [E1 E2] := @obs_entry double ddot d0 dfill d0 two_series a P EM nm.
  eexists; exists (KalmanScan_Model.o_cov (std_step (A := double) d0 dfill d0 two_series a P)). split; [reflexivity | split; [reflexivity |]]. move=> S. have := S ord0 ord_max. rewrite E1 E2 !mxE. exact: asymmetric.
Qed.
Print Assumptions C92_observed_covs_refuted.
(** Meets the hypotheses: two periods of the two-series model in double precision with an initial covariance of 0.1. *)
Example doubles_meet_hypotheses : exists f, std_filter (A := double) d0 dfill d0 [:: two_series; two_series] (\matrix_(i, k) d0) (\matrix_(i, k) dtenth) = Common.Ok f /\
  size (KalmanScan_Model.filtered_covs f) = 2%N /\ List.Forall (@exactly_symmetric _ 1) (KalmanScan_Model.filtered_covs f).
Proof.
  eexists; split; first reflexivity. split; first reflexivity.
  refine (proj1 (@C92_standard_filter_exactly_symmetric double d0 dfill d0 1 2 1 [:: two_series; two_series] (\matrix_(i, k) d0) (\matrix_(i, k) dtenth) _ C92_doubles_commute _)). reflexivity.
Qed.
