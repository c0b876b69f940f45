(** C107 for whole runs of the univariate filter: the log-likelihood of each step does not depend on the order of the series. *)
From Coq Require Import Permutation.
From mathcomp Require Import all_ssreflect all_algebra fingroup perm.
From Verif Require Common KalmanScan_Model KalmanScan_Proofs.
From Verif Require Import McTac Kalman_Model Kalman_Spec Kalman_Proofs Kalman_Seq KalmanUni_Model Equiv_Props Equiv_Uni.
Set Implicit Arguments.
Unset Strict Implicit.
Unset Printing Implicit Defensive.
Import Order.Theory GRing.Theory Num.Theory.
Import KalmanScan_Model.
Local Open Scope ring_scope.

Section Order.
Context (R : realFieldType) (log : R -> R) (MVN_CONST jitter : R).
Hypothesis j0 : 0 <= jitter.
Hypothesis Hlog : forall x y, 0 < x -> 0 < y -> log (x * y) = log x + log y.
(** The model with its series in another order. *)
Definition reorder_mats n p r (s : 'S_p) (m : mats R n p r) :=
  Mats (m_c m) (row_perm s (m_d m)) (m_T m) (row_perm s (m_Z m)) (m_R m) (row_perm s (col_perm s (m_H m))) (m_Q m).
(** What the series of one step, seen from the predicted state (a, P), contribute to the log-likelihood, one after the other. *)
Definition contributions n p r (m : mats R n p r) (y : obs R p) (a : 'cV[R]_n) (P : 'M[R]_n) : seq R :=
  (uni_scan log jitter (@uni_rows R n p y (m_d m) (m_Z m) (m_H m)) a P).2.
Definition nonzero (l : seq R) := count (fun x => x != 0) l.

Lemma with_mats_length n p r (m : mats R n p r) ys : length (with_mats m ys) = length ys.
Proof. by elim: ys => [|y ys IH] //=; rewrite IH. Qed.
Lemma with_mats_nth n p r (m : mats R n p r) ys t y : List.nth_error ys t = Some y ->
  List.nth_error (with_mats m ys) t = Some (Inputs y (m_c m) (m_d m) (m_T m) (m_Z m) (m_R m) (m_H m) (m_Q m)).
Proof. by elim: ys t => [|x ys IH] [|t] //=; [move=> [->]|exact: IH]. Qed.
Lemma step_psd n p r (m : mats R n p r) y a P : psd P -> psd (m_Q m) -> good_noise jitter (m_H m) ->
  psd (o_Phat (uni_step log MVN_CONST jitter (Inputs y (m_c m) (m_d m) (m_T m) (m_Z m) (m_R m) (m_H m) (m_Q m)) a P)).
Proof.
  move=> pP pQ gH. rewrite /uni_step /=.
  have pf : psd (uni_update log MVN_CONST jitter y (m_d m) (m_Z m) (m_H m) a P).1.2.
  { rewrite /uni_update. have := uni_scan_psd log (rows_fine y (m_d m) (m_Z m) gH) a pP. case: (uni_scan _ _ _ a P) => [[a1 P1] l1] /= p1.
    apply: psd_stabilize => //. rewrite (psd_sym p1) -mulr2n -scaler_nat scalerA mulVf ?scale1r // pnatr_eq0 //. }
  move: pf. case: (uni_update _ _ _ y _ _ _ a P) => [[a1 P1] l1] /= pf. case: (uni_obs _ _ _ a P _) => [mu F] /=.
  apply: psd_add; exact: psd_quad.
Qed.
Lemma before_psd n p r (m : mats R n p r) : psd (m_Q m) -> good_noise jitter (m_H m) -> forall ys a P t, psd P ->
  psd (KalmanScan_Spec.before (@uni_step R log MVN_CONST jitter n p r) (with_mats m ys) a P t).2.
Proof.
  move=> pQ gH. elim=> [|y ys IH] a P [|t] pP //=. apply: IH. exact: step_psd.
Qed.

(** Whole runs, any data with missing entries: the log-likelihood of every step is the same in both orders, as long as equally many series contribute a
    non-zero term there (the code takes a term that is exactly zero for a missing series and drops its normalising constant). *)
Theorem C107_series_order_univariate_loglike n p r (s : 'S_p) (m : mats R n p r) (ys : seq (obs R p)) a0 P0 :
  psd P0 -> psd (m_Q m) -> good_noise jitter (m_H m) ->
  match uni_filter log MVN_CONST jitter m ys a0 P0,
        uni_filter log MVN_CONST jitter (reorder_mats s m) (List.map (fun y i => y (s i)) ys) a0 P0 with
  | Common.Ok f, Common.Ok g =>
      length (loglike_obs g) = length ys /\ length (loglike_obs f) = length ys /\
      forall t y a P, List.nth_error ys t = Some y ->
        List.nth_error (predicted_states f) t = Some a -> List.nth_error (predicted_covs f) t = Some P ->
        nonzero (contributions (reorder_mats s m) (fun i => y (s i)) a P) = nonzero (contributions m y a P) ->
        List.nth_error (loglike_obs g) t = List.nth_error (loglike_obs f) t
  | Common.Err e, Common.Err e' => e = e'
  | _, _ => False
  end.
Proof.
  move=> pP pQ gH. have := C107_series_order_univariate MVN_CONST j0 Hlog s ys a0 pP pQ gH. rewrite -/(reorder_mats s m).
  rewrite /uni_filter. case: ys => [|y0 ys0]; first by [].
  set ys := y0 :: ys0. set ys' := List.map _ ys.
  have [f [Ef [_ [_ [_ [_ [_ [_ [Lf Hf]]]]]]]]] := @KalmanScan_Proofs.build_ok _ _ _ _ _ _ (@uni_step R log MVN_CONST jitter n p r) (with_mats m ys) a0 P0 ltac:(discriminate).
  have [g [Eg [_ [_ [_ [_ [_ [_ [Lg Hg]]]]]]]]] := @KalmanScan_Proofs.build_ok _ _ _ _ _ _ (@uni_step R log MVN_CONST jitter n p r) (with_mats (reorder_mats s m) ys') a0 P0 ltac:(discriminate).
  rewrite Ef Eg => -[_ [Ep [_ EP]]]. clear Ef Eg. clearbody ys.
  split. { by rewrite Lg with_mats_length /ys' List.map_length. }
  split. { by rewrite Lf with_mats_length. }
  move=> t y a P Hy Ha HP HC.
  have Hu : List.nth_error (with_mats m ys) t = Some (Inputs y (m_c m) (m_d m) (m_T m) (m_Z m) (m_R m) (m_H m) (m_Q m)).
  { exact: with_mats_nth. }
  have Hu' : List.nth_error (with_mats (reorder_mats s m) ys') t = Some (Inputs (fun i => y (s i)) (m_c m) (row_perm s (m_d m)) (m_T m) (row_perm s (m_Z m)) (m_R m) (row_perm s (col_perm s (m_H m))) (m_Q m)).
  { apply: with_mats_nth. exact: (List.map_nth_error (fun (y : obs R p) i => y (s i)) _ _ Hy). }
  have pb := before_psd pQ gH ys a0 t pP.
  have [f1 [f2 [_ [_ [_ [_ f3]]]]]] := Hf t _ Hu. have [g1 [g2 [_ [_ [_ [_ g3]]]]]] := Hg t _ Hu'.
  rewrite f3 g3. congr Some.
  move: g1 g2. rewrite Ep EP f1 f2 => -[<-] [<-].
  move: f1 f2. rewrite Ha HP => -[ea] [eP]. move: pb. rewrite -ea -eP => pb. clear ea eP.
  have [_ EL] := C107_series_order_univariate_step MVN_CONST Hlog s y (m_d m) (m_Z m) a pb gH.
  move: (EL HC). rewrite /uni_step /=.
  case: (uni_update _ _ _ y _ _ _ a P) => [[a1 P1] l1]. case: (uni_update _ _ _ _ _ _ _ a P) => [[a2 P2] l2] /= ->.
  case: (uni_obs _ _ _ a P _) => [mu F]. by case: (uni_obs _ _ _ a P _) => [mu' F'].
Qed.

(** When every noise variance (with the jitter) exceeds one, no observed series contributes exactly zero and the condition holds by itself. *)
Section Noisy.
Hypothesis Hpos : forall x, 1 < x -> 0 < log x.
Definition noisy p (H : 'M[R]_p) := forall i, 0 < H i i /\ 1 < H i i + jitter.
Lemma noisy_good p (H : 'M[R]_p) : noisy H -> good_noise jitter H.
Proof. move=> h i. have [h1 h2] := h i. split; [exact: ltW|exact: (lt_trans ltr01)]. Qed.
Definition row_noisy n (u : uni_row R n) := r_nan u \/ 0 < r_h u /\ 1 < r_h u + jitter.
Lemma row_noisy_fine n (u : uni_row R n) : row_noisy u -> fine jitter u.
Proof. move=> [h|[h1 h2]]; [by left|right]. split; [exact: ltW|exact: (lt_trans ltr01)]. Qed.
Lemma count_observed n us : List.Forall (@row_noisy n) us -> forall a P, psd P ->
  nonzero (uni_scan log jitter us a P).2 = count (fun u => ~~ r_nan u) us.
Proof.
  elim: us => [|u us IH] Hf a P pP //. inversion Hf; subst. rewrite uni_scan_cons.
  have := IH H2 (uni_inner log jitter u a P).1.1.1.1 _ (inner_psd log a pP (row_noisy_fine H1)).
  have E : ((uni_inner log jitter u a P).2 != 0) = ~~ r_nan u.
  { case nu: (r_nan u).
    - have sk : skips u P by rewrite /skips nu orbT.
      have [_ [_ ->]] := inner_skip log jitter a sk. by rewrite eqxx.
    - case: H1 => [|[h1 h2]]; first by rewrite nu.
      have q := nonneg_q (r_Z u) pP.
      have Fp : 0 < F0 u P by rewrite /F0; apply: ltr_paddl.
      have sk : skips u P = false by rewrite /skips nu orbF gt_eqF.
      have [_ [_ ->]] := inner_runs log jitter a sk.
      have F1 : 1 < F0 u P + jitter by rewrite /F0 -addrA; apply: ltr_paddl.
      rewrite gt_eqF //. apply: ltr_paddr; last exact: Hpos.
      apply: divr_ge0; [exact: sqr_ge0|exact: ltW (lt_trans ltr01 F1)]. }
  case: (uni_inner log jitter u a P) E => [[[[a1 P1] ?] ?] l1]. cbn [fst snd] => E. case: (uni_scan log jitter us a1 P1) => [[a2 P2] ls].
  rewrite /nonzero /= E. by move=> ->.
Qed.
Lemma rows_noisy n p (y : obs R p) (d : 'cV[R]_p) (Z : 'M[R]_(p, n)) (H : 'M[R]_p) : noisy H -> List.Forall (@row_noisy n) (uni_rows y d Z H).
Proof.
  move=> gH. rewrite /uni_rows. elim: (enum 'I_p) => [|i l IH] /=; first by constructor. constructor; last exact: IH.
  rewrite /row_noisy /=. case: (isnan_mask y i); [by left|by right].
Qed.
Lemma count_perm (T : Type) (f : T -> bool) (l l' : seq T) : Permutation l l' -> count f l = count f l'.
Proof. elim=> {l l'} [|x l l' _ IH|x z l|l1 l2 l3 _ IH1 _ IH2] //=; [by rewrite IH|by rewrite addnCA|by rewrite IH1]. Qed.
Lemma nth_error_eq (T : Type) (l l' : seq T) : (forall t, List.nth_error l t = List.nth_error l' t) -> l = l'.
Proof.
  elim: l l' => [|x l IH] [|x' l'] H //; [by have := H 0%N|by have := H 0%N|].
  have := H 0%N. move=> /= [->]. congr cons. apply: IH => t. exact: (H t.+1).
Qed.
Theorem C107_series_order_univariate_noisy n p r (s : 'S_p) (m : mats R n p r) (ys : seq (obs R p)) a0 P0 :
  psd P0 -> psd (m_Q m) -> noisy (m_H m) ->
  match uni_filter log MVN_CONST jitter m ys a0 P0,
        uni_filter log MVN_CONST jitter (reorder_mats s m) (List.map (fun y i => y (s i)) ys) a0 P0 with
  | Common.Ok f, Common.Ok g =>
      loglike_obs g = loglike_obs f /\ filtered_states g = filtered_states f /\ predicted_states g = predicted_states f /\
      filtered_covs g = filtered_covs f /\ predicted_covs g = predicted_covs f
  | Common.Err e, Common.Err e' => e = e'
  | _, _ => False
  end.
Proof.
  move=> pP pQ gH. have gg := noisy_good gH.
  have := C107_series_order_univariate MVN_CONST j0 Hlog s ys a0 pP pQ gg. rewrite -/(reorder_mats s m).
  have := C107_series_order_univariate_loglike s ys a0 pP pQ gg. 
  have pred : forall f, uni_filter log MVN_CONST jitter m ys a0 P0 = Common.Ok f -> forall t y, List.nth_error ys t = Some y ->
     exists a P, List.nth_error (predicted_states f) t = Some a /\ List.nth_error (predicted_covs f) t = Some P /\ psd P.
  { move=> f. rewrite /uni_filter => Ef t y Hy.
    have ne : with_mats m ys <> nil by case: (ys) t Hy => [|? ?] [|?].
    have [f' [Ef' [_ [_ [_ [_ [_ [_ [_ Hf]]]]]]]]] := @KalmanScan_Proofs.build_ok _ _ _ _ _ _ (@uni_step R log MVN_CONST jitter n p r) (with_mats m ys) a0 P0 ne.
    move: Ef Hf. rewrite Ef' => -[->] Hf. have [f1 [f2 _]] := Hf t _ (with_mats_nth m Hy).
    eexists. eexists. split; [exact: f1|split; [exact: f2|]]. exact: before_psd. }
  case E: (uni_filter _ _ _ m ys a0 P0) => [f|e]; last by case: (uni_filter _ _ _ _ _ _ _).
  case: (uni_filter _ _ _ _ _ _ _) => [g|e] // [Lg [Lf H]] [E1 [E2 [E3 E4]]]. split=> //.
  apply: nth_error_eq => t. case Hy: (List.nth_error ys t) => [y|].
  - have [a [P [Ha [HP pP1]]]] := pred f E t y Hy. apply: (H t y a P Hy Ha HP).
    rewrite /contributions (count_observed (rows_noisy _ _ _ gH) _ pP1).
    rewrite (count_observed _ _ pP1); last first.
    { apply: rows_noisy. move=> i. rewrite !mxE. exact: gH. }
    symmetry. apply: count_perm. exact: rows_perm.
  - have /List.nth_error_None Hl := Hy. have -> : List.nth_error (loglike_obs g) t = None by apply/List.nth_error_None; rewrite Lg.
    symmetry. apply/List.nth_error_None. by rewrite Lf.
Qed.
End Noisy.
End Order.

Local Notation QF := [realFieldType of rat].
(** Hypotheses met: two series with noise variances 3 and 5, one entry missing, the series swapped; any logarithm does. *)
Example C107_series_order_univariate_noisy_example :
  let H : 'M[QF]_2 := diag_mx (\row_i (3 + 2 * i)%:R) in let y : obs QF 2 := fun i => if i == 0 then Some 5%:R else None in
  noisy 1 H /\ psd (1%:M : 'M[QF]_2) /\ (fun i => y ((tperm 0 1 : 'S_2) i)) <> y.
Proof.
  move=> H y. split; [|split].
  - move=> i. rewrite /H !mxE eqxx mulr1n. split; first by rewrite ltr0n. by rewrite ltr_addr ltr0n.
  - rewrite -[1%:M]scale1r. exact: psd_scal1.
  - move=> E. have := congr1 (fun f => f 0) E. by rewrite /y /= tpermL.
Qed.
