(** C89, the smoother with a time-varying transition: it uses the matrices of the next time point, so its moments are not the conditional ones. *)
From mathcomp Require Import all_ssreflect all_algebra.
From Verif Require Common KalmanScan_Model.
From Verif Require Import McTac Kalman_Model Kalman_Spec Kalman_Proofs Joint_Spec Joint_Props.
Set Implicit Arguments.
Unset Strict Implicit.
Unset Printing Implicit Defensive.
Import Order.Theory GRing.Theory Num.Theory.
Local Open Scope ring_scope.

Section TV.
Context (R : realFieldType).
(** Five uncorrelated noises: the initial state, two measurement errors, two shocks. *)
Definition rw (s : seq R) : 'M[R]_(1, 5) := \row_j nth 0 s j.
Definition tv_eps (t : nat) : rv R 5 1 := RV 0 (match t with 0 => rw [:: 0; 1; 0; 0; 0] | 1 => rw [:: 0; 0; 1; 0; 0] | _ => 0 end).
Definition tv_eta (t : nat) : rv R 5 1 := RV 0 (match t with 0 => rw [:: 0; 0; 0; 1; 0] | 1 => rw [:: 0; 0; 0; 0; 1] | _ => 0 end).
(** The state is kept between the first two times and forgotten afterwards: T[0] = 1, T[1] = 0. *)
Definition tv_T (t : nat) : 'M[R]_1 := match t with 0 => 1%:M | _ => 0 end.
Fixpoint tv_x (t : nat) : rv R 5 1 := match t with 0 => RV 0 (rw [:: 1; 0; 0; 0; 0]) | s.+1 => affine 0 (tv_T s) (tv_x s) 1%:M (tv_eta s) end.
Definition tv_y (t : nat) : rv R 5 1 := affine 0 1%:M (tv_x t) 1%:M (tv_eps t).
(** The data are 0 and 1. *)
Definition tv_us : seq (inputs R 1 1 1) :=
  [:: Inputs (fun _ => Some 0) 0 0 (tv_T 0) 1%:M 1%:M 1%:M 1%:M; Inputs (fun _ => Some 1) 0 0 (tv_T 1) 1%:M 1%:M 1%:M 1%:M].

Lemma rw_mul s t : rw s *m (rw t)^T = (\sum_(j < 5) nth 0 s j * nth 0 t j)%:M.
Proof. apply/matrixP => i k. rewrite !ord1 !mxE eqxx mulr1n. by apply: eq_bigr => j _; rewrite !mxE. Qed.
Ltac go := rewrite ?rw_mul !big_ord_recl big_ord0 /= ?(mul0r, mulr0, mul1r, addr0, add0r).
Lemma tv_model : model tv_us 0 1%:M tv_x tv_y.
Proof.
  exists tv_eps, tv_eta. rewrite /cov. split.
  - split; first exact: erefl. by go.
  - case=> [|[|[|t]]] u; rewrite /= => E; [case: E => <- | case: E => <- | by [] | by []];
      (split; [reflexivity | reflexivity | split; [reflexivity | by go] | split; [reflexivity | by go]]).
  - case=> [|[|t]]; rewrite /=; split; (try by rewrite trmx0 mulmx0); go; exact: raddf0.
  - case=> [|[|s]] [|[|t]]; rewrite /=; (try by rewrite ?trmx0 ?mulmx0 ?mul0mx); go; exact: raddf0.
  - case=> [|[|s]] [|[|t]] H; (try by move: H; rewrite eqxx); rewrite /=; split; (try by rewrite ?trmx0 ?mulmx0 ?mul0mx); go; exact: raddf0.
Qed.
Lemma tv_full : nonsingular (data tv_us tv_y 2).
Proof.
  apply: (C89_noise_makes_data_nonsingular tv_model). case=> [|[|[|t]]] u; rewrite /= => E; [case: E => <- | case: E => <- | by [] | by []]; exact: unitmx1.
Qed.
Lemma tv_data1 : data tv_us tv_y 1 = [:: Datum 0 (rw [:: 1; 1; 0; 0; 0]) 0].
Proof.
  rewrite /data /= /observed cats0 enum_ordS enum_ord0 /=. congr [:: Datum _ _ _]; first by rewrite !mxE !big_ord1 !mxE mulr0 !addr0.
  apply/rowP => j. rewrite !mxE !big_ord1 !mxE /=. case: j => [[|[|[|[|[|j]]]]] Hj] //=; by rewrite ?mul1r ?add0r ?addr0 ?mulr0 ?mul0r.
Qed.
Lemma tv_data2 : data tv_us tv_y 2 = [:: Datum 0 (rw [:: 1; 1; 0; 0; 0]) 0; Datum 0 (rw [:: 1; 0; 1; 1; 0]) 1].
Proof.
  rewrite /data /= /observed cats0 enum_ordS enum_ord0 /=. congr [:: Datum _ _ _; Datum _ _ _]; try (by rewrite !(mxE, big_ord1) ?(mulr0, addr0, mul0r, mul1r)).
  - apply/rowP => j. rewrite !mxE !big_ord1 !mxE /=. case: j => [[|[|[|[|[|j]]]]] Hj] //=; by rewrite ?mul1r ?add0r ?addr0 ?mulr0 ?mul0r.
  - apply/rowP => j. rewrite !(mxE, big_ord1) /=. case: j => [[|[|[|[|[|j]]]]] Hj] //=; by rewrite ?(mul1r, add0r, addr0, mulr0, mul0r).
Qed.
Lemma tv_mean1 : given_mean (tv_x 0) (data tv_us tv_y 1) = 0.
Proof.
  rewrite tv_data1 /given_mean (_ : mean (tv_x 0) = 0) // add0r.
  set d := values _ - _. have -> : d = 0; last by rewrite mulmx0.
  apply/matrixP => i k. rewrite !mxE. case: i => [[|i] Hi] //=. by rewrite subrr.
Qed.
Lemma tv_mean2 : given_mean (tv_x 0) (data tv_us tv_y 2) <> 0.
Proof.
  have := tv_full. rewrite tv_data2. set l := [:: _; _]. rewrite /nonsingular /given_mean (_ : mean (tv_x 0) = 0) // add0r => U.
  set S := cov (stack l) (stack l) in U *. set C := cov (tv_x 0) (stack l). set B := C *m invmx S => H.
  have BS : B *m S = C by rewrite /B -mulmxA mulVmx // mulmx1.
  clearbody B.
  set D := values l - mean (stack l) in H.
  pose i0 : 'I_(size l) := ord0. pose i1 : 'I_(size l) := ord_max.
  have st k j : load (stack l) k j = nth 0 (nth [::] [:: [:: 1; 1; 0; 0; 0]; [:: 1; 0; 1; 1; 0]] k) j.
  { rewrite mxE. case: k => [[|[|k]] Hk] //=; by rewrite mxE. }
  have S00 : S i0 i0 = 2%:R. { rewrite !mxE !big_ord_recl big_ord0 ![_^T _ _]mxE !st /= ?(mul1r, mulr0, addr0). by []. }
  have S10 : S i1 i0 = 1. { rewrite !mxE !big_ord_recl big_ord0 ![_^T _ _]mxE !st /= ?(mul1r, mulr0, mul0r, addr0). by []. }
  have S01 : S i0 i1 = 1. { rewrite !mxE !big_ord_recl big_ord0 ![_^T _ _]mxE !st /= ?(mul1r, mulr0, mul0r, addr0). by []. }
  have C0 k : C 0 k = 1. { rewrite !mxE !big_ord_recl big_ord0 ![_^T _ _]mxE !st !mxE /= ?(mul1r, mulr0, mul0r, addr0). by case: k => [[|[|k]] Hk]. }
  have L : lift ord0 ord0 = i1 by exact: val_inj.
  have D0 : D i0 0 = 0 by rewrite /D !mxE /= subrr.
  have D1 : D i1 0 = 1 by rewrite /D !mxE /= subr0.
  have B1 : B 0 i1 = 0.
  { have h : (B *m D) 0 0 = 0 by rewrite H mxE.
    move: h. rewrite mxE !big_ord_recl big_ord0 L D0 D1 mulr0 add0r addr0 mulr1. by []. }
  have E0 : B 0 i0 * S i0 i0 = 1. { rewrite -(C0 i0) -BS [RHS]mxE !big_ord_recl big_ord0 addr0 L. by rewrite B1 mul0r addr0. }
  have E1 : B 0 i0 * S i0 i1 = 1. { rewrite -(C0 i1) -BS [RHS]mxE !big_ord_recl big_ord0 addr0 L. by rewrite B1 mul0r addr0. }
  move: E0 E1. rewrite S00 S01 mulr1 => + E. rewrite E mul1r => /eqP. by rewrite -subr_eq0 mulr2n addrK oner_eq0.
Qed.

(** Everything C89_smoother_outputs_are_conditionals_partial asks for except that T is the same at all times: the filtered moments handed to the smoother are exact, there is no intercept,
    whatever the pseudo-inverse.  The smoothed mean of the first state is not its mean given the data: the second observation is ignored. *)
Theorem C89_smoother_time_varying_refuted (pinv : forall m, 'M[R]_m -> 'M[R]_m) (j' : R) :
  let filtered := [seq (given_mean (tv_x t) (data tv_us tv_y t.+1), given_cov (tv_x t) (data tv_us tv_y t.+1)) | t <- iota 0 2] in
  [/\ model tv_us 0 1%:M tv_x tv_y, nonsingular (data tv_us tv_y 2), forall t u, List.nth_error tv_us t = Some u -> in_c u = 0 &
  exists out s,
    KalmanScan_Model.smooth (fun f s m => smoother_step 0 pinv j' f.1 f.2 s.1 s.2 m.1.1 m.1.2 m.2) filtered (List.map (fun u => (in_T u, in_R u, in_Q u)) tv_us) = Common.Ok out /\ List.nth_error out 0 = Some s /\ s.1 = given_mean (tv_x 0) (data tv_us tv_y 1) /\ s.1 <> given_mean (tv_x 0) (data tv_us tv_y 2)].
Proof.
  move=> filtered. split; [exact: tv_model|exact: tv_full|by case=> [|[|[|t]]] u //= [<-]|].
  rewrite /KalmanScan_Model.smooth /filtered /=. eexists. eexists. split; first reflexivity. split; first reflexivity.
  have E : forall a P b Q, (@smoother_step R 0 pinv j' 1 1 a P b Q 0 1%:M 1%:M).1 = a.
  { move=> a P b Q. rewrite /smoother_step /=. by rewrite mulmx0 (mul0mx _ P) trmx0 mul0mx addr0. }
  rewrite E. split; first by []. rewrite tv_mean1 => H. exact: (tv_mean2 (esym H)).
Qed.
End TV.
