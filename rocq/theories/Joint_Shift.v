(** C89: the off-by-one of the smoother's matrices is its only defect with time-varying T, R, Q: handed each matrix one slot later, it is exact. *)
From mathcomp Require Import all_ssreflect all_algebra.
From Verif Require Common KalmanScan_Model KalmanScan_Spec KalmanScan_Proofs.
From Verif Require Import McTac Kalman_Model Kalman_Spec Kalman_Proofs Kalman_Seq Kalman_LL Kalman_Run Joint_Spec Joint_Proofs Joint_Stack Joint_Run Joint_Std Joint_Smooth Joint_Props Joint_TV.
Set Implicit Arguments.
Unset Strict Implicit.
Unset Printing Implicit Defensive.
Import Order.Theory GRing.Theory Num.Theory.
Local Open Scope ring_scope.

Section Run.
Context (R : realFieldType) (N n p r : nat) (us : seq (inputs R n p r)).
Context (x : nat -> rv R N n) (y : nat -> rv R N p) (eps : nat -> rv R N p) (eta : nat -> rv R N r).
Hypothesis Hu : forall t u, List.nth_error us t = Some u ->
        [/\ y t = affine (in_d u) (in_Z u) (x t) 1%:M (eps t), x t.+1 = affine (in_c u) (in_T u) (x t) (in_R u) (eta t),
            mean (eps t) = 0 /\ cov (eps t) (eps t) = in_H u & mean (eta t) = 0 /\ cov (eta t) (eta t) = in_Q u].
Hypothesis Hx : forall t, cov (x 0%N) (eps t) = 0 /\ cov (x 0%N) (eta t) = 0.
Hypothesis He : forall s t, cov (eps s) (eta t) = 0.
Hypothesis Hs : forall s t, s != t -> cov (eps s) (eps t) = 0 /\ cov (eta s) (eta t) = 0.
Local Notation D := (data us y).
Context (pinv : forall m, 'M[R]_m -> 'M[R]_m).
Hypothesis pen : forall m (A : 'M[R]_m), psd A -> A *m pinv A *m A = A.
Lemma smooth_run_late j' filtered ms out : 0 <= j' -> (forall t u, List.nth_error us t = Some u -> in_c u = 0) ->
  length ms = size us ->
  (forall t u, List.nth_error us t = Some u -> (t.+1 < size us)%N -> List.nth_error ms t.+1 = Some (in_T u, in_R u, in_Q u)) ->
  size filtered = size us -> (0 < size us)%N ->
  (forall t f, List.nth_error filtered t = Some f -> condL (x t) (D t.+1) f.1 f.2) ->
  KalmanScan_Model.smooth (sm_step pinv 0 j') filtered ms = Common.Ok out ->
  size out = size us /\ forall t s, List.nth_error out t = Some s ->
  exists Pex Er, [/\ condL (x t) (D (size us)) s.1 Pex, s.2 = Pex + Er, psd Er & j' = 0 -> Er = 0].
Proof.
  move=> j0 c0 lm late sz ne Hf Eo. have fne : filtered <> nil by move=> e; move: ne; rewrite -sz e.
  have [out' [Eo' [Lo [Hl Hn]]]] := KalmanScan_Proofs.smooth_spec (sm_step pinv 0 j') filtered ms fne ltac:(by rewrite lm -sz).
  rewrite Eo in Eo'. case: Eo' => Eo'; subst out'. have so : size out = size us by rewrite -sz. split=> //.
  have Lf : length filtered = size us by []. 
  suff H : forall k, (k < size us)%N -> forall s, List.nth_error out (size us - 1 - k) = Some s -> 
    exists Pex Er, [/\ condL (x (size us - 1 - k)) (D (size us)) s.1 Pex, s.2 = Pex + Er, psd Er & j' = 0 -> Er = 0].
  { move=> t s Es. have lt : (t < size us)%N by rewrite -so; apply/ssrnat.ltP/List.nth_error_Some; rewrite Es.
    have := H (size us - 1 - t)%N. have -> : (size us - 1 - (size us - 1 - t) = t)%N by rewrite subKn // subn1 -ltnS prednK. apply=> //. by rewrite -subnDA ltn_subrL. }
  elim=> [|k IH] lt s Es.
  - rewrite subn0 in Es *. rewrite Lf in Hl. have Ef : List.nth_error filtered (size us - 1) = Some s by rewrite -Hl -Es.
    have C := Hf _ _ Ef. rewrite subn1 prednK // in C. rewrite subn1. exists s.2, 0. split=> //; [by rewrite addr0 | exact: psd0].
  - set t := (size us - 1 - k.+1)%N in Es *. have Et : (t + 1 = size us - 1 - k)%N by rewrite /t addn1 subnS prednK // subn_gt0 subn1 -ltnS prednK.
    have ltt : (t + 1 < size us)%N by rewrite Et -subnDA ltn_subrL ne.
    have [f Ef] : exists f, List.nth_error filtered t = Some f.
    { case e: (List.nth_error filtered t) => [f|]; first by exists f. move/List.nth_error_None: e => /ssrnat.leP. rewrite Lf leqNgt. by rewrite (leq_trans _ (ltnW ltt)) // addn1. }
    have [s1 Es1] : exists s1, List.nth_error out (t + 1) = Some s1.
    { case e: (List.nth_error out (t + 1)) => [f1|]; first by exists f1. move/List.nth_error_None: e => /ssrnat.leP. by rewrite leqNgt -[length out]/(size out) so ltt. }
    have lt0 : (t < size us)%N by move: (ltnW ltt); rewrite addn1. have [u Eu] := nth_lt lt0.
    have Em : List.nth_error ms (t + 1) = Some (in_T u, in_R u, in_Q u) by rewrite addn1; apply: late => //; rewrite -addn1.
    have := Hn t f _ s1 Ef Em Es1. rewrite Es => -[->].
    have [Pex [Er [Cs E2 pEr Z]]] := IH (ltnW lt) s1 ltac:(by rewrite -Et). rewrite -Et addn1 in Cs.
    have [Pex' [Er' [C1 C2 C3 C4]]] := smooth_one Hu Hx He Hs pen j' Eu (c0 _ _ Eu) (Hf _ _ Ef) Cs pEr. rewrite -E2 in C1 C2. rewrite -!surjective_pairing in C1 C2.
    exists Pex', Er'. split=> //; [exact: C3 | by move=> jz; apply: C4 => //; exact: Z].
Qed.
End Run.

(** Filter with the standard filter, then smooth with matrices that stand one slot late ([late]): exact for every model with time-varying matrices (no state intercept). *)
Theorem C89_smoother_exact_with_late_matrices :
  forall (R : realFieldType) (N n p r : nat) (log : R -> R) (cst : R) (solve : forall m n, 'M[R]_m -> 'M[R]_(m, n) -> 'M[R]_(m, n)) (pinv : forall m, 'M[R]_m -> 'M[R]_m) (fill j' : R)
    (us : seq (inputs R n p r)) a0 P0 (x : nat -> rv R N n) (y : nat -> rv R N p) f late out,
  solve_ok solve -> (forall m (A : 'M[R]_m), psd A -> A *m pinv m A *m A = A) -> 0 <= j' -> (0 < p)%N -> model us a0 P0 x y -> complete fill us -> nonsingular (data us y (size us)) ->
  (forall t u, List.nth_error us t = Some u -> in_c u = 0) ->
  length late = size us ->
  (forall t u, List.nth_error us t = Some u -> (t.+1 < size us)%N -> List.nth_error late t.+1 = Some (in_T u, in_R u, in_Q u)) ->
  std_filter log cst solve 0 fill us a0 P0 = Common.Ok f ->
  KalmanScan_Model.smooth (fun f s m => smoother_step 0 pinv j' f.1 f.2 s.1 s.2 m.1.1 m.1.2 m.2)
    (List.combine (KalmanScan_Model.filtered_states f) (KalmanScan_Model.filtered_covs f)) late = Common.Ok out ->
  size out = size us /\ forall t s, List.nth_error out t = Some s ->
  [/\ s.1 = given_mean (x t) (data us y (size us)), psd (s.2 - given_cov (x t) (data us y (size us))) & j' = 0 -> s.2 = given_cov (x t) (data us y (size us))].
Proof.
  move=> R N n p r log cst solve pinv fill j' us a0 P0 x y f late out sok pen j0 p0 M full U c0 ll lt_ E Es.
  have ne : us <> nil by move=> e; move: E; rewrite e.
  have [eps [eta [H0 Hu Hx He Hs]]] := M. have [s1 s2 _] := sizes E ne.
  have sc : size (List.combine (KalmanScan_Model.filtered_states f) (KalmanScan_Model.filtered_covs f)) = size us.
  { have := List.combine_length (KalmanScan_Model.filtered_states f) (KalmanScan_Model.filtered_covs f). rewrite -[length _]/(size (List.combine (KalmanScan_Model.filtered_states f) (KalmanScan_Model.filtered_covs f))) => ->.
    rewrite (_ : length (KalmanScan_Model.filtered_states f) = size us) // (_ : length (KalmanScan_Model.filtered_covs f) = size us) //. exact: PeanoNat.Nat.min_id. }
  have [sz H] := smooth_run_late Hu Hx He Hs pen j0 c0 ll lt_ sc ltac:(by case: (us) ne) (fun t g => filtered_cond sok p0 M full U E (t := t) (g := g)) Es.
  split=> // t s Et.
  have [Pex [Er [C E2 pEr Z]]] := H t s Et. have [-> EP] := condL_given U C. split=> //.
  - by rewrite E2 -EP addrAC subrr add0r.
  - move=> jz. by rewrite E2 (Z jz) addr0.
Qed.
(** Hypotheses met by the model of Joint_TV.v, whose T changes from 1 to 0 (where the smoother with its own matrices is wrong). *)
Example C89_late_case (R : realFieldType) (fill : R) : 0 != fill -> 1 != fill ->
  let late : seq ('M[R]_1 * 'M[R]_1 * 'M[R]_1) := [:: (0, 0, 0); (1%:M, 1%:M, 1%:M)] in
  [/\ model (tv_us R) 0 1%:M (@tv_x R) (@tv_y R), complete fill (tv_us R), nonsingular (data (tv_us R) (@tv_y R) 2) &
   [/\ forall t u, List.nth_error (tv_us R) t = Some u -> in_c u = 0, length late = size (tv_us R) &
    forall t u, List.nth_error (tv_us R) t = Some u -> (t.+1 < size (tv_us R))%N -> List.nth_error late t.+1 = Some (in_T u, in_R u, in_Q u)]].
Proof.
  move=> f0 f1 late. split; [exact: tv_model| |exact: tv_full|split=> //].
  - case=> [|[|[|t]]] u i; rewrite /= => E; [case: E => <- | case: E => <- | by [] | by []]; [exists 0 | exists 1]; by split.
  - by case=> [|[|[|t]]] u //= [<-].
  - by case=> [|[|[|t]]] u //= [<-].
Qed.
