(** C19 in computer arithmetic: what is stored in place of a missing observation has no influence, and a fully missing time step adds nothing to the log-likelihood,
    whatever the rounding and whatever the linear algebra routines return. *)
From mathcomp Require Import all_ssreflect all_algebra.
From Verif Require Common KalmanScan_Model.
From Verif Require Import KFloat_Model.
Set Implicit Arguments.
Unset Strict Implicit.
Unset Printing Implicit Defensive.
Import GRing.Theory.
Local Open Scope ring_scope.

Section Miss.
Context (A : arith).
Notation F := (num A).
(** the same time step with other observations *)
Definition with_y n p r (u : inputs A n p r) (y : 'cV[F]_p) : inputs A n p r := Inputs y (in_c u) (in_d u) (in_T u) (in_Z u) (in_R u) (in_H u) (in_Q u).
(** [y] and [z] are missing at the same places and equal elsewhere *)
Definition same_data (missing : F -> bool) p (y z : 'cV[F]_p) : Prop :=
  forall i, if missing (y i ord0) then missing (z i ord0) = true else z i ord0 = y i ord0.
Lemma same_mask (missing : F -> bool) p (y z : 'cV[F]_p) : same_data missing y z -> forall i, missing (z i ord0) = missing (y i ord0).
Proof. move=> S i. have := S i. case E: (missing (y i ord0)) => // ->. exact: E. Qed.
Lemma same_masked (missing : F -> bool) p (y z : 'cV[F]_p) : same_data missing y z ->
  maskW A (fun i => missing (z i ord0)) = maskW A (fun i => missing (y i ord0)) /\ y_masked (fun i => missing (z i ord0)) z = y_masked (fun i => missing (y i ord0)) y.
Proof.
  move=> S. have M := same_mask S. split; apply/matrixP => i k; rewrite !mxE !M //.
  have := S i. case: (missing (y i ord0)) => // E. by rewrite (ord1 k) E.
Qed.
End Miss.

Theorem C19_missing_slots_ignored_rounding : forall (A : arith) (jitter fill mvn_const : num A) n p r (u : inputs A n p r) (z : 'cV[num A]_p) a P,
  same_data (fun v => isnan v || eqb v fill) (in_y u) z ->
  std_step jitter fill mvn_const (with_y u z) a P = std_step jitter fill mvn_const u a P.
Proof.
  move=> A jitter fill mvn n p r u z a P S. have M := same_mask S. have [E1 E2] := same_masked S.
  rewrite /std_step /nan_mask /=. rewrite (_ : [forall i, _] = [forall i, isnan (in_y u i ord0) || eqb (in_y u i ord0) fill]); first last.
  { apply: eq_forallb => i. exact: M. }
  by rewrite E1 E2.
Qed.
Print Assumptions C19_missing_slots_ignored_rounding.

Theorem C19_missing_step_logp_rounding : forall (A : arith) (jitter fill mvn_const : num A) n p r (u : inputs A n p r) a P,
  (forall i, isnan (in_y u i ord0) \/ eqb (in_y u i ord0) fill) -> KalmanScan_Model.o_ll (std_step jitter fill mvn_const u a P) = zero A.
Proof.
  move=> A jitter fill mvn n p r u a P H. rewrite /std_step /=. case: ifP => //. move/negP; case. apply/forallP => i. apply/orP. exact: H.
Qed.
Print Assumptions C19_missing_step_logp_rounding.

(** The univariate filter looks at NaN only: an entry equal to the fill value is an observation there. *)
Theorem C19_univariate_missing_slots_ignored_rounding : forall (A : arith) (jitter mvn_const : num A) count n p r (u : inputs A n p r) (z : 'cV[num A]_p) a P,
  same_data (fun v => isnan v) (in_y u) z ->
  uni_step jitter mvn_const count (with_y u z) a P = uni_step jitter mvn_const count u a P.
Proof.
  move=> A jitter mvn count n p r u z a P S. have M := same_mask S. have [E1 E2] := same_masked S.
  rewrite /uni_step /= E1 E2. rewrite (eq_map (f2 := fun i : 'I_p => Row (y_masked (fun i => isnan (in_y u i ord0)) (in_y u) i ord0) (row i (matmul (maskW A (fun i => isnan (in_y u i ord0))) (in_Z u)))
    (in_d u i ord0) (matmul (maskW A (fun i => isnan (in_y u i ord0))) (in_H u) i i) (isnan (in_y u i ord0)))) // => i. by rewrite M.
Qed.
Print Assumptions C19_univariate_missing_slots_ignored_rounding.

Lemma scan_missing (A : arith) (jitter : num A) n (ws : seq (uni_row A n)) a P la : all (@r_nan A n) ws -> (uni_scan jitter ws a P la).2 = nseq (size ws) (zero A).
Proof.
  elim: ws a P la => [|w ws IH] a P la //= /andP [H Hs]. rewrite H orbT. set s := uni_scan _ _ _ _ _. have := IH _ _ _ Hs : s.2 = _. case: s => [[[? ?] ?] ls] /= -> //.
Qed.
(** A fully missing time step enters the univariate log-likelihood as zeros only. *)
Theorem C19_univariate_missing_step_logp_rounding : forall (A : arith) (jitter mvn_const : num A) count n p r (u : inputs A n p r) a P,
  (forall i, isnan (in_y u i ord0)) ->
  KalmanScan_Model.o_ll (uni_step jitter mvn_const count u a P) =
  sub (zero A) (mul (half A) (add (mul (count (nseq p (zero A))) mvn_const) (foldr (@add A) (zero A) (nseq p (zero A))))).
Proof.
  move=> A jitter mvn count n p r u a P H. rewrite /uni_step. set ws := [seq Row _ _ _ _ _ | i <- enum 'I_p].
  have Hs : all (@r_nan A n) ws by rewrite all_map; apply/allP => i _ /=; exact: H.
  have Es : size ws = p by rewrite size_map size_enum_ord. have := scan_missing jitter a P (zero A, zero A) Hs. rewrite Es.
  case: (uni_scan _ _ _ _ _) => [[[a_f P_s] [mu Fj]] ls] /= -> //.
Qed.
Print Assumptions C19_univariate_missing_step_logp_rounding.

(** Meets the hypotheses: three-valued arithmetic with a NaN (None) and small numbers; the second series is missing, stored as NaN or as the fill value 9. *)
Definition opt_arith : arith := @Arith (option nat) (fun x y => if (x, y) is (Some a, Some b) then Some (a + b)%N else None) (fun x y => if (x, y) is (Some a, Some b) then Some (a - b)%N else None)
  (fun x y => if (x, y) is (Some a, Some b) then Some (a * b)%N else None) (fun x y => if (x, y) is (Some a, Some b) then Some (a %/ b)%N else None)
  (Some 0%N) (Some 1%N) (Some 0%N) id (fun x => x == None) (fun x y => (x != None) && (x == y))
  (fun m n k X Y => \matrix_(i, j) Some 0%N) (fun m n X B => B) (fun m X => X) (fun m X => Some 1%N).
Example C19_rounding_example : let y : 'cV[option nat]_2 := \matrix_(i, k) (if i == ord0 then Some 3%N else None) in let z : 'cV[option nat]_2 := \matrix_(i, k) (if i == ord0 then Some 3%N else Some 9%N) in
  same_data (A := opt_arith) (fun v => (v == None) || ((v != None) && (v == Some 9%N))) y z /\ y != z.
Proof.
  split=> [i|]; first by rewrite !mxE; case: i => [[|[|i]] Hi]. apply/eqP => /matrixP /(_ ord_max ord0). by rewrite !mxE.
Qed.
