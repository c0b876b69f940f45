(** The univariate filter, run on data of a state space model with any pattern of missing values. *)
From Coq Require Import Ring Field.
From mathcomp Require Import all_ssreflect all_algebra.
From Verif Require Common KalmanScan_Model KalmanScan_Spec KalmanScan_Proofs.
From Verif Require Import McTac Kalman_Model Kalman_Spec Kalman_Proofs Kalman_Seq Kalman_LL Kalman_Run KalmanUni_Model Joint_Spec Joint_Proofs Joint_Stack Joint_Run.
Set Implicit Arguments.
Unset Strict Implicit.
Unset Printing Implicit Defensive.
Import Order.Theory GRing.Theory Num.Theory.
Local Open Scope ring_scope.

Section One.
Context (R : realFieldType) (N n p r : nat) (log : R -> R) (cst : R).
Add Field ff_ju : (@f_field R).
Local Notation quad l := (((values l - mean (stack l))^T *m invmx (cov (stack l) (stack l)) *m (values l - mean (stack l))) 0 0).
Local Notation dett l := (\det (cov (stack l) (stack l))).
Definition one (d : datum R N) : rv R N 1 := RV (d_mean d)%:M (d_load d).
Lemma m11 (A : 'M[R]_1) : A = (A 0 0)%:M. Proof. exact: mx11_scalar. Qed.
Lemma inner_step (X : rv R N n) (l : seq (datum R N)) a P (w : uni_row R n) (e : 'rV[R]_N) (d : datum R N) :
  condL X l a P -> load X *m e^T = 0 -> load (stack l) *m e^T = 0 -> r_nan w = false ->
  gram e = (r_h w)%:M -> d_mean d = r_d w + (r_Z w *m mean X) 0 0 -> d_load d = r_Z w *m load X + e -> d_val d = r_y w ->
  nonsingular (l ++ [:: d]) ->
  forall a1 P1 y_hat F ll, uni_inner log 0 w a P = (a1, P1, y_hat, F, ll) ->
  [/\ condL X (l ++ [:: d]) a1 P1, condL (one d) l y_hat%:M F%:M, dett (l ++ [:: d]) = dett l * F,
      quad (l ++ [:: d]) = quad l + (d_val d - y_hat) ^+ 2 / F & F != 0 /\ ll = log F + (d_val d - y_hat) ^+ 2 / F].
Proof.
  move=> C Xe le nn ge Em El Ev U a1 P1 y_hat F ll EI. have pP := isCond_psd C.
  set F0 := (r_Z w *m P *m (r_Z w)^T) 0 0 + r_h w. set yh := (r_Z w *m a) 0 0 + r_d w.
  have EF : innov_cov P (r_Z w) (gram e) = F0%:M by rewrite [LHS]m11 /innov_cov ge mxE [_%:M 0 0]mxE eqxx mulr1n.
  have dd := dat_cat (dat_self l) (dat_one d).
  have Edm : (d_mean d)%:M = (r_d w)%:M + r_Z w *m mean X by rewrite [RHS]m11 mxE [_%:M 0 0]mxE eqxx mulr1n -Em.
  rewrite Edm El in dd.
  have [D1 D2] := dat_gram dd. have [K1 K2] := core_det (r_Z w) (r_d w)%:M (d_val d)%:M C Xe le. rewrite EF in K1 K2. rewrite -D1 in K1.
  have Edet : dett (l ++ [:: d]) = dett l * F0 by rewrite K1 det_scalar1.
  have [Ul F0n] : nonsingular l /\ F0 != 0. { move: U. rewrite /nonsingular !unitmxE Edet unitrM => /andP [-> ]. by rewrite unitfE. }
  have uF : (F0%:M : 'M[R]_1) \in unitmx by rewrite unitmxE det_scalar1 unitfE.
  have Cn : condL X (l ++ [:: d]) (cond_mean a P (r_Z w) (gram e) (d_val d)%:M (r_d w)%:M) (cond_cov P (r_Z w) (gram e)).
  { apply: (condL_dat dd). apply: core_update => //. by rewrite EF. }
  have Co : condL (one d) l yh%:M F0%:M.
  { have := core_predict (r_Z w) 1%:M (r_d w)%:M C Xe le. rewrite !mul1mx trmx1 mulmx1 -EF /condL /= Edm El [_ + r_Z w *m mean X]addrC. by have -> : r_Z w *m a + (r_d w)%:M = yh%:M by rewrite [LHS]m11 mxE [_%:M 0 0]mxE eqxx mulr1n. }
  have Eq : quad (l ++ [:: d]) = quad l + (d_val d - yh) ^+ 2 / F0.
  { have := etrans D2 (K2 Ul uF). move=> /(congr1 (fun A : 'M[R]_1 => A 0 0)). rewrite [X in _ = X -> _]mxE /= => ->. congr (_ + _).
    have -> : (d_val d)%:M - (r_d w)%:M - r_Z w *m a = (d_val d - yh)%:M. { rewrite [LHS]m11 /yh !mxE !eqxx !mulr1n. congr (_%:M). by zmod. }
    by rewrite invmx_scalar tr_scalar_mx -!scalar_mxM mxE eqxx mulr1n mulrAC expr2. }
  have [m [Fx E]] := uni_inner_one log (j := 0) a (u := w) nn F0n ltac:(by rewrite addr0) (psd_sym pP).
  have Ey : (uni_inner log 0 w a P).1.1.2 = yh by []. have EFx : (uni_inner log 0 w a P).1.2 = F0 by rewrite /uni_inner /= addr0 mulmxA.
  rewrite E /= in Ey EFx. subst m Fx. move: EI. rewrite E => -[<- <- <- <- <-]. rewrite addr0 -ge -/F0 Ev in Cn *. split=> //. 
  - by rewrite Ev in Eq. 
  - split=> //. congr (_ + _ ^+ 2 / _); rewrite ?addr0 //. rewrite /yh. by zmod.
Qed.
End One.

(** what one more number adds to minus twice the log-likelihood, besides log (2 pi) *)
Definition innovation_term (R : realFieldType) (N : nat) (log : R -> R) (l : seq (datum R N)) (d : datum R N) : R :=
  log (given_cov (one d) l 0 0) + (d_val d - given_mean (one d) l 0 0) ^+ 2 / given_cov (one d) l 0 0.
(** how many of the observed numbers have a term that happens to be zero *)
Definition zero_terms (R : realFieldType) (N : nat) (log : R -> R) (l : seq (datum R N)) : nat :=
  count (fun k => innovation_term log (take k l) (nth (Datum 0 0 0) l k) == 0) (iota 0 (size l)).

Section Scan.
Context (R : realFieldType) (N n p r : nat) (log : R -> R) (cst : R).
Add Field ff_ju2 : (@f_field R).
Hypothesis logM : forall a b, 0 < a -> 0 < b -> log (a * b) = log a + log b.
Lemma zero_cat (l : seq (datum R N)) d : zero_terms log (l ++ [:: d]) = (zero_terms log l + (innovation_term log l d == 0%R))%N.
Proof.
  rewrite /zero_terms size_cat /= iotaD count_cat /= add0n addn0 take_size_cat // nth_cat ltnn subnn /=. congr (_ + _)%N.
  apply: eq_in_count => k. rewrite mem_iota add0n => /andP [_ kl]. by rewrite take_cat kl nth_cat kl.
Qed.
Context (X : rv R N n) (Y : rv R N p) (E : 'M[R]_(p, N)) (Z : 'M[R]_(p, n)) (H : 'M[R]_p) (d : 'cV[R]_p) (ob : obs R p).
Hypothesis XE : load X *m E^T = 0.
Hypothesis EH : gram E = H.
Hypothesis Hd : forall i k, i != k -> H i k = 0.
Hypothesis LY : load Y = Z *m load X + E.
Hypothesis MY : mean Y = d + Z *m mean X.
Definition obs_on (s : seq 'I_p) : seq (datum R N) := pmap (fun i => omap (Datum (mean Y i 0) (\row_j load Y i j)) (ob i)) s.
Definition row_on (i : 'I_p) : uni_row R n := let m := isnan_mask ob i in Row (if m then 0 else odflt 0 (ob i)) (if m then 0 else row i Z) (d i 0) (if m then 0 else H i i) m.
Local Notation jl := (joint_ll log cst).
Lemma row_orth m (A : 'M[R]_(m, N)) i : A *m E^T = 0 -> A *m (row i E)^T = 0.
Proof. move=> O. by rewrite rowE trmx_mul mulmxA O mul0mx. Qed.
Lemma gram_row i k : row i E *m (row k E)^T = (H i k)%:M.
Proof. rewrite [LHS]mx11_scalar -EH /gram !mxE. congr (_%:M). by apply: eq_bigr => j _; rewrite !mxE. Qed.
Lemma jl_cat (l : seq (datum R N)) w F v : nonsingular (l ++ [:: w]) -> F != 0 -> \det (cov (stack (l ++ [:: w])) (stack (l ++ [:: w]))) = \det (cov (stack l) (stack l)) * F ->
  ((values (l ++ [:: w]) - mean (stack (l ++ [:: w])))^T *m invmx (cov (stack (l ++ [:: w])) (stack (l ++ [:: w]))) *m (values (l ++ [:: w]) - mean (stack (l ++ [:: w])))) 0 0 =
  ((values l - mean (stack l))^T *m invmx (cov (stack l) (stack l)) *m (values l - mean (stack l))) 0 0 + v ->
  log F + v = - 2%:R * (jl (l ++ [:: w]) - jl l) - cst.
Proof.
  move=> U Fn Ed Eq. have U0 := nonsingular_cat U.
  have d1 : 0 < \det (cov (stack (l ++ [:: w])) (stack (l ++ [:: w]))) by apply: pd_det_pos => //; exact: cov_psd.
  have d0 : 0 < \det (cov (stack l) (stack l)) by apply: pd_det_pos => //; exact: cov_psd.
  have F0 : 0 < F by move: d1; rewrite Ed pmulr_rgt0.
  have zs : (size (l ++ [:: w]))%:R = (size l)%:R + 1 :> R by rewrite size_cat natrD.
  rewrite /joint_ll /gauss_ll zs Eq Ed logM //. move: (log _) (log _) (fun_of_matrix _ _ _) (size l)%:R => l1 l2 q s.
  have h2 : (2%:R : R) * 2%:R^-1 = 1 by rewrite mulfV // two_neq0. move: (2%:R : R) (2%:R^-1) h2 => t h h2. 
  have -> : - t * (- h * ((s + 1) * cst + (l1 + l2) + (q + v)) - - h * (s * cst + l1 + q)) - cst = (t * h) * (cst + l2 + v) - cst by clear; fchange; ring.
  rewrite h2. clear. fchange. ring.
Qed.
Lemma scan_rows s : forall l a P, condL X l a P -> (forall i, i \in s -> load (stack l) *m (row i E)^T = 0) -> uniq s -> nonsingular (l ++ obs_on s) ->
  let: (a2, P2, ls) := uni_scan log 0 [seq row_on i | i <- s] a P in
  condL X (l ++ obs_on s) a2 P2 /\
  uni_ll cst ls = jl (l ++ obs_on s) - jl l + 2%:R^-1 * ((zero_terms log (l ++ obs_on s))%:R - (zero_terms log l)%:R) * cst.
Proof.
  elim: s => [|i s IH] l a P C O us U. { rewrite /= cats0. split=> //. rewrite /uni_ll big_nil /= !mul0r. rewrite !subrr mulr0 mul0r !addr0 mulr0. by []. }
  move: us; rewrite cons_uniq => /andP [nis us]. have -> : [seq row_on i | i <- i :: s] = row_on i :: [seq row_on i | i <- s] by []. rewrite uni_scan_cons.
  have Eo : obs_on (i :: s) = (if ob i is Some v then [:: Datum (mean Y i 0) (\row_j load Y i j) v] else [::]) ++ obs_on s by rewrite /obs_on /=; case: (ob i).
  move: U. rewrite {}Eo. case Ei: (ob i) => [v|].
  - set w := Datum _ _ _. rewrite catA => U. have Ul := nonsingular_cat U.
    have Er : row_on i = Row v (row i Z) (d i 0) (H i i) false by rewrite /row_on /isnan_mask Ei.
    have lw : d_load w = row i Z *m load X + row i E by rewrite -row_mul -linearD /= -LY; apply/matrixP => ? ?; rewrite !mxE.
    have K := @inner_step R N n log X l a P (row_on i) (row i E) w C (row_orth i XE) (O i (mem_head _ _)). rewrite Er in K *.
    have K2 := K erefl ltac:(by rewrite /gram gram_row). have K3 := K2 ltac:(by rewrite /w [d_mean _]/= MY mxE -row_mul [RHS]/= [(row i _) _ _]mxE). case EI: (uni_inner log 0 (Row v (row i Z) (d i 0) (H i i) false) a P) => [[[[a1 P1] yh] F] ll]. have [C1 Co Ed Eq [Fn Ell]] := K3 lw erefl Ul _ _ _ _ _ EI. clear K K2 K3.
    have O1 : forall k, k \in s -> load (stack (l ++ [:: w])) *m (row k E)^T = 0.
    { move=> k ks. have [e [_ L _]] := dat_cat (dat_self l) (dat_one w). rewrite L. case: _ / e {L}. rewrite castmx_id mul_col_mx (O k); last by rewrite inE ks orbT.
      rewrite lw mulmxDl -mulmxA (row_orth k XE) mulmx0 add0r gram_row Hd; last by apply: contraNneq nis => ->. by rewrite -scalemx1 scale0r col_mx0. }
    have := IH _ _ _ C1 O1 us U. rewrite -/(obs_on s). generalize (uni_scan log 0 [seq row_on i | i <- s] a1 P1) => -[[a2 P2] ls] H12. cbv beta iota zeta in H12 |- *. case: H12 => C2 L2. split=> //.
    have [Ey EF] := condL_given (nonsingular_cat Ul) Co. have Ei' : innovation_term log l w = ll.
    { rewrite /innovation_term -Ey -EF !mxE eqxx !mulr1n Ell. by []. }
    have EL := jl_cat Ul Fn Ed Eq. rewrite -Ell in EL. have Zc := zero_cat l w. rewrite Ei' in Zc.
    have h2 : (2%:R : R)^-1 * 2%:R = 1 by rewrite mulVf // two_neq0.
    have -> : uni_ll cst (ll :: ls) = uni_ll cst ls - 2%:R^-1 * ((ll != 0)%:R * cst + ll). { rewrite /uni_ll big_cons /= natrD. move: (_%:R) (_%:R) (\sum_(_ <- _) _) (2%:R^-1) => *. clear. fchange. ring. }
    rewrite {}L2 Zc natrD. have -> : ((ll != 0)%:R : R) = 1 - (ll == 0)%:R by case: (ll == 0); rewrite ?subrr ?subr0.
    move: ((ll == 0)%:R) => b. rewrite {}EL. move: (jl ((l ++ [:: w]) ++ obs_on s)) (jl (l ++ [:: w])) (jl l) (zero_terms log ((l ++ [:: w]) ++ obs_on s))%:R (zero_terms log l)%:R => j1 j2 j3 z1 z2.
    move: (2%:R : R) (2%:R^-1) h2 => t h h2.
    have -> : j1 - j2 + h * (z1 - (z2 + b)) * cst - h * ((1 - b) * cst + (- t * (j2 - j3) - cst)) = j1 - j2 + h * (z1 - z2) * cst + (h * t) * (j2 - j3) by clear; fchange; ring.
    rewrite h2. clear. fchange. ring.
  - rewrite cat0s => U. have Er : r_nan (row_on i) by rewrite /row_on /isnan_mask Ei. have [m [F ->]] := uni_inner_nan log 0 a P Er.
    have O1 : forall k, k \in s -> load (stack l) *m (row k E)^T = 0 by move=> k ks; apply: O; rewrite inE ks orbT.
    have := IH l a P C O1 us U. generalize (uni_scan log 0 [seq row_on i | i <- s] a P) => -[[a2 P2] ls] H12. cbv beta iota zeta in H12 |- *. case: H12 => C2 L2. split=> //. rewrite -/(obs_on s) -L2 /uni_ll /= eqxx add0n big_cons add0r. by [].
Qed.
End Scan.

Section Run.
Context (R : realFieldType) (N n p r : nat) (log : R -> R) (cst : R).
Add Field ff_ju3 : (@f_field R).
Hypothesis logM : forall a b, 0 < a -> 0 < b -> log (a * b) = log a + log b.
Context (m : KalmanUni_Model.mats R n p r) (ys : seq (obs R p)) (a0 : 'cV[R]_n) (P0 : 'M[R]_n) (x : nat -> rv R N n) (y : nat -> rv R N p).
Hypothesis Hd : forall i k, i != k -> m_H m i k = 0.
Local Notation us := (with_mats m ys).
Hypothesis M : model us a0 P0 x y.
Hypothesis U : nonsingular (data us y (size us)).
Local Notation D := (data us y).
Local Notation st := (@uni_step R log cst 0 n p r).
Local Notation jl := (joint_ll log cst).
Local Notation zt := (zero_terms log).
Lemma with_H t u : List.nth_error us t = Some u -> in_H u = m_H m.
Proof. rewrite /with_mats. elim: ys t => [|o os IH] [|t] //=; [by case=> <- | exact: IH]. Qed.
Lemma ns t : (t <= size us)%N -> nonsingular (D t).
Proof.
  move=> lt. have [k ->] : exists k, t = (size us - k)%N by exists (size us - t)%N; rewrite subKn.
  elim: k => [|k IH]; first by rewrite subn0. rewrite subnS. case E: (size us - k)%N IH => [|q] //= Uq.
  have lq : (q < size us)%N by rewrite -E leq_subr. have [u Eu] := nth_lt lq. rewrite (data_S y Eu) in Uq. exact: nonsingular_cat Uq.
Qed.
Lemma uni_one t u a P : List.nth_error us t = Some u -> condL (x t) (D t) a P -> let o := st u a P in
  [/\ condL (x t) (D t.+1) (KalmanScan_Model.o_af o) (KalmanScan_Model.o_Pf o), condL (x t.+1) (D t.+1) (KalmanScan_Model.o_ahat o) (KalmanScan_Model.o_Phat o) &
      KalmanScan_Model.o_ll o = jl (D t.+1) - jl (D t) + 2%:R^-1 * ((zt (D t.+1))%:R - (zt (D t))%:R) * cst].
Proof.
  move=> Eu C o. have [eps [eta [H0 Hu Hx He Hs]]] := M. have lt := lt_nth Eu. have [B1 B2 B3 B4] := past Hu Hx He Hs (ltnW lt) (leqnn t).
  have [_ _ [_ EH] [_ EQ]] := Hu _ _ Eu. have [Ly My] := load_y Hu Eu.
  have O1 : forall i, i \in enum 'I_p -> load (stack (D t)) *m (row i (load (eps t)))^T = 0 by move=> i _; exact: row_orth (orth_stack B3).
  have Ed : forall i k, i != k -> in_H u i k = 0 by rewrite (with_H Eu).
  have Un : nonsingular (D t ++ obs_on (y t) (in_y u) (enum 'I_p)) by rewrite -[obs_on _ _ _]/(observed (y t) (in_y u)) -(data_S y Eu); exact: ns.
  have := @scan_rows R N n p log cst logM (x t) (y t) (load (eps t)) (in_Z u) (in_H u) (in_d u) (in_y u) B1 EH Ed Ly My (enum 'I_p) (D t) a P C O1 (enum_uniq _) Un.
  rewrite -[obs_on _ _ _]/(observed (y t) (in_y u)) -(data_S y Eu). rewrite /o /uni_step /uni_update -[uni_rows _ _ _ _]/[seq row_on (in_Z u) (in_H u) (in_d u) (in_y u) i | i <- enum 'I_p].
  generalize (uni_scan log 0 [seq row_on (in_Z u) (in_H u) (in_d u) (in_y u) i | i <- enum 'I_p] a P) => -[[a2 P2] ls] [C2 L2].
  generalize (uni_obs log 0 [seq row_on (in_Z u) (in_H u) (in_d u) (in_y u) i | i <- enum 'I_p] a P (0, 0)) => -[mu F].
  have pP2 := isCond_psd C2. have pQ : psd (in_Q u) by rewrite -EQ; exact: cov_psd. rewrite stab00 (psd_sym pP2) half_dbl /predict /=. split=> //.
  have := next_cond Hu Hx He Hs Eu C2. by rewrite !quad_symE ?(psd_sym pP2) ?(psd_sym pQ).
Qed.
Local Notation bef := (KalmanScan_Spec.before st us a0 P0).
Lemma uni_bef t : (t <= size us)%N -> condL (x t) (D t) (bef t).1 (bef t).2.
Proof.
  elim: t => [|t IH] lt. { have [eps [eta [H0 _ _ _ _]]] := M. have -> : bef 0%N = (a0, P0) by case: us. exact: cond0. }
  have [u Eu] := nth_lt lt. have C := IH (ltnW lt). rewrite (KalmanScan_Proofs.before_S st us a0 P0 t u Eu) /=. by have [_ Cn _] := uni_one Eu C.
Qed.
Context (f : @KalmanScan_Model.filter_out 'cV[R]_n 'M[R]_n 'cV[R]_1 'M[R]_1 R).
Hypothesis E : uni_filter log cst 0 m ys a0 P0 = Common.Ok f.
Lemma uni_all t u : List.nth_error us t = Some u ->
  [/\ List.nth_error (KalmanScan_Model.predicted_states f) t = Some (given_mean (x t) (D t)) /\ List.nth_error (KalmanScan_Model.predicted_covs f) t = Some (given_cov (x t) (D t)),
      List.nth_error (KalmanScan_Model.filtered_states f) t = Some (given_mean (x t) (D t.+1)) /\ List.nth_error (KalmanScan_Model.filtered_covs f) t = Some (given_cov (x t) (D t.+1)) &
      List.nth_error (KalmanScan_Model.loglike_obs f) t = Some (jl (D t.+1) - jl (D t) + 2%:R^-1 * ((zt (D t.+1))%:R - (zt (D t))%:R) * cst)].
Proof.
  move=> Et. have ne : us <> nil by move=> e; move: Et; rewrite e; case: (t).
  have [g [Eg [_ [_ [_ [_ [_ [_ [_ H]]]]]]]]] := KalmanScan_Proofs.build_ok st us a0 P0 ne.
  move: Eg; rewrite -/(uni_filter log cst 0 m ys a0 P0) E => -[eg]; subst g.
  have [-> [-> [-> [-> [_ [_ ->]]]]]] := H t u Et. have lt := lt_nth Et. have C := uni_bef (ltnW lt). have [C1 _ ->] := uni_one Et C.
  have [<- <-] := condL_given (ns (ltnW lt)) C. by have [<- <-] := condL_given (ns lt) C1.
Qed.
Lemma uni_ll_all : ys <> nil -> \sum_(l <- KalmanScan_Model.loglike_obs f) l = jl (D (size us)) + 2%:R^-1 * (zt (D (size us)))%:R * cst.
Proof.
  move=> ne'. have ne : us <> nil by move: ne'; case: (ys).
  have [g [Eg [_ [_ [_ [_ [_ [_ [L7 _]]]]]]]]] := KalmanScan_Proofs.build_ok st us a0 P0 ne.
  move: Eg; rewrite -/(uni_filter log cst 0 m ys a0 P0) E => -[eg]; subst g. have s7 : size (KalmanScan_Model.loglike_obs f) = size us by [].
  have nthE : forall (l : seq R) t w, List.nth_error l t = Some w -> nth 0 l t = w by elim=> [|a l IH] [|t] //= w; [case | exact: IH].
  have log1 : log 1 = 0. { have := logM (@ltr01 R) (@ltr01 R). rewrite mulr1 => /eqP. rewrite -subr_eq0 opprD addrA subrr add0r oppr_eq0 => /eqP. by []. }
  rewrite (big_nth 0) big_mkord s7. suff H : forall t, (t <= size us)%N -> \sum_(i < t) nth 0 (KalmanScan_Model.loglike_obs f) i = jl (D t) + 2%:R^-1 * (zt (D t))%:R * cst by exact: H.
  elim=> [|t IH] lt.
  - rewrite big_ord0 /joint_ll /gauss_ll /data /= det_mx00 log1. have -> : forall A : 'M[R]_0, forall v : 'cV[R]_0, (v^T *m A *m v) 0 0 = 0 by move=> A v; rewrite mxE big_ord0. by rewrite !mul0r !add0r /zero_terms /= !mulr0 mul0r addr0.
  - rewrite big_ord_recr /= IH ?(ltnW lt) //. have [u Eu] := nth_lt lt. have [_ _ L] := uni_all Eu. rewrite (nthE _ _ _ L).
    move: (jl _) (jl _) (zt _)%:R (zt _)%:R (2%:R^-1) => *. clear. fchange. ring.
Qed.
End Run.
