(** C87: the draws of forecast have the predictive mean and covariance of the state space model. *)
From Coq Require Import String Ascii.
From Verif Require Common KalmanScan_Model.
From mathcomp Require Import all_ssreflect all_algebra.
From Verif Require Import Lgss_Model Lgss_Spec Lgss_Proofs Lgss_Props Fdraw_Model.
Set Implicit Arguments.
Unset Strict Implicit.
Unset Printing Implicit Defensive.
Import GRing.Theory.
Import Common(res, Ok, Err, bind, ValueError, IndexError).
Import KalmanScan_Model(pname, Pc, Pd, PT, PZ, PR, PH, PQ).
Local Open Scope ring_scope.

(** ** Specification *)
Section Spec.
Context (R : comRingType).
(** the first N numbers of the stream *)
Definition zvec (N : nat) (z : nat -> R) : 'cV[R]_N := \col_i z i.
(** a random vector computed from independent standard normal numbers z 0, z 1, ... has mean mu and covariance V: it is mu + A z with A A' = V *)
Definition moments n (f : (nat -> R) -> 'cV[R]_n) (mu : 'cV[R]_n) (V : 'M[R]_n) : Prop :=
  exists N (A : 'M[R]_(n, N)), (forall z, f z = mu + A *m zvec N z) /\ V = A *m A^T.
(** mean and covariance of the state h steps ahead, given mean and covariance now and the matrices of every step *)
Context (k p r : nat).
Fixpoint pmean (ms : nat -> mats R k p r) (mu : 'cV[R]_k) (h : nat) : 'cV[R]_k :=
  match h with 0 => mu | h'.+1 => m_c (ms h') + m_T (ms h') *m pmean ms mu h' end.
Fixpoint pcov (ms : nat -> mats R k p r) (V : 'M[R]_k) (h : nat) : 'M[R]_k :=
  match h with 0 => V | h'.+1 => m_T (ms h') *m pcov ms V h' *m (m_T (ms h'))^T + m_R (ms h') *m m_Q (ms h') *m (m_R (ms h'))^T end.
End Spec.

Section Moments.
Context (R : comRingType).
Lemma zvec_split N n (z : nat -> R) : zvec (N + n) z = col_mx (zvec N z) (\col_j z (N + j)%N).
Proof.
  apply/matrixP => i j. case: (splitP i) => i' E.
  - have -> : i = lshift n i' by apply/val_inj. by rewrite col_mxEu !mxE.
  - have -> : i = rshift N i' by apply/val_inj. by rewrite col_mxEd !mxE.
Qed.
Lemma zvec_pid N M (z : nat -> R) : (N <= M)%N -> zvec N z = (pid_mx N : 'M_(N, M)) *m zvec M z.
Proof.
  move=> H. apply/matrixP => i j. rewrite !mxE (bigD1 (widen_ord H i)) //= !mxE eqxx ltn_ord mul1r big1 ?addr0 // => l Hl.
  rewrite !mxE. case: eqP => [E|_]; last by rewrite /= mul0r. case/negP: Hl. apply/eqP/val_inj. by rewrite /= E.
Qed.
Lemma pid_one N M : (N <= M)%N -> (pid_mx N : 'M[R]_(N, M)) *m (pid_mx N)^T = 1%:M.
Proof. move=> H. rewrite tr_pid_mx mul_pid_mx minnn (minn_idPr H) pid_mx_1. by []. Qed.
Lemma zvec_ext m N (A B : 'M[R]_(m, N)) : (forall z, A *m zvec N z = B *m zvec N z) -> A = B.
Proof.
  move=> H. apply/matrixP => i j. move: (H (fun x => (x == j)%:R)) => /matrixP/(_ i ord0).
  have E : forall M : 'M[R]_(m, N), (M *m zvec N (fun x => (x == j)%:R)) i ord0 = M i j.
  { move=> M. rewrite mxE (bigD1 j) //= mxE eqxx mulr1 big1 ?addr0 // => l Hl. rewrite mxE. have -> : (nat_of_ord l == nat_of_ord j) = false by apply/negbTE. by rewrite mulr0. }
  by rewrite !E.
Qed.
(** mean and covariance are determined by the random vector *)
Lemma moments_unique n (f : (nat -> R) -> 'cV[R]_n) mu V mu' V' : moments f mu V -> moments f mu' V' -> mu = mu' /\ V = V'.
Proof.
  move=> [N [A [FA ->]]] [N' [A' [FA' ->]]].
  have Z0 : forall M, zvec M (fun _ => 0 : R) = 0 by move=> M; apply/matrixP => i j; rewrite !mxE.
  have E : mu = mu'. { move: (FA (fun _ => 0)) (FA' (fun _ => 0)). rewrite !Z0 !mulmx0 !addr0 => <- <-. by []. }
  split=> //. have HN : (N <= maxn N N')%N by rewrite leq_maxl. have HN' : (N' <= maxn N N')%N by rewrite leq_maxr.
  have EA : A *m (pid_mx N : 'M_(N, maxn N N')) = A' *m (pid_mx N' : 'M_(N', maxn N N')).
  { apply: zvec_ext => z. rewrite -!mulmxA -!zvec_pid //. apply: (addrI mu). by rewrite -FA E -FA'. }
  have VJ : forall M (B : 'M[R]_(n, M)) L (H : (M <= L)%N), B *m B^T = (B *m (pid_mx M : 'M_(M, L))) *m (B *m (pid_mx M : 'M_(M, L)))^T.
  { move=> M B L H. by rewrite trmx_mul mulmxA -(mulmxA B) pid_one // mulmx1. }
  by rewrite (VJ _ _ _ HN) (VJ _ _ _ HN') EA.
Qed.
End Moments.

Section Props.
Context (R : comRingType) (k p r : nat) (factor : forall n, 'M[R]_n -> 'M[R]_n).
Implicit Types (s : system R k p r) (ms : nat -> mats R k p r).
(** number of the stream at which step h starts *)
Fixpoint start (h : nat) : nat := match h with 0 => 0 | h'.+1 => (start h' + r + p)%N end.
Lemma gen_start z h : gen p r (@stream R z) 0%N h = start h.
Proof. elim: h => [|h IH] //=. by rewrite IH. Qed.

(** every draw is an explicit affine function of the numbers *)
Lemma forecast_affine s ms n mu P : covers s n -> (0 < n)%N -> (forall i, (i < n)%N -> matrices_at s i (ms i)) ->
  exists xs ys : (nat -> R) -> _, (forall z, forecast_trajectory (stream z) factor mu P s n 0%N = Ok (xs z, ys z) /\ size (xs z) = n /\ size (ys z) = n) /\
  forall z h, (h < n)%N -> 
    let x h := if h is h'.+1 then nth 0 (xs z) h' else mu + factor P *m zvec k z in
    nth 0 (xs z) h = m_c (ms h) + m_T (ms h) *m x h + m_R (ms h) *m (factor (m_Q (ms h)) *m \col_j z (start h + j)%N) /\
    nth 0 (ys z) h = m_d (ms h) + m_Z (ms h) *m nth 0 (xs z) h + factor (m_H (ms h)) *m \col_j z (start h + r + j)%N.
Proof.
  move=> Hc Hn Hm.
  have S : forall A (x : param A) a, at_time x 0 = Some a -> at_start x = Ok a by move=> A [b|[|b l]] a //=; case=> ->.
  have [[A1 A2 A3 A4] [A5 A6 A7]] := Hm _ Hn.
  have K : forall z, exists o, forecast_trajectory (stream z) factor mu P s n 0%N = Ok o /\ size o.1 = n /\ size o.2 = n /\ forall h, (h < n)%N ->
     let x h := if h is h'.+1 then nth 0 o.1 h' else mu + factor P *m zvec k z in
     nth 0 o.1 h = m_c (ms h) + m_T (ms h) *m x h + m_R (ms h) *m (factor (m_Q (ms h)) *m \col_j z (start h + j)%N) /\
     nth 0 o.2 h = m_d (ms h) + m_Z (ms h) *m nth 0 o.1 h + factor (m_H (ms h)) *m \col_j z (start h + r + j)%N.
  { move=> z. rewrite /forecast_trajectory /lgss (S _ _ _ A4) (S _ _ _ A6). cbn [bind]. rewrite !mvnormal_eq. cbn [fst snd].
    set x0 := mu + _. set y0 := _ + noise _ _ _ (m_H _).
    have [sts [E [Hz Hx]]] := @scan_ok R k p r _ (stream z) factor s n 0 (col_mx x0 y0) 0%N Hc.
    rewrite E /=. eexists. split; first by []. rewrite /= !size_map Hz. do 2! split=> //. move=> h Hh. have [E1 E2] := Hx h (ms h) Hh (Hm h Hh).
    rewrite !(nth_map 0) ?Hz //. rewrite {}E2 {}E1 /noise /after gen_start /=. split=> //. congr (_ + _ *m _ + _). clear - Hh Hz. case: h Hh => [|h] Hh /=.
    - rewrite col_mxKu /x0 /noise /=. congr (_ + _ *m _). 
    - by rewrite (nth_map 0) // Hz ltnW. }
  exists (fun z => if forecast_trajectory (stream z) factor mu P s n 0%N is Ok o then o.1 else [::]), (fun z => if forecast_trajectory (stream z) factor mu P s n 0%N is Ok o then o.2 else [::]).
  split=> [z|z h Hh]; have [o [-> [H1 [H2 H3]]]] := K z; last exact: H3. by case: (o) H1 H2.
Qed.

(** C87: which output of the filter the forecast starts from, and what it is: outputs are the filtered, predicted and smoothed (mean, covariance) sequences *)
Definition starts_from (outputs : seq (seq ('cV[R]_k * 'M[R]_k))) (filter_output : string) (t0 : nat) (mu : 'cV[R]_k) (P : 'M[R]_k) : Prop :=
  let group := if String.eqb filter_output "filtered" then Some 0%N else if String.eqb filter_output "predicted" then Some 1%N else if String.eqb filter_output "smoothed" then Some 2%N else None in
  exists i, group = Some i /\ List.nth_error (nth [::] outputs i) t0 = Some (mu, P).
Lemma starts_eq outputs name t0 mu P s n z : starts_from outputs name t0 mu P ->
  forecast_draws factor outputs name t0 s n z = forecast_trajectory (stream z) factor mu P s n 0%N.
Proof.
  move=> [i []]. rewrite /forecast_draws. case: String.eqb_spec => [->|_]; [|case: String.eqb_spec => [->|_]; [|case: String.eqb_spec => [->|_] //]]; move=> [<-] E2; by rewrite /= E2.
Qed.

(** Mean: h+1 steps after the start the mean of the state is the one the transition equation predicts, and the mean of the observation follows. *)
Theorem C87_mean outputs name t0 mu P s ms n : starts_from outputs name t0 mu P -> covers s n -> (0 < n)%N -> (forall i, (i < n)%N -> matrices_at s i (ms i)) ->
  exists xs ys : (nat -> R) -> _, (forall z, forecast_draws factor outputs name t0 s n z = Ok (xs z, ys z) /\ size (xs z) = n /\ size (ys z) = n) /\
  forall h, (h < n)%N -> (exists V, moments (fun z => nth 0 (xs z) h) (pmean ms mu h.+1) V) /\
                         (exists V, moments (fun z => nth 0 (ys z) h) (m_d (ms h) + m_Z (ms h) *m pmean ms mu h.+1) V).
Proof.
  move=> Hs Hc Hn Hm. have [xs [ys [E F]]] := forecast_affine mu P Hc Hn Hm. exists xs, ys. split; first by move=> z; rewrite (starts_eq _ _ _ Hs).
  have K : forall h, (h < n)%N -> exists (A : 'M[R]_(k, k)) (B : 'M[R]_(k, start h + r)), forall z, nth 0 (xs z) h = pmean ms mu h.+1 + A *m zvec k z + B *m zvec (start h + r) z.
  { elim=> [|h IH] Hh.
    - exists (m_T (ms 0%N) *m factor P), (m_R (ms 0%N) *m factor (m_Q (ms 0%N))). move=> z. rewrite (F z 0%N Hh).1 /=.
      have -> : \col_j z (0 + j)%N = zvec (0 + r) z by apply/matrixP => i j; rewrite !mxE. by rewrite mulmxDr !mulmxA !addrA.
    - have [A [B EAB]] := IH (ltnW Hh). exists (m_T (ms h.+1) *m A), (row_mx (row_mx (m_T (ms h.+1) *m B) 0) (m_R (ms h.+1) *m factor (m_Q (ms h.+1)))) => z.
      rewrite (F z h.+1 Hh).1 EAB (zvec_split (start h.+1) r z) mul_row_col /= (zvec_split (start h + r) p z) mul_row_col mul0mx addr0 !mulmxDr -!mulmxA !addrA. by []. }
  move=> h Hh. have [A [B EAB]] := K h Hh. split.
  - exists ((A *m (pid_mx k : 'M_(k, maxn k (start h + r))) + B *m (pid_mx (start h + r) : 'M_(_, maxn k (start h + r)))) *m
      (A *m (pid_mx k : 'M_(k, maxn k (start h + r))) + B *m (pid_mx (start h + r) : 'M_(_, maxn k (start h + r))))^T).
    exists (maxn k (start h + r)), (A *m pid_mx k + B *m pid_mx (start h + r)). split=> // z. by rewrite EAB mulmxDl -!mulmxA -!zvec_pid ?leq_maxl ?leq_maxr // addrA.
  - set M := maxn k (start h + r + p).
    pose C := m_Z (ms h) *m (A *m (pid_mx k : 'M_(k, M)) + row_mx B (0 : 'M_(k, p)) *m (pid_mx (start h + r + p) : 'M_(start h + r + p, M))) + (row_mx 0 (factor (m_H (ms h)))) *m (pid_mx (start h + r + p) : 'M_(start h + r + p, M)).
    exists (C *m C^T), M, C. split=> // z. rewrite (F z h Hh).2 EAB /C !mulmxDl -!mulmxA !mulmxDl -!mulmxA -!zvec_pid ?leq_maxl ?leq_maxr // (zvec_split (start h + r) p z) !mul_row_col !mul0mx addr0 add0r.
    by rewrite !mulmxDr !addrA.
Qed.

(** Covariance: correct when the state at the start is known (its covariance has the factor 0). *)
Theorem C87_covariance_partial outputs name t0 mu P s ms n : starts_from outputs name t0 mu P -> covers s n -> (0 < n)%N -> (forall i, (i < n)%N -> matrices_at s i (ms i)) ->
  factor P = 0 -> (forall i, (i < n)%N -> factor (m_Q (ms i)) *m (factor (m_Q (ms i)))^T = m_Q (ms i) /\ factor (m_H (ms i)) *m (factor (m_H (ms i)))^T = m_H (ms i)) ->
  exists xs ys : (nat -> R) -> _, (forall z, forecast_draws factor outputs name t0 s n z = Ok (xs z, ys z) /\ size (xs z) = n /\ size (ys z) = n) /\
  forall h, (h < n)%N -> moments (fun z => nth 0 (xs z) h) (pmean ms mu h.+1) (pcov ms 0 h.+1) /\
                         moments (fun z => nth 0 (ys z) h) (m_d (ms h) + m_Z (ms h) *m pmean ms mu h.+1) (m_Z (ms h) *m pcov ms 0 h.+1 *m (m_Z (ms h))^T + m_H (ms h)).
Proof.
  move=> Hs Hc Hn Hm P0 Hf. have [xs [ys [E F]]] := forecast_affine mu P Hc Hn Hm. exists xs, ys. split; first by move=> z; rewrite (starts_eq _ _ _ Hs).
  have K : forall h, (h < n)%N -> exists (B : 'M[R]_(k, start h + r)), (forall z, nth 0 (xs z) h = pmean ms mu h.+1 + B *m zvec (start h + r) z) /\ B *m B^T = pcov ms 0 h.+1.
  { elim=> [|h IH] Hh.
    - exists (m_R (ms 0%N) *m factor (m_Q (ms 0%N))). split.
      + move=> z. rewrite (F z 0%N Hh).1 /= P0 mul0mx addr0. have -> : \col_j z (0 + j)%N = zvec (0 + r) z by apply/matrixP => i j; rewrite !mxE. by rewrite !mulmxA.
      + rewrite /= mulmx0 mul0mx add0r trmx_mul mulmxA -(mulmxA (m_R _) (factor _)) (proj1 (Hf 0%N Hh)). by [].
    - have [B [EB VB]] := IH (ltnW Hh). exists (row_mx (row_mx (m_T (ms h.+1) *m B) 0) (m_R (ms h.+1) *m factor (m_Q (ms h.+1)))). split.
      + move=> z. rewrite (F z h.+1 Hh).1 EB (zvec_split (start h.+1) r z) mul_row_col /= (zvec_split (start h + r) p z) mul_row_col mul0mx addr0 !mulmxDr -!mulmxA !addrA. by [].
      + rewrite !tr_row_mx !mul_row_col trmx0 mulmx0 addr0 !trmx_mul !mulmxA -(mulmxA _ B) VB -(mulmxA (m_R _) (factor _)) (proj1 (Hf _ Hh)). by []. }
  move=> h Hh. have [B [EB VB]] := K h Hh. split.
  - by exists (start h + r)%N, B.
  - exists (start h + r + p)%N, (row_mx (m_Z (ms h) *m B) (factor (m_H (ms h)))). split.
    + move=> z. by rewrite (F z h Hh).2 EB (zvec_split (start h + r) p z) mul_row_col mulmxDr -mulmxA !addrA.
    + by rewrite tr_row_mx mul_row_col trmx_mul !mulmxA -(mulmxA _ B) VB (proj2 (Hf h Hh)).
Qed.

(** REFUTED for an uncertain start: the numbers behind the draw of the starting state are used again for the shocks.  The covariance one step ahead is the predicted one plus X + X'. *)
Theorem C87_covariance_refuted outputs name t0 mu P s m n : starts_from outputs name t0 mu P -> covers s n -> (0 < n)%N -> matrices_at s 0 m ->
  factor P *m (factor P)^T = P -> factor (m_Q m) *m (factor (m_Q m))^T = m_Q m ->
  exists xs ys : (nat -> R) -> _, (forall z, forecast_draws factor outputs name t0 s n z = Ok (xs z, ys z)) /\
    let predicted := m_T m *m P *m (m_T m)^T + m_R m *m m_Q m *m (m_R m)^T in
    let X := m_T m *m factor P *m (pid_mx (minn k r) : 'M_(k, r)) *m (factor (m_Q m))^T *m (m_R m)^T in
    moments (fun z => nth 0 (xs z) 0) (m_c m + m_T m *m mu) (predicted + (X + X^T)) /\
    (X + X^T <> 0 -> forall mu', ~ moments (fun z => nth 0 (xs z) 0) mu' predicted).
Proof.
  move=> Hs Hc Hn Hm HP HQ. 
  have [ms Hms] : exists ms, ms 0%N = m /\ forall i, (i < n)%N -> matrices_at s i (ms i).
  { have K : forall i, exists m', (i < n)%N -> matrices_at s i m'. { move=> i. case Hi: (i < n)%N; last by exists m. have [m' Hm'] := covers_at Hc Hi. by exists m'. }
    have L : forall l, exists ms, ms 0%N = m /\ forall i, (i < l)%N -> (i < n)%N -> matrices_at s i (ms i).
    { elim=> [|l [ms [E IH]]]; first by exists (fun _ => m). have [m' Hm'] := K l. case: l IH Hm' => [|l] IH Hm'.
      - exists ms. split=> //. move=> [|i] // _ _. by rewrite E.
      - exists (fun i => if i == l.+1 then m' else ms i). split=> // i. case: eqP => [->|Ne] Hi Hin; first exact: Hm'.
        apply: IH => //. rewrite ltnS leq_eqVlt in Hi. by case/orP: Hi => [/eqP|]. }
    have [ms [E Hms]] := L n. exists ms. split=> // i Hi. exact: Hms. }
  case: Hms => Em Hms. have [xs [ys [E F]]] := forecast_affine mu P Hc Hn Hms. exists xs, ys. split; first by move=> z; rewrite (starts_eq _ _ _ Hs) (E z).1.
  cbv zeta. set X := m_T m *m factor P *m _ *m _ *m _.
  have M : moments (fun z => nth 0 (xs z) 0) (m_c m + m_T m *m mu) (m_T m *m P *m (m_T m)^T + m_R m *m m_Q m *m (m_R m)^T + (X + X^T)).
  { exists (maxn k r), (m_T m *m factor P *m pid_mx k + m_R m *m factor (m_Q m) *m pid_mx r). split.
    - move=> z. rewrite (F z 0%N Hn).1 /= Em mulmxDl -!mulmxA -!zvec_pid ?leq_maxl ?leq_maxr //.
      have -> : \col_j z (0 + j)%N = zvec r z by apply/matrixP => i j; rewrite !mxE. by rewrite mulmxDr !addrA.
    - rewrite linearD /= mulmxDl !mulmxDr !trmx_mul !mulmxA.
      have J1 : (pid_mx k : 'M[R]_(k, maxn k r)) *m (pid_mx k)^T = 1%:M by apply: pid_one; rewrite leq_maxl.
      have J2 : (pid_mx r : 'M[R]_(r, maxn k r)) *m (pid_mx r)^T = 1%:M by apply: pid_one; rewrite leq_maxr.
      have J3 : (pid_mx k : 'M[R]_(k, maxn k r)) *m (pid_mx r : 'M[R]_(r, maxn k r))^T = (pid_mx (minn k r) : 'M[R]_(k, r)).
      { rewrite tr_pid_mx mul_pid_mx. congr pid_mx. apply/minn_idPr. by rewrite geq_min leq_maxl. }
      have J4 : (pid_mx r : 'M[R]_(r, maxn k r)) *m (pid_mx k : 'M[R]_(k, maxn k r))^T = (pid_mx (minn k r) : 'M[R]_(k, r))^T by rewrite -J3 trmx_mul trmxK.
      rewrite -!(mulmxA _ (pid_mx k)) -!(mulmxA _ (pid_mx r)) J1 J2 J3 J4 !mulmx1 -!(mulmxA _ (factor P)) -!(mulmxA _ (factor (m_Q m))) HP HQ.
      rewrite !trmxK /X !mulmxA -!addrA. congr (_ + _). rewrite addrC -!addrA. by []. }
  split=> // NX mu' M'. have [_ V] := moments_unique M M'. apply: NX. apply: (addrI (m_T m *m P *m (m_T m)^T + m_R m *m m_Q m *m (m_R m)^T)). by rewrite V addr0.
Qed.
(** REFUTED: time-varying matrices that do not come from a scenario are those of the first steps of the data, whatever the start: systems that agree on steps 0..n-1 give the same forecast. *)
Theorem C87_data_matrices_refuted outputs name t0 s s' n : covers s n -> covers s' n -> (0 < n)%N -> (forall i m, (i < n)%N -> (matrices_at s i m <-> matrices_at s' i m)) ->
  forall z, forecast_draws factor outputs name t0 s n z = forecast_draws factor outputs name t0 s' n z.
Proof.
  move=> Hc Hc' Hn Hss z. rewrite /forecast_draws. case: (validate_filter_arg name) => [u|e] //. cbn [bind]. case: (str_index name FILTER_OUTPUT_TYPES) => [i|] //. case: (List.nth_error (nth [::] outputs i) t0) => [[mu P]|] //.
  have S : forall A (x : param A) a, at_time x 0 = Some a -> at_start x = Ok a by move=> A [b|[|b l]] a //=; case=> ->.
  have [m Hm] := covers_at Hc Hn. have Hm' := proj1 (Hss _ _ Hn) Hm. have [[A1 A2 A3 A4] [A5 A6 A7]] := Hm. have [[B1 B2 B3 B4] [B5 B6 B7]] := Hm'.
  rewrite /forecast_trajectory /lgss (S _ _ _ A4) (S _ _ _ A6) (S _ _ _ B4) (S _ _ _ B6). cbn [bind]. set st := col_mx _ _. move: st => st.
  suff K : scan (stream z) factor s (seq_names s) 0 n st 0%N = scan (stream z) factor s' (seq_names s') 0 n st 0%N by rewrite K.
  have L : forall l t g st, (t + l <= n)%N -> scan (stream z) factor s (seq_names s) t l st g = scan (stream z) factor s' (seq_names s') t l st g.
  { elim=> [|l IH] t g st' Hl //=. have Ht : (t < n)%N by apply: leq_trans Hl; rewrite addnS ltnS leq_addr. have [mt Hmt] := covers_at Hc Ht.
    move: (step_ok (stream z) factor st' g Hmt) (step_ok (stream z) factor st' g (proj1 (Hss _ _ Ht) Hmt)).
    case: (scan_args s _ _ _ _) => [a|e] //= ->. case: (scan_args s' _ _ _ _) => [a'|e'] //= ->. rewrite IH // addSnnS. by []. }
  exact: L.
Qed.
(** The documented choices are accepted; anything that is not one of them in any case is rejected; ... *)
Theorem C87_filter_output_rejected name outputs t0 s n z : lower name <> "filtered"%string -> lower name <> "predicted"%string -> lower name <> "smoothed"%string -> forecast_draws factor outputs name t0 s n z = Err ValueError.
Proof.
  move=> H0 H1 H2. rewrite /forecast_draws /validate_filter_arg. have -> : str_index (lower name) FILTER_OUTPUT_TYPES = None; last by [].
  rewrite /=. case E0: String.eqb; first by move/String.eqb_eq: E0 H0 => ->.
  case E1: String.eqb; first by move/String.eqb_eq: E1 H1 => ->. case E2: String.eqb; first by move/String.eqb_eq: E2 H2 => ->. by [].
Qed.
(** ... REFUTED: that upper case is accepted, as the validation intends: it passes the validation and fails when the output is looked up. *)
Theorem C87_filter_output_case_refuted : validate_filter_arg "Filtered"%string = Ok tt /\ forall outputs t0 s n z, forecast_draws factor outputs "Filtered"%string t0 s n z = Err ValueError.
Proof. by []. Qed.
End Props.

(** A local level model (random walk plus noise) with unit variances, forecast from a level known with variance 1: one step ahead the variance is 2, the draws have variance 4. *)
Section Example.
Let R := [comRingType of int].
Definition id_factor n (M : 'M[R]_n) : 'M[R]_n := M.
Definition ex_level : system R 1 1 1 :=
  {| s_c := Const 0; s_d := Const 0; s_T := Const 1%:M; s_Z := Const 1%:M; s_R := Const 1%:M; s_H := Const 1%:M; s_Q := Const 1%:M |}.
Definition ex_mats : mats R 1 1 1 := {| m_c := 0; m_d := 0; m_T := 1%:M; m_Z := 1%:M; m_R := 1%:M; m_H := 1%:M; m_Q := 1%:M |}.
Example C87_level_example n : (0 < n)%N -> exists xs ys : (nat -> R) -> _,
  (forall z, forecast_draws id_factor [:: [:: (0, 1%:M)]] "filtered"%string 0 ex_level n z = Ok (xs z, ys z)) /\
  moments (fun z => nth 0 (xs z) 0) 0 (4%:R%:M) /\ forall mu', ~ moments (fun z => nth 0 (xs z) 0) mu' (2%:R%:M).
Proof.
  move=> Hn. have S : starts_from [:: [:: (0, 1%:M)]] "filtered"%string 0 (0 : 'cV[R]_1) 1%:M by exists 0%N.
  have C : covers ex_level n by []. have M : matrices_at ex_level 0 ex_mats by [].
  have F : id_factor (1%:M : 'M[R]_1) *m (id_factor (1%:M : 'M[R]_1))^T = 1%:M by rewrite /id_factor trmx1 mulmx1.
  have [xs [ys [E [A B]]]] := C87_covariance_refuted S C Hn M F F. exists xs, ys. split=> //.
  have V2 : m_T ex_mats *m 1%:M *m (m_T ex_mats)^T + m_R ex_mats *m m_Q ex_mats *m (m_R ex_mats)^T = 2%:R%:M by rewrite /= !trmx1 !mulmx1; apply/matrixP => i j; rewrite !mxE !ord1.
  have X : m_T ex_mats *m id_factor 1%:M *m (pid_mx (minn 1 1) : 'M_(1, 1)) *m (id_factor (m_Q ex_mats))^T *m (m_R ex_mats)^T = 1%:M by rewrite /= /id_factor minnn pid_mx_1 !trmx1 !mulmx1.
  rewrite V2 X trmx1 in A B. split.
  - move: A. rewrite /= mulmx0 addr0. have -> : 2%:R%:M + (1%:M + 1%:M) = 4%:R%:M :> 'M[R]_1 by apply/matrixP => i j; rewrite !mxE !ord1. by [].
  - apply: B. move/matrixP/(_ 0 0). by rewrite !mxE.
Qed.
Example C87_known_start_example n : (0 < n)%N -> exists xs ys : (nat -> R) -> _,
  (forall z, forecast_draws id_factor [:: [:: (0, 0)]] "filtered"%string 0 ex_level n z = Ok (xs z, ys z) /\ size (xs z) = n /\ size (ys z) = n) /\
  forall h, (h < n)%N -> moments (fun z => nth 0 (xs z) h) (pmean (fun _ => ex_mats) 0 h.+1) (pcov (fun _ => ex_mats) 0 h.+1).
Proof.
  move=> Hn. have S : starts_from [:: [:: (0, 0)]] "filtered"%string 0 (0 : 'cV[R]_1) 0 by exists 0%N.
  have C : covers ex_level n by []. have [|//||xs [ys [E K]]] := @C87_covariance_partial R 1 1 1 id_factor _ _ _ _ _ ex_level (fun _ => ex_mats) n S C Hn.
  - by [].
  - move=> i _. by rewrite /= /id_factor trmx1 mulmx1.
  - exists xs, ys. split=> // h Hh. by have [] := K h Hh.
Qed.
End Example.
