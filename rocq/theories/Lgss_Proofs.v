(** Lemmas about one step of the simulation. *)
From Verif Require Common KalmanScan_Model.
From mathcomp Require Import all_ssreflect all_algebra.
From Verif Require Import Lgss_Model Lgss_Spec.
Set Implicit Arguments.
Unset Strict Implicit.
Unset Printing Implicit Defensive.
Import GRing.Theory.
Import Common(res, Ok, Err, bind, ValueError, IndexError, TypeError, AssertionError).
Import KalmanScan_Model(pname, Pc, Pd, PT, PZ, PR, PH, PQ, PARAM_NAMES, pname_eqb).
Local Open Scope ring_scope.

Section Props.
Context (R : ringType) (k p r : nat) (Rng : Type) (normal : Rng -> forall n, 'cV[R]_n * Rng) (factor : forall n, 'M[R]_n -> 'M[R]_n).
Notation noise := (noise normal factor).
Notation gen := (gen p r normal).
Notation after := (after normal).
Implicit Type s : system R k p r.

Lemma mvnormal_eq g n (mu : 'cV[R]_n) cov : mvnormal normal factor g mu cov = (after g n, mu + noise g cov).
Proof. by rewrite /mvnormal /after /noise; case: (normal g n). Qed.
Lemma long_at A (x : param A) n t : long_enough n x -> (t < n)%N -> exists a, at_time x t = Some a.
Proof.
  case: x => [a|l] /=; first by exists a. move=> Hn Ht.
  case E: (List.nth_error l t) => [a|]; first by exists a.
  exfalso. move: (proj1 (List.nth_error_None l t) E) => /leP. rewrite leqNgt.
  have -> : List.length l = size l by elim: (l) => //= ? ? ->. by rewrite (leq_trans Ht Hn).
Qed.
Lemma covers_at s n t : covers s n -> (t < n)%N -> exists m, matrices_at s t m.
Proof.
  move=> [[H1 H2 H3 H4] [H5 H6 H7]] Ht.
  move: (long_at H1 Ht) (long_at H2 Ht) (long_at H3 Ht) (long_at H4 Ht) (long_at H5 Ht) (long_at H6 Ht) (long_at H7 Ht).
  move=> [a1 E1] [a2 E2] [a3 E3] [a4 E4] [a5 E5] [a6 E6] [a7 E7].
  by exists {| m_c := a1; m_d := a2; m_T := a3; m_Z := a4; m_R := a5; m_H := a6; m_Q := a7 |}.
Qed.
Lemma nth_error_map_seq A B (f : A -> B) l t : List.nth_error (map f l) t = omap f (List.nth_error l t).
Proof. by elim: l t => [|x l IH] [|t] //=. Qed.

(** one step of the scan *)
Lemma step_ok s t m (st : 'cV[R]_(k + p)) g : matrices_at s t m ->
  bind (scan_args s (seq_names s) t st g) (step_fn normal factor (size (seq_names s)))
  = Ok (let a := m_c m + m_T m *m usubmx st + m_R m *m noise g (m_Q m) in
        col_mx a (m_d m + m_Z m *m a + noise (after g r) (m_H m)), after (after g r) p).
Proof.
  case: s => c d T Z Rm H Q [[/= E1 E2 E3 E4] [/= E5 E6 E7]].
  case: m E1 E2 E3 E4 E5 E6 E7 => mc md mT mZ mR mH mQ /= E1 E2 E3 E4 E5 E6 E7.
  case: c E1 => [c|lc] /= E1; [case: E1 => ->|]; (case: d E2 => [d|ld] /= E2; [case: E2 => ->|]);
  (case: T E3 => [T|lT] /= E3; [case: E3 => ->|]); (case: Z E4 => [Z|lZ] /= E4; [case: E4 => ->|]);
  (case: Rm E5 => [Rm|lR] /= E5; [case: E5 => ->|]); (case: H E6 => [H|lH] /= E6; [case: E6 => ->|]);
  (case: Q E7 => [Q|lQ] /= E7; [case: E7 => ->|]);
  rewrite /scan_args /seq_names /sequences /non_sequences /= /entry /= ?nth_error_map_seq ?E1 ?E2 ?E3 ?E4 ?E5 ?E6 ?E7 /=
    /step_fn /= /rev /= /sort_args /= !mvnormal_eq /= !add0r; reflexivity.
Qed.

Lemma matrices_at_unique s t m m' : matrices_at s t m -> matrices_at s t m' -> m' = m.
Proof.
  move=> [[A1 A2 A3 A4] [A5 A6 A7]] [[B1 B2 B3 B4] [B5 B6 B7]].
  case: m m' A1 A2 A3 A4 A5 A6 A7 B1 B2 B3 B4 B5 B6 B7 => ? ? ? ? ? ? ? [? ? ? ? ? ? ?] /= A1 A2 A3 A4 A5 A6 A7.
  rewrite A1 A2 A3 A4 A5 A6 A7. by do 7! (case=> ->).
Qed.
End Props.
