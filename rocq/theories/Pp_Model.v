(** Model of pymc_extras/gp/latent_approx.py: ProjectedProcess._build_prior (lines 44-57) and _build_conditional
    (lines 106-114), over an arbitrary field.

    [L] is the lower Cholesky factor of the stabilized Kuu.  solve_lower(L, b) and solve_upper(L', b) solve a triangular
    system: multiplication by the inverse.  The jitter added to Kss - Qss before its factorization is not modelled. *)
From mathcomp Require Import all_ssreflect all_algebra.
Set Implicit Arguments. Unset Strict Implicit. Unset Printing Implicit Defensive.
Import GRing.Theory.
Open Scope ring_scope.

Section Pp.
Variable F : fieldType.
Variables n u s : nat.

(** u = L v, Kuuiu = solve_upper(L', solve_lower(L, u)), f = mu + Kfu Kuuiu *)
Definition pp_u (L : 'M[F]_u) (v : 'cV[F]_u) : 'cV[F]_u := L *m v.
Definition pp_Kuuiu (L : 'M[F]_u) (v : 'cV[F]_u) : 'cV[F]_u := invmx L^T *m (invmx L *m pp_u L v).
Definition pp_f (mu : 'cV[F]_n) (Kfu : 'M[F]_(n, u)) (L : 'M[F]_u) (v : 'cV[F]_u) : 'cV[F]_n := mu + Kfu *m pp_Kuuiu L v.

(** mu = mean_func(Xnew) + Ksu Kuuiu; tmp = solve_lower(L, Ksu'); Qss = tmp' tmp; covariance Kss - Qss *)
Definition pp_cond_mean (mu : 'cV[F]_s) (Ksu : 'M[F]_(s, u)) (Kuuiu : 'cV[F]_u) : 'cV[F]_s := mu + Ksu *m Kuuiu.
Definition pp_cond_cov (Kss : 'M[F]_s) (Ksu : 'M[F]_(s, u)) (L : 'M[F]_u) : 'M[F]_s :=
  let tmp := invmx L *m Ksu^T in Kss - tmp^T *m tmp.
End Pp.
