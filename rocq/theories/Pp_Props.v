(** C73: the projected process (DTC) approximation of gp/latent_approx.py. *)
From mathcomp Require Import all_ssreflect all_algebra.
From Verif Require Import Pp_Model.
Set Implicit Arguments. Unset Strict Implicit. Unset Printing Implicit Defensive.
Import GRing.Theory.
Open Scope ring_scope.

Section Props.
Variable F : fieldType.
Variable u : nat.
Variables (Kuu L : 'M[F]_u).
Hypothesis chol : L *m L^T = Kuu.     (* L is a Cholesky factor of Kuu ... *)
Hypothesis Linv : L \in unitmx.       (* ... and invertible *)

Lemma Kuu_unit : Kuu \in unitmx.
Proof. by rewrite -chol unitmx_mul Linv unitmx_tr Linv. Qed.
Lemma Kuu_inv : invmx Kuu = invmx L^T *m invmx L.
Proof.
apply: (can_inj (mulKmx Kuu_unit)); rewrite mulmxV ?Kuu_unit // -{1}chol -!mulmxA.
by rewrite (mulmxA L^T) mulmxV ?unitmx_tr // mul1mx mulmxV.
Qed.
Lemma KuuiuE v : pp_Kuuiu L v = invmx Kuu *m pp_u L v.
Proof. by rewrite /pp_Kuuiu Kuu_inv mulmxA. Qed.

(** The prior is the usual projection mu + Kfu Kuu^-1 u ... *)
Theorem C73_prior n (mu : 'cV[F]_n) Kfu v : pp_f mu Kfu L v = mu + Kfu *m invmx Kuu *m pp_u L v.
Proof. by rewrite /pp_f KuuiuE mulmxA. Qed.
(** ... which at the inducing points is mu + u ... *)
Theorem C73_inducing_values (mu : 'cV[F]_u) v : pp_f mu Kuu L v = mu + pp_u L v.
Proof. by rewrite C73_prior mulmxV ?mul1mx // Kuu_unit. Qed.
(** ... and whose covariance (f is linear in the standard normal vector v) is Kfu Kuu^-1 Kfu'. *)
Theorem C73_prior_covariance n (mu : 'cV[F]_n) Kfu :
  exists B : 'M[F]_(n, u), (forall v, pp_f mu Kfu L v = mu + B *m v) /\ B *m B^T = Kfu *m invmx Kuu *m Kfu^T.
Proof.
exists (Kfu *m invmx L^T); split.
  by move=> v; rewrite /pp_f /pp_Kuuiu /pp_u (mulmxA (invmx L)) mulVmx // mul1mx mulmxA.
by rewrite trmx_mul Kuu_inv trmx_inv trmxK !mulmxA.
Qed.
(** The conditional mean uses the same projection, so at the training inputs it is the prior value. *)
Theorem C73_conditional_mean n s (mu : 'cV[F]_n) (mus : 'cV[F]_s) Kfu Ksu v :
  pp_cond_mean mu Kfu (pp_Kuuiu L v) = pp_f mu Kfu L v /\
  pp_cond_mean mus Ksu (pp_Kuuiu L v) = mus + Ksu *m invmx Kuu *m pp_u L v.
Proof. by split=> //; rewrite /pp_cond_mean KuuiuE mulmxA. Qed.
(** The conditional covariance is Kss - Ksu Kuu^-1 Kus, zero at the inducing points. *)
Theorem C73_conditional_covariance s (Kss : 'M[F]_s) Ksu :
  pp_cond_cov Kss Ksu L = Kss - Ksu *m invmx Kuu *m Ksu^T.
Proof. by rewrite /pp_cond_cov trmx_mul trmxK trmx_inv Kuu_inv !mulmxA. Qed.
Theorem C73_certain_at_inducing_points : pp_cond_cov Kuu Kuu L = 0.
Proof.
rewrite /pp_cond_cov trmx_mul trmxK trmx_inv.
have sK : Kuu^T = Kuu by rewrite -chol trmx_mul trmxK.
by rewrite sK -mulmxA (mulmxA (invmx L^T)) -Kuu_inv mulKVmx ?Kuu_unit // subrr.
Qed.
End Props.

(** Example: a 1 by 1 system Kuu = 4, L = 2. *)
Example C73_example : (2%:M : 'M[rat]_1) *m (2%:M)^T = 4%:M /\ (2%:M : 'M[rat]_1) \in unitmx.
Proof. by split; [rewrite tr_scalar_mx -scalar_mxM -natrM|rewrite unitmxE det_scalar1]. Qed.
