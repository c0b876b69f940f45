(** What the docstring table of GenExtreme promises (continuous.py:97-113). *)
From Coq Require Import Reals.
From Coquelicot Require Import Coquelicot.
Local Open Scope R_scope.

(** lower and upper end of the documented support (continuous.py:99-101) *)
Definition lower_end (mu sigma xi : R) : (R -> Prop) -> Prop :=
  if Rlt_dec 0 xi then at_right (mu - sigma / xi) else Rbar_locally m_infty.
Definition upper_end (mu sigma xi : R) : (R -> Prop) -> Prop :=
  if Rlt_dec xi 0 then at_left (mu - sigma / xi) else Rbar_locally p_infty.
(** the improper integral over the support exists and is l *)
Definition integral_support (mu sigma xi : R) (f : R -> R) (l : R) : Prop :=
  is_RInt_gen f (lower_end mu sigma xi) (upper_end mu sigma xi) l.
Definition total_is (mu sigma xi : R) (pdf : R -> R) (l : R) : Prop := integral_support mu sigma xi pdf l.
Definition gev_mean_is (mu sigma xi : R) (pdf : R -> R) (m : R) : Prop := integral_support mu sigma xi (fun x => x * pdf x) m.
Definition gev_variance_is (mu sigma xi : R) (pdf : R -> R) (m v : R) : Prop := integral_support mu sigma xi (fun x => (x - m) ^ 2 * pdf x) v.
(** the integrals of (x - m)^2 pdf grow without bound *)
Definition gev_variance_infinite (mu sigma xi : R) (pdf : R -> R) (m : R) : Prop :=
  filterlim (fun uv => RInt (fun x => (x - m) ^ 2 * pdf x) (fst uv) (snd uv)) (filter_prod (lower_end mu sigma xi) (upper_end mu sigma xi)) (Rbar_locally p_infty).
(** G is the value of the Gamma function at s *)
Definition Gamma_is (s G : R) : Prop := is_RInt_gen (fun t => Rpower t (s - 1) * exp (- t)) (at_right 0) (Rbar_locally p_infty) G.
(** g is the Euler-Mascheroni constant: the limit of 1 + 1/2 + ... + 1/n - ln n *)
Definition Euler_Mascheroni (g : R) : Prop := is_lim_seq (fun n => sum_f_R0 (fun k => / INR (S k)) n - ln (INR (S n))) g.
