(** Model of pymc_extras/distributions: GenExtreme (continuous.py), GeneralizedPoisson and BetaNegativeBinomial
    (discrete.py), R2D2M2CP (multivariate/r2d2m2cp.py).

    Floating point numbers are real numbers, plus minus infinity for logarithms of 0 (type [lr]).  check_parameters
    raises ParameterValueError, a ValueError. *)
From Coq Require Import Reals.
From Verif Require Import Common LogR.
Open Scope R_scope.

(** x ** y for a positive base *)
Definition pow (x y : R) : R := exp (y * ln x).

(** pt.isclose(x, 0) with the default tolerances: |x - 0| <= atol + rtol * |0|, atol = 1e-8. *)
Definition isclose0 (x : R) : bool := if Rle_dec (Rabs x) (1 / 100000000) then true else false.
Definition gtb (x y : R) : bool := if Rlt_dec y x then true else false.
Definition ltb (x y : R) : bool := if Rlt_dec x y then true else false.
Definition leb (x y : R) : bool := if Rle_dec x y then true else false.

(** ** GenExtreme *)

(** GenExtreme.dist, continuous.py:141-150: the parameters handed to the distribution. *)
Definition gev_dist (mu sigma xi : R) (scipy : bool) : R * R * R := (mu, sigma, if scipy then - xi else xi).

(** the parameter check shared by logp and logcdf, continuous.py:181-183, 210-212 *)
Definition gev_check (sigma xi : R) (v : lr) : res lr :=
  if gtb sigma 0 && (gtb xi (-1) && ltb xi 1) then Ok v else Err ValueError.

(** GenExtreme.logp, continuous.py:167-183 *)
Definition gev_logp (value mu sigma xi : R) : res lr :=
  let scaled := (value - mu) / sigma in
  let expression := if isclose0 xi
                    then - ln sigma - scaled - exp (- scaled)
                    else - ln sigma - ((xi + 1) / xi) * ln (1 + xi * scaled) - pow (1 + xi * scaled) (- 1 / xi) in
  gev_check sigma xi (if gtb (1 + xi * scaled) 0 then Fin expression else NInf).

(** GenExtreme.logcdf, continuous.py:202-212 *)
Definition gev_logcdf (value mu sigma xi : R) : res lr :=
  let scaled := (value - mu) / sigma in
  let expression := if isclose0 xi then - exp (- scaled) else - pow (1 + xi * scaled) (- 1 / xi) in
  gev_check sigma xi (if gtb (1 + xi * (value - mu) / sigma) 0 then Fin expression else NInf).

(** GenExtreme.support_point, continuous.py:214-221 *)
Definition gev_support_point (mu sigma xi : R) : R :=
  if isclose0 xi then mu else mu + sigma * (pow (1 + xi) (- xi) - 1) / xi.

(** ** GeneralizedPoisson *)

(** pymc's logpow(x, m): log(x ** m), 0 for 0 ** 0, for a non-negative x and an integer m. *)
Definition logpow (x : R) (m : Z) : lr :=
  if Req_EM_T x 0 then (if (m =? 0)%Z then Fin 0 else NInf) else Fin (IZR m * ln x).
(** factln(n) = gammaln(n + 1) = log n! for a natural number n. *)
Definition factln (n : Z) : R := ln (INR (fact (Z.to_nat n))).

(** GeneralizedPoisson.logp, discrete.py:161-181, at an integer value.  The expression is only used where the switch
    keeps it, i.e. for a non-negative value and mu + lam * value. *)
Definition gp_logp (value : Z) (mu lam : R) : res lr :=
  let mlv := mu + lam * IZR value in
  let logprob := ladd (ladd (ladd (lln mu) (logpow mlv (value - 1))) (Fin (- mlv))) (Fin (- factln value)) in
  let v := if ltb mlv 0 || (value <? 0)%Z then NInf else logprob in
  if ltb 0 mu && (leb (Rabs lam) 1 && leb (- mu / 4) lam) then Ok v else Err ValueError.

(** _inverse_rng_fn, discrete.py:64-91, for one element with lam < 0 and the uniform draw u.  The state is
    (x_, log_s, log_p); where the code takes the logarithm of a non-positive number (a NaN, which ends the loop because
    NaN < log_u is False) the model stops too.  [fuel] bounds the number of iterations. *)
Definition log1mexp (x : R) : R := ln (1 - exp x).   (* discrete.py:24-30: both branches compute this number *)
Fixpoint gp_inverse_loop (fuel : nat) (theta lam log_u : R) (x : nat) (log_s log_p : R) : option nat :=
  if ltb log_s log_u then
    match fuel with
    | O => None
    | S f =>
        let x' := S x in
        let c := theta - lam + lam * INR x' in
        if leb (c + lam) 0 then Some x' else
        let log_c := ln c in
        let l1 := log1mexp (ln (Rabs lam) - log_c) in
        let log_p' := log_c + l1 * (INR x' - 1) + log_p - ln (INR x') - lam in
        let log_s' := ln (exp log_s + exp log_p') in
        gp_inverse_loop f theta lam log_u x' log_s' log_p'
    end
  else Some x.
Definition gp_inverse (fuel : nat) (theta lam u : R) : option nat :=
  gp_inverse_loop fuel theta lam (ln u) 0 (- theta) (- theta).

(** ** BetaNegativeBinomial *)

(** pm.NegativeBinomial.dist(mu=None, alpha=None, p=None, n=None) (a pymc function): the probability of the value 0 in
    its two parameterizations. *)
Definition nb_zero_mu_alpha (mu alpha : R) : R := pow (alpha / (mu + alpha)) alpha.
Definition nb_zero_p_n (p n : R) : R := pow p n.
(** beta_negative_binomial_dist, discrete.py:252-258, calls NegativeBinomial.dist(p, r) positionally. *)
Definition bnb_draw_zero_given (p r : R) : R := nb_zero_mu_alpha p r.
(** beta_negative_binomial_logp, discrete.py:260-282, for a natural number value; [lgam] is gammaln. *)
Definition betaln (lgam : R -> R) (x y : R) : R := lgam x + lgam y - lgam (x + y).
Definition bnb_logp (lgam : R -> R) (value : Z) (alpha beta r : R) : res lr :=
  let res := betaln lgam (r + IZR value) (alpha + beta) - betaln lgam r alpha + lgam (IZR value + beta)
             - factln value - lgam beta in
  if ltb 0 alpha && (ltb 0 beta && ltb 0 r) then Ok (if (value <? 0)%Z then NInf else Fin res) else Err ValueError.

(** ** R2D2M2CP *)

Definition sign (x : R) : R := if Rlt_dec x 0 then -1 else if Rlt_dec 0 x then 1 else 0.

(** _psivar2musigma, r2d2m2cp.py:26-46, for one coefficient: [m] is its psi_mask entry (None: no mask).
    x ** 0.5 is sqrt; [erfinv] is the inverse error function. *)
Definition psivar2musigma (erfinv : R -> R) (psi explained_var : R) (m : option bool) : R * R :=
  let sgn := sign (psi - / 2) in
  let psi' := match m with Some false => / 2 | _ => psi end in
  let pi := erfinv (2 * psi' - 1) in
  let f := sqrt (1 / (2 * pi ^ 2 + 1)) in
  let sigma := sqrt explained_var * f in
  let mu := sigma * pi * sqrt 2 in
  match m with
  | Some false => (sgn * sqrt explained_var, 0)
  | _ => (mu, sigma)
  end.

(** _psi without positive_probs_std, r2d2m2cp.py:186-193: the mask (None when no probability is 0 or 1). *)
Definition psi_mask (psi : list R) : option (list bool) :=
  let mask := map (fun p => negb ((if Req_EM_T p 1 then true else false) || (if Req_EM_T p 0 then true else false))) psi in
  if forallb (fun b => b) mask then None else Some mask.

(** _phi, r2d2m2cp.py:196-223.  [draw a] is the value of pm.Dirichlet("phi", a); n is the number of variables. *)
Definition r2_phi (n : nat) (importance variance_explained : option (list R)) (concentration : option R)
    (draw : list R -> list R) : res (list R) :=
  match importance with
  | Some imp =>
      match variance_explained with
      | Some _ => Err TypeError
      | None => if (n <=? 1)%nat then Err TypeError
                else Ok (draw (match concentration with Some c => map (fun x => x * c) imp | None => imp end))
      end
  | None =>
      do phi <- match variance_explained with
                | Some ve => if (n <=? 1)%nat then Err TypeError else Ok ve
                | None => Ok (repeat 1 n)
                end;
      match concentration with Some c => Ok (draw (map (fun x => c * x) phi)) | None => Ok phi end
  end.

(** _R2D2M2CP_beta, r2d2m2cp.py:49-117: explained variance, mean and standard deviation of coefficient i (before the
    division by the input scale), and the residual scale (r2d2m2cp.py:445). *)
Definition explained (output_sigma r2 phi_i : R) : R := phi_i * (r2 * output_sigma ^ 2).
Definition resid_sigma (output_sigma r2 : R) : R := sqrt (1 - r2) * output_sigma.
(** the coefficient: non-centered (raw * std + mu) / input_sigma with raw = 0 outside the mask; centered: a Normal draw
    with mean mu / input_sigma and standard deviation std / input_sigma, or the mean outside the mask.  [z] is a standard
    normal draw; a Normal(m, s) draw is m + s * z. *)
Definition r2_beta (centered : bool) (mu std input_sigma z : R) (m : option bool) : R :=
  if centered
  then match m with
       | Some false => mu / input_sigma
       | _ => mu / input_sigma + std / input_sigma * z
       end
  else ((match m with Some false => 0 | _ => z end) * std + mu) / input_sigma.
