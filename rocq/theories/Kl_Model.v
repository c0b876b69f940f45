(** Model of pymc_extras/gp/latent_approx.py: KarhunenLoeveExpansion (lines 122-183) and the argument checks of
    ProjectedProcess.prior (lines 59-104).

    Real numbers for floats.  [vals] are the eigenvalues of the (stabilized) covariance matrix in ascending order and
    [vecs i c] is entry i of eigenvector c, as returned by eigh.  A pytensor variable has no length, so len(vals) raises
    TypeError. *)
From Coq Require Import Reals.
From Verif Require Import Common Cg_Model.
Open Scope nat_scope.

Definition total (l : list R) : R := fold_right Rplus 0%R l.
(** vals[::-1].cumsum() / vals.sum(): entry i is the share of the i+1 largest eigenvalues *)
Definition share (vals : list R) (k : nat) : R := (total (firstn k (rev vals)) / total vals)%R.
(** (... > variance_limit).nonzero()[0][0]: IndexError if there is none *)
Fixpoint first_above (vals : list R) (limit : R) (fuel i : nat) : res nat :=
  match fuel with
  | O => Err IndexError
  | S f => if ltb limit (share vals (i + 1)) then Ok i else first_above vals limit f (i + 1)
  end.

(** n_eigs, lines 139-145; n_eigs = None with no variance_limit: -None raises TypeError *)
Definition kl_n_eigs (vals : list R) (variance_limit : option R) (n_eigs : option Z) : res Z :=
  match variance_limit with
  | None => match n_eigs with Some k => Ok k | None => Err TypeError end
  | Some v => if Req_EM_T v 1 then Err TypeError
              else do i <- first_above vals v (length vals) 0; Ok (Z.of_nat i)
  end.

(** The first column kept by vecs[:, -n_eigs:] of n columns. *)
Definition slice_start (n : nat) (k : Z) : nat :=
  if (0 <? k)%Z then n - Z.to_nat k else Nat.min n (Z.to_nat (- k)).

(** _build_prior, lines 134-154: the number of kept pairs, the first kept column, and the prior f as a function of the raw
    coefficients (a vector of length n_eigs).  pm.Normal with a negative size and a matrix product of different inner
    lengths raise ValueError.  The mean function is evaluated and dropped (line 135). *)
Definition kl_prior (mean : nat -> R) (vals : list R) (vecs : nat -> nat -> R) (variance_limit : option R) (n_eigs : option Z)
    : res (nat * nat * ((nat -> R) -> nat -> R)) :=
  let n := length vals in
  do k <- kl_n_eigs vals variance_limit n_eigs;
  let start := slice_start n k in
  if (k <? 0)%Z then Err ValueError else
  if Z.to_nat k =? n - start
  then Ok (n - start, start,
           fun coefs i => sumn (n - start) (fun c => vecs i (start + c)%nat * sqrt (nth (start + c) vals 0) * coefs c)%R)
  else Err ValueError.

(** _build_conditional, lines 163-171 (without the jitter): mean and covariance at new inputs; Kxs has one row per
    training input (n of them), columns for the new inputs. *)
Definition kl_pinv (vals : list R) (vecs : nat -> nat -> R) (start : nat) : nat -> nat -> R :=
  fun a b => sumn (length vals - start) (fun c => vecs a (start + c)%nat * (1 / nth (start + c) vals 0) * vecs b (start + c)%nat)%R.
Definition kl_cond_mean (n : nat) (Kxs pinv : nat -> nat -> R) (f : nat -> R) : nat -> R :=
  fun j => sumn n (fun a => Kxs a j * sumn n (fun b => pinv a b * f b))%R.
Definition kl_cond_cov (n : nat) (Kss Kxs pinv : nat -> nat -> R) : nat -> nat -> R :=
  fun j k => (Kss j k - sumn n (fun a => Kxs a j * sumn n (fun b => pinv a b * Kxs b k)))%R.

(** ProjectedProcess.prior: where the inducing points come from, lines 79-99.  X: None when not a numpy array, else its
    number of rows; n_inducing: None, or Some None for a non-integer, or Some (Some k). *)
Inductive source := Given | KMeans (k : nat).
Definition pp_inducing (X : option nat) (X_inducing : bool) (n_inducing : option (option Z)) : res source :=
  match X with
  | None => Err ValueError
  | Some n =>
      if X_inducing then Ok Given else
      match n_inducing with
      | None => Err ValueError
      | Some None => Err ValueError
      | Some (Some k) => if (k <=? 0)%Z then Err ValueError
                         else if (Z.of_nat n <? k)%Z then Err ValueError else Ok (KMeans (Z.to_nat k))
      end
  end.
