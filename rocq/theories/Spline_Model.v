(** Model of pymc_extras/utils/spline.py (lines 26-131), over the exact reals. *)
From Coq Require Import Reals Lra.
From Verif Require Import Common.
Open Scope R_scope.

(** [np.linspace(0, 1, m)]: i/(m-1); a single point is 0. *)
Definition linspace01 (m : nat) : list R := map (fun i => INR i / INR (m - 1)) (seq 0 m).

(** lines 27-29: [k_knots = k + degree + 1; knots = linspace(0, 1, k_knots - 2*degree)], padded with [degree]
    zeros and ones. *)
Definition knots (k degree : nat) : list R :=
  repeat 0 degree ++ linspace01 (k + degree + 1 - 2 * degree) ++ repeat 1 degree.

(** scipy [_find_interval] (start at [l]): first move left while [x < t[l]] (not below [degree]) ... *)
Fixpoint search_left (t : nat -> R) (degree : nat) (x : R) (l : nat) : nat :=
  match l with
  | O => O
  | S l' => if Rlt_dec x (t l) then (if Nat.eqb l degree then l else search_left t degree x l') else l
  end.
(** ... then right while [x >= t[l]] (not beyond [n]); [fuel] counts the remaining [n - l] steps. *)
Fixpoint search_right (t : nat -> R) (x : R) (l fuel : nat) : nat :=
  match fuel with
  | O => l
  | S fuel => if Rlt_dec x (t l) then l else search_right t x (S l) fuel
  end.
Definition find_interval (t : nat -> R) (degree n : nat) (start : nat) (x : R) : nat :=
  let l := S (search_left t degree x start) in
  search_right t x l (n - l) - 1.

(** scipy [_deBoor_D] without derivatives, one sweep [j]: [hh] has the [j] values of the previous degree;
    [carry] is what has been written to [h[n-1]] so far. *)
Fixpoint deboor_sweep (t : nat -> R) (x : R) (ell j n : nat) (carry : R) (hh : list R) : list R :=
  match hh with
  | [] => [carry]
  | v :: hh' =>
      let xb := t (ell + n)%nat in
      let xa := t (ell + n - j)%nat in
      if Req_EM_T xb xa then carry :: deboor_sweep t x ell j (S n) 0 hh'
      else let w := v / (xb - xa) in
           (carry + w * (xb - x)) :: deboor_sweep t x ell j (S n) (w * (x - xa)) hh'
  end.
Fixpoint deboor (t : nat -> R) (x : R) (ell degree : nat) : list R :=
  match degree with
  | O => [1]
  | S d => deboor_sweep t x ell (S d) 1 0 (deboor t x ell d)
  end.

(** One row of [BSpline(knots, np.eye(k), k=degree)(eval_points)]: the values of the basis functions
    [ell - degree .. ell], zeros elsewhere.  [start] is the interval of the previous point (a search hint). *)
Definition basis_row (k degree start : nat) (x : R) : list R :=
  let t i := nth i (knots k degree) 0 in
  let ell := find_interval t degree k start x in
  let h := deboor t x ell degree in
  map (fun j => if (ell - degree <=? j)%nat && (j <=? ell)%nat then nth (j - (ell - degree)) h 0 else 0) (seq 0 k).

(** scipy's search hint for the next point: the previous interval if it is strictly inside, else [degree]. *)
Fixpoint basis_rows (k degree prev : nat) (pts : list R) : list (list R) :=
  match pts with
  | [] => []
  | x :: pts' =>
      let start := if (degree <? prev)%nat && (prev <? k)%nat then prev else degree in
      let t i := nth i (knots k degree) 0 in
      basis_row k degree start x :: basis_rows k degree (find_interval t degree k start x) pts'
  end.

(** lines 26-32 [numpy_bspline_basis].  [linspace] of a negative number of points, and [BSpline] with fewer than
    [degree + 1] coefficients, raise ValueError. *)
Definition numpy_bspline_basis (pts : list R) (k degree : nat) : res (list (list R)) :=
  if (k <? degree + 1)%nat then Err ValueError else Ok (basis_rows k degree degree pts).

(** lines 75-131 [bspline_interpolation] of a vector [x]; sparse and dense products are the same numbers. *)
Definition dot (row x : list R) : R := fold_right Rplus 0 (map (fun p => fst p * snd p) (combine row x)).
Definition bspline_interpolation (x : list R) (n : option nat) (eval_points : option (list R)) (degree : nat) : res (list R) :=
  do pts <- match n, eval_points with
            | Some _, Some _ => Err ValueError
            | Some n, None => Ok (linspace01 n)
            | None, None => Err ValueError
            | None, Some p => Ok p
            end;
  do basis <- numpy_bspline_basis pts (length x) degree;
  Ok (map (fun row => dot row x) basis).
