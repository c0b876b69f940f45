(** Model of pymc_extras/utils/pivoted_cholesky.py:15-69.

    Floating point numbers are real numbers.  gpytorch's apply_permutation(mat, pim, right_permutation=None) is the row
    pim of mat.  A NaN error (a matrix of zeros, 0/0) stops the loop like the 0 of the model. *)
From Coq Require Import Reals.
From Verif Require Import Common Cg_Model.
Open Scope nat_scope.

(** np.argmax: position of the first largest entry; the list is not empty where it is used. *)
Fixpoint argmax_from (best : nat) (bv : R) (pos : nat) (l : list R) : nat :=
  match l with
  | [] => best
  | x :: r => if ltb bv x then argmax_from pos x (S pos) r else argmax_from best bv (S pos) r
  end.
Definition argmax (l : list R) : nat := match l with [] => 0 | x :: r => argmax_from 0 x 1 r end.

(** pi[a], pi[b] = pi[b], pi[a] *)
Definition swap (l : list nat) (a b : nat) : list nat :=
  map (fun k => nth (if k =? a then b else if k =? b then a else k) l 0) (seq 0 (length l)).
Definition mem (j : nat) (l : list nat) : bool := existsb (Nat.eqb j) l.
(** np.linalg.norm(d[idx], 1) *)
Definition norm1 (d : nat -> R) (idx : list nat) : R := fold_right Rplus 0%R (map (fun j => Rabs (d j)) idx).
Definition maxl (l : list R) : R := match l with [] => 0%R | x :: r => fold_left Rmax r x end.

Record state := State { m : nat; d : nat -> R; pi : list nat; L : nat -> nat -> R; error : R }.

(** One pass through the while loop, lines 33-67. *)
Definition step (n : nat) (A : nat -> nat -> R) (orig_error : R) (s : state) : state :=
  let permuted_d := map (d s) (pi s) in
  let i := argmax (skipn (m s) permuted_d) + m s in
  let max_diag_val := nth i permuted_d 0%R in
  let pi' := swap (pi s) (m s) i in
  let pim := nth (m s) pi' 0 in
  let L1 := fun r c => if (r =? m s) && (c =? pim) then sqrt max_diag_val else L s r c in
  if m s + 1 <? n then
    let pi_i := skipn (m s + 1) pi' in
    let new := fun j => ((if 0 <? m s then A pim j - sumn (m s) (fun k => L1 k pim * L1 k j) else A pim j) / L1 (m s) pim)%R in
    let L2 := fun r c => if (r =? m s) && mem c pi_i then new c else L1 r c in
    let d' := fun j => if mem j pi_i then (d s j - new j ^ 2)%R else d s j in
    State (m s + 1) d' pi' L2 (norm1 d' pi_i / orig_error)%R
  else State (m s + 1) (d s) pi' L1 (error s).

(** while m < max_iter and error > error_tol *)
Fixpoint loop (n : nat) (A : nat -> nat -> R) (orig_error error_tol : R) (max_iter fuel : nat) (s : state) : state :=
  match fuel with
  | O => s
  | S f => if (m s <? max_iter) && ltb error_tol (error s)
           then loop n A orig_error error_tol max_iter f (step n A orig_error s) else s
  end.

(** pivoted_cholesky(mat, error_tol, max_iter); max_iter = None is np.inf, the default: int(np.inf) raises
    OverflowError.  np.max of an empty diagonal raises ValueError.  The loop runs at most n times. *)
Definition pivoted_cholesky (n : nat) (A : nat -> nat -> R) (error_tol : R) (max_iter : option nat) : res state :=
  match max_iter with
  | None => Err OverflowError
  | Some mi =>
      let mi := Nat.min mi n in
      if n =? 0 then Err ValueError else
      let d := fun i => A i i in
      let orig_error := maxl (map d (seq 0 n)) in
      Ok (loop n A orig_error error_tol mi mi
            (State 0 d (seq 0 n) (fun _ _ => 0%R) (norm1 d (seq 0 n) / orig_error)%R))
  end.
