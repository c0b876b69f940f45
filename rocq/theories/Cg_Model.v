(** Model of pymc_extras/utils/linear_cg.py: linear_cg, with n_tridiag = 0 (its default).

    Floating point numbers are real numbers (so the NaN test of linear_cg.py:122 never fires).  Arrays have one or two
    axes; numpy's matmul, broadcasting and transpose rules are modelled with their shape errors (ValueError).
    Not modelled: n_tridiag > 0 (the Lanczos tridiagonal matrix), and the identity matrix returned as second result. *)
From Coq Require Import Reals.
From Verif Require Import Common.
Open Scope nat_scope.

(** A numpy array: a 1-d array of length c is stored as one row of c columns with [one_d = true]. *)
Record arr := Arr { one_d : bool; nr : nat; nc : nat; elt : nat -> nat -> R }.
Definition shape (a : arr) : list nat := if one_d a then [nc a] else [nr a; nc a].
Definition size (a : arr) : nat := if one_d a then nc a else nr a * nc a.

Fixpoint sumn (n : nat) (f : nat -> R) : R := match n with O => 0%R | S m => (sumn m f + f m)%R end.

(** numpy's elementwise broadcasting: lengths agree or one of them is 1. *)
Definition bdim (a b : nat) : option nat := if a =? b then Some a else if a =? 1 then Some b else if b =? 1 then Some a else None.
Definition bidx (a i : nat) : nat := if a =? 1 then 0 else i.
Definition ew (f : R -> R -> R) (a b : arr) : res arr :=
  match bdim (nr a) (nr b), bdim (nc a) (nc b) with
  | Some r, Some c => Ok (Arr (one_d a && one_d b) r c
                              (fun i j => f (elt a (bidx (nr a) i) (bidx (nc a) j)) (elt b (bidx (nr b) i) (bidx (nc b) j))))
  | _, _ => Err ValueError
  end.
Definition amap (f : R -> R) (a : arr) : arr := Arr (one_d a) (nr a) (nc a) (fun i j => f (elt a i j)).
(** a.T: the transpose of a 1-d array is itself *)
Definition tr (a : arr) : arr := if one_d a then a else Arr false (nc a) (nr a) (fun i j => elt a j i).
(** a @ b; the product of two 1-d arrays (a scalar) is never formed by the code. *)
Definition matmul (a b : arr) : res arr :=
  if one_d b
  then if one_d a then Err NotImplementedError
       else if nc a =? nc b then Ok (Arr true 1 (nr a) (fun _ i => sumn (nc a) (fun j => elt a i j * elt b 0 j)%R)) else Err ValueError
  else if nc a =? nr b then Ok (Arr (one_d a) (nr a) (nc b) (fun i k => sumn (nc a) (fun j => elt a i j * elt b j k)%R))
       else Err ValueError.

Definition ltb (x y : R) : bool := if Rlt_dec x y then true else false.
(** masked_fill, linear_cg.py:22-25: the mask is computed from the same-shaped array [m] elementwise. *)
Definition fill_where (p : R -> bool) (m v : arr) (x : R) : arr :=
  Arr (one_d v) (nr v) (nc v) (fun i j => if p (elt m i j) then x else elt v i j).
(** masked_fill with a scalar mask: everything or nothing *)
Definition fill_if (b : bool) (v : arr) (x : R) : arr := if b then amap (fun _ => x) v else v.

Record options := Options {
  tolerance : option R; eps : R; stop_updating_after : R; max_iter : nat; max_tridiag_iter : nat;
  initial_guess : option arr; preconditioner : option (arr -> arr);
  terminate_cg_by_size : bool; use_eval_tolerance : bool }.
(** The defaults of the signature, linear_cg.py:57-70. *)
Definition defaults : options := Options None (/ 10000000000) (/ 10000000000) 1000 20 None None false false.

Record state := State { result : arr; residual : arr; inner : arr; curr : arr; converged : bool }.

(** One pass through the loop body, linear_cg.py:161-223, with linear_cg_updates (linear_cg.py:28-54).  [norm2] is
    np.linalg.norm(., 2).  The result is the new state and its residual norm. *)
Definition cg_step (norm2 : arr -> R) (o : options) (rhs_is_zero : bool) (mat : arr) (s : state) : res (state * R) :=
  do mvms <- matmul mat (curr s);
  do al0 <- match preconditioner o with Some _ => matmul (curr s) mvms | None => matmul (tr (curr s)) mvms end;
  let al1 := fill_where (fun x => ltb x (eps o)) al0 al0 1%R in
  do al2 <- ew Rdiv (inner s) al1;
  let al3 := fill_where (fun x => ltb x (eps o)) al0 al2 0%R in
  let alpha := fill_if (converged s) al3 0%R in
  do am <- ew Rmult alpha mvms;
  do residual' <- ew Rminus (residual s) am;
  let precond_residual := match preconditioner o with Some f => f residual' | None => residual' end in
  do ac <- ew Rmult alpha (curr s);
  do result' <- ew Rplus (result s) ac;
  do inner' <- matmul (tr residual') precond_residual;
  let be1 := fill_where (fun x => ltb x (eps o)) (inner s) (inner s) 1%R in
  do be2 <- ew Rdiv inner' be1;
  let beta := fill_where (fun x => ltb x (eps o)) (inner s) be2 0%R in
  do bc <- ew Rmult beta (curr s);
  do curr' <- ew Rplus bc precond_residual;
  let residual_norm := if rhs_is_zero then 0%R else norm2 residual' in
  Ok (State result' residual' inner' curr' (ltb residual_norm (stop_updating_after o)), residual_norm).

(** The loop, linear_cg.py:161-231: [fuel] passes are left, k is the pass number.  The result is the solution if the
    tolerance was reached, None if the passes were used up. *)
Fixpoint cg_loop (norm2 : arr -> R) (o : options) (tol : R) (rhs_is_zero : bool) (mat : arr) (fuel k : nat) (s : state)
    : res (arr * bool) :=
  match fuel with
  | O => Ok (result s, false)
  | S f =>
      do (s', rn) <- cg_step norm2 o rhs_is_zero mat s;
      if (Nat.min 10 (max_iter o - 1) <=? k) && ltb rn tol then Ok (result s', true)
      else cg_loop norm2 o tol rhs_is_zero mat f (S k) s'
  end.

(** linear_cg, linear_cg.py:57-290 *)
Definition linear_cg (norm2 : arr -> R) (o : options) (mat rhs : arr) : res arr :=
  let guess := match initial_guess o with Some g => g | None => amap (fun _ => 0%R) rhs end in
  let tol := match tolerance o with Some t => t | None => if use_eval_tolerance o then (1 / 100)%R else 1%R end in
  if max_iter o <? max_tridiag_iter o then Err RuntimeError else
  (* rhs[:, np.newaxis] *)
  let rhs := if one_d rhs then Arr false (nc rhs) 1 (fun i _ => elt rhs 0 i) else rhs in
  let n_iter := if terminate_cg_by_size o then Nat.min (max_iter o) (size rhs) else max_iter o in
  let rhs_is_zero := ltb (norm2 rhs) (eps o) in
  let rhs_norm := if rhs_is_zero then 1%R else norm2 rhs in
  let rhs := amap (fun x => (x / rhs_norm)%R) rhs in
  do mg <- matmul mat guess;
  do residual <- ew Rminus rhs mg;
  let has_converged := ltb (norm2 residual) (stop_updating_after o) in
  if has_converged then Ok (amap (fun x => (x * rhs_norm)%R) guess) else
  let precond_residual := match preconditioner o with Some f => f residual | None => residual end in
  do inner <- matmul (tr residual) precond_residual;
  do (result, reached) <- cg_loop norm2 o tol rhs_is_zero mat n_iter 0 (State guess residual inner precond_residual has_converged);
  if negb reached && (0 <? n_iter) then Err RuntimeError else Ok (amap (fun x => (x * rhs_norm)%R) result).
