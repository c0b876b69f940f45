(** Model of pymc_extras/distributions/discrete.py:304-399 (Skellam).
    Numbers are exact reals with the infinities and NaN of IEEE arithmetic; rounding is not modelled, nor are the
    rewrites PyTensor may apply to the expression. *)
From Coq Require Import Reals Lra ZArith.
From Coquelicot Require Import Coquelicot.
From Verif Require Import Common.
Open Scope R_scope.

Inductive xr := Fin (r : R) | PInf | MInf | NaN.
Definition xneg (a : xr) : xr := match a with Fin x => Fin (- x) | PInf => MInf | MInf => PInf | NaN => NaN end.
Definition xadd (a b : xr) : xr :=
  match a, b with
  | NaN, _ | _, NaN | PInf, MInf | MInf, PInf => NaN
  | Fin x, Fin y => Fin (x + y)
  | PInf, _ | _, PInf => PInf
  | MInf, _ | _, MInf => MInf
  end.
Definition xsub (a b : xr) : xr := xadd a (xneg b).
(** product of a finite number and any number; 0 * inf = NaN *)
Definition xscale (c : R) (a : xr) : xr :=
  match a with
  | Fin x => Fin (c * x)
  | NaN => NaN
  | _ => if Req_EM_T c 0 then NaN else if Rlt_dec 0 c then a else xneg a
  end.
(** pt.log *)
Definition xlog (x : R) : xr := if Rlt_dec x 0 then NaN else if Req_EM_T x 0 then MInf else Fin (ln x).
(** pt.iv(v, x), the modified Bessel function of the first kind of integer order v at x >= 0, by its power series
    (I_(-n) = I_n for integers). *)
Definition iv (v : Z) (x : R) : R :=
  let n := Z.abs_nat v in Series (fun k => (x / 2) ^ (2 * k + n) / (INR (fact k) * INR (fact (k + n)))).

(** discrete.py:368-380 [skellam_logp]; check_parameters raises a ParameterValueError, a subclass of ValueError *)
Definition skellam_logp (value : Z) (mu1 mu2 : R) : res xr :=
  let r := xadd (xadd (xsub (Fin (- mu1)) (Fin mu2)) (xscale (0.5 * IZR value) (xsub (xlog mu1) (xlog mu2))))
                (xlog (iv value (2 * sqrt (mu1 * mu2)))) in
  if Rle_dec 0 mu1 then if Rle_dec 0 mu2 then Ok r else Err ValueError else Err ValueError.

(** An array: its shape and its entries by multi-index. *)
Record arr (A : Type) := { shape : list nat; entry : list nat -> A }.
Arguments shape {A}. Arguments entry {A}.
Definition bdim (a b : nat) : nat := if Nat.eqb a 1 then b else a.
(** pt.broadcast_arrays of two arrays of equal rank (the shorter one is padded with axes of length one before) *)
Definition bshape (s t : list nat) : list nat := map (fun ab => bdim (fst ab) (snd ab)) (combine s t).
Definition bindex (s i : list nat) : list nat := map (fun di => if Nat.eqb (fst di) 1 then 0%nat else snd di) (combine s i).
Definition broadcast {A} (a : arr A) (sh : list nat) : arr A := {| shape := sh; entry := fun i => entry a (bindex (shape a) i) |}.
(** An elementwise operation on two arrays broadcasts them. *)
Definition map2 {A B C} (f : A -> B -> C) (a : arr A) (b : arr B) : arr C :=
  let sh := bshape (shape a) (shape b) in
  {| shape := sh; entry := fun i => f (entry a (bindex (shape a) i)) (entry b (bindex (shape b) i)) |}.
(** pm.Poisson.dist(mu, size): one independent draw per entry.  [u] is the stream of the generator, indexed by the
    position of the entry; [pois_q mu u] is the draw made with rate mu. *)
Definition poisson_dist (pois_q : R -> R -> Z) (mu : arr R) (size : option (list nat)) (u : list nat -> R) : arr Z :=
  let mu' := match size with None => mu | Some s => broadcast mu s end in
  {| shape := shape mu'; entry := fun i => pois_q (entry mu' i) (u i) |}.
(** discrete.py:361-366 [skellam_dist] *)
Definition skellam_dist (pois_q : R -> R -> Z) (mu1 mu2 : arr R) (size : option (list nat)) (u1 u2 : list nat -> R) : arr Z :=
  let sh := bshape (shape mu1) (shape mu2) in
  let (m1, m2) := match size with None => (broadcast mu1 sh, broadcast mu2 sh) | Some _ => (mu1, mu2) end in
  map2 Z.sub (poisson_dist pois_q m1 size u1) (poisson_dist pois_q m2 size u2).
