(** Model of pymc_extras/distributions/timeseries.py: DiscreteMarkovChain (drawing, support point and logp) for one
    chain, and the shape of its logp for batches.

    Not modelled: random generators (a draw of a Categorical is replaced by its probability), the registration code,
    n_lags = 0.  The initial distribution has scalar support, as in the class's own examples and default. *)
From Coq Require Import Reals.
From Verif Require Import Common LogR.
Open Scope nat_scope.

(** numpy / pytensor indexing of an axis of length k by an integer: negative numbers count from the end. *)
Definition index_axis (k : nat) (z : Z) : res nat :=
  if ((0 <=? z) && (z <? Z.of_nat k))%Z then Ok (Z.to_nat z)
  else if ((- Z.of_nat k <=? z) && (z <? 0))%Z then Ok (Z.to_nat (z + Z.of_nat k))
  else Err IndexError.

(** P: an array with n_lags + 1 axes of length k, as a function of the list of its indices. *)
Fixpoint index_all (k : nat) (zs : list Z) : res (list nat) :=
  match zs with
  | [] => Ok []
  | z :: r => do i <- index_axis k z; do is <- index_all k r; Ok (i :: is)
  end.

(** A Python slice v[a:b]; b negative counts from the end, None is the end. *)
Definition pyslice {A} (v : list A) (a : nat) (b : option Z) : list A :=
  let n := length v in
  let stop := match b with
              | None => n
              | Some z => if (z <? 0)%Z then Z.to_nat (z + Z.of_nat n)%Z else Nat.min (Z.to_nat z) n
              end in
  skipn a (firstn stop v).

(** indexes = [value[..., i : -(n_lags - i) if n_lags != i else None] for i in range(n_lags + 1)],
    timeseries.py:257 *)
Definition indexes {A} (n_lags : nat) (v : list A) : list (list A) :=
  map (fun i => pyslice v i (if n_lags =? i then None else Some (- (Z.of_nat n_lags - Z.of_nat i))%Z))
      (seq 0 (n_lags + 1)).

(** P[tuple(indexes)]: the arrays are read in parallel, position by position. *)
Definition nth_all {A} (d : A) (xs : list (list A)) (t : nat) : list A := map (fun l => nth t l d) xs.

Fixpoint mapm {A B} (f : A -> res B) (l : list A) : res (list B) :=
  match l with [] => Ok [] | x :: r => do y <- f x; do ys <- mapm f r; Ok (y :: ys) end.

(** discrete_mc_logp, timeseries.py:251-276, without the parameter checks.  [init] is the logp of the initial
    distribution. *)
Definition mc_logp (k n_lags : nat) (P : list nat -> R) (init : Z -> lr) (value : list Z) : res lr :=
  let idx := indexes n_lags value in
  let first := lsum (map init (pyslice value 0 (Some (Z.of_nat n_lags)))) in
  do terms <- mapm (fun t => do i <- index_all k (nth_all 0%Z idx t); Ok (lln (P i)))
                   (seq 0 (length (nth 0 idx [])));
  Ok (ladd first (lsum terms)).

(** The checks of timeseries.py:268-276 on the shape of P, its row sums (numpy's allclose with the default
    tolerances) and the leading dimension of the initial distribution. *)
Definition last_axes_square (shapeP : list nat) (n_lags : nat) : bool :=
  forallb (fun d => d =? last shapeP 0) (skipn (length shapeP - (n_lags + 1)) shapeP).

(** The sampler: rv_op, timeseries.py:170-217.  scan with taps -n_lags..-1 passes the previous n_lags states, oldest
    first; the next state is drawn from Categorical(p = P[tuple(states)]).  [chain_prob P n_lags hist rest] is the
    probability that, after the states [hist], the scan draws the states [rest]. *)
Fixpoint chain_prob (k : nat) (P : list nat -> R) (n_lags : nat) (hist rest : list nat) : R :=
  match rest with
  | [] => 1%R
  | x :: r => (P (skipn (length hist - n_lags) hist ++ [x])
               * chain_prob k P n_lags (hist ++ [x]) r)%R
  end.
(** pt.concatenate([init_dist_, markov_chain]): the probability of drawing the whole chain. *)
Definition draw_prob (k n_lags : nat) (P : list nat -> R) (init : Z -> lr) (value : list nat) : R :=
  (Rprod (map (fun x => lexp (init (Z.of_nat x))) (firstn n_lags value))
   * chain_prob k P n_lags (firstn n_lags value) (skipn n_lags value))%R.

(** The support point, discrete_mc_moment, timeseries.py:228-248: the scan starts from the (random) initial draw
    [init_draw], not from its support point [init_moment]. *)
Fixpoint greedy (P : list nat -> R) (argmax : (nat -> R) -> nat) (n_lags : nat) (hist : list nat) (steps : nat) : list nat :=
  match steps with
  | O => []
  | S s => let x := argmax (fun j => P (skipn (length hist - n_lags) hist ++ [j])) in
           x :: greedy P argmax n_lags (hist ++ [x]) s
  end.
Definition support_point (P : list nat -> R) (argmax : (nat -> R) -> nat) (n_lags steps : nat)
    (init_moment init_draw : list nat) : list nat :=
  init_moment ++ greedy P argmax n_lags init_draw steps.

(** Shapes.  value has shape batch ++ [T]; P has shape pshape.  P[tuple(indexes)] consumes the FIRST n_lags + 1 axes of
    P; its result has the shape of the indices followed by the remaining axes of P. *)
Fixpoint broadcast_rev (a b : list nat) : option (list nat) :=
  match a, b with
  | [], _ => Some b
  | _, [] => Some a
  | x :: a', y :: b' =>
      match broadcast_rev a' b' with
      | None => None
      | Some r => if x =? y then Some (x :: r) else if x =? 1 then Some (y :: r) else if y =? 1 then Some (x :: r)
                  else None
      end
  end.
Definition broadcast (a b : list nat) : option (list nat) :=
  option_map (@rev nat) (broadcast_rev (rev a) (rev b)).
Definition mc_logp_shape (n_lags : nat) (batch : list nat) (T : nat) (pshape : list nat) : option (list nat) :=
  let indexed := (batch ++ [T - n_lags]) ++ skipn (n_lags + 1) pshape in
  broadcast batch (removelast indexed).

(** DiscreteMarkovChainGibbsMetropolis.__init__, timeseries.py:297-331: [vars] lists (number of categories, size). *)
Definition dimcats (vars : list (nat * nat)) : list (nat * nat) :=
  fold_left (fun acc v => let start := length acc in
               acc ++ map (fun d => (d, fst v)) (seq start (snd v))) vars [].
Fixpoint insert (x : nat) (l : list nat) : list nat :=
  match l with [] => [x] | y :: r => if x <=? y then x :: l else y :: insert x r end.
Definition sorted (l : list nat) : list nat := fold_right insert [] l.
Definition list_eqb (a b : list nat) : bool := if list_eq_dec Nat.eq_dec a b then true else false.
(** order: None is "random" *)
Definition gibbs_dims (vars : list (nat * nat)) (order : option (list nat)) : res (list (nat * nat)) :=
  let d := dimcats vars in
  match order with
  | None => Ok d
  | Some o => if list_eqb (sorted o) (seq 0 (length d)) then Ok (map (fun j => nth j d (0, 0)) o) else Err ValueError
  end.
