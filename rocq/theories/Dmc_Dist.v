(** Model of DiscreteMarkovChain.dist and of the parameter checks in its logp, pymc_extras/distributions/timeseries.py:136-178 and 251-276.

    Simplified: an assertion that pytensor raises when the graph is evaluated counts as an error of the call; the
    warning for a missing initial distribution is not modelled; batches (size) are not modelled. *)
From Coq Require Import Reals.
From Verif Require Import Common LogR Dmc_Model.
Open Scope nat_scope.

Record parr := { pshape : list nat; pat : list nat -> R }.
(** the init_dist argument: absent, not a distribution variable, a distribution of a model (registered), or an unregistered one with its support dimension *)
Inductive init_arg := NoInit | NotDist | Registered | Unregistered (ndim_supp : nat) (logp : Z -> lr).

(** pymc's get_support_shape_1d(support_shape, shape, support_shape_offset), called at timeseries.py:137-139 *)
Definition support_steps (steps : option Z) (shape : option (list Z)) (offset : Z) : res (option Z) :=
  match shape with
  | None => Ok steps
  | Some s => match rev s with
              | [] => Err IndexError
              | d :: _ => match steps with
                          | None => Ok (Some (d - offset)%Z)
                          | Some t => if (d - offset =? t)%Z then Ok (Some t) else Err AssertionError
                          end
              end
  end.
(** pm.math.softmax(logit_P, axis=-1), timeseries.py:149 *)
Definition softmax_last (l : parr) : parr :=
  {| pshape := pshape l;
     pat := fun idx => (exp (pat l idx) / Rsum (map (fun j => exp (pat l (removelast idx ++ [j]))) (seq 0 (last (pshape l) O))))%R |}.
(** the default Categorical.dist(p=pt.full((k,), 1 / k)), timeseries.py:174-175 *)
Definition default_init (k : nat) : Z -> lr := fun z => if ((0 <=? z) && (z <? Z.of_nat k))%Z then lln (1 / INR k) else NInf.

Record chain := { trans : parr; steps_ : Z; lags : nat; init_logp : Z -> lr }.
(** timeseries.py:136-178 *)
Definition dist (P logit_P : option parr) (steps : option Z) (shape : option (list Z)) (init : init_arg) (n_lags : nat) : res chain :=
  do st <- support_steps steps shape (Z.of_nat n_lags);
  match st with
  | None => Err ValueError
  | Some t =>
      do p <- match P, logit_P with
              | None, None => Err ValueError
              | Some _, Some _ => Err ValueError
              | Some p, None => Ok p
              | None, Some l => Ok (softmax_last l)
              end;
      do i <- match init with
              | NotDist => Err ValueError
              | Registered => Err ValueError
              | Unregistered d f => if 1 <? d then Err ValueError else Ok f
              | NoInit => Ok (default_init (last (pshape p) 0))
              end;
      Ok {| trans := p; steps_ := t; lags := n_lags; init_logp := i |}
  end.
(** the length of a draw: n_lags initial values followed by the scanned steps, timeseries.py:188-207 *)
Definition draw_length (c : chain) : Z := (Z.of_nat (lags c) + steps_ c)%Z.

(** every index of an array of a given shape *)
Fixpoint all_indices (s : list nat) : list (list nat) :=
  match s with [] => [[]] | d :: r => flat_map (fun x => map (cons x) (all_indices r)) (seq 0 d) end.
(** P.sum(axis=-1) *)
Definition row_sum (p : parr) (h : list nat) : R := Rsum (map (fun j => pat p (h ++ [j])) (seq 0 (last (pshape p) 0))).
Definition allclose1b (x : R) : bool := if Rle_dec (Rabs (x - 1)) (1 / 100000000 + 1 / 100000 * 1) then true else false.
(** check_parameters of timeseries.py:268-276; rv_op always gives init_dist the leading dimension n_lags (line 188) *)
Definition params_ok (c : chain) : bool :=
  last_axes_square (pshape (trans c)) (lags c) &&
  forallb (fun h => allclose1b (row_sum (trans c) h)) (all_indices (removelast (pshape (trans c)))).
(** discrete_mc_logp with its checks *)
Definition checked_logp (c : chain) (value : list Z) : res lr :=
  if params_ok c then mc_logp (last (pshape (trans c)) 0) (lags c) (pat (trans c)) (init_logp c) value else Err ValueError.
