(** Model of pymc_extras/statespace/core/representation.py: PytensorRepresentation.

    A symbolic tensor is its static shape (all lengths known) and its value, which is an exception when evaluating the
    tensor raises (an index out of bounds, a failed specify_shape, a value of the wrong shape).  PyTensor semantics used:
    - x[i1, ..., ik] with ints and slices selects as numpy does; more indices than axes raises IndexError at once, an int
      out of bounds only when evaluated; x[None] adds a leading axis;
    - x[l] for a list l is x[tuple(l)] if l contains a slice and the advanced index of rows otherwise
      (pytensor/tensor/variable.py, __getitem__);
    - set_subtensor(x[...], v) raises ValueError at once when v has more axes than the selection, and when evaluated if v
      does not broadcast to it; set_subtensor(x[None], v) raises TypeError;
    - specify_shape(x, s) raises ValueError at once if the number of axes differs, AssertionError when evaluated if a
      length differs; it keeps the static shape of x.
    Values are numpy arrays (Np), pytensor tensors (Pt) or Python numbers (Num).  Indices are ints, full slices, and
    slices start:stop:step with explicit bounds and positive step; array-valued indices are not modelled. *)
From Verif Require Import Common Dict.
Import List ListNotations.
Open Scope nat_scope.

Section Repr.
Context {V : Type}.

Record tensor := T { tsh : list nat; tval : res (list nat -> V) }.
Inductive value := Num (v : V) | Np (sh : list nat) (f : list nat -> V) | Pt (t : tensor).
Inductive ix := I (z : Z) | All | Sl (start stop : Z) (step : nat).
Inductive key := Name (n : string) | At (n : string) (l : list ix).

(** ** numpy / pytensor indexing *)

Definition wrap (n : nat) (z : Z) : option nat :=
  let z' := if (z <? 0)%Z then (z + Z.of_nat n)%Z else z in
  if (0 <=? z')%Z && (z' <? Z.of_nat n)%Z then Some (Z.to_nat z') else None.
Definition bound (n : nat) (z : Z) : nat :=
  if (z <? 0)%Z then Z.to_nat (z + Z.of_nat n) else Nat.min (Z.to_nat z) n.
(** What is selected of one axis: one position (the axis disappears) or a list of positions. *)
Inductive sel := Drop (p : nat) | Keep (ps : list nat).
Definition sel_ix (n : nat) (i : ix) : res sel :=
  match i with
  | I z => match wrap n z with Some p => Ok (Drop p) | None => Err IndexError end
  | All => Ok (Keep (seq 0 n))
  | Sl a b st => Ok (Keep (map (fun j => bound n a + j * st) (seq 0 ((bound n b - bound n a + st - 1) / st))))
  end.
Fixpoint sels (sh : list nat) (l : list ix) : res (list sel) :=
  match sh, l with
  | [], _ => Ok []
  | n :: sh', [] => do r <- sels sh' []; Ok (Keep (seq 0 n) :: r)
  | n :: sh', i :: l' => do s <- sel_ix n i; do r <- sels sh' l'; Ok (s :: r)
  end.
(** x[l] for a list of ints *)
Fixpoint wraps (n : nat) (zs : list Z) : res (list nat) :=
  match zs with [] => Ok [] | z :: r => match wrap n z with Some p => do ps <- wraps n r; Ok (p :: ps) | None => Err IndexError end end.
Definition sels_rows (sh : list nat) (zs : list Z) : res (list sel) :=
  match sh with [] => Err IndexError | n :: sh' => do ps <- wraps n zs; do r <- sels sh' []; Ok (Keep ps :: r) end.

(** the static shape of x[l] and of x[rows] *)
Fixpoint sel_shape (sh : list nat) (l : list ix) : list nat :=
  match sh, l with
  | [], _ => []
  | n :: sh', [] => n :: sel_shape sh' []
  | n :: sh', i :: l' => match sel_ix n i with Ok (Keep ps) => length ps :: sel_shape sh' l' | _ => sel_shape sh' l' end
  end.
Definition rows_shape (sh : list nat) (zs : list Z) : list nat := length zs :: tl sh.

(** position in x of entry idx of the selection *)
Fixpoint src (s : list sel) (idx : list nat) : list nat :=
  match s with
  | [] => []
  | Drop p :: s' => p :: src s' idx
  | Keep ps :: s' => nth (hd 0 idx) ps 0 :: src s' (tl idx)
  end.
(** entry of the selection that position idx of x holds (the last one when rows are repeated) *)
Fixpoint last_at (p : nat) (ps : list nat) (k : nat) : option nat :=
  match ps with [] => None | q :: r => match last_at p r (S k) with Some j => Some j | None => if q =? p then Some k else None end end.
Fixpoint locate (s : list sel) (idx : list nat) : option (list nat) :=
  match s, idx with
  | Drop p :: s', i :: idx' => if i =? p then locate s' idx' else None
  | Keep ps :: s', i :: idx' => match last_at i ps 0, locate s' idx' with Some j, Some r => Some (j :: r) | _, _ => None end
  | _, _ => Some []
  end.

(** numpy broadcasting of a value of shape vs to shape sh *)
Definition bcast_ok (vs sh : list nat) : bool :=
  forallb (fun '(a, b) => (a =? b) || (a =? 1)) (combine (rev vs) (rev sh)).
Definition bcast_idx (vs sh idx : list nat) : list nat :=
  map (fun '(a, i) => if a =? 1 then 0 else i) (combine vs (skipn (length sh - length vs) idx)).

Definition getsub (t : tensor) (s : res (list sel)) (sh : list nat) : tensor :=
  T sh (do f <- tval t; do ss <- s; Ok (fun idx => f (src ss idx))).
(** x[i1, ..., ik] *)
Definition index (t : tensor) (l : list ix) : res tensor :=
  if length (tsh t) <? length l then Err IndexError else Ok (getsub t (sels (tsh t) l) (sel_shape (tsh t) l)).
Definition setsub (t : tensor) (s : res (list sel)) (sh : list nat) (v : tensor) : res tensor :=
  if length sh <? length (tsh v) then Err ValueError else
  Ok (T (tsh t) (do f <- tval t; do ss <- s; do g <- tval v;
                 if bcast_ok (tsh v) sh
                 then Ok (fun idx => match locate ss idx with Some o => g (bcast_idx (tsh v) sh o) | None => f idx end)
                 else Err ValueError)).
Definition shape_eqb (a b : list nat) : bool := if list_eq_dec Nat.eq_dec a b then true else false.
Definition specify_shape (t : tensor) (sh : list nat) : res tensor :=
  if negb (length (tsh t) =? length sh) then Err ValueError
  else if shape_eqb (tsh t) sh then Ok t else Ok (T (tsh t) (do _ <- tval t; Err AssertionError)).

(** ** the class *)

Definition NEVER_TIME_VARYING : list string := ["initial_state"; "initial_state_cov"; "a0"; "P0"]%string.
Definition VECTOR_VALUED : list string := ["initial_state"; "state_intercept"; "obs_intercept"; "a0"; "c"; "d"]%string.
Definition never (n : string) : bool := smem n NEVER_TIME_VARYING.
Definition vector (n : string) : bool := smem n VECTOR_VALUED.

(** representation.py:191-202 *)
Definition shapes0 (k_endog k_states k_posdef : nat) : dict (list nat) :=
  [("design", [1; k_endog; k_states]); ("obs_intercept", [1; k_endog]); ("obs_cov", [1; k_endog; k_endog]);
   ("transition", [1; k_states; k_states]); ("state_intercept", [1; k_states]); ("selection", [1; k_states; k_posdef]);
   ("state_cov", [1; k_posdef; k_posdef]); ("initial_state", [k_states]); ("initial_state_cov", [k_states; k_states])]%string.

(** last n elements, l[-n:] *)
Definition lastn {A} (n : nat) (l : list A) : list A := skipn (length l - n) l.
(** _update_shape, :225-245; old is self.shapes[key] *)
Definition update_shape (name : string) (old sh : list nat) : res (list nat) :=
  let nd := if vector name then 1 else 2 in
  if negb (forallb (fun '(a, b) => a =? b) (combine (lastn nd sh) (lastn nd old))) then Err ValueError else
  Ok (if never name then sh
      else if (length sh =? 2) && negb (vector name) then 1 :: sh
      else if length sh =? 1 then 1 :: sh else sh).

(** _validate_matrix_shape, :271-319 *)
Definition validate_matrix_shape (name : string) (old sh : list nat) : bool :=
  if never name then length sh =? (if vector name then 1 else 2)
  else if vector name then (length sh =? 1) || ((length sh =? 2) && shape_eqb (tl sh) (tl old))
  else (length sh =? 2) || ((length sh =? 3) && shape_eqb (tl sh) (tl old)).
(** _numpy_to_pytensor, :343-355 *)
Definition numpy_to_pytensor (name : string) (old sh : list nat) (f : list nat -> V) : res tensor :=
  if negb (validate_matrix_shape name old sh) then Err ValueError else
  if negb (never name) && (length sh =? (if vector name then 1 else 2))
  then Ok (T (1 :: sh) (Ok (fun idx => f (tl idx)))) else Ok (T sh (Ok f)).
(** _check_provided_tensor, :330-341 *)
Definition check_provided_tensor (name : string) (old : list nat) (t : tensor) : res tensor :=
  if negb (validate_matrix_shape name old (tsh t)) then Err ValueError else
  if negb (never name) && (((length (tsh t) =? 1) && vector name) || (length (tsh t) =? 2))
  then specify_shape (T (1 :: tsh t) (do f <- tval t; Ok (fun idx => f (tl idx)))) old
  else Ok t.

(** __init__, :204-219: every matrix given or zero *)
Definition init_one (zero : V) (name : string) (sh : list nat) (given : option value) : res tensor :=
  match given with
  | None => Ok (T sh (Ok (fun _ => zero)))
  | Some (Np s f) => numpy_to_pytensor name sh s f
  | Some (Pt t) => check_provided_tensor name sh t
  | Some (Num _) => Err AttributeError
  end.
Fixpoint init_all (zero : V) (shapes : dict (list nat)) (given : string -> option value) : res (dict tensor) :=
  match shapes with
  | [] => Ok []
  | (n, sh) :: r => do t <- init_one zero n sh (given n); do q <- init_all zero r given; Ok ((n, t) :: q)
  end.

(** _add_time_dim_to_slice, :247-262, and its caller's matrix[...]: what is selected and its static shape.  [as_list] is
    true in __setitem__, where the indices are a list (a list without slices is one advanced index).  None: the function
    returned None (more indices than axes). *)
Definition is_int (i : ix) : bool := match i with I _ => true | _ => false end.
Definition ints (l : list ix) : list Z := flat_map (fun i => match i with I z => [z] | _ => [] end) l.
Definition pick (as_list : bool) (sh : list nat) (l : list ix) : res (res (list sel) * list nat) :=
  if as_list && forallb is_int l
  then match sh with [] => Err IndexError | _ => Ok (sels_rows sh (ints l), rows_shape sh (ints l)) end
  else if length sh <? length l then Err IndexError else Ok (sels sh l, sel_shape sh l).
Definition add_time_dim (as_list : bool) (name : string) (sh : list nat) (l : list ix) : option (res (res (list sel) * list nat)) :=
  if never name then Some (pick as_list sh l)
  else if length l =? length sh then Some (pick as_list sh l)
  else if length l <? length sh then Some (pick false sh (I 0 :: l ++ repeat All (length sh - length l - 1)))
  else None.

Definition is_all (i : ix) : bool := match i with All => true | _ => false end.
(** l == (slice(None),) * n *)
Definition alls (n : nat) (l : list ix) : bool := (length l =? n) && forallb is_all l.

(** __getitem__, :357-407 *)
Definition getitem (shapes : dict (list nat)) (mats : dict tensor) (k : key) : res tensor :=
  match k with
  | Name n =>
      match dget shapes n, dget mats n with
      | Some sh, Some t =>
          match tsh t with
          | [] => Err IndexError
          | d0 :: _ =>
              if (d0 =? 1) && negb (never n)
              then do x <- index t (I 0 :: repeat All (length (tsh t) - 1)); specify_shape x (tl sh)
              else Ok t
          end
      | _, _ => Err IndexError
      end
  | At n l =>
      match dget shapes n, dget mats n with
      | Some sh, Some t =>
          if alls (length (tsh t)) l then Ok t
          else if alls (length (tsh t) - 1) l
          then do x <- index t (I 0 :: repeat All (length (tsh t) - 1)); specify_shape x (tl sh)
          else match add_time_dim false n (tsh t) l with
               | Some r => do (s, os) <- r; Ok (getsub t s os)
               | None => Ok (T (1 :: tsh t) (do f <- tval t; Ok (fun idx => f (tl idx))))
               end
      | _, _ => Err IndexError
      end
  end.

(** __setitem__, :409-435: the new shapes and matrices, and the exception raised, if any *)
Definition setitem (shapes : dict (list nat)) (mats : dict tensor) (k : key) (v : value)
    : dict (list nat) * dict tensor * option exn :=
  match k with
  | Name n =>
      match dget shapes n with
      | None => (shapes, mats, Some IndexError)
      | Some old =>
          match (match v with Np s f => numpy_to_pytensor n old s f | Pt t => Ok t | Num _ => Err AttributeError end) with
          | Err e => (shapes, mats, Some e)
          | Ok t =>
              let mats' := dset mats n t in
              match update_shape n old (tsh t) with
              | Err e => (shapes, mats', Some e)
              | Ok sh => (dset shapes n sh, mats', None)
              end
          end
      end
  | At n l =>
      match dget shapes n, dget mats n with
      | Some sh, Some t =>
          let vt := match v with Num x => T [] (Ok (fun _ => x)) | Np s f => T s (Ok f) | Pt t => t end in
          match (do (s, os) <- match add_time_dim true n (tsh t) l with Some r => r | None => Err TypeError end;
                 do m <- setsub t s os vt; specify_shape m sh) with
          | Err e => (shapes, mats, Some e)
          | Ok m => (shapes, dset mats n m, None)
          end
      | _, _ => (shapes, mats, Some IndexError)
      end
  end.

(** ** several objects: copy.copy, :437-438, copies the attributes; the dict self.shapes is shared *)
Record world := World { heap : list (dict (list nat)); objs : list (nat * dict tensor) }.
Definition set_nth {A} (n : nat) (x : A) (l : list A) : list A := firstn n l ++ x :: skipn (S n) l.
Definition w_copy (w : world) (o : nat) : world := World (heap w) (objs w ++ [nth o (objs w) (0, [])]).
Definition w_get (w : world) (o : nat) (k : key) : res tensor :=
  let '(p, m) := nth o (objs w) (0, []) in getitem (nth p (heap w) []) m k.
Definition w_set (w : world) (o : nat) (k : key) (v : value) : world * option exn :=
  let '(p, m) := nth o (objs w) (0, []) in
  let '(s', m', e) := setitem (nth p (heap w) []) m k v in
  (World (set_nth p s' (heap w)) (set_nth o (p, m') (objs w)), e).
End Repr.
Arguments tensor : clear implicits.
Arguments value : clear implicits.
Arguments world : clear implicits.
