(** Model of the index and scenario handling of PyMCStateSpace.forecast, pymc_extras/statespace/core/statespace.py:1511-1876, 1955-2003.

    Time labels are integers.  A DatetimeIndex is a list of dates (integers) with a frequency, a positive step: date_range with this frequency is
    an arithmetic progression (calendar frequencies whose steps differ in length, e.g. months, are covered by taking period numbers as dates).
    Cells of scenario data are of any type.  Log messages are not modelled. *)
From Verif Require Import Common Dict.
Import List ListNotations.
Open Scope Z_scope.

(** ** arguments *)
(** the index of the data the model was fit on: _get_fit_time_index, statespace.py:1554-1567 *)
Inductive tindex := IntIx (l : list Z) | DateIx (l : list Z) (freq : Z).
Definition tlabels (ix : tindex) : list Z := match ix with IntIx l | DateIx l _ => l end.
(** start and end: a Python int, a numpy integer (only arises as default start), a Timestamp *)
Inductive point := PyInt (z : Z) | NpInt (z : Z) | Stamp (z : Z).
(** index of a pandas scenario; freq is None when pandas does not know it *)
Inductive sindex := SInt (l : list Z) | SDate (l : list Z) (freq : option Z).
Definition slabels (ix : sindex) : list Z := match ix with SInt l | SDate l _ => l end.

Section Cells.
Context {V : Type}.
Record frame := { columns : list string; fidx : sindex; rows : list (list V) }.
(** an item of scenario data: pandas DataFrame or Series, numpy array with its number of columns, one-dimensional data (list, tuple, 1d array), anything else *)
Inductive item := Df (f : frame) | Ser (ix : sindex) (l : list V) | Arr (ncol : nat) (m : list (list V)) | Flat (l : list V) | OtherItem.
Inductive scenario := NoScenario | Single (i : item) | Many (d : list (string * item)).

(** Python indexing l[i] *)
Definition py_nth (l : list Z) (i : Z) : res Z :=
  let n := Z.of_nat (length l) in
  let j := if i <? 0 then i + n else i in
  if (0 <=? j) && (j <? n) then match nth_error l (Z.to_nat j) with Some z => Ok z | None => Err IndexError end else Err IndexError.
Definition zmem (z : Z) (l : list Z) : bool := existsb (Z.eqb z) l.
Fixpoint progression (start step : Z) (n : nat) : list Z := match n with O => [] | S n' => start :: progression (start + step) step n' end.
(** pd.date_range(start, periods=n, freq) and (start, end=e, freq); negative periods are a ValueError *)
Definition date_range_n (start n freq : Z) : res (list Z) := if n <? 0 then Err ValueError else Ok (progression start freq (Z.to_nat n)).
Definition date_range_e (start e freq : Z) : list Z := progression start freq (Z.to_nat ((e - start) / freq + 1)).
(** pd.RangeIndex(start, stop) *)
Definition range_index (start stop : Z) : list Z := progression start 1 (Z.to_nat (stop - start)).

Definition is_pandas (i : item) : bool := match i with Df _ | Ser _ _ => true | _ => false end.
(** _validate_forecast_args, statespace.py:1511-1552 *)
Definition validate_forecast_args (ix : tindex) (start : option point) (periods : option Z) (end_ : option point) (sc : scenario)
    (use_scenario_index : bool) : res unit :=
  do _ <- match start with
          | Some (Stamp z) => match ix with
                              | DateIx l _ => if zmem z l then Ok tt else Err ValueError
                              | IntIx _ => Err ValueError
                              end
          | Some (PyInt z) => if Z.of_nat (length (tlabels ix)) <? Z.abs z then Err ValueError else Ok tt
          | _ => Ok tt
          end;
  match periods, end_ with
  | None, None => Err ValueError
  | Some _, Some _ => Err ValueError
  | _, _ =>
      if use_scenario_index then
        match sc with
        | NoScenario => Err ValueError
        | Many d => if existsb (fun x => is_pandas (snd x)) d then Ok tt else Err ValueError
        | Single i => if is_pandas i then Ok tt else Err ValueError
        end
      else Ok tt
  end.

(** get_or_create_index, statespace.py:1749-1772 *)
Definition item_index (i : item) (ix : tindex) (start : option point) : res sindex :=
  let create (n : nat) :=
    match start with
    | None => Err ValueError
    | Some s =>
        do s' <- match s with PyInt z => py_nth (tlabels ix) z | NpInt z | Stamp z => Ok z end;
        match ix with
        | DateIx _ f => do l <- date_range_n s' (Z.of_nat n) f; Ok (SDate l (Some f))
        | IntIx _ => Ok (SInt (range_index s' (Z.of_nat n + s')))
        end
    end in
  match i with
  | Df f => Ok (fidx f)
  | Ser jx _ => Ok jx
  | Arr _ m => create (length m)
  | Flat l => create (length l)
  | OtherItem => Err ValueError
  end.
Definition scenario_index (sc : scenario) (ix : tindex) (start : option point) : res sindex :=
  match sc with
  | NoScenario => Err ValueError
  | Single i => item_index i ix start
  | Many [] => Err RuntimeError
  | Many ((_, i) :: _) => item_index i ix start
  end.

(** _build_forecast_index, statespace.py:1710-1832: the label of the initial state and the labels of the forecast *)
Definition build_forecast_index (ix : tindex) (start : option point) (end_ : option point) (periods : option Z)
    (use_scenario_index : bool) (sc : scenario) : res (Z * list Z) :=
  do (x0, fx) <-
    (if use_scenario_index then
       do jx <- scenario_index sc ix start;
       match jx with
       | SDate l fq =>
           match l, fq with
           | x :: _, Some f =>
               match ix with
               | DateIx _ f' => if f =? f' then Ok (x - f, l) else Err ValueError
               | IntIx _ => Err AttributeError
               end
           | [], _ => Err IndexError
           | _, None => Err TypeError
           end
       | SInt l => match l with x :: _ => Ok (x - 1, l) | [] => Err IndexError end
       end
     else
       do fx <-
         match ix with
         | DateIx l f =>
             match start with
             | None | Some (NpInt _) => Err ValueError
             | Some s =>
                 do s' <- match s with PyInt z => py_nth l z | NpInt z | Stamp z => Ok z end;
                 match end_, periods with
                 | Some (PyInt _), _ => Err ValueError
                 | _, Some n => date_range_n s' (n + 1) f
                 | Some (Stamp e), None => Ok (date_range_e s' e f)
                 | _, None => Err TypeError
                 end
             end
         | IntIx l =>
             match start with
             | None | Some (Stamp _) => Err TypeError
             | Some (PyInt z) | Some (NpInt z) =>
                 do s' <- (if z <? 0 then py_nth l z else Ok z);
                 match end_, periods with
                 | Some (Stamp _), _ => Err TypeError
                 | _, Some n => Ok (range_index s' (s' + n + 1))
                 | Some (PyInt e), None | Some (NpInt e), None => Ok (range_index s' e)
                 | None, None => Err TypeError
                 end
             end
         end;
       match fx with x :: rest => Ok (x, rest) | [] => Err IndexError end);
  if zmem x0 fx then Err ValueError else
  if zmem x0 (tlabels ix) then Ok (x0, fx) else Err ValueError.

(** ** scenario data, statespace.py:1569-1708.  The model's data variables: name and the labels of its columns (self._fit_coords of its second dim). *)
Definition vars := list (string * list string).
Definition set_minus (a b : list string) : list string := filter (fun x => negb (smem x b)) a.
Definition validate_item (expected : list string) (i : item) : res item :=
  let i := match i with Flat l => Arr 1 (map (fun v => [v]) l) | _ => i end in
  match i with
  | Arr n _ => if Nat.eqb n (length expected) then Ok i else Err ValueError
  | Ser _ _ => if Nat.ltb 1 (length expected) then Err ValueError else Ok i
  | Df f =>
      match set_minus expected (columns f), set_minus (columns f) expected with
      | _ :: _, _ => Err ValueError
      | [], _ :: _ => Err ValueError
      | [], [] => (* the test `not (generator)` is always False: no reordering *) Ok i
      end
  | _ => Ok OtherItem
  end.
(** a dictionary of scenarios: unknown names, item checks, equal lengths, equal indices of the DataFrames *)
Definition item_len (i : item) : option nat :=
  match i with Df f => Some (length (rows f)) | Ser _ l => Some (length l) | Arr _ m => Some (length m) | Flat l => Some (length l) | OtherItem => None end.
Fixpoint validate_items (vs : vars) (d : list (string * item)) : res (list (string * item)) :=
  match d with
  | [] => Ok []
  | (name, i) :: d' =>
      match dget vs name with
      | None => Err ValueError
      | Some expected => do i' <- validate_item expected i; do r <- validate_items vs d'; Ok ((name, i') :: r)
      end
  end.
Definition same_index (a b : sindex) : bool := if list_eq_dec Z.eq_dec (slabels a) (slabels b) then true else false.
Definition frame_indices (d : list (string * item)) : list sindex := flat_map (fun x => match snd x with Df f => [fidx f] | _ => [] end) d.
Definition validate_scenario (vs : vars) (d : list (string * item)) : res (list (string * item)) :=
  do d' <- validate_items vs d;
  match d' with
  | [] => Err RuntimeError
  | (_, i0) :: _ =>
      match item_len i0 with
      | None => Err AttributeError
      | Some n =>
          if existsb (fun x => match item_len (snd x) with Some m => negb (Nat.eqb m n) | None => true end) d' then Err ValueError else
          match frame_indices d' with
          | [] => Ok d'
          | ix0 :: ixs => if forallb (fun j => same_index j ix0) ixs then Ok d' else Err ValueError
          end
      end
  end.
(** _finalize_scenario_initialization, statespace.py:1834-1876, for one item: the DataFrame used and the state of the user's own
    object afterwards (a DataFrame is modified in place: scenario.index = forecast_index) *)
Definition finalize_item (expected : list string) (fx : sindex) (i : item) : res (frame * item) :=
  match i with
  | Df f =>
      if same_index (fidx f) fx then Ok (f, i) else
      if Nat.eqb (length (rows f)) (length (slabels fx))
      then let f' := {| columns := columns f; fidx := fx; rows := rows f |} in Ok (f', Df f') else Err ValueError
  | Ser jx l =>
      match expected with
      | [] => Err IndexError
      | c :: _ =>
          let rows_ := map (fun v => [v]) l in
          if same_index jx fx then Ok ({| columns := [c]; fidx := jx; rows := rows_ |}, i) else
          if Nat.eqb (length l) (length (slabels fx)) then Ok ({| columns := [c]; fidx := fx; rows := rows_ |}, i) else Err ValueError
      end
  | Arr n m => if Nat.eqb (length m) (length (slabels fx)) then Ok ({| columns := expected; fidx := fx; rows := m |}, i) else Err ValueError
  | Flat _ | OtherItem => Err TypeError
  end.
(** the values that replace a data variable, statespace.py:2042-2049: scenario.get(name), as a plain array *)
Definition replacement (vs : vars) (fx : sindex) (d : list (string * item)) (name : string) : res (list (list V)) :=
  match dget vs name, dget d name with
  | Some expected, Some i => do (f, _) <- finalize_item expected fx i; Ok (rows f)
  | _, _ => Err TypeError
  end.
End Cells.
Arguments frame : clear implicits.
Arguments item : clear implicits.
Arguments scenario : clear implicits.

(** forecast, statespace.py:1957-2003: default start, wrapping of a single scenario into a dictionary, then the three routines *)
Section Forecast.
Context {V : Type}.
Definition default_start (ix : tindex) (start : option point) (verbose : bool) : option point :=
  match start with
  | Some s => Some s
  | None => if verbose then match ix with IntIx l => Some (NpInt (last l 0)) | DateIx l _ => Some (Stamp (last l 0)) end else None
  end.
Definition wrap (vs : vars) (sc : scenario V) : res (scenario V) :=
  match vs, sc with
  | [], _ | _, Many _ => Ok sc
  | [(name, _)], Single i => Ok (Many [(name, i)])
  | [(name, _)], NoScenario => Err ValueError
  | _, _ => Err ValueError
  end.
Definition forecast_index (vs : vars) (ix : tindex) (start end_ : option point) (periods : option Z) (sc : scenario V)
    (use_scenario_index verbose : bool) : res (Z * list Z * scenario V) :=
  let start := default_start ix start verbose in
  do sc <- wrap vs sc;
  do sc <- match vs, sc with
           | [], _ => Ok sc
           | _, Many d => do d' <- validate_scenario vs d; Ok (Many d')
           | _, _ => Ok sc
           end;
  do _ <- validate_forecast_args ix start periods end_ sc use_scenario_index;
  do (t0, fx) <- build_forecast_index ix start end_ periods use_scenario_index sc;
  Ok (t0, fx, sc).
(** t0_idx, statespace.py:2005: position of the initial state among the filter outputs *)
Fixpoint position (z : Z) (l : list Z) : option nat :=
  match l with [] => None | x :: l' => if x =? z then Some 0%nat else option_map S (position z l') end.
End Forecast.
