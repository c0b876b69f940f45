(** Model of pymc_extras/statespace/utils/data_tools.py and of how its missing-value marker is used by
    core/statespace.py and filters/kalman_filter.py.

    Finite floats are represented by integers (only equality matters here).  Warnings, the registration of the data
    variable with pymc and the side effects on the user's pandas objects (name of a Series, freq of an index) are not modelled. *)
From Verif Require Import Common Dict.
Import List ListNotations.
Open Scope nat_scope.

(** ** missing values *)
Inductive val := Fin (x : Z) | NaN | PInf | NInf.
Definition MISSING_FILL : val := Fin (-9999).
(** IEEE equality: NaN differs from everything, including itself *)
Definition val_eq (a b : val) : bool :=
  match a, b with Fin x, Fin y => (x =? y)%Z | PInf, PInf => true | NInf, NInf => true | _, _ => false end.
(** np.ma.masked_invalid: NaN and infinities *)
Definition invalid (v : val) : bool := match v with Fin _ => false | _ => true end.
Definition matrix := list (list val).
Definition any (p : val -> bool) (m : matrix) : bool := existsb (existsb p) m.
Definition mmap {A} (f : val -> A) (m : matrix) : list (list A) := map (map f) m.

(** mask_missing_values_in_data, data_tools.py:138-161: the filled values and the mask *)
Definition mask_missing_values_in_data (values : matrix) (missing_fill_value : option val) : res (matrix * list (list bool)) :=
  let fill := match missing_fill_value with Some v => v | None => MISSING_FILL end in
  let filled := mmap (fun v => if invalid v then fill else v) values in
  let nan_mask := mmap invalid values in
  if any invalid values && any (fun v => val_eq v fill) values then Err ValueError else Ok (filled, nan_mask).

(** kalman_filter.py:197-203 and 352: what the filter takes as missing, given the marker it was built with *)
Definition filter_missing (missing_fill_value : option val) (y : matrix) : list (list bool) :=
  let fill := match missing_fill_value with Some v => v | None => MISSING_FILL end in
  mmap (fun v => (match v with NaN => true | _ => false end) || val_eq v fill) y.

(** build_statespace_graph, statespace.py:860-874: the data the filter gets and what it takes as missing *)
Definition fit_data (values : matrix) (missing_fill_value : option val) : res (matrix * list (list bool)) :=
  do (filled, _) <- mask_missing_values_in_data values missing_fill_value;
  Ok (filled, filter_missing missing_fill_value filled).
(** _kalman_filter_outputs_from_dummy_graph, statespace.py:1021-1041 (used by sample_conditional_* and forecast): neither
    call is given the marker chosen when the model was built *)
Definition conditional_data (values : matrix) : res (matrix * list (list bool)) :=
  do (filled, _) <- mask_missing_values_in_data values None; Ok (filled, filter_missing None filled).

(** ** kinds of data *)
Inductive index := Range | Dates (l : list Z) | OtherIndex.
Inductive data :=
| Tensor (shape : list nat) (values : matrix)
| Array (shape : list nat) (values : matrix)
| Frame (columns : list string) (ix : index) (values : matrix)
| Series (ix : index) (values : list val)
| OtherData.
(** the time labels: a range or the dates *)
Definition labels (n : nat) : list Z := map Z.of_nat (seq 0 n).

(** _validate_data_shape, data_tools.py:38-58; check_col_names is never true when called from the library *)
Definition validate_data_shape (shape : list nat) (n_obs : nat) (obs_coords : option (list string)) (check_col_names : bool)
    (col_names : list string) : res unit :=
  if negb (length shape =? 2) then Err ValueError else
  if negb (last shape 0 =? n_obs) then Err ValueError else
  if check_col_names then
    match obs_coords with
    | None => Err TypeError
    | Some o => if existsb (fun c => negb (smem c col_names)) o then Err ValueError else Ok tt
    end
  else Ok tt.
(** preprocess_*_data, data_tools.py:61-106, dispatched as in register_data_with_pymc, :167-174 *)
Definition preprocess_pandas (columns : list string) (ix : index) (values : matrix) (n_obs : nat) (obs_coords : option (list string))
    (check_column_names : bool) : res (matrix * list Z) :=
  let shape := [length values; length columns] in
  do _ <- validate_data_shape shape n_obs obs_coords check_column_names columns;
  match ix with
  | Range => do _ <- validate_data_shape shape n_obs obs_coords false []; Ok (values, labels (length values))
  | Dates l => Ok (values, l)
  | OtherIndex => Err IndexError
  end.
Definition preprocess (d : data) (n_obs : nat) (obs_coords : option (list string)) : res (matrix * list Z) :=
  match d with
  | Tensor shape values | Array shape values =>
      do _ <- validate_data_shape shape n_obs obs_coords false []; Ok (values, labels (hd 0 shape))
  | Frame columns ix values => preprocess_pandas columns ix values n_obs obs_coords false
  | Series ix values => preprocess_pandas ["data"%string] ix (map (fun v => [v]) values) n_obs obs_coords false
  | OtherData => Err ValueError
  end.

(** add_data_to_active_model, data_tools.py:115-125: the time coordinate of the model.  None: no such coordinate;
    Some None: a dim without labels. *)
Definition add_time (coord : option (option (list Z))) (ix : list Z) : res (list Z) :=
  match coord with
  | None | Some None => Ok ix
  | Some (Some found) => if list_eq_dec Z.eq_dec found ix then Ok found else Err ValueError
  end.
(** register_data_with_pymc, data_tools.py:164-182 (with register_data=True): filled data, mask, time coordinate *)
Definition register_data_with_pymc (d : data) (n_obs : nat) (obs_coords : option (list string)) (missing_fill_value : option val)
    (time : option (option (list Z))) : res (matrix * list (list bool) * list Z) :=
  do (values, ix) <- preprocess d n_obs obs_coords;
  do (filled, mask) <- mask_missing_values_in_data values missing_fill_value;
  do t <- add_time time ix;
  Ok (filled, mask, t).
