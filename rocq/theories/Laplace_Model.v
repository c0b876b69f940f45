(** Model of pymc_extras/inference/laplace.py: which flat position belongs to which variable.

    The Hessian, its inverse and the random draws are parameters: the model says of which function the Hessian is taken and how the drawn rows are cut and named.
    The observed and constant data groups (laplace.py:171-231) are not modelled. *)
From Verif Require Import Common Dict.
Import List ListNotations.
From Verif Require Import Flat_Model FindMap_Model.
Open Scope nat_scope.

(** model.named_vars_to_dims and model.coords *)
Record labels := { var_dims : dict (list string); coords : dict (list string) }.

Section Laplace.
Context {V L : Type}.
Variable (evaluate : dict (arr V) -> string -> arr V).

(** fit_mvn_to_MAP, laplace.py:278-306.  remove_value_transforms (PyMC) names every value variable after its random variable.
    loss u: the loss of the model, in the unconstrained space (u = true, with Jacobian) or the constrained one.  The result: mu and the function whose Hessian is taken at mu.data *)
Definition laplace_variables (m : pmodel) (transform_samples : bool) : list string :=
  if transform_samples then continuous_value_vars m else map rv_name (filter continuous (free m)).
Definition fit_mvn_to_MAP (loss : bool -> dict (arr V) -> L) (m : pmodel) (transform_samples : bool) (optimized_point : dict (arr V)) :
    res (raveled V * (list V -> res L)) :=
  let variables := laplace_variables m transform_samples in
  let optimized_free_params := filter (fun kv => smem (fst kv) variables) optimized_point in
  let mu := bij_map optimized_free_params in
  if negb (forallb (dmem optimized_free_params) variables) then Err KeyError else
  match variables with
  | [] => Err ValueError
  | _ => let f := objective (loss transform_samples) variables optimized_free_params in do _ <- f (rdata mu); Ok (mu, f)
  end.

(** sample_laplace_posterior, laplace.py:366-408.  rows: the drawn matrix of shape (chains, draws, k); scipy squeezes the result of rvs *)
Fixpoint mapM {A B} (f : A -> res B) (l : list A) : res (list B) :=
  match l with [] => Ok [] | x :: r => do y <- f x; do ys <- mapM f r; Ok (y :: ys) end.
(** the slices of laplace.py:395-397: sum(flat_shapes[:i]) to sum(flat_shapes[:i+1]) *)
Definition slices (sizes : list nat) : list (nat * nat) :=
  map (fun i => (fold_right Nat.add 0 (firstn i sizes), fold_right Nat.add 0 (firstn (i + 1) sizes))) (seq 0 (length sizes)).
Definition rvs (chains draws k : nat) (rows : list V) : arr V := squeeze {| ashape := [chains; draws; k]; adata := rows |}.
Definition constrained_draws (chains draws : nat) (info : list (string * list nat * nat)) (x : arr V) : res (list (arr V)) :=
  mapM (fun p => let '((b, e), (_, shape, _)) := p in do a <- last_slice x b e; reshape (adata a) (chains :: draws :: shape))
    (combine (slices (map snd info)) info).
(** the vectorized graph of laplace.py:376-390: every row is cut by the value variables (shapes of the model's initial point) and every default variable evaluated there.
    batched_values has the static shape (chains, draws, ...): anything else is a TypeError *)
Definition unconstrained_draws (m : pmodel) (initial_point : dict (arr V)) (chains draws k : nat) (x : arr V) : res (list (arr V)) :=
  if negb (length (ashape x) =? 3) then Err TypeError else
  if negb ((nth 0 (ashape x) 0 =? chains) && (nth 1 (ashape x) 0 =? draws)) then Err TypeError else
  do points <- mapM (fun i => do vs <- split_joined initial_point (value_vars m) (slice (adata x) (i * k) (i * k + k)); Ok (combine (value_vars m) vs)) (seq 0 (chains * draws));
  Ok (map (fun name => {| ashape := chains :: draws :: match points with p :: _ => ashape (evaluate p name) | [] => [] end;
                          adata := concat (map (fun p => adata (evaluate p name)) points) |})
          (get_default_varnames (unobserved_value_vars m) false)).
(** laplace_draws_to_inferencedata, laplace.py:54-107: names and draws are paired by position; xarray refuses (ValueError) a number of dims other than the number of axes
    and coordinates of another length *)
Definition data_array (lb : labels) (name : string) (a : arr V) : res (list string * arr V) :=
  match dget (var_dims lb) name with
  | None => if length (ashape a) =? 2 then Ok (["chain"; "draw"]%string, a) else Err ValueError
  | Some dims =>
      if negb (length (ashape a) =? 2 + length dims) then Err ValueError else
      if forallb (fun p => match dget (coords lb) (fst p) with Some c => length c =? snd p | None => false end) (combine dims (skipn 2 (ashape a)))
      then Ok (["chain"; "draw"]%string ++ dims, a) else Err ValueError
  end.
Definition laplace_draws_to_inferencedata (m : pmodel) (lb : labels) (posterior_draws : list (arr V)) : res (dict (list string * arr V)) :=
  match posterior_draws with
  | [] => Err IndexError
  | _ =>
      let names := get_default_varnames (unobserved_value_vars m) false in
      do l <- mapM (fun p => do a <- data_array lb (fst p) (snd p); Ok (fst p, a)) (combine names posterior_draws);
      Ok (dupdate [] l)
  end.
(** add_fit_to_inferencedata, laplace.py:110-168: the row labels.  itertools.product over the coordinates of the dims, last one fastest *)
Fixpoint product (ls : list (list string)) : list (list string) :=
  match ls with [] => [[]] | l :: r => flat_map (fun x => map (cons x) (product r)) l end.
Definition unpacked_names (m : pmodel) (lb : labels) (name : string) : res (list string) :=
  let value_to_dim := fold_left (fun acc v => match dget (var_dims lb) (rv_name v) with Some d => dset acc (value_name v) d | None => acc end) (free m) [] in
  let dims_dict := dupdate (var_dims lb) value_to_dim in
  match dget dims_dict name with
  | None => Ok [name]
  | Some dims =>
      do cs <- mapM (fun d => match dget (coords lb) d with Some c => Ok c | None => Err KeyError end) dims;
      Ok (map (fun label => (name ++ "[" ++ String.concat "," label ++ "]")%string) (product cs))
  end.
Definition fit_rows (m : pmodel) (lb : labels) (mu : raveled V) : res (list (string * V)) :=
  do names <- mapM (fun i => unpacked_names m lb (fst (fst i))) (rinfo mu);
  let rows := concat names in
  if length rows =? length (rdata mu) then Ok (combine rows (rdata mu)) else Err ValueError.
(** sample_laplace_posterior; in_context: whether the call happens inside a model context (add_fit_to_inferencedata is called without the model, laplace.py:405) *)
Definition sample_laplace_posterior (m : pmodel) (lb : labels) (in_context : bool) (initial_point : dict (arr V)) (mu : raveled V)
    (chains draws : nat) (transform_samples : bool) (rows : list V) : res (dict (list string * arr V) * list (string * V)) :=
  let x := rvs chains draws (length (rdata mu)) rows in
  do posterior_draws <- (if transform_samples then unconstrained_draws m initial_point chains draws (length (rdata mu)) x
                         else constrained_draws chains draws (rinfo mu) x);
  do idata <- laplace_draws_to_inferencedata m lb posterior_draws;
  if negb in_context then Err TypeError else
  do fit <- fit_rows m lb mu;
  Ok (idata, fit).
End Laplace.
