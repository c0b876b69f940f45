(** Model of pymc_extras/inference/find_map.py and fit.py.

    Compiled functions are described by what they compute; the PyTensor graph, the gradients and the optimizer itself are parameters. *)
From Coq Require Import Ascii.
From Verif Require Import Common Dict.
Import List ListNotations.
From Verif Require Import Flat_Model.
Open Scope nat_scope.

(** * Optimizer options *)
Record method_info := { uses_grad : bool; uses_hess : bool; uses_hessp : bool }.
(** set_optimizer_function_defaults, find_map.py:30-40; table: MINIMIZE_MODE_KWARGS of the better_optimize package *)
Definition set_optimizer_function_defaults (table : dict method_info) (method : string) (use_grad use_hess use_hessp : option bool) : res (bool * bool * bool) :=
  match dget table method with
  | None => Err KeyError
  | Some info =>
      let g := match use_grad with Some b => b | None => uses_grad info end in
      let h := match use_hess with Some b => b | None => uses_hess info end in
      let hp := match use_hessp with Some b => b | None => uses_hessp info end in
      let h := if h && hp then false else h in
      Ok (g, h, hp)
  end.

(** What a compiled function returns *)
Inductive computes := CLoss | CLossAndGrad | CHess | CHessp.
Inductive backend := BPytensor | BJax.
Record compiled := { c_what : computes; c_by : backend }.
Definition compile_kwargs := dict string.

(** _compile_functions, find_map.py:155-210: the returned list *)
Definition compile_functions (compute_grad compute_hess compute_hessp : bool) : list (option compiled) :=
  if negb compute_grad then [Some {| c_what := CLoss; c_by := BPytensor |}]
  else [Some {| c_what := CLossAndGrad; c_by := BPytensor |};
        if compute_hess then Some {| c_what := CHess; c_by := BPytensor |} else None;
        if compute_hessp then Some {| c_what := CHessp; c_by := BPytensor |} else None].
(** _compile_jax_gradients, find_map.py:100-152 *)
Definition compile_jax_gradients (use_hess use_hessp : bool) : option compiled * option compiled * option compiled :=
  (Some {| c_what := CLossAndGrad; c_by := BJax |},
   if use_hess then Some {| c_what := CHess; c_by := BJax |} else None,
   if use_hessp then Some {| c_what := CHessp; c_by := BJax |} else None).
(** scipy_optimize_funcs_from_loss, find_map.py:252-306: the three functions, and the caller's compile_kwargs dict afterwards (it is mutated in place).
    list.pop(0) on the result of _compile_functions; the mode entry is given by name *)
Definition pop0 {A} (l : list A) : res (A * list A) := match l with [] => Err IndexError | x :: r => Ok (x, r) end.
Definition scipy_optimize_funcs (kwargs : compile_kwargs) (gradient_backend : string) (use_grad use_hess use_hessp : bool) :
    res ((option compiled * option compiled * option compiled) * compile_kwargs) :=
  if (use_hess || use_hessp) && negb use_grad then Err ValueError else
  if negb (smem gradient_backend ["pytensor"; "jax"]%string) then Err ValueError else
  let use_jax_gradients := String.eqb gradient_backend "jax" && use_grad in
  let mode := dget kwargs "mode"%string in
  do kwargs <- (match mode with
    | None => Ok (if use_jax_gradients then dset kwargs "mode"%string "JAX"%string else kwargs)
    | Some m => if negb (String.eqb m "JAX") && use_jax_gradients then Err ValueError else Ok kwargs
    end);
  let compute_grad := use_grad && negb use_jax_gradients in
  let compute_hess := use_hess && negb use_jax_gradients in
  let compute_hessp := use_hessp && negb use_jax_gradients in
  do (f_loss, funcs) <- pop0 (compile_functions compute_grad compute_hess compute_hessp);
  do (f_hess, funcs) <- (if compute_grad then pop0 funcs else Ok (None, funcs));
  do (f_hessp, funcs) <- (if compute_grad then pop0 funcs else Ok (None, funcs));
  if use_jax_gradients then Ok (compile_jax_gradients use_hess use_hessp, kwargs)
  else Ok (f_loss, f_hess, f_hessp, kwargs).

(** fit, fit.py:17-48; the result None is the fall-through *)
Section Fit.
Context {K R : Type}.
Definition fit (blackjax_installed : bool) (fit_pathfinder fit_laplace : K -> res R) (method : string) (kwargs : K) : res (option R) :=
  if String.eqb method "pathfinder" then
    if negb blackjax_installed then Err RuntimeError else do r <- fit_pathfinder kwargs; Ok (Some r)
  else if String.eqb method "laplace" then do r <- fit_laplace kwargs; Ok (Some r)
  else Ok None.
End Fit.

(** * find_MAP *)
(** A PyMC model, as far as find_MAP and the Laplace approximation look at it: its free random variables in registration order, each with the name of its value
    variable (differs from its own when there is a transform), and its deterministics *)
Record fvar := { rv_name : string; value_name : string; has_transform : bool; continuous : bool }.
Record pmodel := { free : list fvar; dets : list string }.
Definition value_vars (m : pmodel) : list string := map value_name (free m).
Definition continuous_value_vars (m : pmodel) : list string := map value_name (filter continuous (free m)).
Definition discrete_value_vars (m : pmodel) : list string := map value_name (filter (fun v => negb (continuous v)) (free m)).
(** Model.unobserved_value_vars (PyMC): the value variables, then the untransformed projections of the transformed ones, then the deterministics *)
Definition unobserved_value_vars (m : pmodel) : list string :=
  value_vars m ++ map rv_name (filter has_transform (free m)) ++ dets m.
(** pymc.util.is_transformed_name: ends in two underscores and has at least three *)
Fixpoint count_us (s : string) : nat :=
  match s with EmptyString => 0 | String c r => (if Ascii.eqb c "_"%char then 1 else 0) + count_us r end.
Fixpoint ends_us2 (s : string) : bool :=
  match s with
  | EmptyString => false
  | String a r => match r with String b EmptyString => Ascii.eqb a "_"%char && Ascii.eqb b "_"%char | _ => ends_us2 r end
  end.
Definition is_transformed_name (s : string) : bool := ends_us2 s && (3 <=? count_us s).
(** pymc.util.get_default_varnames *)
Definition get_default_varnames (l : list string) (include_transformed : bool) : list string :=
  if include_transformed then l else filter (fun n => negb (is_transformed_name n)) l.

Section FindMAP.
Context {V L : Type}.
(** loss: the value of -logp(jacobian=False) for values of the inputs, given by name;
    evaluate: the value of one unobserved variable (value variable, projection or deterministic) at a point;
    optimum: the optimizer's final x for an objective and a starting vector *)
Variables (loss : dict (arr V) -> L) (evaluate : dict (arr V) -> string -> arr V) (optimum : (list V -> res L) -> list V -> list V).
(** the objective handed to the optimizer, find_map.py:393-402 with 281-283 *)
Definition objective (inputs : list string) (start : dict (arr V)) (x : list V) : res L :=
  do values <- split_joined start inputs x; Ok (loss (combine inputs values)).
(** better_optimize.minimize evaluates the objective at x0 first: an error there is raised to the caller *)
Definition minimize (f : list V -> res L) (x0 : list V) : res (list V) := do _ <- f x0; Ok (optimum f x0).
(** model.compile_fn(outs)(point): a value variable missing from the point is a TypeError (missing input) *)
Definition compile_fn (m : pmodel) (outs : list string) (point : dict (arr V)) : res (list (arr V)) :=
  if forallb (dmem point) (value_vars m) then Ok (map (evaluate point) outs) else Err TypeError.
(** find_MAP, find_map.py:370-431 (freezing of dims and data, jitter and the option resolution above left out); start_dict: the initial point, by value-variable name *)
Definition find_MAP (m : pmodel) (start_dict : dict (arr V)) (include_transformed : bool) : res (dict (arr V)) :=
  let initial_params := bij_map (filter (fun kv => smem (fst kv) (continuous_value_vars m)) start_dict) in
  let f_logp := objective (continuous_value_vars m ++ discrete_value_vars m) start_dict in
  match continuous_value_vars m ++ discrete_value_vars m with
  | [] => Err ValueError
  | _ =>
    do x <- minimize f_logp (rdata initial_params);
    do point <- rmap {| rdata := x; rinfo := rinfo initial_params |} [];
    let unobserved_vars := get_default_varnames (unobserved_value_vars m) include_transformed in
    do values <- compile_fn m unobserved_vars point;
    Ok (fold_left (fun acc kv => dset acc (fst kv) (snd kv)) (combine unobserved_vars values) [])
  end.
End FindMAP.
