(** Model of fit_laplace (pymc_extras/inference/laplace.py:420-570) as a whole: which option reaches which step, and what is left in the caller's compile_kwargs.

    The steps are the models of FindMap_Model and Laplace_Model.  Parameters: the losses, the evaluation of the model's variables, the optimizer (which sees the compiled
    functions) and the sampler (which sees the mean, the function whose Hessian is taken and the backend that takes it).
    Left out: initvals, jitter_rvs, random_seed and progressbar (handed on unchanged), the data groups (laplace.py:407) and optimizer_kwargs. *)
From Verif Require Import Common Dict.
Import List ListNotations.
From Verif Require Import Flat_Model FindMap_Model Laplace_Model.
Open Scope nat_scope.

(** the keyword arguments of fit_laplace, laplace.py:420-442 *)
Record lap_options := {
  lo_method : string; lo_use_grad : option bool; lo_use_hessp : option bool; lo_use_hess : option bool;
  lo_return_raw : bool; lo_include_transformed : bool; lo_gradient_backend : string;
  lo_chains : nat; lo_draws : nat; lo_unconstrained : bool }.
(** what find_MAP returns, find_map.py:424-431: the point, or a pair of the point and the optimizer's result *)
Inductive map_result (V : Type) := MPoint (p : dict (arr V)) | MPair (p : dict (arr V)).
Arguments MPoint {V} p.
Arguments MPair {V} p.
Definition functions := (option compiled * option compiled * option compiled)%type.

Section FitLaplace.
Context {V L : Type}.
Variables (table : dict method_info) (map_loss : dict (arr V) -> L) (fit_loss : bool -> dict (arr V) -> L) (evaluate : dict (arr V) -> string -> arr V)
  (optimum : functions -> (list V -> res L) -> list V -> list V) (sampler : raveled V -> (list V -> res L) -> option compiled -> list V).

(** find_MAP, find_map.py:370-431: option resolution, compilation (which may add to the caller's dict) and the optimization; the first component is the dict afterwards *)
Definition find_MAP_call (o : lap_options) (kwargs : compile_kwargs) (m : pmodel) (start : dict (arr V)) : compile_kwargs * res (map_result V) :=
  match set_optimizer_function_defaults table (lo_method o) (lo_use_grad o) (lo_use_hess o) (lo_use_hessp o) with
  | Err e => (kwargs, Err e)
  | Ok (g, h, hp) =>
      match scipy_optimize_funcs kwargs (lo_gradient_backend o) g h hp with
      | Err e => (kwargs, Err e)
      | Ok (fns, kwargs') =>
          (kwargs', do p <- find_MAP map_loss evaluate (optimum fns) m start (lo_include_transformed o);
                    Ok (if lo_return_raw o then MPair p else MPoint p))
      end
  end.
(** fit_mvn_to_MAP, laplace.py:278-302: optimized_point.items() is an AttributeError on a pair; the Hessian is compiled with fit_mvn_to_MAP's own default backend
    "pytensor" (fit_laplace does not pass gradient_backend, laplace.py:549-557) and the same compile_kwargs *)
Definition fit_mvn_call (o : lap_options) (kwargs : compile_kwargs) (m : pmodel) (r : map_result V) : res (raveled V * (list V -> res L) * option compiled) :=
  match r with
  | MPair _ => Err AttributeError
  | MPoint p =>
      do (mu, f) <- fit_mvn_to_MAP fit_loss m (lo_unconstrained o) p;
      do (fns, _) <- scipy_optimize_funcs kwargs "pytensor" true true false;
      Ok (mu, f, snd (fst fns))
  end.
(** fit_laplace, laplace.py:530-570; in_context: whether the call happens inside a model context *)
Definition fit_laplace (o : lap_options) (kwargs : compile_kwargs) (m : pmodel) (lb : labels) (in_context : bool) (start : dict (arr V)) :
    compile_kwargs * res (dict (list string * arr V) * list (string * V)) :=
  let (kwargs', r) := find_MAP_call o kwargs m start in
  (kwargs', do p <- r;
            do (mu, f, hess) <- fit_mvn_call o kwargs' m p;
            sample_laplace_posterior evaluate m lb in_context start mu (lo_chains o) (lo_draws o) (lo_unconstrained o) (sampler mu f hess)).
End FitLaplace.
