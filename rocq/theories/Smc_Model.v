(** Model of pymc_extras/inference/smc/sampling.py and of the trace conversion of inference/pathfinder.py.

    The BlackJax kernel, the random keys and the initial population are parameters. *)
From Verif Require Import Common Dict.
Import List ListNotations.
From Verif Require Import Flat_Model FindMap_Model Laplace_Model.
Open Scope nat_scope.

(** * The tempering loop *)
Section Loop.
(** S: the SMC state, I: the step's info, K: random keys, Q: the recorded quantities.  below_one s: state.lmbda < 1 *)
Context {S I K Q : Type} (zero : Q) (below_one : S -> bool) (split : K -> K * K) (step : K -> S -> S * I) (quantities : S -> I -> Q).
(** history.at[i].set(v) in jax: an index outside the array is dropped *)
Fixpoint at_set (h : list Q) (i : nat) (v : Q) : list Q :=
  match h, i with
  | [], _ => []
  | _ :: r, 0 => v :: r
  | x :: r, Datatypes.S j => x :: at_set r j v
  end.
(** SMCDiagnostics.initial_diagnosis, sampling.py:247-254 (one row of zeros per diagnosed iteration) *)
Definition initial_diagnosis (iterations_to_diagnose : nat) : list Q := repeat zero iterations_to_diagnose.
(** one_step, sampling.py:237-245, 270-276 *)
Definition carry := (nat * S * K * list Q)%type.
Definition cond (c : carry) : bool := let '(_, s, _, _) := c in below_one s.
Definition one_step (c : carry) : carry :=
  let '(i, s, k, h) := c in
  let (k, subk) := split k in
  let (s, info) := step subk s in
  (i + 1, s, k, at_set h i (quantities s info)).
(** jax.lax.while_loop, as the relation "started in c the loop ends in c'" *)
Inductive while_loop : carry -> carry -> Prop :=
| while_stop c : cond c = false -> while_loop c c
| while_step c c' : cond c = true -> while_loop (one_step c) c' -> while_loop c c'.
(** inference_loop, sampling.py:261-289: (n_iter, final state, diagnosis) *)
Definition inference_loop (key : K) (initial : S) (iterations_to_diagnose : nat) (n : nat) (final : S) (diagnosis : list Q) : Prop :=
  exists k, while_loop (0, initial, key, initial_diagnosis iterations_to_diagnose) (n, final, k, diagnosis).
End Loop.

(** * Attributes and warning of the result *)
Section Attrs.
Context {A : Type}.
(** add_to_inference_data, sampling.py:319-380, the posterior's attributes; ndarray rows are cut to the first iterations_to_diagnose *)
Definition add_to_inference_data (attrs experiment_parameters kernel_parameters : dict A) (evolutions : dict (list A)) (pack : list A -> A) (iterations_to_diagnose : nat) (running_time : A) : dict A :=
  let attrs := fold_left (fun acc kv => dset acc (fst kv) (pack (firstn iterations_to_diagnose (snd kv)))) evolutions attrs in
  let attrs := dupdate attrs experiment_parameters in
  let attrs := dupdate attrs kernel_parameters in
  dset attrs "running_time_seconds"%string running_time.
(** the warning of sampling.py:183-186 "Only the first ... were included in diagnosed quantities" *)
Definition warns (total_iterations iterations_to_diagnose : nat) : bool := total_iterations <? iterations_to_diagnose.
(** kernel choice, sampling.py:127-146: the parameters taken from inner_kernel_params *)
Definition mcmc_parameters (kernel : string) (inner_kernel_params : dict A) : res (dict A) :=
  let need k := match dget inner_kernel_params k with Some v => Ok v | None => Err KeyError end in
  if String.eqb kernel "HMC" then
    do s <- need "step_size"%string; do n <- need "integration_steps"%string; Ok [("step_size", s); ("num_integration_steps", n)]%string
  else if String.eqb kernel "NUTS" then do s <- need "step_size"%string; Ok [("step_size", s)]%string
  else Err ValueError.
End Attrs.

(** * Particles *)
Section Particles.
Context {V : Type}.
(** blackjax_particles_from_pymc_population, sampling.py:292-316; a missing variable is a KeyError *)
Definition format_particles (a : arr V) : arr V :=
  match ashape a with [n] => {| ashape := [n; 1]; adata := adata a |} | _ => a end.
Definition particles_from_population (value_vars : list string) (population : dict (arr V)) : res (list (arr V)) :=
  mapM (fun v => match dget population v with Some a => Ok (format_particles a) | None => Err KeyError end) value_vars.
(** v.squeeze()[np.newaxis, :] then [0][particle_index], sampling.py:209-220; on a 0-d array the colon is an IndexError.  jax cuts an index that is out of range to the last one *)
Definition particle (v : arr V) (i : nat) : res (arr V) :=
  let s := squeeze v in
  match ashape s with [] => Err IndexError | n :: _ => index0 s (Nat.min i (n - 1)) end.
(** the point recorded for one particle; the trace function takes each variable with its own number of axes and static shape: anything else is a TypeError *)
Definition record_point (vars : list (string * list nat)) (particles : list (arr V)) (i : nat) : res (dict (arr V)) :=
  mapM (fun p => do a <- particle (snd p) i;
                 if list_eq_dec Nat.eq_dec (ashape a) (snd (fst p)) then Ok (fst (fst p), a) else Err TypeError) (combine vars particles).
(** arviz_from_particles, sampling.py:191-221: one recorded point per particle; the number of particles is the leading axis of the first leaf.
    vars: name and shape of the value variables *)
Definition arviz_from_particles (vars : list (string * list nat)) (particles : list (arr V)) : res (list (dict (arr V))) :=
  match particles with
  | v :: _ =>
      match ashape v with
      | n :: _ =>
          if forallb (fun p => smem (fst p) (map fst (firstn (length particles) vars))) vars
          then mapM (record_point vars particles) (seq 0 n) else Err KeyError
      | [] => Err IndexError
      end
  | [] => Err IndexError
  end.
(** get_jaxified_particles_fn, sampling.py:391-401: the arguments the log-density gets for one particle *)
Definition logp_arguments (particle : list (arr V)) : list (arr V) := map squeeze particle.
(** var_map_from_model, sampling.py:423-431: shape and size by name; their sum is the dimension of the mass matrix, sampling.py:125 *)
Definition var_map (value_vars : list string) (initial_point : dict (arr V)) : res (dict (list nat * nat)) :=
  do l <- mapM (fun v => match dget initial_point v with Some a => Ok (v, (ashape a, length (adata a))) | None => Err KeyError end) value_vars;
  Ok (dupdate [] l).
Definition posterior_dimensions (vm : dict (list nat * nat)) : nat := fold_right Nat.add 0 (map (fun kv => snd (snd kv)) vm).

(** * Pathfinder: convert_flat_trace_to_idata, pathfinder.py:33-63 *)
(** the trace dict: per variable the list of its values over the samples *)
Definition append_point (trace : dict (list (arr V))) (point : dict (arr V)) : dict (list (arr V)) :=
  fold_left (fun acc kv => dset acc (fst kv) (match dget acc (fst kv) with Some l => l ++ [snd kv] | None => [snd kv] end)) point trace.
Fixpoint flat_trace (ip : dict (arr V)) (samples : list (list V)) (trace : dict (list (arr V))) : res (dict (list (arr V))) :=
  match samples with
  | [] => Ok trace
  | x :: r => do point <- rmap {| rdata := x; rinfo := rinfo (bij_map ip) |} ip; flat_trace ip r (append_point trace point)
  end.
(** jax.vmap(jax_fn) on the stacked values: the inputs are the value variables, in order, whatever the names of the trace; a different number of arguments is a TypeError.
    evaluate: the value of one output *)
Definition convert_flat_trace (evaluate : dict (arr V) -> string -> arr V) (m : pmodel) (ip : dict (arr V)) (samples : list (list V)) (include_transformed : bool) :
    res (dict (list (arr V))) :=
  do trace <- flat_trace ip samples [];
  let vars_to_sample := get_default_varnames (unobserved_value_vars m) include_transformed in
  let args := map snd trace in
  if negb (length args =? length (value_vars m)) then Err TypeError else
  let points := map (fun s => combine (value_vars m) (map (fun l => nth s l {| ashape := []; adata := [] |}) args)) (seq 0 (length samples)) in
  Ok (dupdate [] (map (fun name => (name, map (fun p => evaluate p name) points)) vars_to_sample)).
End Particles.
