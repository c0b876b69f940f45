(** Model of compile_statespace: pymc_extras/statespace/core/compile.py:11-48, on top of the forward simulation of Lgss_Model.

    A state space model here is its placeholder matrices as functions of the values given to the parameters by name, together with the
    names that occur in them.  Dictionaries are association lists.  The generator of the compiled function is replaced by the one the
    simulation ends with after every call (pm.compile_pymc adds the updates).  Not modelled: compilation modes, the dtype of the arrays,
    static shapes (the last axes of the outputs are taken to be known, k states and p series), a number of steps given both at
    compilation and by keyword. *)
From Coq Require Import String.
From Verif Require Common KalmanScan_Model.
From mathcomp Require Import all_ssreflect all_algebra.
From Verif Require Import Lgss_Model.
Set Implicit Arguments.
Unset Strict Implicit.
Unset Printing Implicit Defensive.
Import GRing.Theory.
Import Common(res, Ok, Err, bind, ValueError, IndexError, TypeError, AssertionError).
Import KalmanScan_Model(pname, Pc, Pd, PT, PZ, PR, PH, PQ, PARAM_NAMES, pname_eqb).
Local Open Scope ring_scope.

Section Compile.
(** the ring; numbers of states, observed series and shocks; the generator and the factor of a covariance as in Lgss_Model; values of parameters *)
Context (R : ringType) (k p r : nat).
Context (Rng : Type) (normal : Rng -> forall n, 'cV[R]_n * Rng) (factor : forall n, 'M[R]_n -> 'M[R]_n).
Context (V : Type).

(** the value given to each name, if any *)
Definition env := string -> option V.
(** the result of _unpack_statespace_with_placeholders, core/statespace.py:304-332, with the number of axes of each matrix
    and the names of the placeholders in each part *)
Record ss_model := { x0_of : env -> 'cV[R]_k; P0_of : env -> 'M[R]_k; system_of : env -> system R k p r; ndim : pname -> nat;
                     x0_names : seq string; P0_names : seq string; system_names : seq string }.

(** compile.py:19-23; the dictionary of short and long names is the identity on [pname] *)
Definition sequence_names (m : ss_model) : seq pname :=
  [seq x <- [:: Pc; Pd] | ndim m x == 2%N] ++ [seq x <- [:: PT; PZ; PR; PH; PQ] | ndim m x == 3%N].

(** "steps", the name of the symbolic number of steps, compile.py:15 *)
Definition steps_name : string := "steps"%string.
(** compile.py:31: the inputs of the graph.  P0 has been replaced by zeros and is not part of it; the symbolic number of steps is. *)
Definition inputs (m : ss_model) (steps : option nat) : seq string :=
  x0_names m ++ system_names m ++ (if steps is None then [:: steps_name] else [::]).

(** a value given by keyword: of a parameter, or the integer of "steps" *)
Inductive kwval := KVal (v : V) | KSteps (n : nat).
Fixpoint lookup (name : string) (l : seq (string * kwval)) : option kwval :=
  match l with [::] => None | (n, v) :: l' => if String.eqb name n then Some v else lookup name l' end.
Definition env_of (l : seq (string * kwval)) : env := fun name => match lookup name l with Some (KVal v) => Some v | _ => None end.
Definition mem_str (name : string) (l : seq string) : bool := has (String.eqb name) l.

(** the generator after a simulation of [steps] steps: each step draws r shocks and p noises (Lgss_Model.step_fn) *)
Fixpoint rng_after (steps : nat) (g : Rng) : Rng :=
  match steps with 0 => g | n.+1 => rng_after n (normal (normal g r).2 p).2 end.

(** the number of steps the graph is evaluated with *)
Definition graph_steps (steps : option nat) (params : seq (string * kwval)) : res nat :=
  match steps with
  | Some n => Ok n
  | None => match lookup steps_name params with Some (KSteps n) => Ok n | _ => Err TypeError end
  end.
(** _f( **params), compile.py:33, 43: pytensor's Function refuses unknown keywords and missing inputs; lgss with P0 = 0, compile.py:25-29 *)
Definition compiled (m : ss_model) (steps : option nat) (params : seq (string * kwval)) (g : Rng)
  : res ((seq 'cV[R]_k * seq 'cV[R]_p) * Rng) :=
  if ~~ all (fun x => mem_str x.1 (inputs m steps)) params then Err TypeError
  else if ~~ all (fun n => if lookup n params is Some _ then true else false) (inputs m steps) then Err TypeError
  else bind (graph_steps steps params) (fun n =>
       bind (lgss normal factor (x0_of m (env_of params)) 0 (system_of m (env_of params)) (sequence_names m) n true g) (fun out =>
       Ok (out, rng_after n g))).

(** compile.py:36-39: the number of steps the output arrays are allocated for *)
Definition inner_steps (steps : option nat) (params : seq (string * kwval)) : nat :=
  match steps with
  | Some n => n
  | None => match lookup steps_name params with Some (KSteps n) => n | _ => 100 end
  end.
(** the loop of compile.py:41-45; an array of the wrong length cannot be stored *)
Fixpoint loop (m : ss_model) (steps : option nat) (params : seq (string * kwval)) (draws : nat) (g : Rng)
  : res (seq (seq 'cV[R]_k * seq 'cV[R]_p)) :=
  match draws with
  | 0 => Ok [::]
  | d.+1 => bind (compiled m steps params g) (fun draw =>
            if (size draw.1.1 == (inner_steps steps params).+1) && (size draw.1.2 == (inner_steps steps params).+1)
            then bind (loop m steps params d draw.2) (fun rest => Ok (draw.1 :: rest)) else Err ValueError)
  end.
(** numpy's squeeze: axes of length one disappear *)
Definition squeeze (shape : seq nat) : seq nat := [seq n <- shape | n != 1%N].
(** the two arrays returned, each with its shape, compile.py:46 *)
Definition simulate (m : ss_model) (steps : option nat) (params : seq (string * kwval)) (draws : nat) (g : Rng)
  : res ((seq (seq 'cV[R]_k) * seq nat) * (seq (seq 'cV[R]_p) * seq nat)) :=
  bind (loop m steps params draws g) (fun output =>
  let n := (inner_steps steps params).+1 in
  Ok ((map fst output, squeeze [:: draws; n; k]), (map snd output, squeeze [:: draws; n; p]))).
End Compile.
