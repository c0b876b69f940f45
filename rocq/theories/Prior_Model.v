(** Model of pymc_extras/utils/prior.py.

    A tensor is its shape and its entries in row-major order; reshaping keeps the entries.  Transforms act on one draw at a time (a function on tensors); the average over
    draws and the Cholesky factor of the sample covariance are parameters.  The trace: for each variable the list of its draws, chains one after another. *)
From Verif Require Import Common Dict.
Import List ListNotations.
Open Scope nat_scope.

Section Prior.
Context {V : Type} (zero : V) (add mul : V -> V -> V) (avg : list V -> V).
Record tensor := { tshape : list nat; entries : list V }.
(** pymc Transform: forward and backward *)
Record transform := { forward : tensor -> tensor; backward : tensor -> tensor }.
Record cfg := { c_name : string; c_transform : option transform; c_dims : option (list string) }.
(** the kinds of keyword arguments; dims given as one string inside a dict are one label *)
Inductive arg := ANone | ATuple (dims : list string) | AStr (name : string) | ATransform (t : transform)
  | ADict (name : option string) (t : option transform) (dims : option (list string)).

(** _arg_to_param_cfg, prior.py:49-64 *)
Definition arg_to_param_cfg (key : string) (value : arg) : cfg :=
  match value with
  | ANone => {| c_name := key; c_transform := None; c_dims := None |}
  | ATuple d => {| c_name := key; c_transform := None; c_dims := Some d |}
  | AStr s => {| c_name := s; c_transform := None; c_dims := None |}
  | ATransform t => {| c_name := key; c_transform := Some t; c_dims := None |}
  | ADict n t d => {| c_name := match n with Some n => n | None => key end; c_transform := t; c_dims := d |}
  end.
(** _parse_args, prior.py:67-75 *)
Definition parse_args (var_names : list string) (kwargs : dict arg) : dict cfg :=
  let r := fold_left (fun acc v => dset acc v (arg_to_param_cfg v ANone)) var_names [] in
  fold_left (fun acc kv => dset acc (fst kv) (arg_to_param_cfg (fst kv) (snd kv))) kwargs r.

(** _flatten, prior.py:78-109: the rows of the flat array (one per draw) and, for each variable, its shape and slice *)
Record var_info := { v_shape : list nat; v_begin : nat; v_end : nat; v_cfg : cfg }.
Definition trace := dict (list tensor).
Definition transformed (c : cfg) (x : tensor) : tensor := match c_transform c with Some t => forward t x | None => x end.
Fixpoint flatten_from (posterior : trace) (begin : nat) (cfgs : dict cfg) : res (list (list (list V)) * list var_info) :=
  match cfgs with
  | [] => Ok ([], [])
  | (key, c) :: rest =>
      match dget posterior key with
      | None => Err KeyError
      | Some draws =>
          let data := map (transformed c) draws in
          let shape := match data with x :: _ => tshape x | [] => [] end in
          let width := match data with x :: _ => length (entries x) | [] => 0 end in
          let end_ := begin + width in
          do (vars, info) <- flatten_from posterior end_ rest;
          Ok (map entries data :: vars, {| v_shape := shape; v_begin := begin; v_end := end_; v_cfg := c |} :: info)
      end
  end.
(** np.concatenate(vars, axis=-1): row s is the concatenation of the rows s of all variables; different numbers of rows are an error *)
Fixpoint hstack (n : nat) (vars : list (list (list V))) : list (list V) :=
  match vars with [] => repeat [] n | v :: vs => map (fun p => (fst p ++ snd p)%list) (combine v (hstack n vs)) end.
Definition flatten (posterior : trace) (cfgs : dict cfg) : res (list (list V) * list var_info) :=
  do (vars, info) <- flatten_from posterior 0 cfgs;
  match vars with
  | [] => Err ValueError
  | v :: _ => if forallb (fun w => Nat.eqb (length w) (length v)) vars then Ok (hstack (length v) vars, info) else Err ValueError
  end.

(** _mean_chol and interim = mean + chol @ base_dist, prior.py:112-124 *)
Definition column (m : list (list V)) (j : nat) : list V := map (fun row => nth j row zero) m.
Definition mean (m : list (list V)) : list V := map (fun j => avg (column m j)) (seq 0 (match m with r :: _ => length r | [] => 0 end)).
Definition sumv (l : list V) : V := fold_right add zero l.
Definition interim (m : list (list V)) (chol : list (list V)) (base : list V) : list V :=
  map (fun p => add (fst p) (sumv (map (fun q => mul (fst q) (snd q)) (combine (snd p) base)))) (combine (mean m) chol).
(** prior.py:125-133: one variable from its slice *)
Definition slice (x : list V) (b e : nat) : list V := firstn (e - b) (skipn b x).
Definition rebuild (x : list V) (i : var_info) : string * tensor :=
  let var := {| tshape := v_shape i; entries := slice x (v_begin i) (v_end i) |} in
  (c_name (v_cfg i), match c_transform (v_cfg i) with Some t => backward t var | None => var end).
Definition rebuild_all (x : list V) (info : list var_info) : list (string * tensor) := map (rebuild x) info.
(** pm.Deterministic(vinfo["name"], var, dims=vinfo["dims"]) and result[...] = var, prior.py:132-133; a model refuses (ValueError) a name it already has.
    taken: the names in the model so far *)
Fixpoint register (taken : list string) (vars : list (string * tensor * option (list string))) : res (dict (tensor * option (list string))) :=
  match vars with
  | [] => Ok []
  | (n, x, d) :: r => if smem n taken then Err ValueError else do rest <- register (n :: taken) r; Ok ((n, (x, d)) :: rest)
  end.
(** _mvn_prior_from_flat_info, prior.py:119-134; chol: np.linalg.cholesky of the sample covariance; base: the value of the standard normal base_dist *)
Definition mvn_prior (taken : list string) (name : string) (chol : list (list V) -> list (list V)) (base : list V) (m : list (list V)) (info : list var_info) :
    res (dict (tensor * option (list string))) :=
  if smem name taken then Err ValueError else
  let x := interim m (chol m) base in
  register (name :: taken) (map (fun i => (rebuild x i, c_dims (v_cfg i))) info).
(** prior_from_idata, prior.py:137-199.  _flatten(idata, **param_cfg) binds its first parameter twice, a TypeError, when a variable is called idata *)
Definition prior_from_idata (taken : list string) (name : string) (chol : list (list V) -> list (list V)) (base : list V)
    (posterior : trace) (var_names : list string) (kwargs : dict arg) : res (dict (tensor * option (list string))) :=
  let param_cfg := parse_args var_names kwargs in
  match param_cfg with
  | [] => Ok []
  | _ =>
      if dmem param_cfg "idata"%string then Err TypeError else
      do (m, info) <- flatten posterior param_cfg;
      mvn_prior taken name chol base m info
  end.
End Prior.
