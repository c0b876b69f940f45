(** Model of pymc_extras/statespace/core/statespace.py: placeholders, substitution of the user's PyMC variables
    (lines 459-539, 634-738, 797-903 first part) and sample_statespace_matrices (lines 953-969, 1451-1509). *)
From Verif Require Import Common Dict.
Import List ListNotations.
Open Scope string_scope.
Open Scope nat_scope.

(** A pytensor graph: placeholders ([pt.tensor], by identity), variables of a PyMC model (by identity), applied
    operations.  Operations are arbitrary. *)
Inductive term :=
| Ph (id : nat)
| Rv (id : nat)
| App (op : nat) (args : list term).

(** Values of a graph, for any interpretation of the operations and of its leaves. *)
Fixpoint eval {V} (interp : nat -> list V -> V) (ph rv : nat -> V) (t : term) : V :=
  match t with
  | Ph i => ph i
  | Rv i => rv i
  | App op args => interp op (map (eval interp ph rv) args)
  end.
Fixpoint phs (t : term) : list nat :=
  match t with Ph i => [i] | Rv _ => [] | App _ args => flat_map phs args end.
Fixpoint subst (s : nat -> option nat) (t : term) : term :=
  match t with
  | Ph i => match s i with Some v => Rv v | None => Ph i end
  | Rv i => Rv i
  | App op args => App op (map (subst s) args)
  end.

(** The state of a PyMCStateSpace object that matters here.  [static]: static shape of a placeholder (axes of
    unknown length are [None]); [mats]: the nine matrices of [ssm] in the order of MATRIX_NAMES with their number of
    axes. [exog]: _exog_data_info (the values of the data at fit time, as identities); [fit_coords]: None before
    build_statespace_graph has run. *)
Definition shape := list (option nat).
Record ssmod := {
  param_names : list string;
  data_names : list string;
  name_to_variable : dict nat;
  name_to_data : dict nat;
  static : nat -> shape;
  fresh : nat;
  mats : list (term * nat);
  subbed : option (list (term * nat));
  exog : dict nat;
  fit_coords : option (list string)
}.

(** lines 459-503 [make_and_register_variable] *)
Definition make_and_register_variable (st : ssmod) (name : string) (sh : shape) : res (nat * ssmod) :=
  if negb (smem name (param_names st)) then Err ValueError
  else if dmem (name_to_variable st) name then Err ValueError
  else Ok (fresh st,
           {| param_names := param_names st; data_names := data_names st;
              name_to_variable := dset (name_to_variable st) name (fresh st);
              name_to_data := name_to_data st;
              static := fun i => if Nat.eqb i (fresh st) then sh else static st i;
              fresh := S (fresh st); mats := mats st; subbed := subbed st; exog := exog st; fit_coords := fit_coords st |}).
(** lines 505-539 [make_and_register_data] *)
Definition make_and_register_data (st : ssmod) (name : string) (sh : shape) : res (nat * ssmod) :=
  if negb (smem name (data_names st)) then Err ValueError
  else if dmem (name_to_data st) name then Err ValueError
  else Ok (fresh st,
           {| param_names := param_names st; data_names := data_names st;
              name_to_variable := name_to_variable st;
              name_to_data := dset (name_to_data st) name (fresh st);
              static := fun i => if Nat.eqb i (fresh st) then sh else static st i;
              fresh := S (fresh st); mats := mats st; subbed := subbed st; exog := exog st; fit_coords := fit_coords st |}).
(** [self.ssm[...] = ...] in make_symbolic_graph: some matrix becomes a new graph over the placeholders made so far *)
Definition set_matrix (st : ssmod) (i : nat) (t : term * nat) : ssmod :=
  {| param_names := param_names st; data_names := data_names st; name_to_variable := name_to_variable st;
     name_to_data := name_to_data st; static := static st; fresh := fresh st;
     mats := firstn i (mats st) ++ t :: skipn (S i) (mats st);
     subbed := subbed st; exog := exog st; fit_coords := fit_coords st |}.

(** A PyMC model: prefix ([pm.Model(name=...)], empty for none), variables by full name, static shapes, attributes of
    pm.Model itself with their truth value, coordinate names. *)
Record pmodel := {
  prefix : string;
  named : dict nat;
  rv_shape : nat -> shape;
  builtin : dict bool;
  coords : list string
}.
(** pymc [Model.name_for] *)
Definition full_name (m : pmodel) (n : string) : string :=
  if String.eqb (prefix m) "" then n else (prefix m ++ "::" ++ n)%string.
(** pymc [Model.__getitem__] *)
Definition getitem (m : pmodel) (n : string) : res nat :=
  match dget (named m) n with
  | Some v => Ok v
  | None => match dget (named m) (full_name m n) with Some v => Ok v | None => Err KeyError end
  end.
(** [x = getattr(model, n, None); if x: ... x.name]: variables are attributes under their unprefixed name unless
    pm.Model already has such an attribute.  [Some name] when found. *)
Definition found_name (m : pmodel) (n : string) : res (option string) :=
  match dget (builtin m) n with
  | Some true => Err AttributeError
  | Some false => Ok None
  | None => Ok (match dget (named m) (full_name m n) with Some _ => Some (full_name m n) | None => None end)
  end.
Fixpoint found_names (m : pmodel) (l : list string) : res (list string) :=
  match l with
  | [] => Ok []
  | n :: l => do a <- found_name m n; do r <- found_names m l;
              Ok (match a with Some x => x :: r | None => r end)
  end.
(** [set(a) - set(b)] is empty *)
Definition subset (a b : list string) : bool := forallb (fun x => smem x b) a.

(** Static types: same number of axes, no axis known to differ (pytensor converts or raises TypeError). *)
Fixpoint shape_ok (a b : shape) : bool :=
  match a, b with
  | [], [] => true
  | x :: a, y :: b => match x, y with Some x, Some y => Nat.eqb x y | _, _ => true end && shape_ok a b
  | _, _ => false
  end.
(** pytensor [graph_replace(outputs, replace, strict=True)] for placeholders *)
Definition graph_replace (st : ssmod) (m : pmodel) (outs : list (term * nat)) (r : list (nat * nat)) : res (list (term * nat)) :=
  if negb (forallb (fun p => existsb (Nat.eqb (fst p)) (flat_map (fun o => phs (fst o)) outs)) r) then Err ValueError
  else if negb (forallb (fun p => shape_ok (static st (fst p)) (rv_shape m (snd p))) r) then Err TypeError
  else Ok (map (fun o => (subst (fun i => option_map snd (find (fun p => Nat.eqb i (fst p)) r)) (fst o), snd o)) outs).
(** [{var: pymc_model[name] for name, var in ...}] *)
Fixpoint replacements (m : pmodel) (d : dict nat) : res (list (nat * nat)) :=
  match d with
  | [] => Ok []
  | (n, p) :: d => do v <- getitem m n; do r <- replacements m d; Ok ((p, v) :: r)
  end.

Definition with_subbed (st : ssmod) (s : list (term * nat)) : ssmod :=
  {| param_names := param_names st; data_names := data_names st; name_to_variable := name_to_variable st;
     name_to_data := name_to_data st; static := static st; fresh := fresh st; mats := mats st;
     subbed := Some s; exog := exog st; fit_coords := fit_coords st |}.
Definition with_exog (st : ssmod) (e : dict nat) : ssmod :=
  {| param_names := param_names st; data_names := data_names st; name_to_variable := name_to_variable st;
     name_to_data := name_to_data st; static := static st; fresh := fresh st; mats := mats st;
     subbed := subbed st; exog := e; fit_coords := fit_coords st |}.
Definition with_fit (st : ssmod) (c : list string) : ssmod :=
  {| param_names := param_names st; data_names := data_names st; name_to_variable := name_to_variable st;
     name_to_data := name_to_data st; static := static st; fresh := fresh st; mats := mats st;
     subbed := subbed st; exog := exog st; fit_coords := Some c |}.

(** lines 651-708 [_insert_random_variables] *)
Definition insert_random_variables (st : ssmod) (m : pmodel) : res ssmod :=
  do found <- found_names m (param_names st);
  if negb (subset (param_names st) found) then Err ValueError
  else if negb (subset found (param_names st)) then Err ValueError
  else
    do r <- replacements m (name_to_variable st);
    do s <- graph_replace st m (mats st) r;
    Ok (with_subbed st s).
(** lines 637-649 [_save_exogenous_data_info] ([get_value] is represented by the variable itself) *)
Fixpoint save_exogenous (st : ssmod) (m : pmodel) (l : list string) : res ssmod :=
  match l with
  | [] => Ok st
  | n :: l => do v <- getitem m n; save_exogenous (with_exog st (dset (exog st) n v)) m l
  end.
(** lines 710-738 [_insert_data_variables] *)
Definition insert_data_variables (st : ssmod) (m : pmodel) : res ssmod :=
  do found <- found_names m (data_names st);
  if negb (subset (data_names st) found) then Err ValueError
  else
    do r <- replacements m (name_to_data st);
    match subbed st with
    | None => Err TypeError
    | Some s => do s <- graph_replace st m s r; Ok (with_subbed st s)
    end.
(** lines 855-903, the part of [build_statespace_graph] about parameters and exogenous data; the pair keeps the object
    as the caller sees it after an exception. *)
Definition build (st : ssmod) (m : pmodel) : res unit * ssmod :=
  match insert_random_variables st m with
  | Err e => (Err e, st)
  | Ok st1 =>
      match save_exogenous st1 m (data_names st1) with
      | Err e => (Err e, st1)
      | Ok st2 =>
          match insert_data_variables st2 m with
          | Err e => (Err e, st2)
          | Ok st3 => (Ok tt, with_fit st3 (coords m))
          end
      end
  end.

(** ** sample_statespace_matrices *)
Definition MATRIX_NAMES : list string := ["x0"; "P0"; "c"; "d"; "T"; "Z"; "R"; "H"; "Q"].
Definition LONG_MATRIX_NAMES : list string :=
  ["initial_state"; "initial_state_cov"; "state_intercept"; "obs_intercept"; "transition"; "design"; "selection"; "obs_cov"; "state_cov"].
(** number of named dims in MATRIX_DIMS (utils/constants.py:59-69) *)
Definition matrix_ndims : list nat := [1; 2; 1; 1; 2; 2; 2; 2; 2].

(** pymc [Model.add_named_variable]: a name can be used once *)
Definition add_named (d : dict nat) (n : string) (v : nat) : res (dict nat) :=
  if dmem d n then Err ValueError else Ok (d ++ [(n, v)])%list.
(** lines 953-969 [_build_dummy_graph]: one pm.Flat per parameter.  The forward model's variables are numbered
    [0, 1, ...] in the order they are made; their static shape is the placeholder's. *)
Fixpoint dummy_graph (st : ssmod) (l : list string) (d : dict nat) (sh : nat -> shape) : res (dict nat * (nat -> shape)) :=
  match l with
  | [] => Ok (d, sh)
  | n :: l =>
      match dget (name_to_variable st) n with
      | None => Err KeyError
      | Some p => do d' <- add_named d n (length d);
                  dummy_graph st l d' (fun i => if Nat.eqb i (length d) then static st p else sh i)
      end
  end.
(** [for name in self.data_names: pm.Data] with the data of the fit; [data_shape]: their shapes *)
Fixpoint dummy_data (st : ssmod) (data_shape : nat -> shape) (l : list string) (d : dict nat) (sh : nat -> shape) : res (dict nat * (nat -> shape)) :=
  match l with
  | [] => Ok (d, sh)
  | n :: l =>
      match dget (exog st) n with
      | None => Err KeyError
      | Some v => do d' <- add_named d n (length d);
                  dummy_data st data_shape l d' (fun i => if Nat.eqb i (length d) then data_shape v else sh i)
      end
  end.
(** the loop registering the requested matrices as pm.Deterministic (wrong number of dims: ValueError) *)
Fixpoint register_matrices (req : list string) (rows : list (string * string * nat * (term * nat)))
         (taken : list string) (dets : list (string * term)) : res (list (string * term)) :=
  match rows with
  | [] => Ok dets
  | (short, long, nd, (t, ndim)) :: rows =>
      if smem long req || smem short req then
        let name := if smem long req then long else short in
        if negb (Nat.eqb nd ndim) then Err ValueError
        else if smem name taken then Err ValueError
        else register_matrices req rows (taken ++ [name])%list (dets ++ [(name, t)])%list
      else register_matrices req rows taken dets
  end.
(** [pm.sample_posterior_predictive(var_names=...)]: unknown names raise KeyError; a parameter requested as variable is
    a pm.Flat without random draw. *)
Fixpoint collect (dets : list (string * term)) (flat : list string) (req : list string) : res (list (string * term)) :=
  match req with
  | [] => Ok []
  | n :: req =>
      match dget dets n with
      | Some t => do r <- collect dets flat req; Ok ((n, t) :: r)
      | None => Err (if smem n flat then NotImplementedError else KeyError)
      end
  end.
(** lines 1451-1509; [matrix_names = None]: all nine short names.  [draw]: the posterior draw of every parameter,
    [data_value]: the values stored at fit time.  The result is one draw of every requested matrix. *)
Definition sample_statespace_matrices {V} (interp : nat -> list V -> V) (ph : nat -> V) (st : ssmod)
    (data_shape : nat -> shape) (data_value : nat -> V) (draw : string -> V) (matrix_names : option (list string))
    : res (list (string * V)) :=
  let req := match matrix_names with None => MATRIX_NAMES | Some l => l end in
  match fit_coords st with
  | None => Err AttributeError
  | Some cs =>
      do ds <- dummy_graph st (param_names st) [] (fun _ => []);
      let fm := {| prefix := ""; named := fst ds; rv_shape := snd ds; builtin := []; coords := cs |} in
      do st1 <- insert_random_variables st fm;
      do ds2 <- dummy_data st1 data_shape (data_names st1) (fst ds) (snd ds);
      let fm2 := {| prefix := ""; named := fst ds2; rv_shape := snd ds2; builtin := []; coords := cs |} in
      do st2 <- insert_data_variables st1 fm2;
      do ms <- match subbed st2 with None => Err ValueError | Some s => Ok s end;
      do dets <- register_matrices req
                   (combine (combine (combine MATRIX_NAMES LONG_MATRIX_NAMES) matrix_ndims) ms)
                   (dkeys (fst ds2)) [];
      do out <- collect dets (param_names st) req;
      let rv i := match nth_error (fst ds2) i with
                  | None => ph i
                  | Some (n, _) => if smem n (param_names st) then draw n
                                   else match dget (exog st) n with Some v => data_value v | None => ph i end
                  end in
      Ok (map (fun p => (fst p, eval interp ph rv (snd p))) out)
  end.
