(** Model of pymc_extras/statespace/models/structural.py.

    Numbers are real numbers (floating point rounding is not modelled).  A
    symbolic tensor is modelled by its meaning: a function of an environment
    that gives a value to every placeholder variable.  Placeholders are
    identified, as in Python, by object identity: a placeholder is the pair of
    the component object that made it ([uid]) and its name, so two placeholders
    of the same name made by two components are different.  k_endog is 1
    throughout (every component of the file fixes it to 1). *)
From Coq Require Import Reals String Ascii DecimalString.
From Verif Require Import Common.
Open Scope string_scope.
Open Scope nat_scope.

(** ** Python/numpy vocabulary *)

(** str(n) for a natural number. *)
Definition str_of_nat (n : nat) : string := NilZero.string_of_uint (Nat.to_uint n).

(** A dict, in insertion order. *)
Definition dict (V : Type) := list (string * V).

Fixpoint dget {V} (d : dict V) (k : string) : option V :=
  match d with
  | [] => None
  | (k', v) :: d' => if String.eqb k k' then Some v else dget d' k
  end.

(** d[k] = v : replaces in place or appends. *)
Fixpoint dset {V} (d : dict V) (k : string) (v : V) : dict V :=
  match d with
  | [] => [(k, v)]
  | (k', v') :: d' => if String.eqb k k' then (k, v) :: d' else (k', v') :: dset d' k v
  end.

(** d.update(d2) *)
Definition dupdate {V} (d d2 : dict V) : dict V :=
  fold_left (fun acc kv => dset acc (fst kv) (snd kv)) d2 d.

Definition dkeys {V} (d : dict V) : list string := map fst d.
Definition dmem {V} (d : dict V) (k : string) : bool :=
  match dget d k with Some _ => true | None => false end.

Definition smem (k : string) (l : list string) : bool := existsb (String.eqb k) l.

(** np.flatnonzero of a boolean array. *)
Definition flatnonzero (m : list bool) : list nat :=
  filter (fun i => nth i m false) (seq 0 (length m)).

(** sum of a boolean array *)
Definition bsum (m : list bool) : nat := length (filter (fun b => b) m).

(** Sum of the first [n] values of a sequence of reals (a dot product or .sum()). *)
Fixpoint rsum (n : nat) (f : nat -> R) : R :=
  match n with O => 0%R | S m => (rsum m f + f m)%R end.

Definition vec := nat -> R.
Definition mat := nat -> nat -> R.
Definition zvec : vec := fun _ => 0%R.
Definition zmat : mat := fun _ _ => 0%R.
(** np.eye(n, k=-off): ones at (j + off, j). *)
Definition eye_below (off : nat) : mat := fun i j => if i =? j + off then 1%R else 0%R.
Definition eye : mat := eye_below 0.

(** M[rows, cols] = vals with integer index arrays (set_subtensor with fancy
    indices; later assignments win). *)
Definition set_fancy (M : mat) (rows cols : list nat) (vals : nat -> R) : mat :=
  fold_left (fun acc kij => let '(k, (i0, j0)) := kij in
               fun i j => if (i =? i0) && (j =? j0) then vals k else acc i j)
    (combine (seq 0 (length rows)) (combine rows cols)) M.

(** np.triu_indices(n): row-major list of the pairs i <= j < n. *)
Definition triu_indices (n : nat) : list nat * list nat :=
  split (flat_map (fun i => map (fun j => (i, j)) (seq i (n - i))) (seq 0 n)).

(** pt.linalg.block_diag of an n x m block and another block. *)
Definition block_diag (n m : nat) (A B : mat) : mat := fun i j =>
  if i <? n then (if j <? m then A i j else 0%R)
  else (if j <? m then 0%R else B (i - n) (j - m)).

(** pt.concatenate of a vector of length n and another. *)
Definition concat_vec (n : nat) (a b : vec) : vec := fun i => if i <? n then a i else b (i - n).

(** ** Placeholders and representations *)

Definition var := (nat * string)%type.
Definition var_eqb (a b : var) : bool := (fst a =? fst b) && String.eqb (snd a) (snd b).

(** Values of the placeholders: variable, time (only used by data), flat index. *)
Definition env := var -> nat -> nat -> R.
Definition pv (e : env) (v : var) (i : nat) : R := e v 0 i.

(** The nine system matrices, core/representation.py:180-224 (k_endog = 1: obs_intercept
    and obs_cov are scalars; the design row may vary over time). *)
Record ssm := Ssm {
  s_x0 : env -> vec; s_P0 : env -> mat; s_c : env -> vec; s_d : env -> R;
  s_T : env -> mat; s_Z : env -> nat -> vec; s_R : env -> mat; s_H : env -> R; s_Q : env -> mat }.

(** PytensorRepresentation.__init__ without matrices: zeros, core/representation.py:205-224. *)
Definition zero_ssm : ssm :=
  Ssm (fun _ => zvec) (fun _ => zmat) (fun _ => zvec) (fun _ => 0%R) (fun _ => zmat)
      (fun _ _ => zvec) (fun _ => zmat) (fun _ => 0%R) (fun _ => zmat).

(** ** Components *)

(** One entry of _component_info, structural.py:395-403. *)
Record cinfo := CInfo { ci_k_states : nat; ci_k_posdef : nat; ci_combine : bool;
                        ci_obs : option (list bool) }.

(** The attributes of a Component, structural.py:345-403.  Shapes are lists of
    naturals; coordinate labels are strings. *)
Record component := Comp {
  c_name : string; c_k_states : nat; c_k_posdef : nat; c_meas_err : bool;
  c_state_names : list string; c_data_names : list string; c_shock_names : list string;
  c_param_names : list string; c_exog_names : list string;
  c_coords : dict (list string); c_param_dims : dict (list string);
  c_param_info : dict (list nat); c_data_info : dict nat;
  c_vars : dict (var * list nat);   (* _name_to_variable, with the placeholder's shape *)
  c_data : dict var;                (* _name_to_data *)
  c_info : dict cinfo;
  c_ssm : ssm }.

(** make_and_register_variable, structural.py:405-447: register name -> placeholder. *)
Definition make_and_register_variable (param_names : list string) (vars : dict (var * list nat))
    (uid : nat) (name : string) (shape : list nat) : res (dict (var * list nat)) :=
  if negb (smem name param_names) then Err ValueError
  else if dmem vars name then Err ValueError
  else Ok (vars ++ [(name, ((uid, name), shape))])%list.

(** Component.__init__ for a concrete component (structural.py:345-403), given what
    populate_component_properties and make_symbolic_graph of the subclass produce. *)
Definition mk_component (uid : nat) (name : string) (k_states k_posdef : nat) (merr combine : bool)
    (obs_idx : option (list bool))
    (state_names data_names shock_names param_names exog_names : list string)
    (coords param_dims : dict (list string)) (param_info : dict (list nat)) (data_info : dict nat)
    (placeholders : list (string * list nat)) (rep : ssm) : res component :=
  do vars <- fold_left (fun acc ns => do d <- acc;
                  make_and_register_variable param_names d uid (fst ns) (snd ns))
               placeholders (Ok []);
  Ok (Comp name k_states k_posdef merr state_names data_names shock_names param_names exog_names
        coords param_dims param_info data_info vars
        (map (fun n => (n, (uid, n))) data_names)
        [(name, CInfo k_states k_posdef combine obs_idx)] rep).

(** order arguments: int or array-like of zeros and ones. *)
Inductive order := OInt (n : Z) | OMask (l : list bool).

(** order_to_mask, structural.py:36-40.  np.ones of a negative size raises ValueError. *)
Definition order_to_mask (o : order) : res (list bool) :=
  match o with
  | OInt n => if (n <? 0)%Z then Err ValueError else Ok (repeat true (Z.to_nat n))
  | OMask l => Ok l
  end.

(** POSITION_DERIVATIVE_NAMES, utils/constants.py:73. *)
Definition position_derivative_names : list string :=
  ["level"; "trend"; "acceleration"; "jerk"; "snap"; "crackle"; "pop"].

(** [name for name, mask in zip(names, mask) if mask] *)
Definition select_names (names : list string) (m : list bool) : list string :=
  map fst (filter (fun nb => snd nb) (combine names m)).

(** last element + 1 of np.flatnonzero; IndexError when empty. *)
Definition max_state_of (m : list bool) : res nat :=
  match rev (flatnonzero m) with [] => Err IndexError | i :: _ => Ok (i + 1) end.

(** LevelTrendComponent.__init__'s handling of innovations_order, structural.py:800-801, 816-826.
    Returns the truncated mask and k_posdef = sum of the untruncated one. *)
Definition trend_innovations (k_states : nat) (io : order) : res (list bool * nat) :=
  match io with
  | OInt n =>
      let m := if (0 <? n)%Z
               then map (fun i => i <? Z.to_nat n) (seq 0 k_states)
               else repeat false k_states in
      Ok (m, bsum m)
  | OMask l => Ok (firstn k_states l, bsum l)
  end.

(** LevelTrendComponent, structural.py:794-874 ([io] = None means innovations_order = order).
    R = eye(k_states)[:, mask] needs a mask of length k_states (IndexError otherwise, line 865).
    Simplification: when the mask passed by the user is longer than k_states and the extra
    entries are not all zero, the selection matrix has the wrong number of columns; that
    construction is modelled as ValueError (pytensor may instead broadcast a single column). *)
Definition level_trend (uid : nat) (o : order) (io : option order) (name : string) : res component :=
  do mask <- order_to_mask o;
  do max_state <- max_state_of mask;
  if max_state <? length mask then Err ValueError else
  let k_states := max_state in
  do (imask, k_posdef) <- trend_innovations k_states (match io with None => o | Some x => x end);
  if negb (length imask =? k_states) then Err IndexError else
  if negb (bsum imask =? k_posdef) then Err ValueError else
  let names := firstn k_states position_derivative_names in
  let state_names := select_names names mask in
  let shock_names := if 0 <? k_posdef then select_names names imask else [] in
  let v_init := (uid, "initial_trend") in
  let v_sig := (uid, "sigma_trend") in
  let '(ti, tj) := triu_indices k_states in
  mk_component uid name k_states k_posdef false false
    (Some (map (fun i => i =? 0) (seq 0 k_states)))
    state_names [] shock_names
    (if 0 <? k_posdef then ["initial_trend"; "sigma_trend"] else ["initial_trend"]) []
    (if 0 <? k_posdef then [("trend_state", state_names); ("trend_shock", shock_names)]
     else [("trend_state", state_names)])
    (if 0 <? k_posdef then [("initial_trend", ["trend_state"]); ("sigma_trend", ["trend_shock"])]
     else [("initial_trend", ["trend_state"])])
    (if 0 <? k_posdef then [("initial_trend", [k_states]); ("sigma_trend", [k_posdef])]
     else [("initial_trend", [k_states])]) []
    (if 0 <? k_posdef then [("initial_trend", [k_states]); ("sigma_trend", [k_posdef])]
     else [("initial_trend", [k_states])])
    (Ssm (fun e => pv e v_init) (fun _ => zmat) (fun _ => zvec) (fun _ => 0%R)
       (fun _ => set_fancy zmat ti tj (fun _ => 1%R))
       (fun _ _ j => if j =? 0 then 1%R else 0%R)
       (fun _ i j => eye i (nth j (flatnonzero imask) 0))
       (fun _ => 0%R)
       (fun e => if 0 <? k_posdef
                 then set_fancy zmat (seq 0 k_posdef) (seq 0 k_posdef) (fun i => (pv e v_sig i ^ 2)%R)
                 else zmat)).

(** MeasurementError, structural.py:915-940. *)
Definition measurement_error (uid : nat) (name : string) : res component :=
  let pn := "sigma_" ++ name in
  mk_component uid name 0 0 true false None [] [] [] [pn] [] [] [] [(pn, [])] [] [(pn, [])]
    (Ssm (fun _ => zvec) (fun _ => zmat) (fun _ => zvec) (fun _ => 0%R) (fun _ => zmat)
       (fun _ _ => zvec) (fun _ => zmat) (fun e => (pv e (uid, pn) 0 ^ 2)%R) (fun _ => zmat)).

(** np.r_[[1.0], np.zeros(k - 1)] as flags; np.zeros(-1) raises ValueError. *)
Definition first_obs_idx (k : nat) : res (list bool) :=
  match k with O => Err ValueError | S k' => Ok (true :: repeat false k') end.

(** AutoregressiveComponent, structural.py:999-1047. *)
Definition autoregressive (uid : nat) (o : order) (name : string) : res component :=
  do mask <- order_to_mask o;
  let lags := map (fun i => i + 1) (flatnonzero mask) in
  let k_states := length mask in
  do obs <- first_obs_idx k_states;
  let k_nonzero := bsum mask in
  let v_ar := (uid, "ar_params") in
  let v_sig := (uid, "sigma_ar") in
  mk_component uid name k_states 1 true true (Some obs)
    (map (fun i => "L" ++ str_of_nat (i + 1) ++ ".data") (seq 0 k_states)) []
    [name ++ "_innovation"] ["ar_params"; "sigma_ar"] []
    [("ar_lag", map str_of_nat lags)] [("ar_params", ["ar_lag"])]
    [("ar_params", [k_states]); ("sigma_ar", [])] []
    [("ar_params", [k_nonzero]); ("sigma_ar", [])]
    (Ssm (fun _ => zvec) (fun _ => zmat) (fun _ => zvec) (fun _ => 0%R)
       (fun e => set_fancy (eye_below 1) (repeat 0 k_nonzero) (flatnonzero mask) (fun i => pv e v_ar i))
       (fun _ _ j => if j =? 0 then 1%R else 0%R)
       (fun _ i j => if (i =? 0) && (j =? 0) then 1%R else 0%R)
       (fun _ => 0%R)
       (fun e i j => if (i =? 0) && (j =? 0) then (pv e v_sig 0 ^ 2)%R else 0%R)).

(** TimeSeasonality, structural.py:1160-1236.  [state_names = None] gives the default labels.
    pop(0) of an empty list raises IndexError; with pop_state = False the variable k_states is
    never assigned (line 1189) and UnboundLocalError is raised. *)
Definition time_seasonality (uid : nat) (season_length : nat) (innovations : bool) (name : string)
    (state_names : option (list string)) (pop_state : bool) : res component :=
  do names <- match state_names with
              | None => Ok (map (fun i => name ++ "_" ++ str_of_nat i) (seq 0 season_length))
              | Some l => if length l =? season_length then Ok l else Err ValueError
              end;
  if negb pop_state then Err UnboundLocalError else
  do names <- match names with [] => Err IndexError | _ :: r => Ok r end;
  let k_states := season_length - 1 in
  do obs <- first_obs_idx k_states;
  let pc := name ++ "_coefs" in
  let ps := "sigma_" ++ name in
  let dim := name ++ "_state" in
  mk_component uid name k_states (if innovations then 1 else 0) false true (Some obs)
    names [] (if innovations then [name] else [])
    (if innovations then [pc; ps] else [pc]) []
    [(dim, names)] [(pc, [dim])]
    (if innovations then [(pc, [k_states]); (ps, [])] else [(pc, [k_states])]) []
    (if innovations then [(pc, [k_states]); (ps, [])] else [(pc, [k_states])])
    (Ssm (fun e => pv e (uid, pc)) (fun _ => zmat) (fun _ => zvec) (fun _ => 0%R)
       (fun _ i j => if i =? 0 then (-1)%R else eye_below 1 i j)
       (fun _ _ j => if j =? 0 then 1%R else 0%R)
       (fun _ i j => if innovations && (i =? 0) && (j =? 0) then 1%R else 0%R)
       (fun _ => 0%R)
       (fun e i j => if innovations && (i =? 0) && (j =? 0) then (pv e (uid, ps) 0 ^ 2)%R else 0%R)).

(** _frequency_transition_block, structural.py:43-46. *)
Definition frequency_block (s : R) (j : nat) : mat := fun r c =>
  let lam := (2 * PI * INR j / s)%R in
  match r, c with
  | 0, 0 => cos lam
  | 0, _ => sin lam
  | 1, 0 => (- sin lam)%R
  | _, _ => cos lam
  end.

(** pt.linalg.block_diag of 2x2 blocks: block b occupies rows and columns 2b, 2b+1. *)
Definition block_diag2 (blocks : nat -> mat) : mat := fun i j =>
  if Nat.div2 i =? Nat.div2 j then blocks (Nat.div2 i) (i - 2 * Nat.div2 i) (j - 2 * Nat.div2 j)
  else 0%R.

(** FrequencySeasonality, structural.py:1290-1362.  [n = None] means int(season_length // 2).
    Division by n = 0, or by season_length = 0 inside the transition block, raises
    ZeroDivisionError; np.zeros of a negative size raises ValueError. *)
Definition frequency_seasonality (uid : nat) (season_length : R) (n : option Z) (name : string)
    (innovations : bool) : res component :=
  let n := match n with Some n => n | None => Int_part (season_length / 2)%R end in
  if (n =? 0)%Z then Err ZeroDivisionError else
  if (n <? 0)%Z then Err ValueError else
  if Req_EM_T season_length 0 then Err ZeroDivisionError else
  let nn := Z.to_nat n in
  let k_states := nn * 2 in
  let drop := if Req_EM_T (season_length / IZR n)%R 2 then 1 else 0 in
  let n_coefs := k_states - drop in
  let names := flat_map (fun i => map (fun f => name ++ "_" ++ f ++ "_" ++ str_of_nat i) ["Cos"; "Sin"])
                 (seq 0 nn) in
  let dim := name ++ "_state" in
  let ps := "sigma_" ++ name in
  mk_component uid name k_states (if innovations then k_states else 0) false true
    (Some (map Nat.even (seq 0 k_states)))
    names [] (if innovations then names else [])
    (if innovations then [name; ps] else [name]) []
    [(dim, firstn n_coefs names)] [(name, [dim])]
    (if innovations then [(name, [n_coefs]); (ps, [])] else [(name, [n_coefs])]) []
    (if innovations then [(name, [n_coefs]); (ps, [])] else [(name, [n_coefs])])
    (Ssm (fun e i => if i <? n_coefs then pv e (uid, name) i else 0%R)
       (fun _ => zmat) (fun _ => zvec) (fun _ => 0%R)
       (fun _ => block_diag2 (fun b => frequency_block season_length (b + 1)))
       (fun _ _ j => if Nat.even j then 1%R else 0%R)
       (fun _ => if innovations then eye else zmat)
       (fun _ => 0%R)
       (fun e i j => if innovations then (eye i j * pv e (uid, ps) 0 ^ 2)%R else 0%R)).

(** CycleComponent, structural.py:1450-1551. *)
Definition cycle (uid : nat) (name : string) (cycle_length : option R)
    (estimate_cycle_length dampen innovations : bool) : res component :=
  match cycle_length, estimate_cycle_length with
  | None, false => Err ValueError
  | Some _, true => Err ValueError
  | _, _ =>
    if (match cycle_length with Some s => if Req_EM_T s 0 then true else false | None => false end)
    then Err ZeroDivisionError else
    let names := [name ++ "_Cos"; name ++ "_Sin"] in
    let dim := name ++ "_state" in
    let pl := name ++ "_length" in
    let pd := name ++ "_dampening_factor" in
    let ps := "sigma_" ++ name in
    let params := ((name, [2]) :: (if estimate_cycle_length then [(pl, [])] else [])
                   ++ (if dampen then [(pd, [])] else [])
                   ++ (if innovations then [(ps, [])] else []))%list in
    mk_component uid name 2 2 false true (Some [true; false])
      names [] (if innovations then names else [])
      (map fst params) [] [(dim, names)] [(name, [dim])] params [] params
      (Ssm (fun e => pv e (uid, name)) (fun _ => zmat) (fun _ => zvec) (fun _ => 0%R)
         (fun e i j =>
            ((if dampen then pv e (uid, pd) 0 else 1)
             * frequency_block (match cycle_length with Some s => s | None => pv e (uid, pl) 0 end) 1 i j)%R)
         (fun _ _ j => if Nat.even j then 1%R else 0%R)
         (fun _ => eye) (fun _ => 0%R)
         (fun e i j => if innovations then (eye i j * pv e (uid, ps) 0 ^ 2)%R else 0%R))
  end.

(** RegressionComponent._get_state_names, structural.py:1582-1593. *)
Definition regression_state_names (k_exog : option nat) (state_names : option (list string))
    (name : string) : res (nat * list string) :=
  match k_exog, state_names with
  | None, None => Err ValueError
  | Some k, Some l => if length l =? k then Ok (k, l) else Err ValueError
  | None, Some l => Ok (length l, l)
  | Some k, None => Ok (k, map (fun i => name ++ "_" ++ str_of_nat (i + 1)) (seq 0 k))
  end.

(** RegressionComponent, structural.py:1555-1651.  The design row at time t is row t of the data. *)
Definition regression (uid : nat) (k_exog : option nat) (name : string)
    (state_names : option (list string)) (innovations : bool) : res component :=
  do (k, names) <- regression_state_names k_exog state_names name;
  let pb := "beta_" ++ name in
  let ps := "sigma_beta_" ++ name in
  let dn := "data_" ++ name in
  mk_component uid name k k false false (Some (repeat true k))
    names [dn] names (if innovations then [pb; ps] else [pb]) [dn]
    [("exog_state", names)]
    (if innovations then [(pb, ["exog_state"]); (ps, ["exog_state"])] else [(pb, ["exog_state"])])
    (if innovations then [(pb, [k]); (ps, [])] else [(pb, [k])]) [(dn, k)]
    (if innovations then [(pb, [k]); (ps, [k])] else [(pb, [k])])
    (Ssm (fun e => pv e (uid, pb)) (fun _ => zmat) (fun _ => zvec) (fun _ => 0%R)
       (fun _ => eye) (fun e t j => e (uid, dn) t j) (fun _ => eye) (fun _ => 0%R)
       (fun e => if innovations
                 then set_fancy zmat (seq 0 k) (seq 0 k) (fun i => (pv e (uid, ps) i ^ 2)%R)
                 else zmat)).

(** ** Addition of components *)

(** _combine_statespace_representations, structural.py:503-564, and
    conform_time_varying_and_time_invariant_matrices, models/utilities.py:316-370 (a
    time-invariant design is repeated along time: here a function of time that ignores it). *)
Definition combine_ssm (na pa : nat) (a b : ssm) : ssm :=
  Ssm (fun e => concat_vec na (s_x0 a e) (s_x0 b e))
      (fun e => block_diag na na (s_P0 a e) (s_P0 b e))
      (fun e => concat_vec na (s_c a e) (s_c b e))
      (fun e => (s_d a e + s_d b e)%R)
      (fun e => block_diag na na (s_T a e) (s_T b e))
      (fun e t => concat_vec na (s_Z a e t) (s_Z b e t))
      (fun e => block_diag na pa (s_R a e) (s_R b e))
      (fun e => (s_H a e + s_H b e)%R)
      (fun e => block_diag pa pa (s_Q a e) (s_Q b e)).

(** key.startswith("StateSpace") *)
Definition is_sum_name (k : string) : bool := prefix "StateSpace" k.

(** _combine_component_info, structural.py:575-589. *)
Definition info_add (acc : res (dict cinfo)) (kv : string * cinfo) : res (dict cinfo) :=
  do d <- acc;
  if is_sum_name (fst kv) then Ok d
  else if dmem d (fst kv) then Err ValueError
  else Ok (d ++ [kv])%list.
Definition combine_info (a b : dict cinfo) : res (dict cinfo) :=
  fold_left info_add b (fold_left info_add a (Ok [])).

(** Component.__add__, structural.py:596-645; _combine_property 566-573 (lists are
    concatenated, dicts updated); _make_combined_name 591-594. *)
Definition comp_add (a b : component) : res component :=
  do info <- combine_info (c_info a) (c_info b);
  Ok (Comp ("StateSpace[" ++ String.concat ", " (dkeys info) ++ "]")
        (c_k_states a + c_k_states b) (c_k_posdef a + c_k_posdef b)
        (c_meas_err a || c_meas_err b)
        (c_state_names a ++ c_state_names b) (c_data_names a ++ c_data_names b)
        (c_shock_names a ++ c_shock_names b) (c_param_names a ++ c_param_names b)
        (c_exog_names a ++ c_exog_names b)
        (dupdate (c_coords a) (c_coords b)) (dupdate (c_param_dims a) (c_param_dims b))
        (dupdate (c_param_info a) (c_param_info b)) (dupdate (c_data_info a) (c_data_info b))
        (dupdate (c_vars a) (c_vars b)) (dupdate (c_data a) (c_data b)) info
        (combine_ssm (c_k_states a) (c_k_posdef a) (c_ssm a) (c_ssm b)))%list.

(** ** Building the model *)

(** The attributes of a StructuralTimeSeries, structural.py:65-137. *)
Record sts := Sts {
  m_name : string; m_k_states : nat; m_k_posdef : nat;
  m_state_names : list string; m_shock_names : list string; m_param_names : list string;
  m_param_dims : dict (list string); m_param_info : dict (list nat); m_coords : dict (list string);
  m_vars : dict (var * list nat); m_info : dict cinfo; m_ssm : ssm }.

(** make_default_coords, models/utilities.py:17-27. *)
Definition default_coords (states obs shocks : list string) : dict (list string) :=
  [("state", states); ("state_aux", states); ("observed_state", obs); ("observed_state_aux", obs);
   ("shock", shocks); ("shock_aux", shocks)].

(** Component.build, structural.py:647-688, with StructuralTimeSeries.__init__ 65-137.
    [param_names += ["P0"]], [param_dims["P0"] = ...], [param_info["P0"] = ...] (lines 140-150)
    and [coords.update] (line 104) write into the component's own list and dicts: the first
    result is the component as it is afterwards. *)
Definition build (uid : nat) (c : component) (name : option string) : res (component * sts) :=
  let dname := match name with Some n => n | None => "data" end in
  let ks := c_k_states c in
  let kp := c_k_posdef c in
  let param_names := (c_param_names c ++ ["P0"])%list in
  let param_dims := dset (c_param_dims c) "P0" ["state"; "state_aux"] in
  let param_info := dset (c_param_info c) "P0" [ks; ks] in
  let coords := dupdate (c_coords c) (default_coords (c_state_names c) [dname] (c_shock_names c)) in
  let c' := Comp (c_name c) ks kp (c_meas_err c) (c_state_names c) (c_data_names c)
              (c_shock_names c) param_names (c_exog_names c) coords param_dims param_info
              (c_data_info c) (c_vars c) (c_data c) (c_info c) (c_ssm c) in
  do vars <- make_and_register_variable param_names (c_vars c) uid "P0" [ks; ks];
  let s := c_ssm c in
  let s' := Ssm (s_x0 s) (fun e i j => pv e (uid, "P0") (i * ks + j)) (s_c s) (s_d s) (s_T s) (s_Z s)
              (if kp =? 0 then fun _ => zmat else s_R s) (s_H s)
              (if kp =? 0 then fun _ => zmat else s_Q s) in
  Ok (c', Sts dname ks (max 1 kp) (c_state_names c) (c_shock_names c) param_names param_dims
            param_info coords vars (c_info c) s').

(** _insert_random_variables, core/statespace.py:683-708: every placeholder registered under a
    name is replaced by the user's variable of that name; any other placeholder stays as it
    is ([free] gives its - unknown - value).  The checks on missing names come first. *)
Definition insert_env (m : sts) (user : string -> nat -> R) (free : env) : env := fun v t i =>
  if existsb (fun kv => var_eqb (fst (snd kv)) v) (m_vars m)
  then match find (fun kv => var_eqb (fst (snd kv)) v) (m_vars m) with
       | Some (n, _) => user n i
       | None => free v t i
       end
  else free v t i.

(** ** Component extraction *)

(** _state_slices_from_info, structural.py:199-204: the (start, stop) of each component. *)
Fixpoint slices_from (start : nat) (l : list cinfo) : list (nat * nat) :=
  match l with
  | [] => []
  | ci :: r => (start, start + ci_k_states ci) :: slices_from (start + ci_k_states ci) r
  end.
Definition state_slices (info : dict cinfo) : list (nat * nat) := slices_from 0 (map snd info).

(** Python slicing l[i:j] for 0 <= i <= j. *)
Definition pyslice {A} (l : list A) (i j : nat) : list A := firstn (j - i) (skipn i l).

(** _hidden_states_from_data, structural.py:206-226, on one state vector: the list of columns.
    Simplification: the last axis of the data is [x 0 .. x (k_states - 1)]. *)
Definition hidden_columns (state_names : list string) (info : dict cinfo) (x : vec) : list R :=
  flat_map (fun ns => let '((name, ci), (i, j)) := ns in
    match ci_obs ci with
    | None => []
    | Some obs =>
        if ci_combine ci then [fold_right Rplus 0%R (map (fun k => x (i + k)) (flatnonzero obs))]
        else map (fun k => x (i + k)) (seq 0 (length (pyslice state_names i j)))
    end) (combine info (state_slices info)).

(** _get_subcomponent_names, structural.py:228-240. *)
Definition subcomponent_names (state_names : list string) (info : dict cinfo) : list string :=
  flat_map (fun ns => let '((name, ci), (i, j)) := ns in
    if ci_combine ci then [name]
    else map (fun s => name ++ "[" ++ s ++ "]") (pyslice state_names i j))
    (combine info (state_slices info)).
