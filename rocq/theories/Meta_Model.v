(** Model of the parameter tables of the packaged models: param_names, param_dims, coords, and the placeholders
    registered while the symbolic graph is built (statespace/models/SARIMAX.py, VARMAX.py, ETS.py).

    A Python dict is an association list in insertion order.  A value of param_dims is None or a tuple of dimension
    names.  A coordinate is represented by the number of its labels (the labels of the states are those of
    Multi_Model). Orders, season lengths and numbers of series are natural numbers. *)
From Coq Require Import String.
From Verif Require Import Common Struct_Model Multi_Model.
Open Scope string_scope.
Open Scope nat_scope.

(** ** Python list and dict operations *)

(** names.remove(x): the first occurrence, ValueError when there is none *)
Fixpoint py_remove (x : string) (l : list string) : res (list string) :=
  match l with
  | [] => Err ValueError
  | y :: r => if String.eqb x y then Ok r else do r' <- py_remove x r; Ok (y :: r')
  end.
(** if b: names.remove(x) *)
Definition remove_if (b : bool) (x : string) (l : list string) : res (list string) :=
  if b then py_remove x l else Ok l.

Definition pydict (A : Type) := list (string * A).
Fixpoint dget {A} (d : pydict A) (x : string) : option A :=
  match d with [] => None | (y, a) :: r => if String.eqb x y then Some a else dget r x end.
(** d[x] = a *)
Fixpoint dset {A} (d : pydict A) (x : string) (a : A) : pydict A :=
  match d with
  | [] => [(x, a)]
  | (y, b) :: r => if String.eqb x y then (y, a) :: r else (y, b) :: dset r x a
  end.
(** del d[x]: KeyError when the key is absent *)
Fixpoint ddel {A} (d : pydict A) (x : string) : res (pydict A) :=
  match d with
  | [] => Err KeyError
  | (y, b) :: r => if String.eqb x y then Ok r else do r' <- ddel r x; Ok ((y, b) :: r')
  end.
Definition del_if {A} (b : bool) (x : string) (d : pydict A) : res (pydict A) := if b then ddel d x else Ok d.
Definition set_if {A} (b : bool) (x : string) (a : A) (d : pydict A) : pydict A := if b then dset d x a else d.

(** make_and_register_variable, core/statespace.py:459-503; the dict is _name_to_variable (the shape of each
    placeholder). *)
Definition register (names : list string) (d : pydict (list nat)) (x : string) (sh : list nat)
  : res (pydict (list nat)) :=
  if negb (smem x names) then Err ValueError
  else match dget d x with Some _ => Err ValueError | None => Ok (dset d x sh) end.
(** the calls made by make_symbolic_graph, in order *)
Fixpoint register_all (names : list string) (d : pydict (list nat)) (calls : list (string * list nat))
  : res (pydict (list nat)) :=
  match calls with
  | [] => Ok d
  | (x, sh) :: r => do d' <- register names d x sh; register_all names d' r
  end.

Definition dims := option (list string).

(** make_default_coords, models/utilities.py:17-27 *)
Definition default_coords (states observed shocks : nat) : pydict nat :=
  [("state", states); ("state_aux", states); ("observed_state", observed); ("observed_state_aux", observed);
   ("shock", shocks); ("shock_aux", shocks)].

(** ** SARIMAX *)

(** param_names, SARIMAX.py:233-259 *)
Definition sarima_param_names (p q P Q : nat) (stationary merr : bool) : res (list string) :=
  do l <- remove_if stationary "P0" ["x0"; "P0"; "ar_params"; "ma_params"; "seasonal_ar_params";
                                     "seasonal_ma_params"; "sigma_state"; "sigma_obs"];
  do l <- remove_if stationary "x0" l;
  do l <- remove_if (p =? 0) "ar_params" l;
  do l <- remove_if (P =? 0) "seasonal_ar_params" l;
  do l <- remove_if (q =? 0) "ma_params" l;
  do l <- remove_if (Q =? 0) "seasonal_ma_params" l;
  remove_if (negb merr) "sigma_obs" l.

(** param_dims, SARIMAX.py:325-353; k_endog is 1 (217) *)
Definition sarima_param_dims (p q P Q : nat) (stationary merr : bool) : res (pydict dims) :=
  let d := [("x0", Some ["state"]); ("P0", Some ["state"; "state_aux"]); ("sigma_obs", Some ["observed_state"]);
            ("sigma_state", Some ["observed_state"]); ("ar_params", Some ["ar_lag"]); ("ma_params", Some ["ma_lag"]);
            ("seasonal_ar_params", Some ["seasonal_ar_lag"]); ("seasonal_ma_params", Some ["seasonal_ma_lag"])] in
  let k_endog := 1 in
  let d := set_if (k_endog =? 1) "sigma_state" None d in
  let d := set_if (k_endog =? 1) "sigma_obs" None d in
  do d <- del_if (negb merr) "sigma_obs" d;
  do d <- del_if (p =? 0) "ar_params" d;
  do d <- del_if (q =? 0) "ma_params" d;
  do d <- del_if (P =? 0) "seasonal_ar_params" d;
  do d <- del_if (Q =? 0) "seasonal_ma_params" d;
  do d <- del_if stationary "P0" d;
  del_if stationary "x0" d.

(** coords, SARIMAX.py:355-367; observed_states is the first state name (316-317), shock_names is ["innovation"];
    len(list(range(1, n + 1))) is n *)
Definition sarima_coords (fast : bool) (p d q P D Q S : nat) : pydict nat :=
  let c := default_coords (length (sarimax_state_names fast p d q P D Q S)) 1 1 in
  let c := set_if (0 <? p) "ar_lag" (length (seq 1 p)) c in
  let c := set_if (0 <? q) "ma_lag" (length (seq 1 q)) c in
  let c := set_if (0 <? P) "seasonal_ar_lag" (length (seq 1 P)) c in
  set_if (0 <? Q) "seasonal_ma_lag" (length (seq 1 Q)) c.

(** the registrations of make_symbolic_graph, SARIMAX.py:388-394, 430, 434-436, 453, 457-459 (fast), 490-492,
    496-498, 513-515, 520-522 (interpretable: the same calls), 540-548; k_posdef and k_endog are 1 *)
Definition sarima_calls (fast : bool) (p d q P D Q S : nat) (stationary merr : bool) : list (string * list nat) :=
  let ks := sarimax_k_states fast p d q P D Q S in
  ((if negb stationary then [("x0", [ks]); ("P0", [ks; ks])] else [])
   ++ (if 0 <? p then [("ar_params", [p])] else [])
   ++ (if 0 <? P then [("seasonal_ar_params", [P])] else [])
   ++ (if 0 <? q then [("ma_params", [q])] else [])
   ++ (if 0 <? Q then [("seasonal_ma_params", [Q])] else [])
   ++ [("sigma_state", [])] ++ (if merr then [("sigma_obs", [])] else []))%list.

(** ** VARMAX *)

(** param_names, VARMAX.py:187-200 *)
Definition varmax_param_names_py (p q : nat) (stationary merr : bool) : res (list string) :=
  do l <- remove_if stationary "P0" ["x0"; "P0"; "ar_params"; "ma_params"; "state_cov"; "sigma_obs"];
  do l <- remove_if stationary "x0" l;
  do l <- remove_if (negb merr) "sigma_obs" l;
  do l <- remove_if (p =? 0) "ar_params" l;
  remove_if (q =? 0) "ma_params" l.

(** param_dims, VARMAX.py:271-292 *)
Definition varmax_param_dims (p q : nat) (stationary merr : bool) : res (pydict dims) :=
  let d := [("x0", Some ["state"]); ("P0", Some ["state"; "state_aux"]); ("sigma_obs", Some ["observed_state"]);
            ("state_cov", Some ["shock"; "shock_aux"]);
            ("ar_params", Some ["observed_state"; "ar_lag"; "observed_state_aux"]);
            ("ma_params", Some ["observed_state"; "ma_lag"; "observed_state_aux"])] in
  do d <- del_if (negb merr) "sigma_obs" d;
  do d <- del_if (p =? 0) "ar_params" d;
  do d <- del_if (q =? 0) "ma_params" d;
  do d <- del_if stationary "P0" d;
  del_if stationary "x0" d.

(** coords, VARMAX.py:261-269; observed_states and shock_names are endog_names (250-256) *)
Definition varmax_coords (p q : nat) (endog : list string) : pydict nat :=
  let c := default_coords (length (varmax_state_names p q endog)) (length endog) (length endog) in
  let c := set_if (0 <? p) "ar_lag" (length (seq 1 p)) c in
  set_if (0 <? q) "ma_lag" (length (seq 1 q)) c.

(** the registrations of make_symbolic_graph, VARMAX.py:300-307, 338-340, 360-362, 372-374, 377-379 *)
Definition varmax_calls (p q k : nat) (stationary merr : bool) : list (string * list nat) :=
  let ks := varmax_k_states p q k in
  ((if negb stationary then [("x0", [ks]); ("P0", [ks; ks])] else [])
   ++ (if 0 <? p then [("ar_params", [k; p; k])] else [])
   ++ (if 0 <? q then [("ma_params", [k; q; k])] else [])
   ++ (if merr then [("sigma_obs", [k])] else []) ++ [("state_cov", [k; k])])%list.

(** ** ETS *)

(** the options of a constructed model: the flags are those of ets_flags, [e_dense] after ETS.py:268-269 *)
Record ets_opts := EOpts { e_tr : bool; e_da : bool; e_se : bool; e_m : nat; e_merr : bool; e_dense : bool;
  e_stat : bool }.

(** param_names, ETS.py:288-323 *)
Definition ets_param_names (o : ets_opts) : res (list string) :=
  do l <- remove_if (negb (e_tr o)) "initial_trend"
            ["initial_level"; "initial_trend"; "initial_seasonal"; "P0"; "alpha"; "beta"; "gamma"; "phi";
             "sigma_state"; "state_cov"; "sigma_obs"];
  do l <- remove_if (negb (e_tr o)) "beta" l;
  do l <- remove_if (negb (e_da o)) "phi" l;
  do l <- remove_if (negb (e_se o)) "initial_seasonal" l;
  do l <- remove_if (negb (e_se o)) "gamma" l;
  do l <- remove_if (negb (e_merr o)) "sigma_obs" l;
  do l <- (if e_dense o then py_remove "sigma_state" l else py_remove "state_cov" l);
  remove_if (e_stat o) "P0" l.

(** param_dims, ETS.py:409-443; k is k_endog *)
Definition ets_param_dims (o : ets_opts) (k : nat) : res (pydict dims) :=
  let d := [("P0", Some ["state"; "state_aux"]); ("sigma_obs", Some ["observed_state"]);
            ("sigma_state", Some ["observed_state"]); ("initial_level", Some ["observed_state"]);
            ("initial_trend", Some ["observed_state"]); ("initial_seasonal", Some ["seasonal_lag"]);
            ("seasonal_param", Some ["seasonal_lag"])] in
  do d <- del_if (e_dense o) "sigma_state" d;
  let d := set_if (e_dense o) "state_cov" (Some ["observed_state"; "observed_state_aux"]) d in
  let d := if k =? 1
           then dset (dset (dset (dset d "sigma_state" None) "sigma_obs" None) "initial_level" None)
                     "initial_trend" None
           else dset (dset (dset (dset (dset (dset d "alpha" (Some ["observed_state"])) "beta" (Some ["observed_state"]))
                     "gamma" (Some ["observed_state"])) "phi" (Some ["observed_state"]))
                     "initial_seasonal" (Some ["observed_state"; "seasonal_lag"]))
                     "seasonal_param" (Some ["observed_state"; "seasonal_lag"]) in
  do d <- del_if (negb (e_merr o)) "sigma_obs" d;
  del_if (negb (e_se o)) "seasonal_param" d.

(** the "dims" entry of param_info, ETS.py:378-379: self.param_dims.get(name, None) *)
Definition ets_info_dims (d : pydict dims) (x : string) : dims :=
  match dget d x with Some v => v | None => None end.

(** coords, ETS.py:445-450 *)
Definition ets_coords (o : ets_opts) (endog : list string) : pydict nat :=
  let c := default_coords (length (ets_state_names (e_tr o) (e_se o) (e_m o) endog)) (length endog)
             (length (ets_shock_names endog)) in
  set_if (e_se o) "seasonal_lag" (length (seq 1 (e_m o))) c.

(** k_states, ETS.py:273-277 *)
Definition ets_k_states (o : ets_opts) (k : nat) : nat := ets_each (e_tr o) (e_se o) (Some (e_m o)) * k.

(** the registrations of make_symbolic_graph, ETS.py:471-473, 487-489, 514-516, 526-528, 544-546, 562-568, 580-582,
    636-638, 643-645, 650-652, 661-663 *)
Definition ets_calls (o : ets_opts) (k : nat) : list (string * list nat) :=
  let ks := ets_k_states o k in
  let many := if 1 <? k then [k] else [] in
  let notone := if k =? 1 then [] else [k] in
  ([("initial_level", many); ("alpha", notone)]
   ++ (if e_tr o then [("initial_trend", many); ("beta", notone)] else [])
   ++ (if e_da o then [("phi", notone)] else [])
   ++ (if e_se o then [("initial_seasonal", if k =? 1 then [e_m o] else [k; e_m o]); ("gamma", notone)] else [])
   ++ (if e_dense o then [("state_cov", [k; k])] else [("sigma_state", notone)])
   ++ (if e_merr o then [("sigma_obs", notone)] else [])
   ++ (if e_stat o then [] else [("P0", [ks; ks])]))%list.
