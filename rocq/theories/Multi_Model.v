(** Model of pymc_extras/statespace/models/VARMAX.py and ETS.py (matrices, labels and parameter
    tables), and of the labels of SARIMAX.py.

    Numbers are real numbers.  A symbolic matrix is modelled by its value once every parameter has one: the
    parameters are arguments of the functions below.  A matrix is a function of two indices
    (its dimensions are kept beside it). *)
From Coq Require Import Reals String Ascii.
From Verif Require Import Common Struct_Model.
Open Scope string_scope.
Open Scope nat_scope.

(** an f-string: the concatenation of its parts *)
Definition fstr (l : list string) : string := String.concat "" l.

(** ** Python slices and block assignment *)

(** Normalisation of one end of a slice on an axis of length n. *)
Definition norm_idx (n : nat) (z : Z) : nat :=
  let z' := if (z <? 0)%Z then (z + Z.of_nat n)%Z else z in
  Nat.min (Z.to_nat z') n.
Definition norm_slice (n : nat) (start stop : option Z) : nat * nat :=
  (match start with None => 0 | Some z => norm_idx n z end,
   match stop with None => n | Some z => norm_idx n z end).

(** ssm[name, r0:r1, c0:c1] = A with A of shape (nr, nc), core/representation.py:376-426 and
    pt.set_subtensor.  Simplification: A must have exactly the shape of the target (numpy would also
    broadcast an axis of length one). *)
Definition set_block (M : mat) (rows cols : nat * nat) (nr nc : nat) (A : mat) : res mat :=
  let '(r0, r1) := rows in
  let '(c0, c1) := cols in
  if (r1 - r0 =? nr) && (c1 - c0 =? nc)
  then Ok (fun i j => if (r0 <=? i) && (i <? r1) && (c0 <=? j) && (j <? c1) then A (i - r0) (j - c0) else M i j)
  else Err ValueError.

(** A state space model with its dimensions, core/representation.py:180-224. *)
Record ss := Ss {
  n_states : nat; n_shocks : nat; n_obs : nat;
  ss_x0 : vec; ss_P0 : mat; ss_c : vec; ss_d : vec;
  ss_T : mat; ss_Z : mat; ss_R : mat; ss_H : mat; ss_Q : mat }.

(** M[np.diag_indices(n)] = vals *)
Definition set_diag_indices (M : mat) (n : nat) (vals : nat -> R) : mat :=
  set_fancy M (seq 0 n) (seq 0 n) vals.

(** ** VARMAX *)

(** BayesianVARMAX.__init__, VARMAX.py:142-187: (endog_names, k_endog). *)
Definition varmax_names (endog_names : option (list string)) (k_endog : option nat) : res (list string * nat) :=
  match endog_names, k_endog with
  | None, None => Err ValueError
  | Some l, None => Ok (l, length l)
  | None, Some k => Ok (map (fun i => fstr ["state."; str_of_nat (i + 1)]) (seq 0 k), k)
  | Some l, Some k => if length l =? k then Ok (l, k) else Err ValueError
  end.

(** VARMAX.py:165-166 *)
Definition varmax_k_states (p q k : nat) : nat := k * (max p 1 + q).

(** param_names, VARMAX.py:187-200 *)
Definition varmax_param_names (p q : nat) (stationary merr : bool) : list string :=
  ((if stationary then [] else ["x0"; "P0"]) ++ (if p =? 0 then [] else ["ar_params"])
   ++ (if q =? 0 then [] else ["ma_params"]) ++ ["state_cov"] ++ (if merr then ["sigma_obs"] else []))%list.

(** The "shape" entries of param_info, VARMAX.py:202-236. *)
Definition varmax_info_shape (p q k : nat) (name : string) : list nat :=
  let ks := varmax_k_states p q k in
  if String.eqb name "x0" then [ks]
  else if String.eqb name "P0" then [ks; ks]
  else if String.eqb name "sigma_obs" then [k; k]
  else if String.eqb name "state_cov" then [k; k]
  else if String.eqb name "ar_params" then [k; p; k]
  else [k; q; k].
(** The shapes of the registered placeholders, VARMAX.py:299-395. *)
Definition varmax_placeholder_shape (p q k : nat) (name : string) : list nat :=
  let ks := varmax_k_states p q k in
  if String.eqb name "x0" then [ks]
  else if String.eqb name "P0" then [ks; ks]
  else if String.eqb name "sigma_obs" then [k]
  else if String.eqb name "state_cov" then [k; k]
  else if String.eqb name "ar_params" then [k; p; k]
  else [k; q; k].

(** state_names, VARMAX.py:238-248 *)
Definition varmax_state_names (p q : nat) (endog : list string) : list string :=
  (endog
   ++ flat_map (fun i => map (fun s => fstr ["L"; str_of_nat (i + 1); "."; s]) endog) (seq 0 (p - 1))
   ++ flat_map (fun i => map (fun s => fstr ["L"; str_of_nat (i + 1); "."; s; "_innov"]) endog) (seq 0 q))%list.

(** Parameter values. *)
Record vpar := VPar {
  v_x0 : vec; v_P0 : mat; v_ar : nat -> nat -> nat -> R; v_ma : nat -> nat -> nat -> R;
  v_state_cov : mat; v_sigma_obs : vec }.

(** x.reshape((k, k * n)) of a (k, n, k) array, row-major. *)
Definition reshape3 (k n : nat) (a : nat -> nat -> nat -> R) : mat := fun i c =>
  let f := i * (k * n) + c in a (f / (n * k)) ((f / k) mod n) (f mod k).

(** make_symbolic_graph, VARMAX.py:299-395.  With stationary_initialization the initial state and covariance
    are solutions of linear systems; here [v_x0] and [v_P0] stand for whatever values they have. *)
Definition varmax (p q k : nat) (measurement_error : bool) (v : vpar) : res ss :=
  let ks := varmax_k_states p q k in
  let kz := Z.of_nat k in
  let qz := Z.of_nat q in
  let design := set_diag_indices zmat k (fun _ => 1%R) in
  do T1 <- (if 1 <? p
            then set_block zmat (norm_slice ks (Some kz) (Some (kz * Z.of_nat p)%Z))
                                (norm_slice ks (Some 0%Z) (Some (kz * (Z.of_nat p - 1))%Z))
                           (k * (p - 1)) (k * (p - 1)) eye
            else Ok zmat);
  do T2 <- (if 1 <? q
            then set_block T1 (norm_slice ks (Some (- kz * (qz - 1))%Z) None)
                              (norm_slice ks (Some (- kz * qz)%Z) (Some (- kz)%Z))
                           (k * (q - 1)) (k * (q - 1)) eye
            else Ok T1);
  do T3 <- (if 0 <? p
            then set_block T2 (norm_slice ks (Some 0%Z) (Some kz))
                              (norm_slice ks (Some 0%Z) (Some (kz * Z.of_nat p)%Z))
                           k (k * p) (reshape3 k p (v_ar v))
            else Ok T2);
  do R1 <- set_block zmat (norm_slice ks (Some 0%Z) (Some kz)) (norm_slice k None None) k k eye;
  do TR <- (if 0 <? q
            then
              do T4 <- set_block T3 (norm_slice ks (Some 0%Z) (Some kz))
                                    (norm_slice ks (Some (kz * Z.max 1 (Z.of_nat p))%Z) None)
                                 k (k * q) (reshape3 k q (v_ma v));
              do R2 <- set_block R1 (norm_slice ks (Some (kz * - qz)%Z)
                                       (if 1 <? q then Some (- kz * (qz - 1))%Z else None))
                                    (norm_slice k None None) k k eye;
              Ok (T4, R2)
            else Ok (T3, R1));
  Ok (Ss ks k k (v_x0 v) (v_P0 v) zvec zvec (fst TR) design (snd TR)
        (if measurement_error then set_diag_indices zmat k (v_sigma_obs v) else zmat)
        (v_state_cov v)).

(** ** ETS *)

(** [order] is a tuple of strings (None: use the three flags), ETS.py:222-243. *)
Definition ets_flags (order : option (list string)) (trend damped seasonal : bool) : res (bool * bool * bool) :=
  match order with
  | None => Ok (trend, damped, seasonal)
  | Some [e; t; s] =>
      if negb (String.eqb e "A") then Err ValueError
      else if negb (smem t ["A"; "Ad"; "N"]) then Err ValueError
      else if negb (smem s ["A"; "N"]) then Err ValueError
      else Ok (negb (String.eqb t "N"), String.eqb t "Ad", String.eqb s "A")
  | Some _ => Err ValueError
  end.

(** endog_names may be a string, in which case list(endog_names) is the list of its characters,
    ETS.py:264-270. *)
Inductive endog_arg := ENone | EStr (s : string) | EList (l : list string).
Fixpoint chars (s : string) : list string :=
  match s with EmptyString => [] | String a r => String a EmptyString :: chars r end.
Definition ets_names (a : endog_arg) (k_endog : nat) : list string * nat :=
  match a with
  | ENone => (if 1 <? k_endog then map (fun i => fstr ["data_"; str_of_nat i]) (seq 0 k_endog) else ["data"], k_endog)
  | EStr s => (chars s, length (chars s))
  | EList l => (l, length l)
  end.

Definition b2n (b : bool) : nat := if b then 1 else 0.

(** number of states of one series, ETS.py:279-283 *)
Definition ets_each (trend seasonal : bool) (periods : option nat) : nat :=
  2 + b2n trend + b2n seasonal * match periods with Some m => m | None => 0 end.

Record epar := EPar {
  e_level : vec; e_trend : vec; e_seasonal : mat; e_P0 : mat;
  e_alpha : vec; e_beta : vec; e_gamma : vec; e_phi : vec;
  e_sigma_state : vec; e_state_cov : mat; e_sigma_obs : vec }.

(** M[i0, j0] = v and v[i0] = x *)
Definition set1 (M : mat) (i0 j0 : nat) (x : R) : mat := fun i j => if (i =? i0) && (j =? j0) then x else M i j.
Definition setv (v : vec) (i0 : nat) (x : R) : vec := fun i => if i =? i0 then x else v i.

(** pt.linalg.block_diag of a list of blocks (rows, columns, entries). *)
Fixpoint block_diag_l (bs : list (nat * nat * mat)) : mat :=
  match bs with
  | [] => zmat
  | (n, m, A) :: r => block_diag n m A (block_diag_l r)
  end.
(** pt.concatenate of vectors; pt.concatenate(..., axis=1) of matrices. *)
Fixpoint concat_vecs (vs : list (nat * vec)) : vec :=
  match vs with [] => zvec | (n, v) :: r => concat_vec n v (concat_vecs r) end.
Fixpoint concat_cols (ms : list (nat * mat)) : mat :=
  match ms with [] => zmat
  | (n, A) :: r => fun i j => if j <? n then A i j else concat_cols r i (j - n) end.

(** T_base, ETS.py:487, 519-520, 533-536; [dm] is the stationary_dampening dummy. *)
Definition ets_T_base (trend damped : bool) (dm phi : R) : nat * nat * mat :=
  if trend then
    let M := set1 (set1 (set1 (set1 (set1 zmat 1 1 1) 1 2 1) 2 2 1) 1 1 dm) 2 2 dm in
    (3, 3, if damped then (fun i j => if (1 <=? i) && (i <? 3) && (j =? 2) then phi else M i j) else M)
  else (2, 2, set1 zmat 1 1 dm).

(** T_seasonal, ETS.py:604-608 *)
Definition ets_T_seasonal (m : nat) (dm : R) : nat * nat * mat := (m, m, set1 (eye_below 1) 0 (m - 1) dm).

(** the transition matrix as a function of the dampening dummy, ETS.py:538-540, 610-621 *)
Definition ets_T (k m : nat) (trend damped seasonal : bool) (dm : R) (v : epar) : mat :=
  block_diag_l (flat_map (fun i => ets_T_base trend damped dm (e_phi v i)
                                   :: (if seasonal then [ets_T_seasonal m dm] else [])) (seq 0 k)).

(** one column of R_list, ETS.py:462-483, 506-513, 579-600 *)
Definition ets_R_col (trend seasonal transformed : bool) (v : epar) (i : nat) : mat :=
  let R1 := set1 (set1 zmat 1 0 (e_alpha v i)) 0 0 (1 - e_alpha v i)%R in
  let b := if transformed then e_beta v i else (e_alpha v i * e_beta v i)%R in
  let R2 := if trend then set1 R1 2 0 b else R1 in
  let g := if transformed then e_gamma v i else ((1 - e_alpha v i) * e_gamma v i)%R in
  if seasonal then let R3 := set1 R2 (2 + b2n trend) 0 g in set1 R3 0 0 (R3 0%nat 0%nat - g)%R else R2.

(** initial states of one series, ETS.py:449-458, 494-500, 568-576 *)
Definition ets_x0 (trend seasonal : bool) (v : epar) (i : nat) : vec :=
  let x1 := setv zvec 1 (e_level v i) in
  let x2 := if trend then setv x1 2 (e_trend v i) else x1 in
  if seasonal then (fun r => if 2 + b2n trend <=? r then e_seasonal v i (r - (2 + b2n trend)) else x2 r) else x2.

(** Zs[i], ETS.py:623-628 *)
Definition ets_Z (trend seasonal : bool) (i : nat) : mat :=
  let Z2 := set1 (set1 zmat i 0 1%R) i 1 1%R in
  if seasonal then set1 Z2 i (2 + b2n trend) 1%R else Z2.

(** BayesianETS.__init__ and make_symbolic_graph, ETS.py:222-297, 444-665.
    [init_damp] is initialization_dampening.  Errors: damped_trend without trend indexes column 2 of a 2 x 2
    matrix (IndexError); a seasonal block of length 0 has no last entry (IndexError); no series at all divides by
    zero.  With stationary_initialization, [e_P0] stands for the solution of the Lyapunov equation. *)
Definition ets (order : option (list string)) (names : endog_arg) (k_endog : nat)
    (trend damped seasonal : bool) (periods : option nat)
    (measurement_error transformed dense : bool) (init_damp : R) (v : epar) : res ss :=
  do (td, seasonal) <- ets_flags order trend damped seasonal;
  let '(trend, damped) := td in
  if negb (if Rlt_dec 0 init_damp then if Rlt_dec init_damp 1 then true else false else false)
  then Err ValueError else
  if seasonal && (match periods with None => true | Some _ => false end) then Err ValueError else
  let '(_, k) := ets_names names k_endog in
  let dense := dense && negb (k =? 1) in
  let ks := ets_each trend seasonal periods * k in
  if k =? 0 then Err ZeroDivisionError else
  if damped && negb trend then Err IndexError else
  let m := match periods with Some m => m | None => 0 end in
  if seasonal && (m =? 0) then Err IndexError else
  let each := ks / k in
  Ok (Ss ks k k
        (concat_vecs (map (fun i => (each, ets_x0 trend seasonal v i)) (seq 0 k)))
        (e_P0 v) zvec zvec
        (ets_T k m trend damped seasonal 1%R v)
        (concat_cols (map (fun i => (each, ets_Z trend seasonal i)) (seq 0 k)))
        (block_diag_l (map (fun i => (each, 1, ets_R_col trend seasonal transformed v i)) (seq 0 k)))
        (if measurement_error then set_diag_indices zmat k (fun i => (e_sigma_obs v i ^ 2)%R) else zmat)
        (if dense then e_state_cov v
         else set_diag_indices zmat k (fun i => (e_sigma_state v i ^ 2)%R))).

(** state_names, ETS.py:398-410 *)
Definition ets_state_names (trend seasonal : bool) (periods : nat) (endog : list string) : list string :=
  let states := (["innovation"; "level"] ++ (if trend then ["trend"] else [])
                 ++ (if seasonal then "seasonality" :: map (fun i => fstr ["L"; str_of_nat i; ".season"])
                                                        (seq 1 (periods - 1)) else []))%list in
  if 1 <? length endog then flat_map (fun n => map (fun s => fstr [n; "_"; s]) states) endog else states.
(** shock_names, ETS.py:416-422 *)
Definition ets_shock_names (endog : list string) : list string :=
  if length endog =? 1 then ["innovation"] else map (fun n => fstr [n; "_innovation"]) endog.

(** shape of "initial_seasonal" in param_info (ETS.py:354) and as registered (ETS.py:561-567) *)
Definition ets_info_seasonal (k m : nat) : list nat := [m].
Definition ets_placeholder_seasonal (k m : nat) : list nat := if k =? 1 then [m] else [k; m].
(** shape of the other vector parameters: () or None for one series, (k,) for more, ETS.py:340-385
    (info) and 446, 465, 491, 502, 527, 579 (placeholders). *)
Definition ets_info_vector (k : nat) : list nat := if k =? 1 then [] else [k].
Definition ets_placeholder_vector (k : nat) : list nat := if 1 <? k then [k] else [].

(** ** Labels of SARIMAX *)

(** cleanup_states, models/utilities.py:30-58: str.replace for a non-empty pattern. *)
Fixpoint strip_prefix (p s : string) : option string :=
  match p, s with
  | EmptyString, _ => Some s
  | String a p', String b s' => if Ascii.eqb a b then strip_prefix p' s' else None
  | String _ _, EmptyString => None
  end.
Fixpoint remove_all_fuel (fuel : nat) (p s : string) : string :=
  match fuel with
  | O => s
  | S f => match strip_prefix p s with
           | Some r => remove_all_fuel f p r
           | None => match s with EmptyString => EmptyString | String a r => String a (remove_all_fuel f p r) end
           end
  end.
Definition remove_all (p s : string) : string := remove_all_fuel (S (String.length s)) p s.
Definition cleanup_states (l : list string) : list string :=
  map (fun s => remove_all "D0" (remove_all "L0" (remove_all "^0" (remove_all "^1" s)))) l.

(** the loop over seasonal differences, utilities.py:109-114 *)
Fixpoint harvey_seasonal (a0 a1 S D i n : nat) (curr : string) : list string :=
  match n with
  | O => []
  | Datatypes.S n' =>
      let curr' := fstr ["D"; str_of_nat a0; "^"; str_of_nat a1; "D"; str_of_nat S; "^"; str_of_nat (i + 1)] in
      (map (fun j => fstr ["L"; str_of_nat (j + 1); curr; ".data"]) (seq 0 (S - 1))
       ++ (if i =? D - 1 then [] else [fstr [curr'; ".data"]])
       ++ harvey_seasonal a0 a1 S D (i + 1) n' curr')%list
  end.

(** make_harvey_state_names, utilities.py:61-127.  range(n)[:-1] has n - 1 entries. *)
Definition harvey_state_names (p d q P D Q S : nat) : list string :=
  let k_lags := max (p + P * S) (q + Q * S + 1) in
  let has_diff := 0 <? d + D in
  let d_size := d + b2n (0 <? D) in
  let a0 := b2n (1 <? d_size) in
  let a1 := d_size - 1 in
  let states := ("data" :: map (fun i => fstr ["D1^"; str_of_nat (i + 1); ".data"]) (seq 0 (d_size - 1))
                 ++ harvey_seasonal a0 a1 S D 0 D (fstr ["D"; str_of_nat a0; "^"; str_of_nat a1])
                 ++ (if has_diff then ["data_star"] else []))%list in
  let suffix := if has_diff then "_star" else "" in
  cleanup_states (states ++ map (fun i => fstr ["state"; suffix; "_"; str_of_nat (i + 1)]) (seq 0 (k_lags - 1)))%list.

(** state_names of SARIMAX, SARIMAX.py:292-309, and k_states, 191-216 *)
Definition sarimax_p_max (p P S : nat) : nat := max 1 (p + P * S).
Definition sarimax_k_states (fast : bool) (p d q P D Q S : nat) : nat :=
  if fast then max (p + P * S) (q + Q * S + 1) + (S * D + d)
  else sarimax_p_max p P S + sarimax_p_max q Q S.
Definition sarimax_state_names (fast : bool) (p d q P D Q S : nat) : list string :=
  if fast then harvey_state_names p d q P D Q S
  else (["data"]
        ++ (if 0 <? p then map (fun i => fstr ["L"; str_of_nat (i + 1); ".data"]) (seq 0 (sarimax_p_max p P S - 1)) else [])
        ++ ["innovations"]
        ++ (if 0 <? q then map (fun i => fstr ["L"; str_of_nat (i + 1); ".innovations"])
                             (seq 0 (sarimax_p_max q Q S - 1)) else []))%list.
