(** Model of the scans that drive the Kalman filter and smoother: argument routing, output alignment.
    Sources: /repo/pymc_extras/statespace/filters/utilities.py (lines 8-47),
    /repo/pymc_extras/statespace/filters/kalman_filter.py (lines 22, 110-142, 214-232, 240-308, 528-541, 791),
    /repo/pymc_extras/statespace/filters/kalman_smoother.py (lines 28-109). *)
From Verif Require Import Common.

(** ** Routing of (time-varying) parameters *)

(** the seven parameters, kalman_filter.py:22 *)
Inductive pname := Pc | Pd | PT | PZ | PR | PH | PQ.
Definition PARAM_NAMES := [Pc; Pd; PT; PZ; PR; PH; PQ].
Definition pname_eqb (a b : pname) : bool :=
  match a, b with
  | Pc, Pc | Pd, Pd | PT, PT | PZ, PZ | PR, PR | PH, PH | PQ, PQ => true | _, _ => false end.
(** utils/constants.py:17 VECTOR_VALUED, restricted to these names *)
Definition vector_valued (n : pname) : bool := match n with Pc | Pd => true | _ => false end.

Section Routing.
(** [V]: values of any rank handed to the step function (a slice, a static matrix, a state...) *)
Context {V : Type}.

(** A parameter: number of dimensions, value when static, slices when the first axis is time. *)
Record param := { ndim : nat; whole : V; slices : list V }.

(** utilities.py:8-29 [decide_if_x_time_varies] (none of the seven names is NEVER_TIME_VARYING) *)
Definition time_varies (x : param) (n : pname) : res bool :=
  if vector_valued n then
    if (Nat.eqb (ndim x) 1 || Nat.eqb (ndim x) 2)%bool then Ok (Nat.eqb (ndim x) 2) else Err ValueError
  else
    if (Nat.eqb (ndim x) 2 || Nat.eqb (ndim x) 3)%bool then Ok (Nat.eqb (ndim x) 3) else Err ValueError.

(** utilities.py:32-47 *)
Record splitted := { seqs : list param; nonseqs : list param; seq_names : list pname; nonseq_names : list pname }.
Fixpoint split_vars (ps : list (param * pname)) : res splitted :=
  match ps with
  | [] => Ok {| seqs := []; nonseqs := []; seq_names := []; nonseq_names := [] |}
  | (x, n) :: ps' =>
      do tv <- time_varies x n;
      do r <- split_vars ps';
      Ok (if tv
          then {| seqs := x :: seqs r; nonseqs := nonseqs r; seq_names := n :: seq_names r; nonseq_names := nonseq_names r |}
          else {| seqs := seqs r; nonseqs := x :: nonseqs r; seq_names := seq_names r; nonseq_names := n :: nonseq_names r |})
  end.

Fixpoint index_of (n : pname) (l : list pname) : option nat :=
  match l with
  | [] => None
  | x :: l' => if pname_eqb x n then Some 0 else option_map S (index_of n l')
  end.

(** arguments of the inner scan function at step [t]: sequence slices, recurrent values, non-sequences
    (PyTensor's documented order; sequences are [data, *sequences], kalman_filter.py:225) *)
Definition scan_args (sp : splitted) (t : nat) (y a P : V) : option (list V) :=
  let fix slice (l : list param) : option (list V) :=
    match l with
    | [] => Some []
    | x :: l' => match nth_error (slices x) t, slice l' with Some v, Some r => Some (v :: r) | _, _ => None end
    end in
  match slice (seqs sp) with
  | Some sl => Some (y :: sl ++ [a; P] ++ map whole (nonseqs sp))
  | None => None
  end.

(** kalman_filter.py:110-142 [unpack_args]; [None]: a Python error (wrong arity / ValueError from index) *)
Fixpoint reorder (sp : splitted) (sl nsl : list V) (names : list pname) : option (list V) :=
  match names with
  | [] => Some []
  | n :: ns =>
      let v := match index_of n (seq_names sp) with
               | Some i => nth_error sl i
               | None => match index_of n (nonseq_names sp) with Some i => nth_error nsl i | None => None end
               end in
      match v, reorder sp sl nsl ns with Some v, Some r => Some (v :: r) | _, _ => None end
  end.
Definition unpack_args (sp : splitted) (names : list pname) (args : list V) : option (list V) :=
  let n_seq := length (seq_names sp) in
  if Nat.eqb n_seq 0 then Some args
  else match args with
  | [] => None
  | y :: args' =>
      let sl := firstn n_seq args' in
      match firstn 2 (skipn n_seq args') with
      | [a0; P0] =>
          match reorder sp sl (skipn (n_seq + 2) args') names with
          | Some r => Some (y :: a0 :: P0 :: r)
          | None => None
          end
      | _ => None
      end
  end.

(** What the step function of the filter receives, in the order y, a, P, c, d, T, Z, R, H, Q.
    StandardFilter / SquareRootFilter unpack (kalman_filter.py:528); UnivariateFilter overrides
    [kalman_step] with positional arguments and does not unpack (line 791). *)
Definition step_args (unpacks : bool) (sp : splitted) (t : nat) (y a P : V) : option (list V) :=
  match scan_args sp t y a P with
  | Some args => if unpacks then unpack_args sp PARAM_NAMES args else Some args
  | None => None
  end.

(** kalman_smoother.py:28-62 : same routine for T, R, Q with the two sequences a, P in front (the recurrent
    values are a_smooth, P_smooth). *)
Definition smoother_names := [PT; PR; PQ].
Definition smoother_unpack (sp : splitted) (args : list V) : option (list V) :=
  let n_seq := length (seq_names sp) in
  if Nat.eqb n_seq 0 then Some args
  else match args with
  | a :: P :: args' =>
      match firstn 2 (skipn n_seq args') with
      | [asm; Psm] =>
          match reorder sp (firstn n_seq args') (skipn (n_seq + 2) args') smoother_names with
          | Some r => Some (a :: P :: asm :: Psm :: r)
          | None => None
          end
      | _ => None
      end
  | _ => None
  end.
End Routing.
Arguments param : clear implicits.
Arguments splitted : clear implicits.

(** ** Forward scan and its post-processing *)
Section Forward.
(** [A]: state mean, [C]: state covariance, [Ob], [OC]: observation mean/covariance, [L]: loglike term,
    [Y]: everything that depends on the time step (data row and slices of the time-varying matrices). *)
Context {A C Ob OC L Y : Type}.
(** one [kalman_step] (kalman_filter.py:528-541): a_filtered, a_hat, obs_mu, P_filtered, P_hat, obs_cov, ll *)
Record step_out := { o_af : A; o_ahat : A; o_mu : Ob; o_Pf : C; o_Phat : C; o_cov : OC; o_ll : L }.
Context (kalman_step : Y -> A -> C -> step_out).

(** [pytensor.scan] with outputs_info [None, a0, None, None, P0, None, None] (lines 223-232) *)
Fixpoint scan (ys : list Y) (a : A) (P : C) : list step_out :=
  match ys with
  | [] => []
  | y :: ys' => let o := kalman_step y a P in o :: scan ys' (o_ahat o) (o_Phat o)
  end.

(** [l[:-1]] *)
Definition drop_last {X} (l : list X) : list X := firstn (length l - 1) l.

Record filter_out := {
  filtered_states : list A; predicted_states : list A; observed_states : list Ob;
  filtered_covs : list C; predicted_covs : list C; observed_covs : list OC; loglike_obs : list L }.

(** lines 240-308 [_postprocess_scan_results]; [specify_shape] with the data length is an assertion *)
Definition postprocess (res_ : list step_out) (a0 : A) (P0 : C) (n : nat) : res filter_out :=
  let f := {| filtered_states := map o_af res_;
     predicted_states := a0 :: drop_last (map o_ahat res_);
     observed_states := map o_mu res_;
     filtered_covs := map o_Pf res_;
     predicted_covs := P0 :: drop_last (map o_Phat res_);
     observed_covs := map o_cov res_;
     loglike_obs := map o_ll res_ |} in
  if forallb (Nat.eqb n) [length (filtered_states f); length (predicted_states f); length (observed_states f);
                          length (filtered_covs f); length (predicted_covs f); length (observed_covs f);
                          length (loglike_obs f)]
  then Ok f else Err AssertionError.

Definition build_graph (ys : list Y) (a0 : A) (P0 : C) : res filter_out :=
  postprocess (scan ys a0 P0) a0 P0 (length ys).
End Forward.

(** ** Backward scan of the smoother (kalman_smoother.py:64-109) *)
Section Backward.
Context {St M : Type}.   (* St: pair (mean, covariance); M: slices of T, R, Q *)
Context (smoother_step : St -> St -> M -> St).   (* filtered_t, smoothed_{t+1}, matrices *)

(** [scan] over two sequences: the number of steps is the length of the shortest one *)
Fixpoint scan2 (xs : list St) (ms : list M) (s : St) : list St :=
  match xs, ms with
  | x :: xs', m :: ms' => let s' := smoother_step x s m in s' :: scan2 xs' ms' s'
  | _, _ => []
  end.

(** sequences [filtered[:-1]] and the time-varying matrices in full length, both reversed by
    [go_backwards=True] and cut to the shortest; result reversed back, last filtered appended.
    Static matrices: [ms] is constant. *)
Definition smooth (filtered : list St) (ms : list M) : res (list St) :=
  match rev filtered with
  | [] => Err IndexError
  | last :: _ =>
      let out := scan2 (rev (drop_last filtered)) (rev ms) last in
      Ok (rev out ++ [last])
  end.
End Backward.
