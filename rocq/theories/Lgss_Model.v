(** Model of the forward simulation of a state space model:
    pymc_extras/statespace/filters/distributions.py:116-398 (LinearGaussianStateSpace),
    pymc_extras/statespace/core/statespace.py:1061-1172 (_sample_conditional), 1173-1286 (_sample_unconditional) and
    2074-2242 (impulse_response_function).

    Exact arithmetic over an arbitrary ring; vectors are columns and static shapes are dependent types.  A random generator is
    an abstract state: [normal rng n] gives the n standard normals drawn from that state and the state afterwards, and a draw
    from N(mu, cov) is mu + factor(cov) * normals, which is what numpy's multivariate_normal does (the factor, obtained there from an SVD,
    is a parameter).  Not modelled: the registration of variables with pymc, batch dimensions, the jitter added to H, compile modes. *)
From Verif Require Common KalmanScan_Model.
From mathcomp Require Import all_ssreflect all_algebra.
Set Implicit Arguments.
Unset Strict Implicit.
Unset Printing Implicit Defensive.
Import GRing.Theory.
Import Common(res, Ok, Err, bind, ValueError, IndexError, TypeError, AssertionError).
Import KalmanScan_Model(pname, Pc, Pd, PT, PZ, PR, PH, PQ, PARAM_NAMES, pname_eqb).
Local Open Scope ring_scope.

Section Lgss.
(** the ring; numbers of states, observed series and shocks *)
Context (R : ringType) (k p r : nat).
Context (Rng : Type) (normal : Rng -> forall n, 'cV[R]_n * Rng) (factor : forall n, 'M[R]_n -> 'M[R]_n).

(** MvNormalSVD.dist(mu, cov, rng=rng).owner.outputs: the next state of the generator and the draw *)
Definition mvnormal (rng : Rng) n (mu : 'cV[R]_n) (cov : 'M[R]_n) : Rng * 'cV[R]_n :=
  let '(z, rng') := normal rng n in (rng', mu + factor cov *m z).

(** a system matrix: constant, or with time as its first axis *)
Inductive param A := Const (a : A) | Vary (l : seq A).
Record system := { s_c : param 'cV[R]_k; s_d : param 'cV[R]_p; s_T : param 'M[R]_k; s_Z : param 'M[R]_(p, k);
                   s_R : param 'M[R]_(k, r); s_H : param 'M[R]_p; s_Q : param 'M[R]_r }.

(** a variable handed to the inner function of a scan, together with its name *)
Inductive val := Vc (x : 'cV[R]_k) | Vd (x : 'cV[R]_p) | VT (x : 'M[R]_k) | VZ (x : 'M[R]_(p, k)) | VR (x : 'M[R]_(k, r))
  | VH (x : 'M[R]_p) | VQ (x : 'M[R]_r).
Inductive arg := AMat (name : pname) (v : val) | AState (x : 'cV[R]_(k + p)) | ARng (g : Rng).

(** the seven variables in the order of distributions.py:212-216 *)
Definition map_param A B (f : A -> B) (x : param A) : param B := match x with Const a => Const (f a) | Vary l => Vary (map f l) end.
Definition vars (s : system) : seq (pname * param val) :=
  [:: (Pc, map_param Vc (s_c s)); (Pd, map_param Vd (s_d s)); (PT, map_param VT (s_T s)); (PZ, map_param VZ (s_Z s));
      (PR, map_param VR (s_R s)); (PH, map_param VH (s_H s)); (PQ, map_param VQ (s_Q s))].
Definition mem_name (n : pname) (l : seq pname) : bool := has (pname_eqb n) l.
(** distributions.py:212-217 *)
Definition sequences (s : system) (sequence_names : seq pname) := [seq x <- vars s | mem_name x.1 sequence_names].
Definition non_sequences (s : system) (sequence_names : seq pname) := [seq x <- vars s | ~~ mem_name x.1 sequence_names].

(** what scan passes at step t: entry t of the sequences, the recurrent output, the non-sequences.  A sequence shorter than
    t + 1 makes scan fail; a constant matrix used as a sequence would be cut into rows and a time-varying one used as a
    non-sequence would have one dimension too many: both are errors. *)
Definition entry (t : nat) (x : pname * param val) : res arg :=
  match x.2 with Vary l => if List.nth_error l t is Some v then Ok (AMat x.1 v) else Err IndexError | Const _ => Err ValueError end.
Definition whole (x : pname * param val) : res arg := match x.2 with Const v => Ok (AMat x.1 v) | Vary _ => Err ValueError end.
Fixpoint all_ok A (l : seq (res A)) : res (seq A) :=
  match l with [::] => Ok [::] | x :: l' => bind x (fun a => bind (all_ok l') (fun b => Ok (a :: b))) end.
Definition scan_args (s : system) (names : seq pname) (t : nat) (state : 'cV[R]_(k + p)) (rng : Rng) : res (seq arg) :=
  bind (all_ok (map (entry t) (sequences s names))) (fun sq =>
  bind (all_ok (map whole (non_sequences s names))) (fun ns => Ok (sq ++ AState state :: ns ++ [:: ARng rng]))).

(** sort_args, distributions.py:221-233: the first argument with each name, in the canonical order *)
Fixpoint find_arg (name : pname) (args : seq arg) : option val :=
  match args with
  | AMat n v :: args' => if pname_eqb n name then Some v else find_arg name args'
  | _ :: args' => find_arg name args'
  | [::] => None
  end.
Record mats := { m_c : 'cV[R]_k; m_d : 'cV[R]_p; m_T : 'M[R]_k; m_Z : 'M[R]_(p, k); m_R : 'M[R]_(k, r); m_H : 'M[R]_p; m_Q : 'M[R]_r }.
Definition sort_args (args : seq arg) : res mats :=
  match find_arg Pc args, find_arg Pd args, find_arg PT args, find_arg PZ args, find_arg PR args, find_arg PH args, find_arg PQ args with
  | Some (Vc c), Some (Vd d), Some (VT T), Some (VZ Z), Some (VR Rm), Some (VH H), Some (VQ Q) =>
      Ok {| m_c := c; m_d := d; m_T := T; m_Z := Z; m_R := Rm; m_H := H; m_Q := Q |}
  | _, _, _, _, _, _, _ => Err ValueError
  end.

(** step_fn, distributions.py:237-258 *)
Definition step_fn (n_seq : nat) (args : seq arg) : res ('cV[R]_(k + p) * Rng) :=
  let seqs := take n_seq args in
  match drop n_seq args with
  | AState state :: rest =>
      match rev rest with
      | ARng rng :: rev_non_seqs =>
          bind (sort_args (seqs ++ rev rev_non_seqs)) (fun m =>
          let a := usubmx state in
          let '(middle_rng, a_innovation) := mvnormal rng 0 (m_Q m) in
          let '(next_rng, y_innovation) := mvnormal middle_rng 0 (m_H m) in
          let a_mu := m_c m + m_T m *m a in
          let a_next := a_mu + m_R m *m a_innovation in
          let y_mu := m_d m + m_Z m *m a_next in
          let y_next := y_mu + y_innovation in
          Ok (col_mx a_next y_next, next_rng))
      | _ => Err ValueError
      end
  | _ => Err ValueError
  end.
(** pytensor.scan with n_steps, distributions.py:268-276; the generator is replaced after each step *)
Fixpoint scan (s : system) (names : seq pname) (t n_steps : nat) (state : 'cV[R]_(k + p)) (rng : Rng) : res (seq 'cV[R]_(k + p)) :=
  match n_steps with
  | 0 => Ok [::]
  | n.+1 => bind (scan_args s names t state rng) (fun args =>
            bind (step_fn (size names) args) (fun out =>
            bind (scan s names t.+1 n out.1 out.2) (fun rest => Ok (out.1 :: rest))))
  end.
(** distributions.py:260-261: Z_init, H_init *)
Definition at_start A (x : param A) : res A := match x with Const a => Ok a | Vary (a :: _) => Ok a | Vary [::] => Err IndexError end.
(** rv_op, distributions.py:189-291, with the slices of LinearGaussianStateSpace.__new__, :357-362 (latent and observed part
    of each state).  Both initial draws and the scan start from the same generator [rng]. *)
Definition lgss (a0 : 'cV[R]_k) (P0 : 'M[R]_k) (s : system) (names : seq pname) (steps : nat) (append_x0 : bool) (rng : Rng)
  : res (seq 'cV[R]_k * seq 'cV[R]_p) :=
  bind (at_start (s_Z s)) (fun Z_init =>
  bind (at_start (s_H s)) (fun H_init =>
  let init_x := (mvnormal rng a0 P0).2 in
  let init_y := (mvnormal rng (Z_init *m init_x) H_init).2 in
  let init_dist := col_mx init_x init_y in
  bind (scan s names 0 steps init_dist rng) (fun statespace =>
  let statespace_ := if append_x0 then init_dist :: statespace else statespace in
  Ok (map usubmx statespace_, map dsubmx statespace_)))).

(** the names of the time-varying matrices, filters/utilities.py:32-47 as recorded by the Kalman filter
    (kalman_filter.py:214-222; modelled in detail in KalmanScan_Model) *)
Definition seq_names (s : system) : seq pname := [seq x.1 | x <- vars s & (if x.2 is Vary _ then true else false)].

(** _sample_unconditional, statespace.py:1228-1276: the time labels and the number of steps *)
Definition unconditional_steps (time : seq nat) (steps : option nat) (use_data_time_dim : bool) : res (seq nat * nat) :=
  match use_data_time_dim, steps with
  | false, Some n => let t := iota 0 (1 + n) in Ok (t, (size t - 1)%N)
  | true, Some n => if size time == n then Ok (time, n) else Err ValueError
  | _, None => Ok (time, (size time - 1)%N)
  end.
Definition sample_unconditional (a0 : 'cV[R]_k) (P0 : 'M[R]_k) (s : system) (time : seq nat) (steps : option nat) (use_data_time_dim : bool)
    (rng : Rng) : res (seq nat * (seq 'cV[R]_k * seq 'cV[R]_p)) :=
  bind (unconditional_steps time steps use_data_time_dim) (fun ts =>
  bind (lgss a0 P0 s (seq_names s) ts.2 true rng) (fun out => Ok (ts.1, out))).

(** the forecast trajectories, statespace.py:2030-2055: start from the filter output at t0, drop it *)
Definition forecast_trajectory (mu : 'cV[R]_k) (cov : 'M[R]_k) (s : system) (n_index : nat) (rng : Rng) :=
  lgss mu cov s (seq_names s) n_index false rng.

(** _sample_conditional, statespace.py:1122-1158, for one kind of filter output (mu_t, cov_t), given the matrices of each step: the latent draws and the
    observed draws (SequenceMvNormal, distributions.py:410-447: one draw per step, the generator handed on from step to step) *)
Fixpoint sequence_mvn n (l : seq ('cV[R]_n * 'M[R]_n)) (rng : Rng) : seq 'cV[R]_n :=
  match l with [::] => [::] | (mu, cov) :: l' => let '(rng', x) := mvnormal rng mu cov in x :: sequence_mvn l' rng' end.
Definition observed_moments (m : mats) (mc : 'cV[R]_k * 'M[R]_k) : 'cV[R]_p * 'M[R]_p :=
  let '(mu, cov) := mc in (m_Z m *m mu, m_Z m *m cov *m (m_Z m)^T + m_H m).
Definition sample_conditional (ms : seq mats) (outputs : seq ('cV[R]_k * 'M[R]_k)) (rng_latent rng_obs : Rng) :=
  (sequence_mvn outputs rng_latent, sequence_mvn [seq observed_moments x.1 x.2 | x <- zip ms outputs] rng_obs).

(** impulse_response_function, statespace.py:2142-2222 (the kwargs handling is in [irf_kwargs]) *)
Inductive shock_kind := FromCov (Q : 'M[R]_r) | FromSize (s : 'cV[R]_r) | FromTrajectory (l : seq 'cV[R]_r).
(** which shocks are used; shock_size is broadcast to a vector beforehand; [orth] is chol(Q) / diag(Q), a parameter *)
Definition choose_shock (orth : 'M[R]_r -> 'M[R]_r) (post_Q : 'M[R]_r) (shock_size : option 'cV[R]_r) (shock_cov : option 'M[R]_r)
    (shock_trajectory : option (seq 'cV[R]_r)) (orthogonalize use_posterior_cov : bool) : res shock_kind :=
  let n_options := (isSome shock_size + isSome shock_cov + isSome shock_trajectory)%N in
  if (1 < n_options)%N then Err ValueError else
  let use_posterior_cov := if n_options == 1%N then false else use_posterior_cov in
  match shock_trajectory with
  | Some l => Ok (FromTrajectory l)
  | None =>
      let Q := if use_posterior_cov then Some (if orthogonalize then orth post_Q else post_Q)
               else omap (fun q => if orthogonalize then orth q else q) shock_cov in
      match Q, shock_size with
      | Some q, _ => Ok (FromCov q)
      | None, Some s => Ok (FromSize s)
      | None, None => Err TypeError
      end
  end.
(** shock_trajectory as finally used: zeros with the initial shock in row 0 *)
Definition shocks (n_steps : nat) (sk : shock_kind) (rng : Rng) : res (seq 'cV[R]_r) :=
  let one := fun s => match n_steps with 0 => Err IndexError | n.+1 => Ok (s :: nseq n 0) end in
  match sk with
  | FromTrajectory l => Ok l
  | FromCov Q => one (mvnormal rng 0 Q).2
  | FromSize s => one s
  end.
Definition irf_step (m : mats) (shock : 'cV[R]_r) (x : 'cV[R]_k) : 'cV[R]_k := m_c m + m_T m *m x + m_R m *m shock.
Fixpoint irf_scan (m : mats) (l : seq 'cV[R]_r) (x : 'cV[R]_k) : seq 'cV[R]_k :=
  match l with [::] => [::] | s :: l' => let x' := irf_step m s x in x' :: irf_scan m l' x' end.
(** orthogonalize_shocks, statespace.py:2184: pt.linalg.cholesky(Q) / pt.diag(Q), the Cholesky factor being L: column j is divided by Q_jj *)
Definition orthogonalized (F : fieldType) n (L Q : 'M[F]_n) : 'M[F]_n := \matrix_(i, j) (L i j / Q j j).
(** statespace.py:2220-2239: compile_kwargs is always passed explicitly and again through kwargs if it was there *)
Definition irf_kwargs (has_compile_kwargs : bool) : res unit := if has_compile_kwargs then Err TypeError else Ok tt.
Definition impulse_response_function (orth : 'M[R]_r -> 'M[R]_r) (m : mats) (n_steps : nat) (use_posterior_cov : bool) (shock_size : option 'cV[R]_r)
    (shock_cov : option 'M[R]_r) (shock_trajectory : option (seq 'cV[R]_r)) (orthogonalize has_compile_kwargs : bool) (rng : Rng) : res (seq 'cV[R]_k) :=
  bind (choose_shock orth (m_Q m) shock_size shock_cov shock_trajectory orthogonalize use_posterior_cov) (fun sk =>
  bind (shocks n_steps sk rng) (fun l =>
  bind (irf_kwargs has_compile_kwargs) (fun _ => Ok (irf_scan m l 0)))).
End Lgss.
