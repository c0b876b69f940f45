(** C104: compile_statespace simulates the model from its initial state. *)
From Coq Require Import String.
From Verif Require Common KalmanScan_Model.
From mathcomp Require Import all_ssreflect all_algebra.
From Verif Require Import Lgss_Model Lgss_Spec Lgss_Proofs Lgss_Props Compile_Model.
Set Implicit Arguments.
Unset Strict Implicit.
Unset Printing Implicit Defensive.
Import GRing.Theory.
Import Common(res, Ok, Err, bind, ValueError, IndexError, TypeError, AssertionError).
Import KalmanScan_Model(pname, Pc, Pd, PT, PZ, PR, PH, PQ, PARAM_NAMES, pname_eqb).
Local Open Scope ring_scope.

(** a covariance factor sends zero to zero: over a real field F F' = 0 forces F = 0 *)
Lemma factor_zero (R : realFieldType) n (F : 'M[R]_n) : F *m F^T = 0 -> F = 0.
Proof.
  move=> H. apply/matrixP => i j. rewrite !mxE.
  have := congr1 (fun M : 'M[R]_n => M i i) H. rewrite !mxE.
  under eq_bigr => a _ do rewrite mxE -expr2.
  move/eqP. rewrite Num.Theory.psumr_eq0 => [|a _]; last by rewrite Num.Theory.sqr_ge0.
  move/allP => /(_ j (mem_index_enum j)). by rewrite sqrf_eq0 => /eqP.
Qed.

Section Props.
Context (R : realFieldType) (k p r : nat) (Rng : Type) (normal : Rng -> forall n, 'cV[R]_n * Rng) (factor : forall n, 'M[R]_n -> 'M[R]_n).
Context (V : Type).
Notation noise := (noise normal factor).
Notation gen := (gen p r normal).
Notation after := (after normal).
Notation model := (ss_model R k p r V).
Notation simulate := (simulate normal factor).
Implicit Type m : model.

(** the generator the d-th simulation of n steps starts from: every simulation continues where the previous one stopped *)
Fixpoint start (n d : nat) (g : Rng) : Rng := match d with 0 => g | d'.+1 => start n d' (gen g n) end.

(** the keywords are the names that occur in the initial state and in the system matrices, plus "steps" when it was left symbolic *)
Definition given (params : seq (string * kwval V)) : seq string := map fst params.
Definition exactly_needed m (steps : option nat) params : Prop :=
  forall n, List.In n (given params) <-> List.In n (x0_names m) \/ List.In n (system_names m) \/ (steps = None /\ n = "steps"%string).
(** the number of steps asked for, at compilation or by keyword *)
Definition asked (steps : option nat) (params : seq (string * kwval V)) (n : nat) : Prop :=
  steps = Some n \/ (steps = None /\ lookup "steps" params = Some (KSteps V n)).
(** the matrices with one more axis than usual are the time-varying ones *)
Definition axes_agree m e : Prop := sequence_names m = seq_names (system_of m e).

Lemma mem_strP x l : reflect (List.In x l) (mem_str x l).
Proof.
  apply: (iffP idP); rewrite /mem_str.
  - elim: l => //= a l IH. case: (String.eqb_spec x a) => [-> _|_ /= /IH H]; [by left|by right].
  - elim: l => //= a l IH [->|H]; [by rewrite String.eqb_refl|by rewrite (IH H) orbT].
Qed.
Lemma lookup_in x (l : seq (string * kwval V)) : (if lookup x l is Some _ then true else false) = mem_str x (map fst l).
Proof. elim: l => //= [[a b] l] IH /=. rewrite /mem_str /=. by case: (String.eqb x a). Qed.
Lemma in_inputs m steps n : List.In n (inputs m steps) <-> List.In n (x0_names m) \/ List.In n (system_names m) \/ (steps = None /\ n = "steps"%string).
Proof.
  rewrite /inputs !List.in_app_iff. split.
  - case=> [H|[H|H]]; [by left|by right; left|]. right; right. case: steps H => //= [[H|//]]. by rewrite -H.
  - case=> [H|[H|[-> ->]]]; [by left|by right; left|]. right; right. by left.
Qed.
Lemma allP_in T (P : T -> bool) (l : seq T) : all P l <-> forall x, List.In x l -> P x.
Proof.
  elim: l => //= a l IH. split.
  - move/andP => [Ha Hl] x [<- //|Hx]. by move/IH: Hl; apply.
  - move=> H. apply/andP; split; [by apply: H; left|]. apply/IH => x Hx. by apply: H; right.
Qed.
Lemma all_given m steps params : all (fun x => mem_str x.1 (inputs m steps)) params <->
  forall n, List.In n (given params) -> List.In n (inputs m steps).
Proof.
  rewrite allP_in. split.
  - move=> H n /List.in_map_iff [x [<- Hx]]. by apply/mem_strP; apply: H.
  - move=> H x Hx. apply/mem_strP. apply: H. by apply: List.in_map.
Qed.
Lemma all_inputs m steps params : all (fun n => if lookup n params is Some _ then true else false) (inputs m steps) <->
  forall n, List.In n (inputs m steps) -> List.In n (given params).
Proof.
  rewrite allP_in. split.
  - move=> H n /H. by rewrite lookup_in => /mem_strP.
  - move=> H n /H. rewrite lookup_in. by move/mem_strP.
Qed.
Lemma asked_steps steps params n : asked steps params n -> graph_steps steps params = Ok n /\ inner_steps steps params = n.
Proof.
  rewrite /graph_steps /inner_steps /steps_name. case=> [-> //|[-> E]].
  change (lookup "steps" params) with (lookup "steps" params) in E. by rewrite E.
Qed.
Lemma gen_rng n g : gen g n = rng_after p r normal n g.
Proof. elim: n g => [|n IH] g //. by rewrite gen_S IH. Qed.

(** one simulation: the documented equations, from a known initial state *)
Definition simulated (x0 : 'cV[R]_k) (s : system R k p r) (n : nat) (g : Rng) (xs : seq 'cV[R]_k) (ys : seq 'cV[R]_p) : Prop :=
  size xs = n.+1 /\ size ys = n.+1 /\ nth 0 xs 0 = x0 /\
  (forall a, matrices_at s 0 a -> nth 0 ys 0 = m_Z a *m x0 + noise g (m_H a)) /\
  (forall t a, (t < n)%N -> matrices_at s t a ->
     nth 0 xs t.+1 = m_c a + m_T a *m nth 0 xs t + m_R a *m noise (gen g t) (m_Q a) /\
     nth 0 ys t.+1 = m_d a + m_Z a *m nth 0 xs t.+1 + noise (after (gen g t) r) (m_H a)).

(** the axes of length one are removed from the three axes of the result *)
Definition without_unit_axes (l l' : seq nat) : Prop := l' = filter (fun n => n != 1%N) l.

Lemma loop_ok m steps params n : forall draws g,
  factor (0 : 'M[R]_k) *m (factor (0 : 'M[R]_k))^T = 0 -> exactly_needed m steps params -> asked steps params n ->
  axes_agree m (env_of params) -> covers (system_of m (env_of params)) (maxn n 1) ->
  exists out, loop normal factor m steps params draws g = Ok out /\ size out = draws /\
    forall d, (d < draws)%N -> let o := nth ([::], [::]) out d in
      simulated (x0_of m (env_of params)) (system_of m (env_of params)) n (start n d g) o.1 o.2.
Proof.
  move=> draws g HF Hn Ha Hx Hc. have [E1 E2] := asked_steps Ha. clear Ha.
  elim: draws g => [|draws IH] g; first by exists [::].
  have A1 : all (fun x => mem_str x.1 (inputs m steps)) params.
  { apply/all_given => a /Hn H. by apply/in_inputs. }
  have A2 : all (fun a => if lookup a params is Some _ then true else false) (inputs m steps).
  { apply/all_inputs => a /in_inputs H. by apply/Hn. }
  rewrite /= /compiled A1 A2 /= E1 /=.
  have [xs [ys [E [Sx [Sy [X0 [Y0 XY]]]]]]] := C37_trajectory_partial normal factor (x0_of m (env_of params)) 0 g Hc.
  rewrite Hx E /= Sx Sy E2 !eqxx /= -gen_rng.
  have [out [EO [SO HO]]] := IH (gen g n).
  rewrite EO /=. eexists; split; first reflexivity. split; first by rewrite /= SO.
  have F0 : factor (0 : 'M[R]_k) = 0 by apply: factor_zero.
  have X0' : nth 0 xs 0 = x0_of m (env_of params) by rewrite X0 /Lgss_Spec.noise F0 mul0mx addr0.
  case=> [|d] Hd /=; last by apply: HO.
  split=> //. split=> //. split=> //. split=> // a Ha. by rewrite (Y0 a Ha) X0'.
Qed.

(** C104: for a factor F of the zero covariance with F F' = 0, with the parameters of x0 and of the system matrices given by name, and with a number of steps, every one of the [draws]
    simulations starts from the model's initial state itself - P0 plays no part - and follows the transition and observation equations
    with the matrices of each step, the noise continuing the generator from one simulation to the next.  The results are arrays of
    draws x (steps + 1) x states and draws x (steps + 1) x series with the axes of length one removed. *)
Theorem C104_simulation m steps params n draws g :
  factor (0 : 'M[R]_k) *m (factor (0 : 'M[R]_k))^T = 0 ->
  exactly_needed m steps params -> asked steps params n ->
  axes_agree m (env_of params) -> covers (system_of m (env_of params)) (maxn n 1) ->
  exists latent lshape observed oshape, simulate m steps params draws g = Ok ((latent, lshape), (observed, oshape)) /\
    size latent = draws /\ size observed = draws /\
    (forall d, (d < draws)%N -> simulated (x0_of m (env_of params)) (system_of m (env_of params)) n (start n d g)
                                         (nth [::] latent d) (nth [::] observed d)) /\
    without_unit_axes [:: draws; n.+1; k] lshape /\ without_unit_axes [:: draws; n.+1; p] oshape.
Proof.
  move=> HF Hn Ha Hx Hc. have [out [EO [SO HO]]] := loop_ok draws g HF Hn Ha Hx Hc. have [_ E2] := asked_steps Ha.
  rewrite /Compile_Model.simulate EO /= E2. do 4! eexists. split; first reflexivity.
  rewrite !size_map SO. do 2! split=> //. split=> [d Hd|//].
  rewrite !(nth_map ([::], [::])) ?SO //. by apply: HO.
Qed.

(** Nothing else is accepted: a keyword that is not a name of x0 or of a system matrix - a parameter that occurs only in P0, say, or "steps"
    when the number of steps was fixed at compilation - and a missing parameter both stop the call with a TypeError. *)
Theorem C104_keywords m steps params draws g : (0 < draws)%N -> ~ exactly_needed m steps params ->
  simulate m steps params draws g = Err TypeError.
Proof.
  case: draws => // draws _ H. rewrite /Compile_Model.simulate /= /compiled.
  case A1 : (all _ params) => //=. case A2 : (all _ (inputs m steps)) => //=. exfalso. apply: H => a. split.
  - move=> Ha. apply/in_inputs. by move/all_given: A1; apply.
  - move/in_inputs => Ha. by move/all_inputs: A2; apply.
Qed.
Corollary C104_P0_parameters_refuted m steps params draws g name : (0 < draws)%N ->
  List.In name (P0_names m) -> ~ List.In name (x0_names m) -> ~ List.In name (system_names m) -> name <> "steps"%string ->
  List.In name (given params) -> simulate m steps params draws g = Err TypeError.
Proof. move=> Hd HP H1 H2 H3 H4. apply: C104_keywords => // /(_ name) [/(_ H4) [//|[//|[_ //]]]]. Qed.

(** compile.py:37 reads as if 100 steps were simulated when none are asked for.  That never happens: the symbolic number of
    steps is an input without a default, so the call fails whatever else it is given. *)
Theorem C104_default_steps_refuted m params draws g : (0 < draws)%N -> ~ List.In "steps"%string (given params) ->
  simulate m None params draws g = Err TypeError.
Proof. move=> Hd H. apply: C104_keywords => // /(_ "steps"%string) [_ A]. apply: H. apply: A. by right; right. Qed.

(** The number of axes of the result depends on the number of draws and of states: one draw of a model with one state comes back as a vector,
    which has the shape of one draw of one state, not of its transpose in any fixed layout. *)
Theorem C104_axes_refuted m steps params n draws g : 
  factor (0 : 'M[R]_k) *m (factor (0 : 'M[R]_k))^T = 0 ->
  exactly_needed m steps params -> asked steps params n -> (0 < n)%N ->
  axes_agree m (env_of params) -> covers (system_of m (env_of params)) (maxn n 1) ->
  exists latent lshape observed, simulate m steps params draws g = Ok ((latent, lshape), observed) /\
    (size lshape = 3%N <-> draws <> 1%N /\ k <> 1%N).
Proof.
  move=> HF Hn Ha Hp Hx Hc. have [l [ls [o [os [E [_ [_ [_ [S _]]]]]]]]] := C104_simulation draws g HF Hn Ha Hx Hc.
  exists l, ls, (o, os). split=> //. rewrite S /=. case: n Hp {Ha Hc S E} => //= n _.
  case: eqP => Hd; case: eqP => Hk /=; split=> //; by case.
Qed.
End Props.

(** ** A concrete case: one state that doubles, observed with a design that changes with time; the parameter a is x0 *)
Definition c_normal (g : nat) (n : nat) : 'cV[rat]_n * nat := (const_mx (g%:R), g.+1).
Definition c_model : ss_model [ringType of rat] 1 1 1 rat :=
  {| x0_of := fun e => (odflt 0 (e "a"%string))%:M; P0_of := fun e => (odflt 0 (e "b"%string))%:M;
     system_of := fun e => {| s_c := Const 0; s_d := Const 0; s_T := Const 2%:R%:M; s_Z := Vary [:: 1%:M; 3%:R%:M];
                              s_R := Const 1%:M; s_H := Const 0; s_Q := Const 0 |};
     ndim := fun x => match x with PZ => 3%N | Pc | Pd => 1%N | _ => 2%N end;
     x0_names := [:: "a"%string]; P0_names := [:: "b"%string]; system_names := [::] |}.
Definition c_params : seq (string * kwval rat) := [:: ("steps"%string, KSteps _ 2); ("a"%string, KVal 5%:R)].
Example C104_example : (0 : 'M[rat]_1) *m (0 : 'M[rat]_1)^T = 0 /\ exactly_needed c_model None c_params /\ asked None c_params 2 /\ axes_agree c_model (env_of c_params) /\
  covers (system_of c_model (env_of c_params)) (maxn 2 1) /\
  ~ List.In "b"%string (x0_names c_model) /\ List.In "b"%string (P0_names c_model) /\
  exists latent observed, Compile_Model.simulate c_normal (fun _ C => C) c_model None c_params 2 0%N = Ok ((latent, [:: 2%N; 3%N]), (observed, [:: 2%N; 3%N])).
Proof.
  split; [|split; [|split; [|split; [|split; [|split; [|split]]]]]].
  - by rewrite mul0mx.
  - move=> n /=. split.
    + case=> [<-|[<-|//]]; [by right; right|by left; left].
    + case=> [[<-|//]|[//|[_ ->]]]; [by right; left|by left].
  - by right.
  - by [].
  - by split; split.
  - by move=> /= [].
  - by left.
  - rewrite /Compile_Model.simulate /=. do 2! eexists. reflexivity.
Qed.
