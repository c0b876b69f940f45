(** C95: fit_laplace as a whole - options, and what the result is made of. *)
From Verif Require Import Common Dict.
Import List ListNotations.
From Verif Require Import Flat_Model FindMap_Model Laplace_Model FitLap_Model Flat_Props FindMap_Props Laplace_Props.
Open Scope nat_scope.

Lemma snd_combine {A B} (l : list A) : forall r : list B, length l = length r -> map snd (combine l r) = r.
Proof. induction l as [|a l IH]; intros [|b r] E; cbn in *; auto; try discriminate. f_equal. auto. Qed.
Section FitLaplace.
Context {V L : Type}.
Context (table : dict method_info) (map_loss : dict (arr V) -> L) (fit_loss : bool -> dict (arr V) -> L) (evaluate : dict (arr V) -> string -> arr V)
  (optimum : functions -> (list V -> res L) -> list V -> list V) (sampler : raveled V -> (list V -> res L) -> option compiled -> list V).
Let run := fit_laplace table map_loss fit_loss evaluate optimum sampler.

(** The default fit.  A model of continuous variables, the untransformed ones registered first, with options find_MAP accepts; then the call succeeds, the mean vector is the
    optimizer's final point read in the model's own space (variable by variable), and the draws of each variable are its own block of what was sampled; the Hessian is
    PyTensor's, of the loss without Jacobian *)
Theorem C95_default_fit_partial o kwargs m lb start fns kwargs' :
  good_names m -> good_start m start -> free m <> [] -> (forall v, In v (free m) -> continuous v = true) ->
  map rv_name (free m) = plain m ++ transformed m ->
  (forall fs f x, length (optimum fs f x) = length x) ->
  (forall x p, length x = length (concat (map (fun kv => adata (snd kv)) start)) -> is_point start x p ->
     (forall n, wf (evaluate p n)) /\ forall n, In n (plain m ++ transformed m) -> labels_fit lb n (ashape (evaluate p n))) ->
  resolve_and_compile table (lo_method o) (lo_use_grad o) (lo_use_hess o) (lo_use_hessp o) kwargs (lo_gradient_backend o) = Ok (fns, kwargs') ->
  lo_return_raw o = false -> lo_unconstrained o = false ->
  exists f0 x point,
    x = optimum fns f0 (concat (map (fun kv => adata (snd kv)) start)) /\
    (forall y, length y = length (concat (map (fun kv => adata (snd kv)) start)) -> exists p, is_point start y p /\ f0 y = Ok (map_loss p)) /\
    is_point start x point /\
    exists mu f, rdata mu = concat (map (fun n => adata (evaluate point n)) (plain m ++ transformed m)) /\
      (exists p, (forall n, In n (plain m ++ transformed m) -> dget p n = Some (evaluate point n)) /\ f (rdata mu) = Ok (fit_loss false p)) /\
      let rows := sampler mu f (Some {| c_what := CHess; c_by := BPytensor |}) in
      let layout := map (fun n => (n, ashape (evaluate point n))) (plain m ++ transformed m) in
      (total layout <> 1 -> length rows = lo_chains o * lo_draws o * total layout ->
       exists idata fit, run o kwargs m lb true start = (kwargs', Ok (idata, fit)) /\ dkeys idata = plain m ++ transformed m /\ map snd fit = rdata mu /\
         forall n, In n (plain m ++ transformed m) -> exists d, dget idata n = Some (dims_of lb n, d) /\
           own_draws layout rows (total layout) (lo_chains o) (lo_draws o) n (ashape (evaluate point n)) d).
Proof.
  intros G GS Hne Hc Hord Hopt Hev HR Hraw Hun.
  destruct (C77_find_MAP map_loss evaluate (optimum fns) m start (lo_include_transformed o) GS Hne (gn_nodup m G) Hc (Hopt fns)) as (f0 & x0 & point & result & Hx0 & Hf0 & Hp & HM & Hk & Hv).
  exists f0, (optimum fns f0 x0), point. split; [now rewrite <- Hx0|]. split; [now rewrite <- Hx0|]. split; auto.
  destruct (Hev (optimum fns f0 x0) point) as [Hwf HL]; [rewrite <- Hx0; apply Hopt|exact Hp|].
  assert (NDr : NoDup (dkeys result)).
  { rewrite Hk. unfold get_default_varnames. destruct (lo_include_transformed o); [apply G|apply NoDup_filter, G]. }
  assert (HW : all_wf result).
  { intros k a Hin. assert (Hkin : In k (dkeys result)) by (apply in_map_iff; exists (k, a); auto).
    pose proof (Hv k Hkin) as E. rewrite (in_dget _ _ _ NDr Hin) in E. injection E as ->. apply Hwf. }
  assert (HF : from_find_MAP m (lo_include_transformed o) result) by (split; auto).
  destruct (C52_laplace_hessian_partial fit_loss m false (lo_include_transformed o) result G Hne Hc HF ltac:(discriminate) (fun _ => Hord)) as (mu & f & E1 & Emu & _ & pp & Hpp & Hfp).
  pose proof (kept_keys m false _ result G Hc HF ltac:(discriminate)) as Hkk. cbn [andb] in Hkk.
  assert (Hkept : kept m false result = map (fun n => (n, evaluate point n)) (plain m ++ transformed m)).
  { rewrite <- Hkk. unfold dkeys. rewrite map_map. rewrite <- (map_id (kept m false result)) at 1. apply map_ext_in. intros [k a] Hin. cbn [fst]. f_equal.
    apply filter_In in Hin. destruct Hin as [Hin _]. assert (Hkin : In k (dkeys result)) by (apply in_map_iff; exists (k, a); auto).
    pose proof (Hv k Hkin) as E. rewrite (in_dget _ _ _ NDr Hin) in E. congruence. }
  exists mu, f. split; [|split].
  - rewrite Emu, Hkept, map_map. reflexivity.
  - exists pp. split; auto. intros n Hn. rewrite Hpp.
    + apply Hv. rewrite <- Hkk in Hn. unfold dkeys in *. apply in_map_iff in Hn. destruct Hn as (ka & <- & Hin). apply filter_In in Hin. apply in_map. tauto.
    + rewrite laplace_variables_all by auto. cbn. rewrite Hord. exact Hn.
  - cbv zeta. intros Hk1 Hrows.
    assert (Elay : layout_of (kept m false result) = map (fun n => (n, ashape (evaluate point n))) (plain m ++ transformed m)).
    { unfold layout_of. rewrite Hkept, map_map. reflexivity. }
    assert (Emu2 : mu = bij_map (kept m false result)).
    { unfold fit_mvn_to_MAP in E1. cbv zeta in E1. fold (kept m false result) in E1. destruct (negb _); [discriminate|]. destruct (laplace_variables m false); [discriminate|].
      destruct (objective _ _ _ _); cbn [bind] in E1; [|discriminate]. congruence. }
    destruct (C52_laplace_constrained evaluate m lb (lo_include_transformed o) result start (lo_chains o) (lo_draws o) (sampler mu f (Some {| c_what := CHess; c_by := BPytensor |})) G Hne Hc HF)
      as (idata & fit & E2 & Hki & Hdr & Hfit).
    { rewrite Elay. apply Forall_forall. intros [n s] Hin. apply in_map_iff in Hin. destruct Hin as (n' & E & Hin). injection E as <- <-. cbn [fst snd]. auto. }
    { rewrite Elay. exact Hk1. }
    { rewrite Elay. exact Hrows. }
    exists idata, fit. split; [|split; [exact Hki|split]].
    + unfold run, fit_laplace, find_MAP_call. unfold resolve_and_compile in HR.
      destruct (set_optimizer_function_defaults table _ _ _ _) as [[[g h] hp]|]; [|discriminate]. rewrite HR. rewrite HM. cbn [bind]. rewrite Hraw.
      f_equal. cbn [bind fit_mvn_call]. rewrite Hun, E1. cbn [bind].
      assert (Hs : exists kw, scipy_optimize_funcs kwargs' "pytensor" true true false = Ok (Some {| c_what := CLossAndGrad; c_by := BPytensor |}, Some {| c_what := CHess; c_by := BPytensor |}, None, kw)).
      { unfold scipy_optimize_funcs. cbn. destruct (dget kwargs' "mode"%string); cbn; rewrite ?andb_false_r; cbn; eauto. }
      destruct Hs as (kw & Hs). rewrite Hs. cbn [bind fst snd]. rewrite Emu2 at 1. exact E2.
    + rewrite Emu2. assert (Hnd : NoDup (value_vars m)) by (apply value_vars_nodup; auto).
      unfold fit_rows in Hfit. destruct (mapM _ _) as [names|]; cbn [bind] in Hfit; [|discriminate].
      destruct (Nat.eqb_spec (length (concat names)) (length (rdata (bij_map (kept m false result))))) as [El|]; [|discriminate]. injection Hfit as <-.
      apply snd_combine. exact El.
    + intros n Hn. destruct (Hdr n (evaluate point n)) as (d & Hd1 & Hd2).
      { rewrite Hkept. apply in_map_iff. exists n. auto. }
      exists d. split; auto. rewrite <- Elay. exact Hd2.
Qed.

(** return_raw=True never returns anything: every call ends in an error, whatever the model and the other options *)
Theorem C95_return_raw_refuted o kwargs m lb in_context start : lo_return_raw o = true -> is_err (snd (run o kwargs m lb in_context start)) = true.
Proof.
  intros H. unfold run, fit_laplace, find_MAP_call. destruct (set_optimizer_function_defaults _ _ _ _ _) as [[[g h] hp]|]; [|reflexivity].
  destruct (scipy_optimize_funcs _ _ _ _ _) as [[fns kw]|]; [|reflexivity]. cbn [snd]. destruct (find_MAP _ _ _ _ _ _); [|reflexivity]. cbn [bind]. rewrite H. reflexivity.
Qed.
(** fit_in_unconstrained_space=True needs include_transformed=True as soon as one variable has a transform *)
Theorem C95_unconstrained_needs_transformed_refuted o kwargs m lb in_context start v :
  good_names m -> lo_unconstrained o = true -> lo_include_transformed o = false -> In v (free m) -> has_transform v = true -> continuous v = true ->
  is_err (snd (run o kwargs m lb in_context start)) = true.
Proof.
  intros G Hu Hi Hv Ht Hc. unfold run, fit_laplace, find_MAP_call. destruct (set_optimizer_function_defaults _ _ _ _ _) as [[[g h] hp]|]; [|reflexivity].
  destruct (scipy_optimize_funcs _ _ _ _ _) as [[fns kw]|]; [|reflexivity]. cbn [snd]. destruct (find_MAP _ _ _ _ _ _) as [p|] eqn:E; [|reflexivity]. cbn [bind].
  destruct (lo_return_raw o); [reflexivity|]. cbn [fit_mvn_call]. rewrite Hu.
  assert (Hno : ~ In (value_name v) (dkeys p)).
  { rewrite Hi in E. unfold find_MAP in E. cbv zeta in E. destruct (continuous_value_vars m ++ discrete_value_vars m); [discriminate|].
    destruct (minimize _ _ _); cbn [bind] in E; [|discriminate]. destruct (rmap _ _) as [pt|]; cbn [bind] in E; [|discriminate].
    destruct (compile_fn _ _ _ _) as [vals|]; cbn [bind] in E; [|discriminate]. injection E as <-. intros Hin.
    assert (K : forall (l : list (string * arr V)) (acc : dict (arr V)), In (value_name v) (dkeys (fold_left (fun (acc : dict (arr V)) kv => dset acc (fst kv) (snd kv)) l acc)) -> In (value_name v) (dkeys acc) \/ In (value_name v) (map fst l)).
    { clear. induction l as [|[k a] l IH]; intros acc H; cbn in *; auto. destruct (IH _ H) as [H1|H1]; auto. rewrite dkeys_dset in H1. destruct (smem k (dkeys acc)); auto.
      apply in_app_or in H1. destruct H1 as [|[<-|[]]]; auto. }
    destruct (K _ _ Hin) as [[]|H1]. apply in_map_iff in H1. destruct H1 as ((k & aa) & Ek & Hk). cbn in Ek. subst k. apply in_combine_l in Hk.
    unfold get_default_varnames in Hk. apply filter_In in Hk. rewrite (gn_trans m G v Hv Ht) in Hk. destruct Hk; discriminate. }
  unfold fit_mvn_to_MAP. cbv zeta.
  assert (X : forallb (dmem (filter (fun kv => smem (fst kv) (laplace_variables m true)) p)) (laplace_variables m true) = false).
  { apply not_true_is_false. intros A. rewrite forallb_forall in A. specialize (A (value_name v)).
    assert (Hin : In (value_name v) (laplace_variables m true)). { cbn. unfold continuous_value_vars. apply in_map. apply filter_In. auto. }
    specialize (A Hin). unfold dmem in A. destruct (dget _ (value_name v)) eqn:Eg; [|discriminate]. apply dget_in in Eg. apply filter_In in Eg. apply Hno. apply in_map_iff. exists (value_name v, a). tauto. }
  rewrite X. reflexivity.
Qed.
(** Outside a model context every call fails, even with model= given *)
Theorem C95_needs_context_refuted o kwargs m lb start : is_err (snd (run o kwargs m lb false start)) = true.
Proof.
  unfold run, fit_laplace. destruct (find_MAP_call _ _ _ _ _ _ _ _) as [kw r]. cbn [snd]. destruct r as [p|]; [|reflexivity]. cbn [bind].
  destruct (fit_mvn_call _ _ _ _ _) as [[[mu f] h]|]; [|reflexivity]. cbn [bind]. apply C52_laplace_context_refused.
Qed.
(** The caller's compile_kwargs: unchanged, except that a call that gets as far as compiling jax gradients leaves mode="JAX" behind - even when it then fails *)
Theorem C95_compile_kwargs o kwargs m lb in_context start :
  let after := fst (run o kwargs m lb in_context start) in
  (forall k, k <> "mode"%string -> dget after k = dget kwargs k) /\
  (dget after "mode"%string = dget kwargs "mode"%string \/ dget kwargs "mode"%string = None /\ dget after "mode"%string = Some "JAX"%string /\ lo_gradient_backend o = "jax"%string).
Proof.
  cbv zeta. unfold run, fit_laplace, find_MAP_call. destruct (set_optimizer_function_defaults _ _ _ _ _) as [[[g h] hp]|]; [|cbn; auto].
  destruct (scipy_optimize_funcs kwargs (lo_gradient_backend o) g h hp) as [[[[f1 f2] f3] kw]|] eqn:E; [|cbn; auto]. cbn [fst].
  assert (Ha : acceptable kwargs (lo_gradient_backend o) g h hp) by (apply C49_accepts; rewrite E; reflexivity).
  destruct (C49_functions _ _ _ _ _ _ _ _ _ E) as (_ & _ & _ & H1 & H2). split; auto.
  destruct (String.eqb_spec (lo_gradient_backend o) "jax") as [Eb|N]; cbn [andb] in H2; auto.
  destruct g; cbn [andb] in H2; auto. destruct (dget kwargs "mode"%string) as [md|] eqn:Em; auto.
  left. rewrite H2. f_equal. symmetry. destruct Ha as (_ & _ & Ha). apply Ha; auto.
Qed.
(** gradient_backend="jax" does not reach the Hessian of the approximation: whatever the options, a Hessian is only ever taken by PyTensor *)
Theorem C95_hessian_backend_refuted o kwargs m r mu f hess :
  fit_mvn_call fit_loss o kwargs m r = Ok (mu, f, hess) -> hess = Some {| c_what := CHess; c_by := BPytensor |}.
Proof.
  destruct r as [p|p]; cbn [fit_mvn_call]; [|discriminate]. destruct (fit_mvn_to_MAP _ _ _ _) as [[mu' f']|]; cbn [bind]; [|discriminate].
  unfold scipy_optimize_funcs. cbn. destruct (dget kwargs "mode"%string); cbn; rewrite ?andb_false_r; cbn; congruence.
Qed.
End FitLaplace.

(** a run: beta (two cities) and sigma (log-transformed); the optimizer stays at the start; jax gradients, so the caller's dict gains mode="JAX" *)
Definition case_eval (p : dict (arr nat)) (n : string) : arr nat :=
  match dget p n with Some a => a | None => match dget p "sigma_log__"%string with Some a => a | None => {| ashape := []; adata := [0] |} end end.
Definition case_options : lap_options := {| lo_method := "BFGS"; lo_use_grad := None; lo_use_hessp := None; lo_use_hess := None; lo_return_raw := false; lo_include_transformed := true;
  lo_gradient_backend := "jax"; lo_chains := 1; lo_draws := 2; lo_unconstrained := false |}.
Example C95_case :
  fit_laplace [("BFGS"%string, {| uses_grad := true; uses_hess := false; uses_hessp := false |})] (fun _ => 0) (fun _ _ => 0) case_eval (fun _ _ x => x) (fun _ _ _ => [10; 20; 30; 11; 21; 31])
    case_options [] case_model case_labels true [("beta", {| ashape := [2]; adata := [1; 2] |}); ("sigma_log__", {| ashape := []; adata := [3] |})]%string
  = ([("mode", "JAX")]%string,
     Ok ([("beta", (["chain"; "draw"; "city"], {| ashape := [1; 2; 2]; adata := [10; 20; 11; 21] |})); ("sigma", (["chain"; "draw"], {| ashape := [1; 2]; adata := [30; 31] |}))],
         [("beta[a]", 1); ("beta[b]", 2); ("sigma", 3)])%string).
Proof. reflexivity. Qed.

(** * The unconstrained fit *)
Lemma layout_blocks {V} (p : dict (arr V)) (x : list V) : layout_of (combine (dkeys p) (blocks (layout_of p) x)) = layout_of p.
Proof. unfold layout_of, dkeys. revert x. induction p as [|[k a] r IH]; intros x; cbn; auto. f_equal. apply IH. Qed.
Lemma concat_blocks {V} (p : dict (arr V)) (x : list V) : length x = total (layout_of p) ->
  concat (map (fun kv => adata (snd kv)) (combine (dkeys p) (blocks (layout_of p) x))) = x.
Proof.
  intros H. rewrite <- (blocks_partition _ x H) at 2. f_equal. rewrite <- map_map. f_equal. apply snd_combine.
  rewrite blocks_length, <- layout_names, map_length. reflexivity.
Qed.
Section Unconstrained.
Context {V L : Type}.
Context (table : dict method_info) (map_loss : dict (arr V) -> L) (fit_loss : bool -> dict (arr V) -> L) (evaluate : dict (arr V) -> string -> arr V)
  (optimum : functions -> (list V -> res L) -> list V -> list V) (sampler : raveled V -> (list V -> res L) -> option compiled -> list V).
Let run := fit_laplace table map_loss fit_loss evaluate optimum sampler.

(** With include_transformed left at True: the mean vector is the optimizer's final vector, in the model's order whatever that order is, the Hessian is of the loss with
    Jacobian, and every draw of every reported variable is its value at the point that row stands for *)
Theorem C95_unconstrained_fit o kwargs m lb start fns kwargs' shape_of :
  good_names m -> good_start m start -> free m <> [] -> (forall v, In v (free m) -> continuous v = true) ->
  (forall fs f x, length (optimum fs f x) = length x) ->
  (forall x p, length x = total (layout_of start) -> is_point start x p ->
     (forall n, wf (evaluate p n)) /\ forall v, In v (value_vars m) -> dget p v = Some (evaluate p v)) ->
  (forall n, In n (plain m ++ transformed m ++ dets m) -> has_shape evaluate start n (shape_of n) /\ labels_fit lb n (shape_of n)) ->
  Forall (fun p => rows_fit m lb (fst p) (snd p)) (layout_of start) ->
  resolve_and_compile table (lo_method o) (lo_use_grad o) (lo_use_hess o) (lo_use_hessp o) kwargs (lo_gradient_backend o) = Ok (fns, kwargs') ->
  lo_return_raw o = false -> lo_unconstrained o = true -> lo_include_transformed o = true ->
  let k := total (layout_of start) in
  k >= 2 -> lo_chains o >= 2 -> lo_draws o >= 2 ->
  exists f0 x,
    x = optimum fns f0 (concat (map (fun kv => adata (snd kv)) start)) /\
    (forall y, length y = k -> exists p, is_point start y p /\ f0 y = Ok (map_loss p)) /\
    exists mu f, rdata mu = x /\ map (fun i => fst (fst i)) (rinfo mu) = value_vars m /\
      (forall y, length y = k -> exists p, is_point start y p /\ f y = Ok (fit_loss true p)) /\
      let rows := sampler mu f (Some {| c_what := CHess; c_by := BPytensor |}) in
      (length rows = lo_chains o * lo_draws o * k ->
       exists idata fit, run o kwargs m lb true start = (kwargs', Ok (idata, fit)) /\ dkeys idata = plain m ++ transformed m ++ dets m /\ map snd fit = x /\
         forall n, In n (dkeys idata) -> exists a, dget idata n = Some (dims_of lb n, a) /\ draws_at evaluate start rows k (lo_chains o) (lo_draws o) n (shape_of n) a).
Proof.
  intros G GS Hne Hc Hopt Hev0 Hsh Hrf HR Hraw Hun Hinc k Hk2 Hch Hdr. destruct (GS) as [Hks Hnds Hws].
  destruct (C77_find_MAP map_loss evaluate (optimum fns) m start (lo_include_transformed o) GS Hne (gn_nodup m G) Hc (Hopt fns)) as (f0 & x0 & point & result & Hx0 & Hf0 & Hp & HM & Hk & Hv).
  destruct (bij_data_blocks start Hws) as [_ Hlen0]. change (rdata (bij_map start)) with (concat (map (fun kv => adata (snd kv)) start)) in Hlen0. rewrite <- Hx0 in Hlen0.
  exists f0, (optimum fns f0 x0). split; [now rewrite <- Hx0|]. split; [intros y Hy; apply Hf0; rewrite Hlen0; exact Hy|].
  rewrite Hinc in Hk. cbn [get_default_varnames] in Hk.
  assert (Hlx : length (optimum fns f0 x0) = total (layout_of start)) by (rewrite Hopt; exact Hlen0).
  destruct (Hev0 _ _ Hlx Hp) as [Hwf Hev].
  assert (NDr : NoDup (dkeys result)) by (rewrite Hk; apply G).
  assert (HW : all_wf result).
  { intros n a Hin. assert (Hkin : In n (dkeys result)) by (apply in_map_iff; exists (n, a); auto).
    pose proof (Hv n Hkin) as E. rewrite (in_dget _ _ _ NDr Hin) in E. injection E as ->. apply Hwf. }
  assert (HF : from_find_MAP m true result) by (split; auto).
  destruct (C52_laplace_hessian_partial fit_loss m true true result G Hne Hc HF (fun _ => eq_refl) ltac:(discriminate)) as (mu & f & E1 & Emu & Hf & _).
  pose proof (kept_keys m true _ result G Hc HF (fun _ => eq_refl)) as Hkk. cbn in Hkk.
  assert (Hbl : forall v, In v (value_vars m) -> exists b, own_block (layout_of start) (optimum fns f0 x0) v = Some b /\ evaluate point v = b).
  { intros v Hv0. destruct Hp as [Hp1 Hp2]. exists (evaluate point v). split; auto. rewrite <- Hp2. auto. }
  assert (Hkept : kept m true result = combine (dkeys start) (blocks (layout_of start) (optimum fns f0 x0))).
  { assert (E : kept m true result = map (fun n => (n, evaluate point n)) (value_vars m)).
    { rewrite <- Hkk. unfold dkeys. rewrite map_map. rewrite <- (map_id (kept m true result)) at 1. apply map_ext_in. intros [n a] Hin. cbn [fst]. f_equal.
      apply filter_In in Hin. destruct Hin as [Hin _]. assert (Hkin : In n (dkeys result)) by (apply in_map_iff; exists (n, a); auto).
      pose proof (Hv n Hkin) as E. rewrite (in_dget _ _ _ NDr Hin) in E. congruence. }
    rewrite E, Hks.
    assert (E2 : combine (value_vars m) (blocks (layout_of start) (optimum fns f0 x0)) = map (fun n => (n, evaluate point n)) (value_vars m)); [|now rewrite E2].
    assert (Hl : length (blocks (layout_of start) (optimum fns f0 x0)) = length (value_vars m)).
    { rewrite blocks_length, <- Hks, <- layout_names, map_length. reflexivity. }
    assert (Hget : forall v, In v (value_vars m) -> dget (combine (value_vars m) (blocks (layout_of start) (optimum fns f0 x0))) v = Some (evaluate point v)).
    { intros v Hv0. destruct (Hbl v Hv0) as (b & Hb & ->). rewrite <- Hks, <- layout_names. rewrite dget_combine_blocks. exact Hb. }
    revert Hget Hl Hnds. generalize (blocks (layout_of start) (optimum fns f0 x0)), (value_vars m). clear. intros bs vs. revert bs.
    induction vs as [|v vs IH]; intros [|b bs] Hget Hl ND; cbn in *; auto; try discriminate. inversion ND as [|? ? Hni ND']; subst.
    f_equal.
    - specialize (Hget v (or_introl eq_refl)). rewrite String.eqb_refl in Hget. congruence.
    - apply IH; auto. intros w Hw. specialize (Hget w (or_intror Hw)). destruct (String.eqb_spec w v) as [Ewv|]; [subst w; tauto|exact Hget]. }
  assert (Elay : layout_of (kept m true result) = layout_of start).
  { rewrite Hkept. apply layout_blocks; auto. }
  assert (Hdat : rdata mu = optimum fns f0 x0).
  { rewrite Emu, Hkept. apply concat_blocks; auto. }
  assert (Emu2 : mu = bij_map (kept m true result)).
  { unfold fit_mvn_to_MAP in E1. cbv zeta in E1. fold (kept m true result) in E1. destruct (negb _); [discriminate|]. destruct (laplace_variables m true); [discriminate|].
    destruct (objective _ _ _ _); cbn [bind] in E1; [|discriminate]. congruence. }
  exists mu, f. split; [exact Hdat|]. split; [|split].
  - rewrite Emu2. cbn [bij_map rinfo]. rewrite map_map. cbn [fst]. exact Hkk.
  - intros y Hy. destruct (Hf y) as (p & [Hp1 Hp2] & Hfy); [rewrite Hdat, Hlx; exact Hy|]. exists p. split; [|exact Hfy]. split.
    + rewrite Hp1, Hkk, Hks. reflexivity.
    + intros v. rewrite Hp2, Elay. reflexivity.
  - cbv zeta. intros Hrows.
    destruct (C78_fit_rows m lb (kept m true result) (value_vars_nodup m G) (kept_wf m true result HW)) as (fit & Efit & Hsnd & _); [now rewrite Elay|].
    rewrite <- Emu2 in Efit, Hsnd.
    destruct (C52_laplace_unconstrained evaluate m lb start mu (lo_chains o) (lo_draws o) (sampler mu f (Some {| c_what := CHess; c_by := BPytensor |})) shape_of fit G GS Hne) as (idata & E2 & Hki & Hd); auto;
      try (rewrite Hdat, Hlx; auto).
    exists idata, fit. rewrite Hdat, Hlx in Hd. fold k in Hd. split; [|split; [exact Hki|split; [now rewrite Hsnd|exact Hd]]].
    unfold run, fit_laplace, find_MAP_call. unfold resolve_and_compile in HR.
    destruct (set_optimizer_function_defaults table _ _ _ _) as [[[g h] hp]|]; [|discriminate]. rewrite HR. rewrite HM. cbn [bind]. rewrite Hraw.
    f_equal. cbn [bind fit_mvn_call]. rewrite Hun, E1. cbn [bind].
    assert (Hs : exists kw, scipy_optimize_funcs kwargs' "pytensor" true true false = Ok (Some {| c_what := CLossAndGrad; c_by := BPytensor |}, Some {| c_what := CHess; c_by := BPytensor |}, None, kw)).
    { unfold scipy_optimize_funcs. cbn. destruct (dget kwargs' "mode"%string); cbn; rewrite ?andb_false_r; cbn; eauto. }
    destruct Hs as (kw & Hs). rewrite Hs. cbn [bind fst snd]. exact E2.
Qed.
End Unconstrained.

(** the same model as C95_case, two chains of two draws in the unconstrained space *)
Example C95_unconstrained_case :
  let start := [("beta", {| ashape := [2]; adata := [1; 2] |}); ("sigma_log__", {| ashape := []; adata := [3] |})]%string in
  let o := {| lo_method := "BFGS"; lo_use_grad := None; lo_use_hessp := None; lo_use_hess := None; lo_return_raw := false; lo_include_transformed := true;
              lo_gradient_backend := "pytensor"; lo_chains := 2; lo_draws := 2; lo_unconstrained := true |} in
  snd (fit_laplace [("BFGS"%string, {| uses_grad := true; uses_hess := false; uses_hessp := false |})] (fun _ => 0) (fun _ _ => 0) case_eval (fun _ _ x => x)
    (fun _ _ _ => [10; 20; 30; 11; 21; 31; 12; 22; 32; 13; 23; 33]) o [] case_model case_labels true start)
  = Ok ([("beta", (["chain"; "draw"; "city"], {| ashape := [2; 2; 2]; adata := [10; 20; 11; 21; 12; 22; 13; 23] |})); ("sigma", (["chain"; "draw"], {| ashape := [2; 2]; adata := [30; 31; 32; 33] |}))],
        [("beta[a]", 1); ("beta[b]", 2); ("sigma_log__", 3)])%string /\
  good_start case_model start /\ Forall (fun p => rows_fit case_model case_labels (fst p) (snd p)) (layout_of start).
Proof.
  split; [reflexivity|]. split; [split|].
  - reflexivity.
  - repeat constructor; cbn; intuition discriminate.
  - intros k a [E|[E|[]]]; injection E as <- <-; reflexivity.
  - repeat constructor. exists ["a"; "b"]%string. split; reflexivity.
Qed.

(** In the unconstrained space the approximation is not centred at a mode of what it approximates: find_MAP (find_map.py:394) minimizes the loss without the Jacobian term,
    fit_mvn_to_MAP (laplace.py:287) takes the curvature of the loss with it.  Witness: x ~ Gamma(2, 1) with the log transform, y = log x: the losses exp y - y and exp y - 2 y.
    A perfect optimizer returns y = 0, where the density of y still rises. *)
From Coq Require Import Reals Lra.
Section Mode.
Open Scope R_scope.
Definition gamma_model : pmodel := {| free := [{| rv_name := "x"; value_name := "x_log__"; has_transform := true; continuous := true |}]; dets := [] |}%string.
Definition gamma_loss (jacobian : bool) (p : dict (arr R)) : R :=
  match dget p "x_log__"%string with Some {| adata := [y] |} => exp y - (if jacobian then 2 else 1) * y | _ => 0 end.
Definition gamma_eval (p : dict (arr R)) (n : string) : arr R :=
  if String.eqb n "x"%string then match dget p "x_log__"%string with Some {| ashape := s; adata := l |} => {| ashape := s; adata := List.map exp l |} | None => {| ashape := []; adata := [0] |} end
  else match dget p n with Some a => a | None => {| ashape := []; adata := [0] |} end.
Theorem C95_unconstrained_mode_refuted : forall start : R,
  let s := [("x_log__"%string, {| ashape := []; adata := [start] |})] in
  (* 0 is the only minimum of the objective find_MAP hands to the optimizer *)
  (forall y, objective (gamma_loss false) ["x_log__"%string] s [y] = Ok (exp y - y)) /\ (forall y, y <> 0 -> exp 0 - 0 < exp y - y) /\
  exists point mu f v w y,
    find_MAP (gamma_loss false) gamma_eval (fun _ _ => [0]) gamma_model s true = Ok point /\ fit_mvn_to_MAP gamma_loss gamma_model true point = Ok (mu, f) /\
    rdata mu = [0] /\ f (rdata mu) = Ok v /\ f [y] = Ok w /\ w < v.
Proof.
  intros st s. split; [|split].
  - intros y. unfold objective, gamma_loss, s. cbn. f_equal. lra.
  - intros y Hy. rewrite exp_0. pose proof (exp_ineq1 y Hy). lra.
  - do 3 eexists. exists (exp 0 - 2 * 0), (exp (1/2) - 2 * (1/2)), (1/2). split; [reflexivity|]. split; [reflexivity|]. split; [reflexivity|]. split; [reflexivity|]. split; [reflexivity|].
    rewrite exp_0. assert (E : exp (1/2) * exp (1/2) = exp 1) by (rewrite <- exp_plus; f_equal; lra). pose proof exp_le_3. pose proof (exp_pos (1/2)). nra.
Qed.
End Mode.
