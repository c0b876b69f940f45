(** C49 (optimizer options), C50 (fit dispatch), C77 (find_MAP optimizes and reports the model's own variables). *)
From Verif Require Import Common Dict.
Import List ListNotations.
From Verif Require Import Flat_Model FindMap_Model Laplace_Model Flat_Props.
Open Scope nat_scope.

(** * C49 *)
(** the options a user can give: yes, no, or leave it to the method *)
Definition wanted (user : option bool) (by_method : bool) : bool := match user with Some b => b | None => by_method end.
(** the whole decision table *)
Theorem C49_resolution table method info g h hp : dget table method = Some info ->
  set_optimizer_function_defaults table method g h hp
  = Ok (wanted g (uses_grad info), wanted h (uses_hess info) && negb (wanted hp (uses_hessp info)), wanted hp (uses_hessp info)).
Proof.
  intros H. unfold set_optimizer_function_defaults, wanted. rewrite H.
  destruct g as [[]|], h as [[]|], hp as [[]|]; destruct info as [[] [] []]; reflexivity.
Qed.
Theorem C49_unknown_method table method g h hp : is_err (set_optimizer_function_defaults table method g h hp) = true <-> ~ In method (dkeys table).
Proof.
  unfold set_optimizer_function_defaults. rewrite <- dget_none. destruct (dget table method); split; intros; cbn in *; congruence.
Qed.
Theorem C49_never_both table method g h hp g' h' hp' : set_optimizer_function_defaults table method g h hp = Ok (g', h', hp') -> h' && hp' = false.
Proof.
  destruct (dget table method) eqn:E; [|unfold set_optimizer_function_defaults; rewrite E; discriminate].
  rewrite (C49_resolution _ _ _ _ _ _ E). intros H. injection H as <- <- <-. destruct (wanted h _), (wanted hp _); reflexivity.
Qed.
(** left alone, a method that cannot use a derivative is not given it *)
Theorem C49_defaults table method info g' h' hp' : dget table method = Some info ->
  set_optimizer_function_defaults table method None None None = Ok (g', h', hp') ->
  (uses_grad info = false -> g' = false) /\ (uses_hess info = false -> h' = false) /\ (uses_hessp info = false -> hp' = false).
Proof.
  intros E. rewrite (C49_resolution _ _ _ _ _ _ E). intros H. injection H as <- <- <-. cbn [wanted].
  repeat split; intros ->; auto.
Qed.

(** what the compiled functions must be *)
Definition is_function (f : option compiled) (asked : bool) (what : computes) (by_ : backend) : Prop :=
  f = if asked then Some {| c_what := what; c_by := by_ |} else None.
(** accepted exactly when: a gradient accompanies every Hessian, the backend exists, and jax gradients are not asked for in another mode *)
Definition acceptable (kwargs : compile_kwargs) (gradient_backend : string) (g h hp : bool) : Prop :=
  (h = true \/ hp = true -> g = true) /\ In gradient_backend ["pytensor"; "jax"]%string /\
  (gradient_backend = "jax"%string -> g = true -> forall m, dget kwargs "mode"%string = Some m -> m = "JAX"%string).
Lemma acceptable_backend kwargs b g h hp : acceptable kwargs b g h hp -> b = "pytensor"%string \/ b = "jax"%string.
Proof. intros (_ & [<-|[<-|[]]] & _); auto. Qed.
Theorem C49_accepts kwargs b g h hp : is_ok (scipy_optimize_funcs kwargs b g h hp) = true <-> acceptable kwargs b g h hp.
Proof.
  unfold scipy_optimize_funcs, acceptable. cbn [smem existsb].
  destruct (String.eqb_spec b "pytensor") as [->|N1]; [|destruct (String.eqb_spec b "jax") as [->|N2]].
  - cbn. destruct g, h, hp; destruct (dget kwargs "mode"%string) as [m|] eqn:E; cbn; rewrite ?andb_false_r; cbn.
    all: split; intros H; try discriminate H; try reflexivity.
    all: try solve [split; [intuition congruence|split; [auto|intros X; discriminate X]]].
    all: destruct H as (H & _); exfalso; assert (X : false = true) by (apply H; auto); discriminate.
  - cbn. destruct g, h, hp; destruct (dget kwargs "mode"%string) as [m|] eqn:E; cbn; rewrite ?andb_false_r, ?andb_true_r; cbn.
    all: try (destruct (String.eqb_spec m "JAX") as [->|N]; cbn).
    all: split; intros H; try discriminate H; try reflexivity.
    all: try solve [split; [intuition congruence|split; [auto|intros X Y m' Hm; congruence]]].
    all: destruct H as (H1 & _ & H3); try solve [exfalso; apply N; apply H3; auto].
    all: exfalso; assert (X : false = true) by (apply H1; auto); discriminate.
  - cbn. split.
    + destruct ((h || hp) && negb g); cbn; discriminate.
    + intros (_ & [E|[E|[]]] & _); congruence.
Qed.
Theorem C49_functions kwargs b g h hp f_loss f_hess f_hessp kwargs' :
  scipy_optimize_funcs kwargs b g h hp = Ok (f_loss, f_hess, f_hessp, kwargs') ->
  let by_ := if String.eqb b "jax" && g then BJax else BPytensor in
  is_function f_loss true (if g then CLossAndGrad else CLoss) by_ /\ is_function f_hess h CHess by_ /\ is_function f_hessp hp CHessp by_ /\
  (forall k, k <> "mode"%string -> dget kwargs' k = dget kwargs k) /\
  dget kwargs' "mode"%string = if String.eqb b "jax" && g then Some "JAX"%string else dget kwargs "mode"%string.
Proof.
  intros H. assert (Ha : acceptable kwargs b g h hp) by (apply C49_accepts; rewrite H; reflexivity).
  revert H. unfold scipy_optimize_funcs, is_function. destruct (acceptable_backend _ _ _ _ _ Ha) as [->| ->]; destruct Ha as (H1 & _ & H3).
  - cbn. destruct g, h, hp; cbn; try (intros X; discriminate X);
      (destruct (dget kwargs "mode"%string) as [m|] eqn:E; cbn; rewrite ?andb_false_r; cbn; intros H; injection H as <- <- <- <-; rewrite ?E; auto 6).
  - destruct g.
    + cbn. rewrite ?andb_false_r. destruct (dget kwargs "mode"%string) as [m|] eqn:E.
      * rewrite (H3 eq_refl eq_refl m eq_refl) in *. destruct h, hp; cbn; intros H; injection H as <- <- <- <-; rewrite ?E; auto 6.
      * destruct h, hp; cbn; intros H; injection H as <- <- <- <-; (repeat split; auto; [intros k Hk; rewrite dget_dset; destruct (String.eqb_spec k "mode"); congruence|
          rewrite dget_dset; reflexivity]).
    + destruct h; [assert (X : false = true) by (apply H1; auto); discriminate|]. destruct hp; [assert (X : false = true) by (apply H1; auto); discriminate|].
      cbn. destruct (dget kwargs "mode"%string) as [m|] eqn:E; cbn; rewrite ?andb_false_r; cbn; intros H; injection H as <- <- <- <-; rewrite ?E; auto 6.
Qed.
(** the two steps of find_MAP together: whatever the user asks, either an error or consistent functions *)
Definition resolve_and_compile table method g h hp kwargs b :=
  match set_optimizer_function_defaults table method g h hp with
  | Ok (g', h', hp') => scipy_optimize_funcs kwargs b g' h' hp'
  | Err e => Err e
  end.
Theorem C49_find_MAP_consistent table method g h hp kwargs b f_loss f_hess f_hessp kwargs' :
  resolve_and_compile table method g h hp kwargs b = Ok (f_loss, f_hess, f_hessp, kwargs') ->
  (f_hess = None \/ f_hessp = None) /\ (f_hess <> None \/ f_hessp <> None -> exists by_, f_loss = Some {| c_what := CLossAndGrad; c_by := by_ |}).
Proof.
  unfold resolve_and_compile. destruct (set_optimizer_function_defaults table method g h hp) as [[[g' h'] hp']|] eqn:E; [|discriminate].
  intros H. pose proof (C49_never_both _ _ _ _ _ _ _ _ E) as Hb.
  assert (Ha : acceptable kwargs b g' h' hp') by (apply C49_accepts; rewrite H; reflexivity).
  destruct (C49_functions _ _ _ _ _ _ _ _ _ H) as (F1 & F2 & F3 & _). unfold is_function in *. destruct Ha as (Ha & _).
  split.
  - destruct h', hp'; cbn in *; auto; discriminate.
  - rewrite F1, F2, F3. destruct h', hp'; try (rewrite Ha by auto; eauto); intros [[]|[]]; auto.
Qed.
(** with nothing specified, every method whose table entry asks for a gradient along with its Hessian is accepted *)
Theorem C49_defaults_accepted table method info : dget table method = Some info -> (uses_hess info = true \/ uses_hessp info = true -> uses_grad info = true) ->
  is_ok (resolve_and_compile table method None None None [] "pytensor") = true.
Proof.
  intros E Hg. unfold resolve_and_compile. rewrite (C49_resolution _ _ _ _ _ _ E). apply C49_accepts. cbn [wanted]. split; [|split].
  - intros [H|H]; apply Hg; [left|right; auto]. apply andb_prop in H. tauto.
  - left; auto.
  - discriminate.
Qed.
(** An explicit request for the Hessian is silently dropped for a method that would use Hessian-vector products by default: the user's choice is not honoured *)
Theorem C49_explicit_hess_refuted : exists table method g h hp g' h' hp',
  set_optimizer_function_defaults table method g (Some h) hp = Ok (g', h', hp') /\ hp = None /\ h' <> h.
Proof.
  exists [("trust-ncg"%string, {| uses_grad := true; uses_hess := true; uses_hessp := true |})], "trust-ncg"%string, None, true, None. repeat eexists. discriminate.
Qed.
Example C49_case : resolve_and_compile [("trust-ncg"%string, {| uses_grad := true; uses_hess := true; uses_hessp := true |})] "trust-ncg" None None None [] "jax"
  = Ok (Some {| c_what := CLossAndGrad; c_by := BJax |}, None, Some {| c_what := CHessp; c_by := BJax |}, [("mode", "JAX")]%string).
Proof. reflexivity. Qed.

(** * C50 *)
Theorem C50_dispatch_partial {K R} (installed : bool) (pathfinder laplace : K -> res R) kwargs :
  fit installed pathfinder laplace "laplace" kwargs = (do r <- laplace kwargs; Ok (Some r)) /\
  (installed = true -> fit installed pathfinder laplace "pathfinder" kwargs = (do r <- pathfinder kwargs; Ok (Some r))) /\
  (installed = false -> fit installed pathfinder laplace "pathfinder" kwargs = Err RuntimeError).
Proof. unfold fit; cbn. repeat split; intros ->; reflexivity. Qed.
(** any other method name: no error and no fit *)
Theorem C50_unknown_method {K R} (installed : bool) (pathfinder laplace : K -> res R) method kwargs :
  method <> "pathfinder"%string -> method <> "laplace"%string -> fit installed pathfinder laplace method kwargs = Ok None.
Proof.
  intros H1 H2. unfold fit. destruct (String.eqb_spec method "pathfinder"); [congruence|]. destruct (String.eqb_spec method "laplace"); congruence.
Qed.
Theorem C50_refuted : ~ forall (K R : Type) (installed : bool) (pathfinder laplace : K -> res R) method kwargs,
  (exists r, fit installed pathfinder laplace method kwargs = Ok (Some r)) \/ is_err (fit installed pathfinder laplace method kwargs) = true.
Proof.
  intros H. specialize (H unit unit true (fun _ => Ok tt) (fun _ => Ok tt) "advi"%string tt). cbn in H. destruct H as [[r H]|H]; discriminate.
Qed.

(** * C77 *)
Section FindMAP.
Context {V L : Type} (loss : dict (arr V) -> L) (evaluate : dict (arr V) -> string -> arr V) (optimum : (list V -> res L) -> list V -> list V).
(** the initial point holds one well-formed value per value variable, in the model's order (PyMC builds it that way), and names are unique *)
Record good_start (m : pmodel) (start : dict (arr V)) : Prop := {
  gs_keys : dkeys start = value_vars m;
  gs_nodup : NoDup (value_vars m);
  gs_wf : all_wf start }.
(** the point a flat vector stands for *)
Definition is_point (start : dict (arr V)) (x : list V) (point : dict (arr V)) : Prop :=
  dkeys point = dkeys start /\ forall v, dget point v = own_block (layout_of start) x v.

Lemma keys_combine (l : list string) (r : list (arr V)) : length r = length l -> map fst (combine l r) = l.
Proof. revert r. induction l; destruct r; cbn; intros H; auto; try discriminate. f_equal. auto. Qed.
Lemma point_of start x : is_point start x (combine (dkeys start) (blocks (layout_of start) x)).
Proof.
  split.
  - apply keys_combine. rewrite blocks_length, <- layout_names, map_length. reflexivity.
  - intros v. rewrite <- layout_names. apply dget_combine_blocks.
Qed.
Lemma layout_found (start : dict (arr V)) : NoDup (dkeys start) -> Forall (fun p => exists a, dget start (fst p) = Some a /\ ashape a = snd p) (layout_of start).
Proof.
  intros ND. apply Forall_forall. intros [n s] H. unfold layout_of in H. apply in_map_iff in H. destruct H as ((k & a) & E & Hin). injection E as <- <-.
  exists a. split; auto. apply in_dget; auto.
Qed.
Lemma filter_all {A} (f : A -> bool) l : (forall x, In x l -> f x = true) -> filter f l = l.
Proof. induction l as [|x l IH]; cbn; intros H; auto. rewrite (H x) by auto. f_equal. auto. Qed.
Lemma filter_none {A} (f : A -> bool) l : (forall x, In x l -> f x = false) -> filter f l = [].
Proof. induction l as [|x l IH]; cbn; intros H; auto. rewrite (H x) by auto. auto. Qed.

(** names a call returns: all unobserved variables, minus the transformed value variables unless they are asked for *)
Theorem C77_find_MAP m start include_transformed :
  good_start m start -> free m <> [] -> NoDup (unobserved_value_vars m) -> (forall v, In v (free m) -> continuous v = true) ->
  (forall f x, length (optimum f x) = length x) ->
  exists f x0 point result,
    (* the optimizer is started at the initial point *)
    x0 = concat (map (fun kv => adata (snd kv)) start) /\
    (* with the model's loss: x is read variable by variable, each its own block *)
    (forall x, length x = length x0 -> exists p, is_point start x p /\ f x = Ok (loss p)) /\
    (* the answer is evaluated at the optimizer's final point, read the same way *)
    is_point start (optimum f x0) point /\
    find_MAP loss evaluate optimum m start include_transformed = Ok result /\
    dkeys result = get_default_varnames (unobserved_value_vars m) include_transformed /\
    (forall n, In n (dkeys result) -> dget result n = Some (evaluate point n)).
Proof.
  intros [Hk Hnd Hw] Hne Hndu Hc Hopt.
  set (inputs := continuous_value_vars m ++ discrete_value_vars m).
  assert (Ei : inputs = dkeys start).
  { unfold inputs, continuous_value_vars, discrete_value_vars. rewrite filter_all by auto. rewrite filter_none by (intros v Hv; rewrite Hc; auto).
    rewrite app_nil_r. symmetry. exact Hk. }
  assert (Ec : continuous_value_vars m = dkeys start). { unfold continuous_value_vars. rewrite filter_all by auto. symmetry; exact Hk. }
  assert (ND : NoDup (dkeys start)) by (rewrite Hk; auto).
  assert (Ef : filter (fun kv => smem (fst kv) (continuous_value_vars m)) start = start).
  { apply filter_all. intros [k a] Hin. apply smem_in. rewrite Ec. apply in_map_iff. exists (k, a). auto. }
  assert (Hne' : inputs <> []). { rewrite Ei, Hk. unfold value_vars. destruct (free m); [congruence|discriminate]. }
  destruct (bij_data_blocks start Hw) as [_ Hlen].
  set (f := objective loss inputs start). set (x0 := rdata (bij_map start)).
  exists f, x0, (combine (dkeys start) (blocks (layout_of start) (optimum f x0))).
  assert (Hf : forall x, length x = length x0 -> f x = Ok (loss (combine (dkeys start) (blocks (layout_of start) x)))).
  { intros x Hx. unfold f, objective, split_joined. destruct inputs as [|i is_] eqn:Einp; [congruence|]. rewrite <- Einp in *. rewrite Ei, <- layout_names.
    rewrite (split_from_ok start x (layout_of start) 0) by (first [apply layout_found; auto|cbn; unfold x0 in Hx; lia]). reflexivity. }
  set (names := get_default_varnames (unobserved_value_vars m) include_transformed).
  assert (NDn : NoDup names). { unfold names, get_default_varnames. destruct include_transformed; auto. apply NoDup_filter; auto. }
  assert (Hlo : length (optimum f x0) = total (layout_of start)) by (rewrite Hopt; exact Hlen).
  exists (combine names (map (evaluate (combine (dkeys start) (blocks (layout_of start) (optimum f x0)))) names)).
  assert (K : dkeys (combine names (map (evaluate (combine (dkeys start) (blocks (layout_of start) (optimum f x0)))) names)) = names).
  { unfold dkeys. apply keys_combine. apply map_length. }
  split; [reflexivity|]. split; [|split; [apply point_of|split; [|split]]].
  - intros x Hx. eexists. split; [apply point_of|]. auto.
  - unfold find_MAP. cbv zeta. rewrite Ef. fold inputs. fold f x0.
    destruct inputs as [|i is_] eqn:Einp; [congruence|]. rewrite <- Einp in *.
    unfold minimize. rewrite Hf by auto. cbn [bind]. rewrite rmap_ok by auto. cbn [bind].
    rewrite dupdate_nil_l by (destruct (point_of start (optimum f x0)) as [-> _]; exact ND).
    unfold compile_fn. fold names.
    assert (Hall : forallb (dmem (combine (dkeys start) (blocks (layout_of start) (optimum f x0)))) (value_vars m) = true).
    { apply forallb_forall. intros v Hv. unfold dmem. destruct (point_of start (optimum f x0)) as [_ Hp]. rewrite Hp.
      rewrite <- Hk, <- layout_names in Hv. apply (own_block_some _ (optimum f x0)) in Hv. destruct (own_block _ _ v); congruence. }
    rewrite Hall. cbn [bind]. f_equal. apply (dupdate_nil_l (combine names (map (evaluate (combine (dkeys start) (blocks (layout_of start) (optimum f x0)))) names))).
    rewrite K. exact NDn.
  - exact K.
  - rewrite K. intros n Hn. apply in_dget; [rewrite K; auto|]. apply in_split in Hn. destruct Hn as (l1 & l2 & E). rewrite E.
    rewrite map_app. cbn [map]. clear. induction l1; cbn; auto.
Qed.
(** A model with a discrete variable is always refused, with an error *)
Lemma rmap_from_keys (x : list V) info : forall b result p, rmap_from b x info result = Ok p -> forall k, In k (dkeys p) -> In k (dkeys result) \/ In k (map (fun i => fst (fst i)) info).
Proof.
  induction info as [|[[n s] z] r IH]; intros b result p; cbn [rmap_from map fst].
  - intros H. injection H as <-. auto.
  - destruct (reshape _ s) as [a|] eqn:E; cbn [bind]; [|discriminate]. intros H k Hk. destruct (IH _ _ _ H k Hk) as [Hin|Hin]; [|right; right; auto].
    rewrite dkeys_dset in Hin. destruct (smem n (dkeys result)); [left; auto|]. apply in_app_or in Hin. destruct Hin as [|[<-|[]]]; auto. right; left; auto.
Qed.
Lemma NoDup_map_inj {A B} (f : A -> B) l x y : NoDup (map f l) -> In x l -> In y l -> f x = f y -> x = y.
Proof.
  induction l as [|z l IH]; cbn; [intros _ []|]. intros ND Hx Hy E. inversion ND; subst. destruct Hx as [->|Hx], Hy as [->|Hy]; auto.
  - exfalso. apply H1. rewrite E. now apply in_map.
  - exfalso. apply H1. rewrite <- E. now apply in_map.
Qed.
Theorem C77_discrete_refused m start include_transformed v :
  good_start m start -> In v (free m) -> continuous v = false ->
  is_err (find_MAP loss evaluate optimum m start include_transformed) = true.
Proof.
  intros [Hk Hnd Hw] Hv Hd. unfold find_MAP. cbv zeta. destruct (continuous_value_vars m ++ discrete_value_vars m); [reflexivity|].
  destruct (minimize _ _ _) as [x|]; [|reflexivity]. cbn [bind]. destruct (rmap _ []) as [point|] eqn:E; [|reflexivity]. cbn [bind].
  assert (Hno : ~ In (value_name v) (dkeys point)).
  { intros Hin. unfold rmap in E. destruct (rmap_from_keys _ _ _ _ _ E _ Hin) as [[]|H]. cbn [rinfo bij_map] in H. rewrite map_map in H.
    apply in_map_iff in H. destruct H as ((k & a) & Ek & Hf). cbn [fst] in Ek. subst k. apply filter_In in Hf. destruct Hf as [_ Hc]. apply smem_in in Hc. cbn [fst] in Hc.
    unfold continuous_value_vars in Hc. apply in_map_iff in Hc. destruct Hc as (w & Ew & Hw'). apply filter_In in Hw'. destruct Hw' as [Hw1 Hw2].
    assert (w = v) by (eapply (NoDup_map_inj value_name); eauto). congruence. }
  unfold compile_fn. destruct (forallb (dmem point) (value_vars m)) eqn:Ea; [|reflexivity].
  exfalso. rewrite forallb_forall in Ea. specialize (Ea (value_name v)). apply dget_none in Hno. unfold dmem in Ea. rewrite Hno in Ea.
  discriminate Ea. unfold value_vars. now apply in_map.
Qed.
End FindMAP.
(** a model with two variables, the first transformed *)
Definition two_vars : pmodel := {| free := [{| rv_name := "sigma"; value_name := "sigma_log__"; has_transform := true; continuous := true |};
                                            {| rv_name := "mu"; value_name := "mu"; has_transform := false; continuous := true |}]; dets := ["total"%string] |}%string.
Definition two_start : dict (arr nat) := [("sigma_log__", {| ashape := []; adata := [7] |}); ("mu", {| ashape := [2]; adata := [4; 5] |})]%string.
Example C77_case : good_start two_vars two_start /\ NoDup (unobserved_value_vars two_vars) /\ get_default_varnames (unobserved_value_vars two_vars) false = ["mu"; "sigma"; "total"]%string.
Proof.
  split; [split|split].
  - reflexivity.
  - repeat constructor; cbn; intuition discriminate.
  - intros k a [E|[E|[]]]; injection E as <- <-; reflexivity.
  - repeat constructor; cbn; intuition discriminate.
  - reflexivity.
Qed.
