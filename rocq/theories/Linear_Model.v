(** Model of pymc_extras/linearmodel.py (build_model, _data_setter) with the prediction methods of
    pymc_extras/model_builder.py (lines 460-676), over the exact reals. *)
From Coq Require Import Reals Lra.
From Verif Require Import Common.
Open Scope R_scope.

(** A DataFrame or 2-d array: rows, each with the same number [p] of columns. *)
Record frame := { rows : list (list R); p : nat }.
(** [.squeeze()]: axes of length one are dropped. *)
Inductive squeezed := Scalar (v : R) | Vector (l : list R) | Matrix.
Definition squeeze (X : frame) : squeezed :=
  match rows X, p X with
  | [[v]], 1%nat => Scalar v
  | rs, 1%nat => Vector (map (fun r => hd 0 r) rs)
  | [r], _ => Vector r
  | _, _ => Matrix
  end.
(** [.squeeze()] of a Series or 1-d array *)
Definition squeeze1 (y : list R) : squeezed := match y with [v] => Scalar v | _ => Vector y end.

(** The two data containers of the PyMC model built by LinearModel *)
Record pmodel := { mx : list R; my : list R }.
(** pymc [set_data] on a vector: another number of axes is a ValueError *)
Definition as_vector (s : squeezed) : res (list R) := match s with Vector l => Ok l | _ => Err ValueError end.

(** One posterior draw of the three parameters *)
Record draw := { intercept : R; slope : R; sigma : R }.

(** The ModelBuilder object: model, [idata.posterior] (chains of draws), [idata.posterior_predictive] *)
Record obj := {
  model : option pmodel;
  post : option (list (list draw));
  pp : option (list (list (list R)));
  model_config : nat; sampler_config : nat   (* the two dicts, by identity *)
}.
Definition with_model (o : obj) (m : pmodel) : obj :=
  {| model := Some m; post := post o; pp := pp o; model_config := model_config o; sampler_config := sampler_config o |}.
Definition with_post (o : obj) (q : list (list draw)) : obj :=
  {| model := model o; post := Some q; pp := None; model_config := model_config o; sampler_config := sampler_config o |}.
Definition with_pp (o : obj) (q : list (list (list R))) : obj :=
  {| model := model o; post := post o; pp := Some q; model_config := model_config o; sampler_config := sampler_config o |}.

(** linearmodel.py:94-98 [_data_setter]; [with self.model] on None raises.  The second component is the object the caller
    is left with. *)
Definition data_setter (o : obj) (X : frame) (y : option (list R)) : res unit * obj :=
  match model o with
  | None => (Err AttributeError, o)
  | Some m =>
      match as_vector (squeeze X) with
      | Err e => (Err e, o)
      | Ok x =>
          let o1 := with_model o {| mx := x; my := my m |} in
          match y with
          | None => (Ok tt, o1)
          | Some y => match as_vector (squeeze1 y) with
                      | Err e => (Err e, o1)
                      | Ok y => (Ok tt, with_model o {| mx := x; my := y |})
                      end
          end
      end
  end.
(** linearmodel.py:48-92 [build_model]: a fresh model with one zero in each container, then the data *)
Definition build_model (o : obj) (X : frame) (y : list R) : res unit * obj :=
  data_setter (with_model o {| mx := [0]; my := [0] |}) X (Some y).
(** model_builder.py:271-312, 460-527: [fit]; [sampler] is whatever pm.sample returns for the model's data.  Containers of
    different lengths cannot be sampled. *)
Definition sample_model (sampler : list R -> list R -> list (list draw)) (o : obj) : res unit * obj :=
  match model o with
  | None => (Err RuntimeError, o)
  | Some m => if Nat.eqb (length (mx m)) (length (my m)) then (Ok tt, with_post o (sampler (mx m) (my m))) else (Err ValueError, o)
  end.
Definition fit (sampler : list R -> list R -> list (list draw)) (o : obj) (X : frame) (y : option (list R)) : res unit * obj :=
  let y := match y with Some y => y | None => repeat 0 (length (rows X)) end in
  match build_model o X y with
  | (Err e, o') => (Err e, o')
  | (Ok _, o') => sample_model sampler o'
  end.

(** The generative equation, linearmodel.py:78-90: y_hat ~ Normal(intercept + slope * x, sigma); [noise] are the standard
    normal numbers used for chain [c], draw [d], entry [i]. *)
Definition y_hat (q : draw) (x : list R) (noise : nat -> R) : list R :=
  map (fun ix => intercept q + slope q * snd ix + sigma q * noise (fst ix)) (combine (seq 0 (length x)) x).
Definition predictive (post : list (list draw)) (x : list R) (noise : nat -> nat -> nat -> R) : list (list (list R)) :=
  map (fun cq => map (fun dq => y_hat (snd dq) x (noise (fst cq) (fst dq))) (combine (seq 0 (length (snd cq))) (snd cq)))
      (combine (seq 0 (length post)) post).
(** model_builder.py:627-657 [sample_posterior_predictive] (chains, draws, rows) *)
Definition sample_posterior_predictive (o : obj) (X : frame) (extend : bool) (noise : nat -> nat -> nat -> R) : res (list (list (list R))) * obj :=
  match data_setter o X None with
  | (Err e, o') => (Err e, o')
  | (Ok _, o') =>
      match model o', post o' with
      | Some m, Some q => let s := predictive q (mx m) noise in (Ok s, if extend then with_pp o' s else o')
      | _, _ => (Err AttributeError, o')
      end
  end.
(** model_builder.py:529-573 [predict]: the mean over chain and draw for every row *)
Definition mean (l : list R) : R := fold_right Rplus 0 l / INR (length l).
Definition predict (o : obj) (X : frame) (extend : bool) (noise : nat -> nat -> nat -> R) : res (list R) * obj :=
  match sample_posterior_predictive o X extend noise with
  | (Err e, o') => (Err e, o')
  | (Ok s, o') => (Ok (map (fun i => mean (map (fun d => nth i d 0) (concat s))) (seq 0 (length (hd [] (hd [] s))))), o')
  end.
(** model_builder.py:698-734 [predict_posterior(combined=True)]: (rows, chains*draws) *)
Definition predict_posterior (o : obj) (X : frame) (extend : bool) (noise : nat -> nat -> nat -> R) : res (list (list R)) * obj :=
  match sample_posterior_predictive o X extend noise with
  | (Err e, o') => (Err e, o')
  | (Ok s, o') => (Ok (map (fun i => map (fun d => nth i d 0) (concat s)) (seq 0 (length (hd [] (hd [] s))))), o')
  end.
(** model_builder.py:575-625 [sample_prior_predictive], its effect on the object (extend_idata=False); the observed data
    become [y_pred], by default zeros. *)
Definition sample_prior_predictive (o : obj) (X : frame) (y : option (list R)) : res unit * obj :=
  let y := match y with Some y => y | None => repeat 0 (length (rows X)) end in
  match model o with
  | None => build_model o X y
  | Some _ => data_setter o X (Some y)
  end.
(** model_builder.py:659-674 *)
Definition get_params (o : obj) : option nat * option nat := (Some (model_config o), Some (sampler_config o)).
Definition set_params (o : obj) (ps : option nat * option nat) : res unit * obj :=
  match fst ps with
  | None => (Err KeyError, o)
  | Some mc =>
      let o1 := {| model := model o; post := post o; pp := pp o; model_config := mc; sampler_config := sampler_config o |} in
      match snd ps with
      | None => (Err KeyError, o1)
      | Some sc => (Ok tt, {| model := model o; post := post o; pp := pp o; model_config := mc; sampler_config := sc |})
      end
  end.
