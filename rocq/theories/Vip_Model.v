(** Model of pymc_extras/model/transforms/autoreparam.py: the VIP reparametrization and its lambdas.

    Real arithmetic, with infinities and NaN for the logits.  A model is a list of scalar variables in topological order, each a function of the earlier
    ones and of its own standard noise; arrays of independent entries are lists of such scalars.  The graph surgery (fgraph_from_model,
    toposort_replace, model_from_fgraph) is taken to replace each variable by the expression built here. *)
From Verif Require Import Common Dict.
Import List ListNotations.
From Verif Require Import Repr_Model.
From Coq Require Import Reals.
Open Scope R_scope.

(** ** the reparametrized variables *)
(** scale ** lam *)
Definition powr (scale lam : R) : R := Rpower scale lam.
(** a variable of the model: its parameters are functions of the earlier variables *)
Inductive node :=
| Normal (loc scale : list R -> R)
| Exponential (scale : list R -> R)
| Other (f : list R -> R -> R). (* any other variable, as a function of the earlier variables and of its noise *)
(** pm.Normal.dist(loc, scale), pm.Exponential.dist(scale=scale) as functions of standard noise *)
Definition normal_rv (loc scale noise : R) : R := loc + scale * noise.
Definition exponential_rv (scale noise : R) : R := scale * noise.
Definition draw (n : node) (earlier : list R) (noise : R) : R :=
  match n with
  | Normal l s => normal_rv (l earlier) (s earlier) noise
  | Exponential s => exponential_rv (s earlier) noise
  | Other f => f earlier noise
  end.
(** _vip_reparam_node for Normal, autoreparam.py:232-268: the new free variable ::tau_ and the deterministic variable that replaces the old one *)
Definition vip_normal_tau (loc scale lam noise : R) : R := normal_rv (lam * loc) (powr scale lam) noise.
Definition vip_normal (loc scale lam tau : R) : R := loc + powr scale (1 - lam) * (tau - lam * loc).
(** the same for Exponential, :271-306 *)
Definition vip_exponential_tau (scale lam noise : R) : R := exponential_rv (powr scale lam) noise.
Definition vip_exponential (scale lam tau : R) : R := powr scale (1 - lam) * tau.
(** the reparametrized node as a function of its noise *)
Definition vip_draw (n : node) (lam : R) (earlier : list R) (noise : R) : res R :=
  match n with
  | Normal l s => Ok (vip_normal (l earlier) (s earlier) lam (vip_normal_tau (l earlier) (s earlier) lam noise))
  | Exponential s => Ok (vip_exponential (s earlier) lam (vip_exponential_tau (s earlier) lam noise))
  | Other _ => Err NotImplementedError
  end.
(** the values of all variables, given the noise; the earlier variables are passed oldest first *)
Fixpoint sample (m : list node) (noise : list R) (earlier : list R) : list R :=
  match m, noise with
  | n :: m', z :: noise' => let x := draw n earlier z in x :: sample m' noise' (earlier ++ [x])
  | _, _ => []
  end.
(** vip_reparametrize, :310-443: lams gives the lambda of the variables in var_names, None for the others *)
Fixpoint vip_sample (m : list node) (lams : list (option R)) (noise : list R) (earlier : list R) : res (list R) :=
  match m, lams, noise with
  | n :: m', l :: lams', z :: noise' =>
      do x <- match l with Some lam => vip_draw n lam earlier z | None => Ok (draw n earlier z) end;
      do r <- vip_sample m' lams' noise' (earlier ++ [x]); Ok (x :: r)
  | _, _, _ => Ok []
  end.

(** ** class VIP, autoreparam.py:33-190 *)
Inductive er := Fin (r : R) | PInf | MInf | NaN.
(** scipy.special.expit and logit *)
Definition expit (x : er) : er := match x with Fin r => Fin (/ (1 + exp (- r))) | PInf => Fin 1 | MInf => Fin 0 | NaN => NaN end.
Definition logit (x : er) : er :=
  match x with
  | Fin p => if Rlt_dec p 0 then NaN else if Req_EM_T p 0 then MInf else if Rlt_dec p 1 then Fin (ln (p / (1 - p))) else if Req_EM_T p 1 then PInf else NaN
  | _ => NaN
  end.
Definition er_lt (x y : er) : bool := match x, y with Fin a, Fin b => if Rlt_dec a b then true else false | _, _ => false end.
(** an array: shape and entries *)
Record arr := { ash : list nat; aval : list nat -> er }.
Definition state := dict arr. (* _logit_lambda *)
Definition scalar (r : R) : arr := {| ash := []; aval := fun _ => Fin r |}.
(** get_lambda, :121-132 *)
Definition get_lambda (st : state) : dict arr := map (fun kv => (fst kv, {| ash := ash (snd kv); aval := fun i => expit (aval (snd kv) i) |})) st.
(** np.broadcast_to(v, shape) *)
Definition broadcast_to (v : arr) (sh : list nat) : res arr :=
  if (Nat.leb (length (ash v)) (length sh) && bcast_ok (ash v) sh)%bool then Ok {| ash := sh; aval := fun i => aval v (bcast_idx (ash v) sh i) |} else Err ValueError.
(** set_lambda, :134-143: the new state and the exception raised, if any; the variables set before it keep their new values *)
Fixpoint set_lambda (st : state) (kwargs : dict arr) : state * option exn :=
  match kwargs with
  | [] => (st, None)
  | (key, value) :: rest =>
      match dget st key with
      | None => (st, Some KeyError)
      | Some shared =>
          match broadcast_to {| ash := ash value; aval := fun i => logit (aval value i) |} (ash shared) with
          | Err e => (st, Some e)
          | Ok fill => set_lambda (dset st key fill) rest
          end
      end
  end.
(** set_all_lambda, :145-151 *)
Definition set_all_lambda (st : state) (value : arr) : state * option exn := set_lambda st (map (fun kv => (fst kv, value)) st).
(** np.piecewise(lam, [lam < eps, lam > 1 - eps], [0, 1, identity]): where both hold the second one counts *)
Definition piecewise (eps : R) (lam : er) : er :=
  if er_lt (Fin (1 - eps)) lam then Fin 1 else if er_lt lam (Fin eps) then Fin 0 else lam.
(** truncate_lambda, :64-95 *)
Fixpoint truncate_update (lambdas : dict arr) (kwargs : dict R) : res (dict arr) :=
  match kwargs with
  | [] => Ok []
  | (var, eps) :: rest =>
      match dget lambdas var with
      | None => Err KeyError
      | Some lam => do u <- truncate_update lambdas rest; Ok ((var, {| ash := ash lam; aval := fun i => piecewise eps (aval lam i) |}) :: u)
      end
  end.
Definition truncate_lambda (st : state) (kwargs : dict R) : state * option exn :=
  match truncate_update (get_lambda st) kwargs with Err e => (st, Some e) | Ok u => set_lambda st u end.
(** truncate_all_lambda, :97-119 *)
Definition truncate_all_lambda (st : state) (eps : R) : state * option exn := truncate_lambda st (map (fun kv => (fst kv, eps)) st).
(** the calls a user can make, one after another *)
Inductive call := Set_ (kwargs : dict arr) | SetAll (value : arr) | Truncate (kwargs : dict R) | TruncateAll (eps : R).
Definition run1 (st : state) (c : call) : state :=
  fst (match c with Set_ k => set_lambda st k | SetAll v => set_all_lambda st v | Truncate k => truncate_lambda st k | TruncateAll e => truncate_all_lambda st e end).
Definition run (st : state) (cs : list call) : state := fold_left run1 cs st.
