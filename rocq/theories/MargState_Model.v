(** Model of the mutable state of [MarginalModel].
    Source: /repo/pymc_extras/model/marginal/marginal_model.py (lines 88-112, 207-289, 312-320, 372-380,
    420-426, 479-484, 511-540).
    Dictionaries that may be shared between models live in a heap, so that aliasing is visible.  Variables
    are identified by their name within one model (PyMC names are unique per model); clones hold
    fresh variables with the same names.  Variables of another model passed as objects are not modelled. *)
From Verif Require Import Common.

Definition name := nat.
Definition dimnames := list nat.
(** a Python dict from names to dims; insertion order is not modelled *)
Definition dict := name -> option dimnames.
Definition d_set (d : dict) (n : name) (v : option dimnames) : dict := fun k => if Nat.eqb k n then v else d k.

(** The heap of the two kinds of dictionaries that [from_model] copies by reference. *)
Definition heap := nat -> dict.
Definition h_set (h : heap) (a : nat) (d : dict) : heap := fun k => if Nat.eqb k a then d else h k.

(** One model: lists of variables in registration order; [others]: named variables that are not random
    (deterministics, data...); [nvd]: address of [named_vars_to_dims]; [mnvd]: address of
    [_marginalized_named_vars_to_dims]; [initvals]: user initial values, [transforms]: 0 = PyMC's default. *)
Record mmodel := {
  free : list name; observed : list name; others : list name; marged : list name;
  nvd : nat; mnvd : nat;
  initvals : name -> option nat; transforms : name -> nat;
}.

(** What is fixed by the graph and not by the bookkeeping: [unsupported n] = exception class raised by the
    per-variable distribution check for [n] (lines 272-284), [final_check m] = exception raised by
    [self.clone()._marginalize(user_warnings=True)] (line 294), which works on fresh objects and, because
    [old_rv in self.named_vars_to_dims] compares a variable with strings (line 121), never
    touches the shared dictionaries; [recoverable n]: distribution is supported by recover_marginals. *)
Record world := {
  unsupported : name -> option exn;
  final_check : mmodel -> option exn;
  recoverable : name -> bool;
}.

(** An argument: a name, or the model's variable of that name. *)
Inductive ref := ByName (n : name) | ByVar (n : name).
Definition ref_name (r : ref) : name := match r with ByName n | ByVar n => n end.

Definition mem (n : name) (l : list name) : bool := existsb (Nat.eqb n) l.
Fixpoint remove_first (n : name) (l : list name) : list name :=
  match l with [] => [] | x :: l' => if Nat.eqb x n then l' else x :: remove_first n l' end.

(** keys of [named_vars] *)
Definition named (m : mmodel) (n : name) : bool := mem n (free m) || mem n (observed m) || mem n (others m).

(** [self[var]] for a str: KeyError unless in [named_vars]; lines 263-265 *)
Definition resolve (m : mmodel) (r : ref) : res name :=
  match r with
  | ByName n => if named m n then Ok n else Err KeyError
  | ByVar n => Ok n
  end.
Fixpoint resolve_all (m : mmodel) (rs : list ref) : res (list name) :=
  match rs with
  | [] => Ok []
  | r :: rs' => do n <- resolve m r; do ns <- resolve_all m rs'; Ok (n :: ns)
  end.

(** lines 88-112 [_delete_rv_mappings] for a free variable *)
Definition delete_rv (h : heap) (m : mmodel) (n : name) : heap * mmodel :=
  (h_set h (nvd m) (d_set (h (nvd m)) n None),
   {| free := remove_first n (free m); observed := observed m; others := others m; marged := marged m;
      nvd := nvd m; mnvd := mnvd m;
      initvals := fun k => if Nat.eqb k n then None else initvals m k;
      transforms := fun k => if Nat.eqb k n then 0 else transforms m k |}).

(** lines 267-291: the loop body; the state is returned also when an exception is raised *)
Fixpoint marginalize_loop (w : world) (h : heap) (m : mmodel) (ns : list name) : heap * mmodel * option exn :=
  match ns with
  | [] => (h, m, None)
  | n :: ns' =>
      if negb (mem n (free m)) then (h, m, Some ValueError)
      else match unsupported w n with
      | Some e => (h, m, Some e)
      | None =>
          let h1 := match h (nvd m) n with
                    | Some d => h_set h (mnvd m) (d_set (h (mnvd m)) n (Some d))
                    | None => h end in
          let '(h2, m2) := delete_rv h1 m n in
          let m3 := {| free := free m2; observed := observed m2; others := others m2; marged := marged m2 ++ [n];
                       nvd := nvd m2; mnvd := mnvd m2; initvals := initvals m2; transforms := transforms m2 |} in
          marginalize_loop w h2 m3 ns'
      end
  end.

(** lines 256-294 [MarginalModel.marginalize] *)
Definition marginalize (w : world) (h : heap) (m : mmodel) (rs : list ref) : heap * mmodel * option exn :=
  match resolve_all m rs with
  | Err e => (h, m, Some e)
  | Ok ns =>
      match marginalize_loop w h m ns with
      | (h', m', None) => (h', m', final_check w m')
      | r => r
      end
  end.

(** lines 315-320 and PyMC's [Model.register_rv] (free variable, no observed, default transform, no
    initval): append to free_RVs, then [add_named_variable] (ValueError if the name exists). *)
Definition register (h : heap) (m : mmodel) (n : name) (d : option dimnames) : heap * mmodel * option exn :=
  let m' := {| free := free m ++ [n]; observed := observed m; others := others m; marged := marged m;
               nvd := nvd m; mnvd := mnvd m;
               initvals := fun k => if Nat.eqb k n then None else initvals m k;
               transforms := fun k => if Nat.eqb k n then 0 else transforms m k |} in
  if named m n then (h, m', Some ValueError)
  else (match d with Some x => h_set h (nvd m) (d_set (h (nvd m)) n (Some x)) | None => h end, m', None).

(** lines 311-320 [MarginalModel.unmarginalize] *)
Fixpoint unmarginalize (h : heap) (m : mmodel) (rs : list ref) : heap * mmodel * option exn :=
  match rs with
  | [] => (h, m, None)
  | r :: rs' =>
      match resolve m r with
      | Err e => (h, m, Some e)
      | Ok n =>
          if negb (mem n (marged m)) then (h, m, Some ValueError)   (* list.remove(x): x not in list *)
          else
            let d := h (mnvd m) n in
            let h1 := h_set h (mnvd m) (d_set (h (mnvd m)) n None) in
            let m1 := {| free := free m; observed := observed m; others := others m;
                         marged := remove_first n (marged m); nvd := nvd m; mnvd := mnvd m;
                         initvals := initvals m; transforms := transforms m |} in
            match register h1 m1 n d with
            | (h2, m2, None) => unmarginalize h2 m2 rs'
            | r => r
            end
      end
  end.

(** lines 218-251 [from_model] of a MarginalModel: the variable lists are fresh, the two dims dictionaries
    are THE SAME OBJECTS (lines 237, 250).  For a plain [Model] the marginalized dictionary is a
    new empty one at address [fresh]. *)
Definition from_marginal (m : mmodel) : mmodel := m.
Definition from_plain (h : heap) (m : mmodel) (fresh : nat) : heap * mmodel :=
  (h_set h fresh (fun _ => None),
   {| free := free m; observed := observed m; others := others m; marged := [];
      nvd := nvd m; mnvd := fresh; initvals := initvals m; transforms := transforms m |}).

(** lines 511-540: the function [marginalize(model, rvs)] on a plain Model; variables are converted to
    names first (line 536).  Returns heap and the new model. *)
Definition fmarginalize (w : world) (h : heap) (m : mmodel) (fresh : nat) (rs : list ref) : heap * mmodel * option exn :=
  let '(h1, m1) := from_plain h m fresh in
  marginalize w h1 m1 (map (fun r => ByName (ref_name r)) rs).

(** lines 372-484 [recover_marginals]: the effect on models.  [var_names = None] means all.  Returns the
    names recovered, with the dims attached to each. *)
Fixpoint recover_loop (w : world) (h : heap) (m : mmodel) (vs : list name)
  : heap * res (list (name * option dimnames)) :=
  match vs with
  | [] => (h, Ok [])
  | n :: vs' =>
      if negb (recoverable w n) then (h, Err NotImplementedError)
      else
        match unmarginalize h (from_marginal m) [ByVar n] with
        | (h1, m1, None) =>
            match recover_loop w h1 m vs' with
            | (h2, Ok l) => (h2, Ok ((n, h1 (nvd m1) n) :: l))
            | (h2, Err e) => (h2, Err e)
            end
        | (h1, _, Some e) => (h1, Err e)
        end
  end.
Definition recover_marginals (w : world) (h : heap) (m : mmodel) (var_names : option (list name))
  : heap * res (list (name * option dimnames)) :=
  let names := match var_names with None => marged m | Some l => l end in
  let vars_to_recover := filter (fun v => mem v names) (marged m) in
  (* lines 377-379: names of vars_to_recover that are not marginalized *)
  let missing := filter (fun v => negb (mem v (marged m))) vars_to_recover in
  match missing with
  | _ :: _ => (h, Err ValueError)
  | [] => recover_loop w h m vars_to_recover
  end.

(** Histories of one model *)
Inductive call := CMarg (rs : list ref) | CUnmarg (rs : list ref).
Definition do_call (w : world) (s : heap * mmodel) (c : call) : heap * mmodel * option exn :=
  match c with
  | CMarg rs => marginalize w (fst s) (snd s) rs
  | CUnmarg rs => unmarginalize (fst s) (snd s) rs
  end.
Definition run (w : world) (s : heap * mmodel) (cs : list call) : heap * mmodel :=
  fold_left (fun s c => fst (do_call w s c)) cs s.
