(** Model of pymc_extras/model/model_api.py (as_model) and pymc_extras/printing.py.

    Not modelled: the rendering of expressions by pymc (str_for_dist, ...), rich's table layout. *)
From Coq Require Import Ascii.
From Verif Require Import Common Dict.
Import List ListNotations.
Open Scope nat_scope.

(** ** as_model, model_api.py:44-56 *)

(** model_kwargs is one dict shared by all calls of the decorated function (and by all functions decorated with the same
    decorator object); here only its "coords" entry matters.  A call may bring its own coords.  The body:
    coords = model_kwargs.pop("coords", {}) | kwargs.pop("coords", {}).  The result is the coords of the model built and
    what is left in model_kwargs. *)
Definition call {V} (stored : option (dict V)) (own : option (dict V)) : dict V * option (dict V) :=
  (dupdate (match stored with Some c => c | None => [] end) (match own with Some c => c | None => [] end), None).
Fixpoint calls {V} (stored : option (dict V)) (owns : list (option (dict V))) : list (dict V) :=
  match owns with
  | [] => []
  | o :: r => let '(c, stored') := call stored o in c :: calls stored' r
  end.

(** ** printing.py *)
Definition str := list ascii.
Definition comma : ascii := ","%char.
Definition space : ascii := " "%char.
Definition s_ (x : string) : str := list_ascii_of_string x.

(** s.split(", ") *)
Fixpoint split_from (acc s : str) : list str :=
  match s with
  | [] => [rev acc]
  | c :: r => match r with
              | c2 :: r2 => if Ascii.eqb c comma && Ascii.eqb c2 space then rev acc :: split_from [] r2 else split_from (c :: acc) r
              | [] => [rev (c :: acc)]
              end
  end.
Definition split (s : str) : list str := split_from [] s.
(** ", ".join(l) *)
Fixpoint join (l : list str) : str :=
  match l with [] => [] | [x] => x | x :: r => x ++ comma :: space :: join r end.

(** The loop of printing.py:26-30: the value of show_n after it (contents is never empty). *)
Fixpoint show_n (limit str_len n : nat) (contents : list str) : nat :=
  match contents with
  | [] => n - 1
  | c :: r => let str_len' := str_len + (length c + 2) in
              if limit <? str_len' then n else show_n limit str_len' (n + 1) r
  end.
(** the deterministic branch of variable_expression, printing.py:24-31; [expr] is "f(...)" *)
Definition truncate_expr (limit : option nat) (expr : str) : str :=
  match limit with
  | None => expr
  | Some t => if t <? length expr
              then let contents := split (removelast (skipn 2 expr)) in
                   s_ "f(" ++ join (firstn (show_n t 0 0 contents) contents) ++ s_ ", ...)"
              else expr
  end.

(** dims_expression, printing.py:48-50, for a variable with dims: the dict {dim: size} as a list.  A dim may be None (an
    unnamed axis); model.dim_lengths[None] raises KeyError. *)
Fixpoint dims_pairs (lengths : string -> option nat) (dims : list (option string)) (acc : dict nat) : res (dict nat) :=
  match dims with
  | [] => Ok acc
  | None :: _ => Err KeyError
  | Some d :: r => match lengths d with None => Err KeyError | Some n => dims_pairs lengths r (dset acc d n) end
  end.

(** model_parameter_count, printing.py:56-59: [shapes] of the free variables (after transformation) *)
Definition parameter_count (shapes : list (list nat)) : nat := fold_right Nat.add 0 (map (fold_right Nat.mul 1) shapes).

(** model_table, printing.py:151-182: the rows.  Variables are identified by name. *)
Inductive row := VarRow (name : string) (random : bool) | CountRow (n : nat) | Section.
Record model := Model { data_vars : list string; free_RVs : list string; deterministics : list string;
  potentials : list string; observed_RVs : list string; named_vars : list string; free_shapes : list (list nat) }.
Definition slist_eqb (a b : list string) : bool := if list_eq_dec string_dec a b then true else false.
Definition table (m : model) (split_groups parameter_count_ : bool) : list row :=
  let groups := if split_groups then [data_vars m; free_RVs m; deterministics m; potentials m; observed_RVs m]
                else [named_vars m] in
  flat_map (fun g => match g with
                     | [] => []
                     | _ => map (fun v => VarRow v (smem v (free_RVs m) || smem v (observed_RVs m))) g
                            ++ (if parameter_count_ && (negb split_groups || slist_eqb g (free_RVs m))
                                then [CountRow (parameter_count (free_shapes m))] else [])
                            ++ [Section]
                     end) groups.
