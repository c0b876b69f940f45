(** Model of StructuralTimeSeries.extract_components_from_idata (statespace/models/structural.py:242-315) on a whole
    dataset; the columns computed for one state vector are those of Struct_Model.hidden_columns.

    A variable of the dataset has named dimensions, a shape, values, and labels along each dimension.  xarray's part
    is modelled as documented: apply_ufunc keeps the dimensions that are not core dimensions and their labels;
    building a Dataset aligns its variables with an outer join, which fills missing entries with NaN.  Simplification:
    the order of the labels after an outer join (xarray sorts them) is not modelled, only which labels there are; the
    warning about dropped variables is not modelled. *)
From Coq Require Import String Reals.
From Verif Require Import Common Struct_Model.
Import List ListNotations.
Open Scope nat_scope.

Record dvar := { v_dims : list string; v_shape : list nat; v_at : list nat -> R; v_labels : string -> list string }.
Definition dataset := list (string * dvar).

(** is_latent, structural.py:295: idata[name].shape[-1] == self.k_states; a scalar has no last axis *)
Definition is_latent (k_states : nat) (v : dvar) : res bool :=
  match rev (v_shape v) with [] => Err IndexError | n :: _ => Ok (n =? k_states) end.
Fixpoint latent_items (k_states : nat) (ds : dataset) : res dataset :=
  match ds with
  | [] => Ok []
  | (x, v) :: r => do b <- is_latent k_states v; do l <- latent_items k_states r; Ok (if b then (x, v) :: l else l)
  end.

(** _extract_and_transform_variable, structural.py:280-291.  The last two dimensions are taken for time and state,
    whatever they are called; the last axis is replaced by the columns, labelled by the names of the subcomponents
    (a dimension coordinate must have as many labels as the axis has entries). *)
Definition transform (state_names : list string) (info : dict cinfo) (v : dvar) : res dvar :=
  match rev (v_dims v) with
  | state_dim :: _time_dim :: _ =>
      let names := subcomponent_names state_names info in
      let columns (x : vec) := hidden_columns state_names info x in
      let n := length (columns (fun _ => 0%R)) in
      if n =? 0 then Err ValueError (* np.concatenate of nothing *)
      else if negb (length names =? n) then Err ValueError
      else Ok {| v_dims := v_dims v;
                 v_shape := (removelast (v_shape v) ++ [n])%list;
                 v_at := fun ix => nth (last ix 0) (columns (fun i => v_at v (removelast ix ++ [i]))) 0%R;
                 v_labels := fun d => if String.eqb d state_dim then names else v_labels v d |}
  | _ => Err ValueError (* unpacking *)
  end.
Fixpoint transform_all (state_names : list string) (info : dict cinfo) (ds : dataset) : res dataset :=
  match ds with
  | [] => Ok []
  | (x, v) :: r => do w <- transform state_names info v; do l <- transform_all state_names info r; Ok ((x, w) :: l)
  end.

(** the labels of a dimension after an outer join: those common to all variables that have the dimension when they
    are the same, otherwise all of them *)
Definition label_lists (ds : dataset) (d : string) : list (list string) :=
  flat_map (fun kv => if existsb (String.eqb d) (v_dims (snd kv)) then [v_labels (snd kv) d] else []) ds.
Definition joined (ds : dataset) (d : string) : list string :=
  match label_lists ds d with
  | [] => []
  | l :: r => if forallb (fun l' => if list_eq_dec string_dec l l' then true else false) r then l
              else nodup string_dec (concat (l :: r))
  end.
(** the position of a label *)
Fixpoint pos_of (x : string) (l : list string) : option nat :=
  match l with [] => None | y :: r => if String.eqb x y then Some 0 else option_map S (pos_of x r) end.
Fixpoint positions (v : dvar) (ds : list string) (ls : list string) : option (list nat) :=
  match ds, ls with
  | d :: ds', l :: ls' => match pos_of l (v_labels v d), positions v ds' ls' with Some i, Some r => Some (i :: r) | _, _ => None end
  | _, _ => Some []
  end.
(** the entry of a variable at given labels: NaN (None) at the labels it did not have *)
Definition entry_at (v : dvar) (ls : list string) : option R := option_map (v_at v) (positions v (v_dims v) ls).

(** extract_components_from_idata, structural.py:293-315: the variables of the new dataset before their alignment (their
    labels along d are [joined], their entries [entry_at]) *)
Definition extract (k_states : nat) (state_names : list string) (info : dict cinfo) (ds : dataset) : res dataset :=
  do l <- latent_items k_states ds;
  match l with [] => Err ValueError | _ => transform_all state_names info l end.
