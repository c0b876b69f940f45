(** Flat parameter vectors: the PyMC helpers DictToArrayBijection.map / rmap and join_nonshared_inputs as the library uses them, and the numpy operations
    (reshape, squeeze, slicing) of the conversion code.  An array is its shape and its entries in row-major order; dtypes are left out. *)
From Verif Require Import Common Dict.
Import List ListNotations.
Open Scope nat_scope.

Section Flat.
Context {V : Type}.
Record arr := { ashape : list nat; adata : list V }.
Definition size (s : list nat) : nat := fold_right Nat.mul 1 s.
Definition wf (a : arr) : Prop := length (adata a) = size (ashape a).

(** x[b:e] on a vector *)
Definition slice (x : list V) (b e : nat) : list V := firstn (e - b) (skipn b x).
(** x.reshape(shape): a ValueError when the number of entries differs *)
Definition reshape (x : list V) (shape : list nat) : res arr :=
  if length x =? size shape then Ok {| ashape := shape; adata := x |} else Err ValueError.

(** pymc.blocking.RaveledVars: the flat data and, per variable, its name, shape and number of entries *)
Record raveled := { rdata : list V; rinfo : list (string * list nat * nat) }.
(** DictToArrayBijection.map (PyMC): the values of the dict, raveled, in dict order *)
Definition bij_map (point : dict arr) : raveled :=
  {| rdata := concat (map (fun kv => adata (snd kv)) point);
     rinfo := map (fun kv => (fst kv, ashape (snd kv), length (adata (snd kv)))) point |}.
(** DictToArrayBijection.rmap (PyMC): walk over the info, cut consecutive blocks, store them into (a copy of) start_point *)
Fixpoint rmap_from (last_idx : nat) (x : list V) (info : list (string * list nat * nat)) (result : dict arr) : res (dict arr) :=
  match info with
  | [] => Ok result
  | (name, shape, n) :: rest =>
      do a <- reshape (slice x last_idx (last_idx + n)) shape;
      rmap_from (last_idx + n) x rest (dset result name a)
  end.
Definition rmap (r : raveled) (start_point : dict arr) : res (dict arr) := rmap_from 0 (rdata r) (rinfo r) start_point.
(** join_nonshared_inputs (PyMC): the values the graph's inputs get from the joined vector x.  Shapes come from the point; an input missing there is a KeyError,
    no input at all a ValueError (raised when the graph is built). *)
Fixpoint split_from (last_idx : nat) (point : dict arr) (inputs : list string) (x : list V) : res (list arr) :=
  match inputs with
  | [] => Ok []
  | name :: rest =>
      match dget point name with
      | None => Err KeyError
      | Some p =>
          let n := size (ashape p) in
          do a <- reshape (slice x last_idx (last_idx + n)) (ashape p);
          do r <- split_from (last_idx + n) point rest x;
          Ok (a :: r)
      end
  end.
Definition split_joined (point : dict arr) (inputs : list string) (x : list V) : res (list arr) :=
  match inputs with [] => Err ValueError | _ => split_from 0 point inputs x end.

(** a.squeeze() *)
Definition squeeze (a : arr) : arr := {| ashape := filter (fun d => negb (d =? 1)) (ashape a); adata := adata a |}.
(** a[i] for an array with at least one axis (IndexError otherwise, or when i is out of range) *)
Definition index0 (a : arr) (i : nat) : res arr :=
  match ashape a with
  | [] => Err IndexError
  | n :: s => if i <? n then Ok {| ashape := s; adata := slice (adata a) (i * size s) (i * size s + size s) |} else Err IndexError
  end.
(** a[..., b:e]: an IndexError on a 0-d array; bounds are cut to the axis *)
Definition last_slice (a : arr) (b e : nat) : res arr :=
  match rev (ashape a) with
  | [] => Err IndexError
  | d :: rs =>
      let s := rev rs in
      Ok {| ashape := s ++ [Nat.min e d - Nat.min b d];
            adata := concat (map (fun i => slice (slice (adata a) (i * d) (i * d + d)) b e) (seq 0 (size s))) |}
  end.
End Flat.
Arguments arr : clear implicits.
Arguments raveled : clear implicits.
