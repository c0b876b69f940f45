(** Model of pymc_extras/model_builder.py: identity, saving and loading, and the options and data of fit.

    Configuration values are Python values of the kinds below.  The hash (sha256) and the text of a list of values (str of dict_values) are
    parameters; so is the decimal text of an integer.  _serializable_model_config is written by subclasses; it is modelled as documented:
    the same configuration with numpy arrays turned into lists.  netCDF storage is taken to be lossless.  Sampling is not modelled: only the arguments it gets. *)
From Verif Require Import Common Dict.
Import List ListNotations.
Open Scope string_scope.

Inductive key := KStr (s : string) | KInt (z : Z).
Inductive pv := PNum (z : Z) | PStr (s : string) | PBool (b : bool) | PNone
  | PList (l : list pv) | PTuple (l : list pv) | PArr (l : list pv) (* numpy array, by its content as a list *)
  | PDict (d : list (key * pv)).
Definition config := list (string * pv).

Section Mb.
Context (show_int : Z -> string) (show : list pv -> string) (sha : string -> string).

(** the documented _serializable_model_config *)
Fixpoint serializable (v : pv) : pv :=
  match v with
  | PArr l | PList l => PList (map serializable l)
  | PTuple l => PTuple (map serializable l)
  | PDict d => PDict (map (fun kv => (fst kv, serializable (snd kv))) d)
  | _ => v
  end.
(** json.loads(json.dumps(v)): tuples become lists, integer keys become strings, arrays cannot be dumped *)
Fixpoint json (v : pv) : res pv :=
  match v with
  | PList l | PTuple l => do l' <- (fix go l := match l with [] => Ok [] | v :: l' => do a <- json v; do b <- go l'; Ok (a :: b) end) l; Ok (PList l')
  | PArr _ => Err TypeError
  | PDict d => do d' <- (fix go d := match d with
                                     | [] => Ok []
                                     | (k, v) :: d' => do a <- json v; do b <- go d'; Ok ((match k with KStr s => KStr s | KInt z => KStr (show_int z) end, a) :: b)
                                     end) d; Ok (PDict d')
  | _ => Ok v
  end.
(** json.loads(json.dumps(config)) *)
Fixpoint json_config (c : config) : res config :=
  match c with [] => Ok [] | (k, v) :: c' => do a <- json v; do b <- json_config c'; Ok ((k, a) :: b) end.
Definition serializable_model_config (c : config) : config := map (fun kv => (fst kv, serializable (snd kv))) c.

(** _model_config_formatting, model_builder.py:392-410: lists one level down become tuples ("dims") or numpy arrays *)
Definition format_sub (kv : key * pv) : key * pv :=
  match snd kv with
  | PList l => (fst kv, match fst kv with KStr s => if String.eqb s "dims" then PTuple l else PArr l | KInt _ => PArr l end)
  | _ => kv
  end.
Definition format_value (v : pv) : pv := match v with PDict d => PDict (map format_sub d) | _ => v end.
Definition model_config_formatting (c : config) : config := map (fun kv => (fst kv, format_value (snd kv))) c.

(** id, model_builder.py:733-760: the values of the configuration (not the keys), version and model type, run together *)
Definition id_text (c : config) (version model_type : string) : string := show (map snd c) ++ version ++ model_type.
Definition id (c : config) (version model_type : string) : string := substring 0 16 (sha (id_text c version model_type)).

(** set_idata_attrs, model_builder.py:345-359 (called by sample_model), then save *)
Record saved := { at_id : string; at_type : string; at_version : string; at_sampler : config; at_model : config }.
Definition save (c sampler : config) (version model_type : string) : res saved :=
  do s <- json_config sampler;
  do m <- json_config (serializable_model_config c);
  Ok {| at_id := id c version model_type; at_type := model_type; at_version := version; at_sampler := s; at_model := m |}.
(** load, model_builder.py:412-457: the model configuration and the sampler configuration of the new instance; the class loading the file has its own
    version and type *)
Definition load (f : saved) (version model_type : string) : res (config * config) :=
  let c := model_config_formatting (at_model f) in
  if String.eqb (id c version model_type) (at_id f) then Ok (c, at_sampler f) else Err ValueError.

(** ** fit, model_builder.py:459-535 and sample_model, :263-303 *)
(** dictionaries are objects: a heap of them, addressed by position; dict.copy() allocates *)
Definition heap := list config.
Definition deref (h : heap) (a : nat) : config := nth a h [].
Fixpoint put (h : heap) (a : nat) (c : config) : heap :=
  match h, a with [], _ => [] | _ :: h', O => c :: h' | x :: h', S a' => x :: put h' a' c end.
Definition copy (h : heap) (a : nat) : heap * nat := (h ++ [deref h a], length h)%list.
(** the arguments of pm.sample and the heap afterwards, [self] being the address of self.sampler_config *)
Definition fit_sampler_args (h : heap) (self : nat) (progressbar random_seed : pv) (kwargs : config) : config * heap :=
  let '(h, sampler_config) := copy h self in
  let h := put h sampler_config (dset (deref h sampler_config) "progressbar" progressbar) in
  let h := put h sampler_config (dset (deref h sampler_config) "random_seed" random_seed) in
  let h := put h sampler_config (dupdate (deref h sampler_config) kwargs) in
  (* sample_model merges self.sampler_config with these keyword arguments *)
  (dupdate (deref h self) (deref h sampler_config), h).
End Mb.

(** ** the training data kept for load, model_builder.py:506-535 and 447-450 *)
Section FitData.
Context {Row Val : Type} (zero : Val).
Open Scope Z_scope.
Inductive target := NoTarget | Plain (l : list Val) | Labelled (l : list (Z * Val)).
(** y = pd.DataFrame({output_var: y}) *)
Definition target_frame (X : list (Z * Row)) (y : target) : list (Z * Val) :=
  let number (l : list Val) := combine (map Z.of_nat (seq 0 (length l))) l in
  match y with NoTarget => number (map (fun _ => zero) X) | Plain l => number l | Labelled l => l end.
Fixpoint lookup {A} (z : Z) (l : list (Z * A)) : option A := match l with [] => None | (k, a) :: l' => if z =? k then Some a else lookup z l' end.
Definition zin (z : Z) (l : list Z) : bool := existsb (Z.eqb z) l.
(** pd.concat([X, y], axis=1): rows matched by label, all labels kept (the order of added labels is not used in any theorem); labels repeated in
    one of two different indices are an error *)
Fixpoint has_dup (l : list Z) : bool := match l with [] => false | x :: l' => zin x l' || has_dup l' end.
Definition combined_data (X : list (Z * Row)) (y : list (Z * Val)) : res (list (Z * (option Row * option Val))) :=
  let ix := map fst X in let iy := map fst y in
  if list_eq_dec Z.eq_dec ix iy then Ok (map (fun p => (fst (fst p), (Some (snd (fst p)), Some (snd (snd p))))) (combine X y)) else
  if has_dup ix || has_dup iy then Err ValueError else
  let labels := (ix ++ filter (fun z => negb (zin z ix)) iy)%list in
  Ok (map (fun z => (z, (lookup z X, lookup z y))) labels).
(** what fit stores and what load rebuilds the model with *)
Definition fit_data (X : list (Z * Row)) (y : target) := combined_data X (target_frame X y).
Definition load_data (d : list (Z * (option Row * option Val))) : list (Z * option Row) * list (Z * option Val) :=
  (map (fun r => (fst r, fst (snd r))) d, map (fun r => (fst r, snd (snd r))) d).
End FitData.
