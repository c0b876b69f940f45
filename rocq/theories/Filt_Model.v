(** Model of the choice of the filter and of the posterior/prior group: pymc_extras/statespace/core/statespace.py:51-55, 65-67,
    245-253 (constructor), 1100-1101, 1223-1224, 1473-1474 (sampling methods); models/ETS.py:280-287, SARIMAX.py:224-231,
    VARMAX.py:170-177, structural.py:108-115, 671-688 pass [filter_type] on unchanged. *)
From Coq Require Import String Ascii List Arith Bool.
Import ListNotations.
From Verif Require Import Common.
Open Scope string_scope.

(** str.lower, ASCII letters only (Simplification: other alphabets are left alone; no lower-casing of a non-ASCII letter gives one
    of the names, except the Kelvin sign, which none of the names contains in its place). *)
Definition lower_ascii (c : ascii) : ascii :=
  let n := nat_of_ascii c in if (65 <=? n)%nat && (n <=? 90)%nat then ascii_of_nat (n + 32) else c.
Fixpoint lower (s : string) : string := match s with EmptyString => EmptyString | String c r => String (lower_ascii c) (lower r) end.

(** The filter classes; statespace.py:51-55 FILTER_FACTORY *)
Inductive filter_class := StandardFilter | UnivariateFilter | SquareRootFilter.
Definition FILTER_FACTORY : list (string * filter_class) :=
  [("standard", StandardFilter); ("univariate", UnivariateFilter); ("cholesky", SquareRootFilter)].
Definition lookup {A} (k : string) (d : list (string * A)) : option A :=
  match find (fun p => String.eqb (fst p) k) d with Some p => Some (snd p) | None => None end.

(** statespace.py:245-253 *)
Definition choose_filter (filter_type : string) (k_endog : nat) : res filter_class :=
  match lookup (lower filter_type) FILTER_FACTORY with
  | None => Err NotImplementedError
  | Some f => if String.eqb filter_type "single" && (1 <? k_endog)%nat then Err ValueError else Ok f
  end.

(** statespace.py:65-67 and the getattr after it (1101, 1224, 1474): [groups] are the groups of the InferenceData *)
Definition pick_group {A} (group : string) (groups : list (string * A)) : res A :=
  if String.eqb group "prior" || String.eqb group "posterior"
  then match lookup group groups with Some g => Ok g | None => Err AttributeError end
  else Err ValueError.
