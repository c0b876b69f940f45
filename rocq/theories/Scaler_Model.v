(** Model of StandardScalerDF, /repo/pymc_extras/preprocessing/standard_scaler.py:7-17, and of the part of scikit-learn's
    StandardScaler it delegates to.  Simplifications: exact real arithmetic (scikit-learn also treats a column as constant
    when its variance is below a rounding bound: here only when it is 0); a frame is its row labels, its (string) column
    labels and its columns; [None] is NaN; no sample weights, no partial_fit, no sparse input. *)
From Coq Require Import String Reals List Lra.
From Verif Require Import Common.
Import ListNotations.
Open Scope R_scope.

(** a pandas DataFrame of numbers *)
Record frame (L : Type) := Frame { f_index : list L; f_columns : list string; f_cols : list (list (option R)) }.
Arguments Frame {L}. Arguments f_index {L}. Arguments f_columns {L}. Arguments f_cols {L}.

(** the numbers of a column: NaN entries are skipped (sklearn.utils.extmath._incremental_mean_and_var) *)
Fixpoint present (c : list (option R)) : list R :=
  match c with [] => [] | Some v :: r => v :: present r | None :: r => present r end.
Definition lsum (l : list R) : R := fold_right Rplus 0 l.
Definition np_mean (l : list R) : R := lsum l / INR (length l).
Definition np_var (l : list R) : R := lsum (map (fun v => (v - np_mean l) * (v - np_mean l)) l) / INR (length l).

(** what fit stores for one column: mean_ and scale_; None for a column without numbers (NaN).
    _handle_zeros_in_scale: a scale of 0 becomes 1 *)
Definition fit_col (c : list (option R)) : option (R * R) :=
  match present c with
  | [] => None
  | l => let s := sqrt (np_var l) in Some (np_mean l, if Req_EM_T s 0 then 1 else s)
  end.

(** standard_scaler.py:8-9: the two options passed on to StandardScaler.__init__ *)
Record scaler := Scaler { with_mean : bool; with_std : bool; fitted : option (list string * list (option (R * R))) }.
Definition init (with_mean with_std : bool) : scaler := Scaler with_mean with_std None.

(** StandardScaler.fit: forgets an earlier fit, stores the column names and per-column mean and scale; it refuses an empty frame *)
Definition fit {L} (s : scaler) (X : frame L) : res scaler :=
  match f_index X, f_columns X with
  | [], _ | _, [] => Err ValueError
  | _, _ => Ok (Scaler (with_mean s) (with_std s) (Some (f_columns X, map fit_col (f_cols X))))
  end.

(** StandardScaler.transform of one entry: subtract the mean if asked, then divide by the scale if asked.
    A NaN mean or scale is only ever combined if it is used. *)
Definition entry (wm ws : bool) (ms : option (R * R)) (v : option R) : option R :=
  match v with
  | None => None
  | Some x =>
      if wm || ws then
        match ms with
        | None => None
        | Some (m, sc) => let x1 := if wm then x - m else x in Some (if ws then x1 / sc else x1)
        end
      else Some x
  end.

(** StandardScaler.transform on the frame: NotFittedError when not fitted, ValueError when the column names (checked in
    order) are not those of fit *)
Definition sk_transform {L} (s : scaler) (X : frame L) : res (list (list (option R))) :=
  match fitted s with
  | None => Err ValueError
  | Some (names, ms) =>
      match f_index X with
      | [] => Err ValueError
      | _ => if list_eq_dec string_dec names (f_columns X)
             then Ok (map (fun mc => map (entry (with_mean s) (with_std s) (fst mc)) (snd mc)) (combine ms (f_cols X)))
             else Err ValueError
      end
  end.

(** standard_scaler.py:11-13 *)
Definition transform {L} (s : scaler) (X : frame L) : res (frame L) :=
  match sk_transform s X with
  | Ok z => Ok (Frame (f_index X) (f_columns X) z)
  | Err e => Err e
  end.

(** standard_scaler.py:15-17: TransformerMixin.fit_transform is fit, then the overridden transform, whose frame is
    relabelled with the labels it already has.  The fitted scaler is returned as well (the method mutates self). *)
Definition fit_transform {L} (s : scaler) (X : frame L) : res (scaler * frame L) :=
  match fit s X with
  | Err e => Err e
  | Ok s' => match transform s' X with
             | Err e => Err e
             | Ok z => Ok (s', Frame (f_index X) (f_columns X) (f_cols z))
             end
  end.
