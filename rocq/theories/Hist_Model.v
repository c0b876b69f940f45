(** Model of pymc_extras/distributions/histogram_utils.py.

    The data is given by its columns (the histogram is over axis 0), all of the same length; discrete data are integers, continuous data are
    rationals (every float is one), arithmetic is exact.  NaN and dask inputs are not modelled.  xhistogram.core.histogram with explicit bins
    counts, per column, the values in [b_i, b_i+1), the last bin including its right edge. *)
From Verif Require Import Common.
From Coq Require Import QArith.
Open Scope nat_scope.

(** ** xhistogram.core.histogram *)
Definition count {A} (p : A -> bool) (l : list A) : nat := length (filter p l).
Section Bins.
Context {A : Type} (leb : A -> A -> bool).
Definition ltb_ (a b : A) : bool := negb (leb b a).
Fixpoint histogram (bins : list A) (col : list A) : list nat :=
  match bins with
  | a :: ((b :: rest) as bins') =>
      count (fun x => leb a x && match rest with [] => leb x b | _ => ltb_ x b end) col :: histogram bins' col
  | _ => []
  end.
End Bins.

(** ** discrete_histogram, histogram_utils.py:69-92 *)
(** np.unique: sorted, without repetitions *)
Fixpoint insert_z (x : Z) (l : list Z) : list Z :=
  match l with [] => [x] | y :: r => if (x <? y)%Z then x :: l else if (x =? y)%Z then l else y :: insert_z x r end.
Definition unique (l : list Z) : list Z := fold_right insert_z [] l.
(** mid.max() *)
Definition zmax (l : list Z) : res Z := match l with [] => Err ValueError | x :: r => Ok (fold_left Z.max r x) end.
(** the reported values and, per column of the data, their counts *)
Definition discrete_histogram (data : list (list Z)) (min_count : option nat) : res (list Z * list (list nat)) :=
  let flat := concat data in
  let mid := match min_count with
             | None => unique flat
             | Some m => filter (fun v => m <=? count_occ Z.eq_dec flat v) (unique flat)
             end in
  do top <- zmax mid;
  let bins := mid ++ [(top + 1)%Z] in
  Ok (mid, map (histogram Z.leb bins) data).

(** ** quantile_histogram, histogram_utils.py:24-66 *)
Fixpoint insert_q (x : Q) (l : list Q) : list Q := match l with [] => [x] | y :: r => if Qle_bool x y then x :: l else y :: insert_q x r end.
Definition sort_q (l : list Q) : list Q := fold_right insert_q [] l.
(** np.percentile (linear interpolation) at position p / d of the sorted data *)
Definition interpolate (s : list Q) (p d : nat) : Q :=
  let k := p / d in
  let a := nth k s 0%Q in
  let b := nth (Nat.min (k + 1) (length s - 1)) s 0%Q in
  (a + inject_Z (Z.of_nat (p mod d)) / inject_Z (Z.of_nat d) * (b - a))%Q.
(** np.percentile(qdata, np.linspace(0, 100, n_quantiles)); no data: IndexError *)
Definition percentiles (qdata : list Q) (n_quantiles : nat) : res (list Q) :=
  match qdata with
  | [] => Err IndexError
  | _ => let s := sort_q qdata in
         Ok (map (fun j => if n_quantiles =? 1 then nth 0 s 0%Q else interpolate s ((length s - 1) * j) (n_quantiles - 1)) (seq 0 n_quantiles))
  end.
Record qhist := { lower : list Q; upper : list Q; counts : list (list nat) (* per column *) }.
Definition quantile_histogram (data : list (list Q)) (n_quantiles : nat) (zero_inflation : bool) : res qhist :=
  let zero x := Qeq_bool x 0 in
  let qdata := if zero_inflation then filter (fun x => ltb_ Qle_bool 0%Q x) (concat data) else concat data in
  do quantiles <- percentiles qdata n_quantiles;
  (* masked zeros are not counted *)
  let mdata := if zero_inflation then map (filter (fun x => negb (zero x))) data else data in
  let cnt := map (histogram Qle_bool quantiles) mdata in
  let lo := firstn (length quantiles - 1) quantiles in
  let up := tl quantiles in
  Ok (if zero_inflation
      then {| lower := 0%Q :: lo; upper := 0%Q :: up;
              counts := map (fun p => count zero (fst p) :: snd p) (combine data cnt) |}
      else {| lower := lo; upper := up; counts := cnt |}).
(** the reported midpoints, (lower + upper) / 2 *)
Definition mids (h : qhist) : list Q := map (fun p => ((fst p + snd p) / 2)%Q) (combine (lower h) (upper h)).
