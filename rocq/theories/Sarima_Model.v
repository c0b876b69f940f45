(** Model of BayesianSARIMA's matrices.
    Sources: /repo/pymc_extras/statespace/models/utilities.py (make_SARIMA_transition_matrix, lines 233-294),
    /repo/pymc_extras/statespace/models/SARIMAX.py (_verify_order lines 28-39, __init__, make_symbolic_graph).
    Simplifications: entries in an arbitrary commutative ring (exact arithmetic); a matrix is a function from row and
    column plus its size; index arrays are natural numbers (so season length 0 with seasonal terms, which makes numpy
    indices negative, is not modelled: theorems assume S >= 1 when a seasonal order is positive). *)
From mathcomp Require Import all_ssreflect all_algebra.
Set Implicit Arguments.
Unset Strict Implicit.
Unset Printing Implicit Defensive.
Import GRing.Theory.
Local Open Scope ring_scope.

Section Model.
Context (R : comRingType).
Definition mat := nat -> nat -> R.

(** [T[rows, cols] = v] with index arrays and a scalar *)
Definition upd (T : mat) (idx : seq (nat * nat)) (v : R) : mat :=
  fun r c => if (r, c) \in idx then v else T r c.
(** [T[rows, cols] = vals] (set_subtensor): later entries win *)
Definition updv (T : mat) (idx : seq (nat * nat)) (vals : seq R) : mat :=
  foldl (fun M (iv : (nat * nat) * R) => upd M [:: iv.1] iv.2) T (zip idx vals).

(** numpy helpers *)
Definition triu_indices (n : nat) : seq (nat * nat) :=
  [seq (i, j) | i <- iota 0 n, j <- iota i (n - i)].
Definition diag_indices (n : nat) : seq nat := iota 0 n.
Definition np_tile (X : Type) (l : seq X) (n : nat) : seq X := flatten (nseq n l).
Definition np_repeat (X : Type) (l : seq X) (n : nat) : seq X := flatten [seq nseq n x | x <- l].
(** [l[start::step]] *)
Definition every (l : seq nat) (start step : nat) : seq nat :=
  [seq nth 0%N l k | k <- iota 0 (size l) & (start <= k)%N && ((k - start) %% step == 0)%N].

(** utilities.py:233-235 *)
Definition n_diffs (d D S : nat) := (S * D + d)%N.
Definition k_lags (p q P Q S : nat) := maxn (p + P * S) (q + Q * S + 1).
Definition k_states p d q P D Q S := (k_lags p q P Q S + n_diffs d D S)%N.

(** line 249-251 *)
Definition base_col_idx (d D S : nat) : seq nat :=
  let b := [seq (d + S + i * S - 1)%N | i <- iota 0 D] in
  if (0 < size b)%N then rcons b (last 0%N b + 1)%N else b.

(** lines 254-262: the loop over range(D) *)
Definition season_rows (d D S : nat) (start : seq nat * seq nat) : seq nat * seq nat :=
  foldl (fun (rc : seq nat * seq nat) i =>
           let n := size (drop i (base_col_idx d D S)) in
           (rc.1 ++ nseq n (d + S * i)%N, rc.2 ++ drop i (base_col_idx d D S)))
        start (iota 0 D).

(** utilities.py:238-291 *)
Definition sarima_T (p d q P D Q S : nat) : mat :=
  let T := fun _ _ => 0 in
  let T := upd T (triu_indices d) 1 in
  let col0 := np_tile (base_col_idx d D S) d in
  let row0 := np_repeat (iota 0 d) D.+1 in
  let '(row1, col1) := season_rows d D S (row0, col0) in
  let '(row, col) := if (D == 0)%N && (0 < d)%N then (iota 0 d, nseq d d) else (row1, col1) in
  let T := upd T (zip row col) 1 in
  let T := if (0 < S)%N then
      let rr := [seq (i + d + 1)%N | i <- diag_indices (S * D)] in
      let cr := [seq (i + d)%N | i <- diag_indices (S * D)] in
      upd (upd T (zip rr cr) 1) (zip (every rr (S - 1) S) (every cr (S - 1) S)) 0
    else T in
  let sr := [seq (i + n_diffs d D S)%N | i <- diag_indices (k_lags p q P Q S - 1)] in
  let sc := [seq (i + n_diffs d D S + 1)%N | i <- diag_indices (k_lags p q P Q S - 1)] in
  upd T (zip sr sc) 1.

(** SARIMAX.py make_symbolic_graph, design row *)
Definition sarima_Z (p d q P D Q S : nat) : seq R :=
  nseq d 1 ++ np_tile (rcons (nseq (S - 1) 0) 1) D ++ [:: 1] ++ nseq (k_lags p q P Q S - 1) 0.

(** selection column before the MA parameters are written *)
Definition selection0 (d D S : nat) : mat := fun r _ => if r == n_diffs d D S then 1 else 0.

(** AR parameters written into column k_diffs of the transition matrix (fast structure) *)
Definition with_ar (d D S p P : nat) (phi Phi : seq R) (T : mat) : mat :=
  let k := n_diffs d D S in
  let T := if (0 < p)%N then updv T [seq ((k + i)%N, k) | i <- iota 0 p] phi else T in
  if (0 < P)%N then
    let rows := [seq (k + i * S - 1)%N | i <- iota 1 P] in
    let T := updv T [seq (r, k) | r <- rows] Phi in
    if (0 < p)%N then
      updv T [seq (rc.1 + rc.2 + 1, k)%N | rc <- zip (np_repeat rows p) (np_tile (iota 0 p) P)]
             [seq - (fg.1) * fg.2 | fg <- zip (np_repeat Phi p) (np_tile phi P)]
    else T
  else T.

(** MA parameters written into the selection column *)
Definition with_ma (d D S q Q : nat) (theta Theta : seq R) (M : mat) : mat :=
  let k := n_diffs d D S in
  let M := if (0 < q)%N then updv M [seq ((1 + k + i)%N, 0%N) | i <- iota 0 q] theta else M in
  if (0 < Q)%N then
    let rows := [seq (k + i * S)%N | i <- iota 1 Q] in
    let M := updv M [seq (r, 0%N) | r <- rows] Theta in
    if (0 < q)%N then
      updv M [seq (rc.1 + rc.2 + 1, 0)%N | rc <- zip (np_repeat rows q) (np_tile (iota 0 q) Q)]
             [seq fg.1 * fg.2 | fg <- zip (np_repeat Theta q) (np_tile theta Q)]
    else M
  else M.

Definition fast_T p d q P D Q S phi Phi := with_ar d D S p P phi Phi (sarima_T p d q P D Q S).
Definition fast_R d q D Q S theta Theta := with_ma d D S q Q theta Theta (selection0 d D S).

(** [_verify_order]: true = accepted.  Overlap is a non-empty set of common lags; [any] is false for the set {0},
    irrelevant here since plain lags are >= 1. *)
Definition overlap (a A S : nat) : bool :=
  has (fun s => s \in [seq (1 + i)%N | i <- iota 0 a]) [seq ((1 + i) * S)%N | i <- iota 0 A].
Definition verify_order (p q P Q S : nat) : bool := ~~ overlap p P S && ~~ overlap q Q S.

(** ** "interpretable" structure (no differencing): states are y, its lags, the innovation, its lags *)
Definition p_max (p P S : nat) := maxn 1 (p + P * S).
Definition q_max (q Q S : nat) := maxn 1 (q + Q * S).
Definition interp_k p q P Q S := (p_max p P S + q_max q Q S)%N.
Definition interp_T p q P Q S (phi Phi theta Theta : seq R) : mat :=
  let k := interp_k p q P Q S in let pm := p_max p P S in
  (* np.eye(k, k=-1) *)
  let T : mat := fun r c => if (r == c.+1) then 1 else 0 in
  let T := upd T [:: ((k - q_max q Q S)%N, (pm - 1)%N)] 0 in
  let T := if (0 < p)%N then updv T [seq (0%N, i) | i <- iota 0 (maxn 1 p)] phi else T in
  let T := if (0 < P)%N then
      let cols := [seq (i * S - 1)%N | i <- iota 1 P] in
      let T := updv T [seq (0%N, c) | c <- cols] Phi in
      if (0 < p)%N then
        updv T [seq (0%N, rc.1 + rc.2 + 1)%N | rc <- zip (np_repeat cols p) (np_tile (iota 0 p) P)]
               [seq - (fg.1) * fg.2 | fg <- zip (np_repeat Phi p) (np_tile phi P)]
      else T
    else T in
  let T := if (0 < q)%N then updv T [seq (0%N, (pm + i)%N) | i <- iota 0 (maxn 1 q)] theta else T in
  if (0 < Q)%N then
    let cols := [seq (pm + i * S - 1)%N | i <- iota 1 Q] in
    let T := updv T [seq (0%N, c) | c <- cols] Theta in
    if (0 < q)%N then
      updv T [seq (0%N, rc.1 + rc.2 + 1)%N | rc <- zip (np_repeat cols q) (np_tile (iota 0 q) Q)]
             [seq fg.1 * fg.2 | fg <- zip (np_repeat Theta q) (np_tile theta Q)]
    else T
  else T.
Definition interp_R p q P Q S : mat := fun r _ =>
  if (r == (interp_k p q P Q S - q_max q Q S)%N) || (r == 0%N) then 1 else 0.
End Model.

(** One run of a state space: s is the state at each time, e the (scalar) shock. *)
Section Run.
Context (R : comRingType).
Definition ss_run (k : nat) (T : mat R) (Rm : mat R) (s : nat -> nat -> R) (e : nat -> R) : Prop :=
  forall t r, (r < k)%N -> s t.+1 r = \sum_(c < k) T r c * s t c + Rm r 0%N * e t.+1.
Definition observe (k : nat) (Z : seq R) (s : nat -> nat -> R) (t : nat) : R :=
  \sum_(c < k) nth 0 Z c * s t c.
End Run.
