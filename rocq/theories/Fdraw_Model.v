(** Model of the draws of PyMCStateSpace.forecast: pymc_extras/statespace/core/statespace.py:58-63, 1961, 2016-2055.

    The time index and the scenario are in Fcst_Model, the simulation itself in Lgss_Model.  The random generator is a stream of standard normal numbers, read in order:
    a state of the generator is the position in the stream, a copy of a state (distributions.py:219, 260-276: the initial draws and the scan all start from the same rng)
    reads the same numbers again. *)
From Coq Require Import String Ascii.
From Verif Require Common KalmanScan_Model.
From mathcomp Require Import all_ssreflect all_algebra.
From Verif Require Import Lgss_Model.
Set Implicit Arguments.
Unset Strict Implicit.
Unset Printing Implicit Defensive.
Import GRing.Theory.
Import Common(res, Ok, Err, bind, ValueError, IndexError).
Local Open Scope ring_scope.

(** str.lower for ASCII *)
Definition lower_char (c : Ascii.ascii) : Ascii.ascii :=
  let n := Ascii.nat_of_ascii c in if (64 < n)%N && (n < 91)%N then Ascii.ascii_of_nat (n + 32) else c.
Fixpoint lower (s : String.string) : String.string := match s with String.EmptyString => s | String.String c s' => String.String (lower_char c) (lower s') end.
(** utils/constants.py: FILTER_OUTPUT_TYPES *)
Definition FILTER_OUTPUT_TYPES : seq String.string := [:: "filtered"%string; "predicted"%string; "smoothed"%string].
Fixpoint str_index (s : String.string) (l : seq String.string) : option nat :=
  match l with [::] => None | x :: l' => if String.eqb s x then Some 0%N else omap S (str_index s l') end.
(** _validate_filter_arg, statespace.py:58-63 *)
Definition validate_filter_arg (s : String.string) : res unit := if str_index (lower s) FILTER_OUTPUT_TYPES is Some _ then Ok tt else Err ValueError.

Section Draws.
Context (R : comRingType) (k p r : nat) (factor : forall n, 'M[R]_n -> 'M[R]_n).
(** numbers i, i+1, ..., i+n-1 of the stream, and the position after them *)
Definition stream (z : nat -> R) (i n : nat) : 'cV[R]_n * nat := (\col_j z (i + j)%N, (i + n)%N).
(** forecast, statespace.py:1961 and 2029-2055: the group named filter_output at the position of the start date, then the simulation without its first state.
    outputs: the (mean, covariance) sequences in the order of grouped_outputs (1053-1057) *)
Definition forecast_draws (outputs : seq (seq ('cV[R]_k * 'M[R]_k))) (filter_output : String.string) (t0_idx : nat) (s : system R k p r) (n_index : nat) (z : nat -> R) :
    res (seq 'cV[R]_k * seq 'cV[R]_p) :=
  bind (validate_filter_arg filter_output) (fun _ =>
  match str_index filter_output FILTER_OUTPUT_TYPES with
  | None => Err ValueError
  | Some group_idx =>
      match List.nth_error (nth [::] outputs group_idx) t0_idx with
      | None => Err IndexError
      | Some (mu, cov) => forecast_trajectory (stream z) factor mu cov s n_index 0%N
      end
  end).
End Draws.
