(** What the docstrings of Chi and Maxwell promise (continuous.py:222-270 and 287-327), and the law of pm.ChiSquared. *)
From Coq Require Import Reals List.
From Coquelicot Require Import Coquelicot.
Local Open Scope R_scope.

(** the improper integral of f over (0, oo) exists and is l *)
Definition integral_0_oo (f : R -> R) (l : R) : Prop := is_RInt_gen f (at_right 0) (Rbar_locally p_infty) l.
(** G is the value of the Gamma function at s *)
Definition is_Gamma (s G : R) : Prop := integral_0_oo (fun t => Rpower t (s - 1) * exp (- t)) G.
(** pm.ChiSquared(nu): density w^(nu/2-1) exp(-w/2) / (2^(nu/2) Gamma(nu/2)) *)
Definition chi_squared_pdf (nu G w : R) : R := Rpower w (nu / 2 - 1) * exp (- (w / 2)) / (Rpower 2 (nu / 2) * G).
(** continuous.py:228-230 *)
Definition chi_pdf (nu G x : R) : R := Rpower x (nu - 1) * exp (- (x ^ 2 / 2)) / (Rpower 2 (nu / 2 - 1) * G).
(** continuous.py:293-295 *)
Definition maxwell_pdf (a x : R) : R := sqrt (2 / PI) * (x ^ 2 / a ^ 3) * exp (- x ^ 2 / (2 * a ^ 2)).

Definition mean_is (pdf : R -> R) (m : R) : Prop := integral_0_oo (fun x => x * pdf x) m.
Definition variance_is (pdf : R -> R) (m v : R) : Prop := integral_0_oo (fun x => (x - m) ^ 2 * pdf x) v.

(** a probability of events about a draw; equal events have equal probability *)
Definition same_events {X} (P : (X -> Prop) -> R) : Prop := forall A B, (forall w, A w <-> B w) -> P A = P B.
(** interval probabilities are integrals of the density *)
Definition has_density (P : (R -> Prop) -> R) (pdf : R -> R) : Prop := forall u v, 0 < u <= v -> P (fun w => u <= w <= v) = RInt pdf u v.
(** several independent draws: the probability of a box is the product *)
Definition in_box (box : list (R * R)) (ws : list R) : Prop := List.Forall2 (fun b w => fst b <= w <= snd b) box ws.
Fixpoint product (l : list R) : R := match l with nil => 1 | x :: l' => x * product l' end.
Definition box_ok (box : list (R * R)) : Prop := List.Forall (fun b => 0 < fst b <= snd b) box.
Definition independent_with (P : (list R -> Prop) -> R) (pdfs : list (R -> R)) : Prop :=
  forall box, length box = length pdfs -> box_ok box -> P (in_box box) = product (List.map (fun bp => RInt (snd bp) (fst (fst bp)) (snd (fst bp))) (List.combine box pdfs)).
