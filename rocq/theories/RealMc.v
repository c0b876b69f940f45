(** The real numbers of Coq's standard library as a real closed field of mathcomp.
    No part of the repository is modelled here: it lets the theorems about real closed fields speak about the matrices of the VARMAX and ETS models,
    whose entries are standard real numbers.  The choice operator of mathcomp comes from Coq.Logic.Epsilon (an axiom of the standard library). *)
From Coq Require Import Reals Lra Epsilon FunctionalExtensionality Ranalysis.
From mathcomp Require Import all_ssreflect all_algebra.
Set Implicit Arguments.
Unset Strict Implicit.
Unset Printing Implicit Defensive.
Import Order.TTheory GRing.Theory Num.Theory.

Definition eqr (x y : R) : bool := if Req_EM_T x y then true else false.
Lemma eqrP : Equality.axiom eqr.
Proof. move=> x y. rewrite /eqr. by case: Req_EM_T => H; constructor. Qed.
Canonical R_eqType := EqType R (EqMixin eqrP).

Lemma inhR : inhabited R. Proof. exact: (inhabits R0). Qed.
Definition pickR (P : pred R) (n : nat) : option R := let x := epsilon inhR P in if P x then Some x else None.
Lemma pickR_some P n x : pickR P n = Some x -> P x.
Proof. rewrite /pickR. by case: ifP => // H [<-]. Qed.
Lemma pickR_ex (P : pred R) : (exists x, P x) -> exists n, pickR P n.
Proof. move=> H. exists 0%N. rewrite /pickR. have -> : P (epsilon inhR P) by exact: (epsilon_spec inhR P H). by []. Qed.
Lemma pickR_ext (P Q : pred R) : P =1 Q -> pickR P =1 pickR Q.
Proof. move=> H n. rewrite /pickR. have -> : P = Q by apply: functional_extensionality. by []. Qed.
Definition R_choiceMixin : choiceMixin R := Choice.Mixin pickR_some pickR_ex pickR_ext.
Canonical R_choiceType := ChoiceType R R_choiceMixin.

Lemma RplusA : associative Rplus. Proof. move=> x y z. ring. Qed.
Lemma RplusC : commutative Rplus. Proof. move=> x y. ring. Qed.
Lemma Rplus0 : left_id R0 Rplus. Proof. move=> x. exact: Rplus_0_l. Qed.
Lemma RplusN : left_inverse R0 Ropp Rplus. Proof. move=> x. exact: Rplus_opp_l. Qed.
Canonical R_zmodType := ZmodType R (ZmodMixin RplusA RplusC Rplus0 RplusN).
Lemma RmultA : associative Rmult. Proof. move=> x y z. ring. Qed.
Lemma RmultC : commutative Rmult. Proof. move=> x y. ring. Qed.
Lemma Rmult1 : left_id R1 Rmult. Proof. move=> x. exact: Rmult_1_l. Qed.
Lemma RmultDl : left_distributive Rmult Rplus. Proof. move=> x y z. ring. Qed.
Lemma R10 : is_true (R1 != R0 :> R). Proof. apply/eqP. exact: R1_neq_R0. Qed.
Canonical R_ringType := RingType R (ComRingMixin RmultA RmultC Rmult1 RmultDl R10).
Canonical R_comRingType := ComRingType R RmultC.
Definition Rinvx (x : R) : R := if x == R0 then R0 else Rinv x.
Lemma Rmult_invx : GRing.Field.axiom Rinvx.
Proof. move=> x H. rewrite /Rinvx (negbTE H). apply: Rinv_l. by apply/eqP. Qed.
Lemma Rinvx0 : Rinvx 0%R = 0%R. Proof. by rewrite /Rinvx eqxx. Qed.
Definition R_unitRingMixin := FieldUnitMixin Rmult_invx Rinvx0.
Canonical R_unitRingType := UnitRingType R R_unitRingMixin.
Canonical R_comUnitRingType := [comUnitRingType of R].
Lemma R_field_axiom : GRing.Field.mixin_of R_unitRingType. Proof. by []. Qed.
Canonical R_idomainType := IdomainType R (FieldIdomainMixin R_field_axiom).
Canonical R_fieldType := FieldType R R_field_axiom.

Definition Rleb (x y : R) : bool := if Rle_dec x y then true else false.
Definition Rltb (x y : R) : bool := if Rlt_dec x y then true else false.
Lemma RlebP x y : reflect (Rle x y) (Rleb x y). Proof. rewrite /Rleb. by case: Rle_dec => H; constructor. Qed.
Lemma RltbP x y : reflect (Rlt x y) (Rltb x y). Proof. rewrite /Rltb. by case: Rlt_dec => H; constructor. Qed.
Lemma R_le0_add x y : Rleb R0 x -> Rleb R0 y -> Rleb R0 (x + y)%R.
Proof. move=> /RlebP H /RlebP H'. apply/RlebP. exact: Rplus_le_le_0_compat. Qed.
Lemma R_le0_mul x y : Rleb R0 x -> Rleb R0 y -> Rleb R0 (x * y)%R.
Proof. move=> /RlebP H /RlebP H'. apply/RlebP. exact: Rmult_le_pos. Qed.
Lemma R_le0_anti x : Rleb R0 x -> Rleb x R0 -> x = R0.
Proof. move=> /RlebP H /RlebP H'. exact: Rle_antisym. Qed.
Lemma R_sub_ge0 x y : Rleb R0 (Rminus y x) = Rleb x y.
Proof. apply/RlebP/RlebP => H; lra. Qed.
Lemma R_le0_total x : Rleb R0 x || Rleb x R0.
Proof. apply/orP. case: (Rle_dec R0 x) => H; [left|right]; apply/RlebP; lra. Qed.
Lemma R_lt_def x y : Rltb x y = (y != x) && Rleb x y.
Proof. apply/RltbP/andP => [H|[/eqP H /RlebP H']]; [split; [apply/eqP|apply/RlebP]|]; lra. Qed.
Definition R_leMixin := RealLeMixin R_le0_add R_le0_mul R_le0_anti R_sub_ge0 R_le0_total Rabs_Ropp
   (fun x (h : is_true (Rleb R0 x)) => Rabs_pos_eq x (elimT (RlebP R0 x) h)) R_lt_def.
Canonical R_porderType := POrderType ring_display R R_leMixin.
Canonical R_numDomainType := NumDomainType R R_leMixin.
Canonical R_latticeType := LatticeType R R_leMixin.
Canonical R_distrLatticeType := DistrLatticeType R R_leMixin.
Canonical R_orderType := OrderType R R_leMixin.
Canonical R_normedZmodType := NormedZmodType R R R_leMixin.
Canonical R_numFieldType := [numFieldType of R].
Canonical R_realDomainType := [realDomainType of R].
Canonical R_realFieldType := [realFieldType of R].

(** translation *)
Lemma RleE (x y : R) : reflect (Rle x y) (x <= y)%R. Proof. exact: RlebP. Qed.
Lemma RltE (x y : R) : reflect (Rlt x y) (x < y)%R. Proof. exact: RltbP. Qed.
Lemma INRE n : INR n = (n%:R)%R.
Proof. elim: n => // n IH. rewrite S_INR IH -addn1 natrD. by []. Qed.
Lemma R_archi : Num.archimedean_axiom R_numDomainType.
Proof.
  move=> x. have [n Hn] : exists n, Rlt (Rabs x) (INR n).
  { exists (Z.to_nat (up (Rabs x))). have [H _] := archimed (Rabs x). rewrite INR_IZR_INZ Znat.Z2Nat.id; first exact: H. apply: le_IZR. have := Rabs_pos x. lra. }
  exists n. apply/RltE. rewrite -INRE. exact: Hn.
Qed.
Canonical R_archiFieldType := ArchiFieldType R R_archi.
Lemma horner_continuity (p : {poly R}) : continuity (fun x => p.[x]%R).
Proof.
  elim/poly_ind: p => [|p c IH].
  - have -> : (fun x : R => (0 : {poly R}).[x]%R) = (fun _ => R0) by apply: functional_extensionality => x; rewrite horner0. by apply: continuity_const => x y.
  - have -> : (fun x : R => (p * 'X + c%:P).[x]%R) = plus_fct (mult_fct (fun x => p.[x]%R) id) (fun _ => c) by apply: functional_extensionality => x; rewrite hornerMXaddC.
    apply: continuity_plus; last by apply: continuity_const => x y.
    apply: continuity_mult => //. exact: derivable_continuous derivable_id.
Qed.
Lemma R_closed : Num.real_closed_axiom R_numDomainType.
Proof.
  move=> p a b /RleE Hab /andP [/RleE Ha /RleE Hb].
  case: (Req_dec p.[a]%R R0) => [E|Na]. { exists a; last by rewrite rootE; apply/eqP. rewrite lexx /=. exact/RleE. }
  case: (Req_dec p.[b]%R R0) => [E|Nb]. { exists b; last by rewrite rootE; apply/eqP. rewrite lexx andbT. exact/RleE. }
  have Hlt : Rlt a b. { case: (Req_dec a b) => [E|]; last lra. subst b. exfalso. apply: Na. apply: Rle_antisym; [exact: Ha|exact: Hb]. }
  have [|||x [Hx E]] := IVT (fun x => p.[x]%R) a b (horner_continuity p) => //.
  - case: (Rle_lt_or_eq_dec _ _ Ha) => //.
  - case: (Rle_lt_or_eq_dec _ _ Hb) => // E. by case: Nb.
  - exists x; last by rewrite rootE; apply/eqP. case: Hx => H1 H2. by apply/andP; split; apply/RleE.
Qed.
Canonical R_rcfType := RcfType R R_closed.
