(** [mlia]: the standard library's [lia] on ssreflect's natural-number operations. No content about the modelled code. *)
From Coq Require Import ZArith Lia ZifyClasses ZifyInst ZifyBool.
From mathcomp Require Import all_ssreflect.
Set Implicit Arguments.
Unset Strict Implicit.
Unset Printing Implicit Defensive.

Lemma mz_add n m : Z.of_nat (n + m)%N = (Z.of_nat n + Z.of_nat m)%Z.
Proof. exact: Nat2Z.inj_add. Qed.
Lemma mz_mul n m : Z.of_nat (n * m)%N = (Z.of_nat n * Z.of_nat m)%Z.
Proof. exact: Nat2Z.inj_mul. Qed.
Lemma mz_sub n m : Z.of_nat (n - m)%N = Z.max 0 (Z.of_nat n - Z.of_nat m).
Proof. exact: Nat2Z.inj_sub_max. Qed.
Lemma mz_leq n m : (n <= m)%N = (Z.of_nat n <=? Z.of_nat m)%Z.
Proof. by apply/leP/Z.leb_spec0; lia. Qed.
Lemma mz_eq (n m : nat) : (n == m) = (Z.of_nat n =? Z.of_nat m)%Z.
Proof. by apply/eqP/Z.eqb_spec; lia. Qed.
Lemma mz_max n m : Z.of_nat (maxn n m) = Z.max (Z.of_nat n) (Z.of_nat m).
Proof.
rewrite /maxn; case: ssrnat.ltP => h; lia.
Qed.
Lemma mz_min n m : Z.of_nat (minn n m) = Z.min (Z.of_nat n) (Z.of_nat m).
Proof.
rewrite /minn; case: ssrnat.ltP => h; lia.
Qed.

#[global] Instance ZOp_addn : BinOp addn := { TBOp := Z.add; TBOpInj := mz_add }.
Add Zify BinOp ZOp_addn.
#[global] Instance ZOp_muln : BinOp muln := { TBOp := Z.mul; TBOpInj := mz_mul }.
Add Zify BinOp ZOp_muln.
#[global] Instance ZOp_subn : BinOp subn := { TBOp := fun n m => Z.max 0 (n - m); TBOpInj := mz_sub }.
Add Zify BinOp ZOp_subn.
#[global] Instance ZOp_leq : BinOp leq := { TBOp := Z.leb; TBOpInj := mz_leq }.
Add Zify BinOp ZOp_leq.
#[global] Instance ZOp_eqn : BinOp (@eq_op nat_eqType : nat -> nat -> bool) := { TBOp := Z.eqb; TBOpInj := mz_eq }.
Add Zify BinOp ZOp_eqn.
#[global] Instance ZOp_maxn : BinOp maxn := { TBOp := Z.max; TBOpInj := mz_max }.
Add Zify BinOp ZOp_maxn.
#[global] Instance ZOp_minn : BinOp minn := { TBOp := Z.min; TBOpInj := mz_min }.
Add Zify BinOp ZOp_minn.
Ltac mlia := unfold is_true in *; lia.
Ltac mnia := unfold is_true in *; nia.

Goal forall a b c d : nat, (a <= b)%N -> ~~ (c < b)%N && (d == a) -> (d + 2 * c).+1 - 1 >= 3 * d.
Proof. move=> a b c d. mlia. Qed.
Goal forall a b c d : nat, (a <= b)%N -> ~~ (c < b)%N && (d == a) || (a == c.+1) -> ((d <= c)%N || (a != b)) || (a == c.+1).
Proof. move=> a b c d. mlia. Qed.
Goal forall a b : nat, (a < b)%N = ~~ (b <= a)%N.
Proof. move=> a b. mlia. Qed.
