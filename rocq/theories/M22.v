(** Two-by-two matrices, for the witnesses. *)
From mathcomp Require Import all_ssreflect all_algebra.
Set Implicit Arguments.
Unset Strict Implicit.
Unset Printing Implicit Defensive.
Import Order.Theory GRing.Theory Num.Theory.
Local Open Scope ring_scope.

(** two-by-two matrices *)
Section M22.
Context (R : realFieldType).
Definition m22 (a b c d : R) : 'M[R]_2 :=
  \matrix_(i, k) (if i == 0 then (if k == 0 then a else b) else (if k == 0 then c else d)).
Definition c2 (a b : R) : 'cV[R]_2 := \col_i (if i == 0 then a else b).
Definition r2 (a b : R) : 'rV[R]_2 := \row_i (if i == 0 then a else b).

Lemma I2 (Q : 'I_2 -> Prop) : Q 0 -> Q 1 -> forall i, Q i.
Proof.
move=> q0 q1 [[|[|k]] h] //.
- by rewrite (_ : Ordinal h = 0) //; apply: val_inj.
- by rewrite (_ : Ordinal h = 1) //; apply: val_inj.
Qed.
Lemma ext2 n (A B : 'M[R]_(2, n)) : row 0 A = row 0 B -> row 1 A = row 1 B -> A = B.
Proof. by move=> h0 h1; apply/row_matrixP; apply: I2. Qed.
Lemma sum2 (f : 'I_2 -> R) : \sum_i f i = f 0 + f 1.
Proof. by rewrite !big_ord_recl big_ord0 addr0; congr (_ + f _); apply: val_inj. Qed.
End M22.

