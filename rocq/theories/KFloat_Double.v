(** IEEE 754 double precision numbers (Flocq), rounding to nearest even. *)
From Coq Require Import ZArith.
From Flocq Require Import IEEE754.BinarySingleNaN.
Local Open Scope Z_scope.
Local Instance p53 : FLX.Prec_gt_0 53. Proof. reflexivity. Qed.
Local Instance pe : Prec_lt_emax 53 1024. Proof. reflexivity. Qed.
Definition d64 := binary_float 53 1024.
Definition dadd (x y : d64) : d64 := Bplus mode_NE x y.
Definition dsub (x y : d64) : d64 := Bminus mode_NE x y.
Definition dmul (x y : d64) : d64 := Bmult mode_NE x y.
Definition ddiv (x y : d64) : d64 := Bdiv mode_NE x y.
Definition disnan (x : d64) : bool := is_nan x.
Definition deqb (x y : d64) : bool := Beqb x y.
(** m * 2^e, rounded *)
Definition dZ (m e : Z) : d64 := binary_normalize 53 1024 p53 pe mode_NE m e false.
Definition d0 := dZ 0 0.
Definition d1 := dZ 1 0.
Definition d3 := dZ 3 0.
Definition d5 := dZ 5 0.
Definition dhalf := dZ 1 (-1).
Definition dfill := dZ (-9999) 0.
(** the double nearest to 0.1 *)
Definition dtenth := dZ 7205759403792794 (-56).
(** a dot product as a plain loop *)
Definition ddot (l : list (d64 * d64)) : d64 := List.fold_left (fun acc xy => dadd acc (dmul (fst xy) (snd xy))) l d0.
Lemma fill_is_not_one : (disnan d1 || deqb d1 dfill)%bool = false.
Proof. vm_compute. reflexivity. Qed.
Lemma asymmetric : let z1 := ddot ((d1, d3) :: (d0, d5) :: nil)%list in let z2 := ddot ((d0, d3) :: (d1, d5) :: nil)%list in
  let h1 := ddot ((d1, d0) :: (d0, d0) :: nil)%list in let h2 := ddot ((d0, d0) :: (d1, d0) :: nil)%list in
  dadd (ddot ((z1, ddot ((dtenth, z2) :: nil)) :: nil)%list) (dadd h1 (dmul d0 d0)) <> dadd (ddot ((z2, ddot ((dtenth, z1) :: nil)) :: nil)%list) (dadd h2 (dmul d0 d0)).
Proof. intros z1 z2 h1 h2 E. apply (f_equal B2SF) in E. vm_compute in E. discriminate E. Qed.
