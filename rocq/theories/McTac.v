(** Tactics: equality of sums in a commutative group (reflexive), commutative-ring and field equalities in a
    mathcomp field via the standard library's [ring]/[field]. No content about the modelled code. *)
From Coq Require Import Ring Field.
From mathcomp Require Import all_ssreflect all_algebra.
Set Implicit Arguments.
Unset Strict Implicit.
Unset Printing Implicit Defensive.
Import GRing.Theory.
Local Open Scope ring_scope.

Section Z.
Context (V : zmodType).
Inductive ze := Zv of nat | Z0 | Za of ze & ze | Zo of ze.
Fixpoint zeval (env : seq V) (e : ze) : V :=
  match e with Zv n => nth 0 env n | Z0 => 0 | Za a b => zeval env a + zeval env b | Zo a => - zeval env a end.
Fixpoint zcoef (e : ze) (k : nat) : int :=
  match e with Zv n => (n == k)%:Z | Z0 => 0 | Za a b => zcoef a k + zcoef b k | Zo a => - zcoef a k end.
Lemma zevalE env e : zeval env e = \sum_(k < size env) nth 0 env k *~ zcoef e k.
Proof.
elim: e => [n||a IHa b IHb|a IHa] /=.
- case: (ltnP n (size env)) => h.
  + rewrite (bigD1 (Ordinal h)) //= eqxx mulr1z big1 ?addr0 // => i ne.
    by rewrite (_ : (n == i) = false) //; apply: contraNF ne => /eqP e; apply/eqP/val_inj; rewrite /= -e.
  + rewrite nth_default // big1 // => i _.
    by rewrite (_ : (n == i) = false) //; apply: contraTF h => /eqP ->; rewrite -ltnNge.
- by rewrite big1.
- by rewrite IHa IHb -big_split /=; apply: eq_bigr => i _; rewrite mulrzDl.
- by rewrite IHa -sumrN; apply: eq_bigr => i _; rewrite mulrNz.
Qed.
Lemma zmod_reflect env a b :
  all (fun k => zcoef a k == zcoef b k) (iota 0 (size env)) -> zeval env a = zeval env b.
Proof.
move=> /allP h; rewrite !zevalE; apply: eq_bigr => i _; congr (_ *~ _); apply/eqP/h.
by rewrite mem_iota /= add0n.
Qed.
End Z.

Ltac z_same x y := let r := match constr:(Set) with
  | _ => let _ := match constr:(Set) with _ => unify x y with typeclass_instances end in constr:(true)
  | _ => constr:(false) end in r.
Ltac z_index x l := match l with
  | cons ?y ?l' => match z_same x y with
      | true => constr:(O)
      | false => let n := z_index x l' in constr:(S n) end end.
Ltac z_mem x l := match l with
  | nil => constr:(false)
  | cons ?y ?l' => match z_same x y with true => constr:(true) | false => z_mem x l' end end.
Ltac z_add x l := match z_mem x l with true => l | false => constr:(cons x l) end.
Ltac z_atoms t l := match t with
  | @GRing.add _ ?a ?b => let l1 := z_atoms a l in z_atoms b l1
  | @GRing.opp _ ?a => z_atoms a l
  | @GRing.zero _ => l
  | _ => z_add t l end.
Ltac z_reify t l := match t with
  | @GRing.add _ ?a ?b => let x := z_reify a l in let y := z_reify b l in constr:(Za x y)
  | @GRing.opp _ ?a => let x := z_reify a l in constr:(Zo x)
  | @GRing.zero _ => constr:(Z0)
  | _ => let n := z_index t l in constr:(Zv n) end.
Ltac zmod := match goal with |- @eq ?T ?a ?b =>
  let l0 := constr:(@nil T) in let l1 := z_atoms a l0 in let l := z_atoms b l1 in
  let x := z_reify a l in let y := z_reify b l in
  exact (@zmod_reflect _ l x y isT) end.

Goal forall (V : zmodType) (a b c : V), a - (b - c) + b = c + a.
Proof. move=> V a b c. zmod. Qed.

(** field: operations renamed so that the reifier of [field] finds them *)
Section F.
Context (R : fieldType).
Definition f0 : R := 0. Definition f1 : R := 1.
Definition fadd (x y : R) : R := x + y. Definition fmul (x y : R) : R := x * y.
Definition fopp (x : R) : R := - x. Definition fsub (x y : R) : R := x - y.
Definition finv (x : R) : R := x^-1. Definition fdiv (x y : R) : R := x / y.
Lemma f_ring : ring_theory f0 f1 fadd fmul fsub fopp (@eq R).
Proof.
split; rewrite /f0 /f1 /fadd /fmul /fopp /fsub.
- exact: add0r. - exact: addrC. - exact: addrA. - exact: mul1r. - exact: mulrC. - exact: mulrA.
- exact: mulrDl. - by []. - exact: subrr.
Qed.
Lemma f_field : field_theory f0 f1 fadd fmul fsub fopp fdiv finv (@eq R).
Proof.
split; [exact: f_ring | exact/eqP/oner_neq0 | by [] |].
by rewrite /f0 /f1 /fmul /finv => x /eqP nx; rewrite mulVf.
Qed.
End F.
Ltac fatoms := repeat match goal with
  | |- context [fun_of_matrix ?M ?i ?j] => let z := fresh "z" in set z := (M i j)
  end.
Ltac fchange := fatoms; rewrite ?(mulr1n, mulr0n) /=;
  rewrite ?(expr2, exprS, expr1, expr0);
  repeat match goal with
  | |- context [(?n.+1)%:R] => rewrite (mulrS 1 n)
  | |- context [(0%N)%:R] => rewrite (mulr0n 1)
  end;
  repeat match goal with
  | |- context [@GRing.add ?T ?x ?y] => change (@GRing.add T x y) with (@fadd _ x y)
  | |- context [@GRing.mul ?T ?x ?y] => change (@GRing.mul T x y) with (@fmul _ x y)
  | |- context [@GRing.opp ?T ?x] => change (@GRing.opp T x) with (@fopp _ x)
  | |- context [@GRing.inv ?T ?x] => change (@GRing.inv T x) with (@finv _ x)
  end;
  let fin R0 :=
    repeat match goal with
    | |- context [GRing.zero ?T] => change (GRing.zero T) with (@f0 R0)
    | |- context [GRing.one ?T] => change (GRing.one T) with (@f1 R0)
    end;
    match goal with |- @eq _ ?a ?b => change (@eq (GRing.Field.sort R0) a b) end in
  match goal with
  | |- context [@fadd ?R0 _ _] => fin R0
  | |- context [@fmul ?R0 _ _] => fin R0
  | |- context [@fopp ?R0 _] => fin R0
  | |- context [@finv ?R0 _] => fin R0
  | _ => idtac
  end.
Section T.
Context (R : fieldType).
Add Field ff : (@f_field R).
Lemma tst (a b c : R) : a * (b - c) + b * b = a * b - c * a + b ^+ 2 + 0.
Proof. fchange. ring. Qed.
Lemma tst2 (a b : R) : b != 0 -> a / b + 2%:R = (a + b + b) / b.
Proof. move=> /eqP h. fchange. field. exact: h. Qed.
End T.

Section T2.
From mathcomp Require Import ssrnum.
Context (R : realFieldType).
Add Field ff2 : (@f_field R).
Lemma tst3 (a b c : R) : a * (b - c) + b * b = a * b - c * a + b ^+ 2 + 0.
Proof. fchange. ring. Qed.
Lemma tst4 n (A : 'M[R]_n) i j b : b != 0 -> A i j / b + 2%:R = (A i j + b + b) / b.
Proof. move=> /eqP h. fchange. field. exact: h. Qed.
End T2.
