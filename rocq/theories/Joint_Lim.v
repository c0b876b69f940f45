(** Limits of numbers and matrices as a positive parameter goes to 0, in any ordered field: they commute with sums, products, transposes and inverses. *)
From mathcomp Require Import all_ssreflect all_algebra.
Set Implicit Arguments.
Unset Strict Implicit.
Unset Printing Implicit Defensive.
Import Order.Theory GRing.Theory Num.Theory.
Local Open Scope ring_scope.

Section Lim.
Context (R : realFieldType).
(** for every small enough positive parameter *)
Definition ev (P : R -> Prop) : Prop := exists2 d, 0 < d & forall j, 0 < j -> j < d -> P j.
Lemma ev_all (P : R -> Prop) : (forall j, 0 < j -> P j) -> ev P.
Proof. move=> H. exists 1 => // j j0 _. exact: H. Qed.
Lemma ev_and (P Q : R -> Prop) : ev P -> ev Q -> ev (fun j => P j /\ Q j).
Proof.
  move=> [a a0 HP] [b b0 HQ]. exists (Num.min a b); first by rewrite lt_minr a0 b0.
  move=> j j0. rewrite lt_minr => /andP [ja jb]. by split; [exact: HP | exact: HQ].
Qed.
Lemma ev_imp (P Q : R -> Prop) : (forall j, 0 < j -> P j -> Q j) -> ev P -> ev Q.
Proof. move=> I [a a0 H]. exists a => // j j0 ja. exact: I (H j j0 ja). Qed.
Lemma ev_fin (T : finType) (P : T -> R -> Prop) : (forall x, ev (P x)) -> ev (fun j => forall x, P x j).
Proof.
  move=> H. suff K : forall s : seq T, ev (fun j => forall x, x \in s -> P x j).
  { apply: ev_imp (K (enum T)) => j _ h x. apply: h. by rewrite mem_enum. }
  elim=> [|x s IH]; first by exists 1.
  apply: ev_imp (ev_and (H x) IH) => j _ [h1 h2] z. by rewrite inE => /orP [/eqP -> | /h2].
Qed.
Lemma ev_nat (P : nat -> R -> Prop) m : (forall t, (t < m)%N -> ev (P t)) -> ev (fun j => forall t, (t < m)%N -> P t j).
Proof.
  move=> H. apply: ev_imp (@ev_fin [finType of 'I_m] (fun i => P i) (fun i => H i (ltn_ord i))) => j _ h t lt. exact: (h (Ordinal lt)).
Qed.
Definition lim (f : R -> R) (l : R) : Prop := forall e, 0 < e -> ev (fun j => `|f j - l| < e).
Lemma lim_eq f g l : ev (fun j => f j = g j) -> lim g l -> lim f l.
Proof. move=> E H e e0. apply: ev_imp (ev_and E (H e e0)) => j _ [->]. by []. Qed.
Lemma lim_const c : lim (fun _ => c) c.
Proof. move=> e e0. apply: ev_all => j _. by rewrite subrr normr0. Qed.
Lemma lim_id : lim id 0.
Proof. move=> e e0. exists e => // j j0 je. by rewrite subr0 gtr0_norm. Qed.
Lemma lim_add f g a b : lim f a -> lim g b -> lim (fun j => f j + g j) (a + b).
Proof.
  move=> F G e e0. have h0 : 0 < e / 2%:R by rewrite divr_gt0 // ltr0n. apply: ev_imp (ev_and (F _ h0) (G _ h0)) => j _ [h1 h2].
  have -> : f j + g j - (a + b) = (f j - a) + (g j - b) by rewrite opprD addrACA.
  apply: le_lt_trans (ler_norm_add _ _) _. by rewrite [ltRHS]splitr ltr_add.
Qed.
Lemma lim_opp f a : lim f a -> lim (fun j => - f j) (- a).
Proof. move=> F e e0. apply: ev_imp (F e e0) => j _. by rewrite -opprD normrN. Qed.
Lemma lim_bound f a : lim f a -> ev (fun j => `|f j| < `|a| + 1).
Proof.
  move=> F. apply: ev_imp (F 1 ltr01) => j _ h. have -> : f j = a + (f j - a) by rewrite addrC subrK.
  apply: le_lt_trans (ler_norm_add _ _) _. by rewrite ltr_add2l.
Qed.
Lemma lim_mul0 f g b : lim f 0 -> lim g b -> lim (fun j => f j * g j) 0.
Proof.
  move=> F G e e0. have b0 : 0 < `|b| + 1 by rewrite ltr_paddl. have h0 : 0 < e / (`|b| + 1) by rewrite divr_gt0.
  apply: ev_imp (ev_and (F _ h0) (lim_bound G)) => j _ [h1 h2]. rewrite subr0 in h1. rewrite subr0 normrM.
  have -> : e = e / (`|b| + 1) * (`|b| + 1) by rewrite mulfVK // gt_eqF.
  apply: ltr_pmul; [exact: normr_ge0 | exact: normr_ge0 | exact: h1 | exact: h2].
Qed.
Lemma lim_mul f g a b : lim f a -> lim g b -> lim (fun j => f j * g j) (a * b).
Proof.
  move=> F G. have F0 : lim (fun j => f j - a) 0 by rewrite -(subrr a); apply: lim_add F (lim_const _).
  have G0 : lim (fun j => g j - b) 0 by rewrite -(subrr b); apply: lim_add G (lim_const _).
  have E : lim (fun j => (f j - a) * g j + a * (g j - b) + a * b) (0 + 0 + a * b).
  { apply: lim_add (lim_const _). apply: lim_add; first exact: lim_mul0 F0 G. apply: (@lim_eq _ (fun j => (g j - b) * a)); first by apply: ev_all => j _; rewrite mulrC. exact: lim_mul0 G0 (lim_const a). }
  rewrite !add0r in E. apply: lim_eq E. apply: ev_all => j _. by rewrite mulrBl mulrBr addrA subrK subrK.
Qed.
Lemma lim_inv f a : a != 0 -> lim f a -> lim (fun j => (f j)^-1) a^-1.
Proof.
  move=> a0 F e e0. have A : 0 < `|a| by rewrite normr_gt0. have h1 : 0 < `|a| / 2%:R by rewrite divr_gt0 // ltr0n.
  have h2 : 0 < e * (`|a| / 2%:R) * `|a| by apply: mulr_gt0 => //; apply: mulr_gt0.
  apply: ev_imp (ev_and (F _ h1) (F _ h2)) => j _ [k1 k2].
  have fa : `|a| / 2%:R < `|f j|.
  { have T : `|a| <= `|f j| + `|f j - a|. { have {1}-> : a = f j - (f j - a) by rewrite opprB addrCA subrr addr0. apply: ler_norm_sub. }
    rewrite -(ltr_add2r (`|a| / 2%:R)) -splitr. apply: le_lt_trans T _. by rewrite ltr_add2l. }
  have f0 : f j != 0 by rewrite -normr_gt0; apply: lt_trans fa.
  have -> : (f j)^-1 - a^-1 = - (f j - a) * ((f j)^-1 * a^-1). { rewrite opprB mulrBl mulrCA mulfV // mulr1 mulrA mulfV // mul1r. by []. }
  rewrite normrM normrN normrM !normfV. rewrite mulrA ltr_pdivr_mulr // ltr_pdivr_mulr; last exact: lt_trans fa.
  apply: lt_le_trans k2 _. rewrite [leRHS]mulrAC ?ler_pmul2r // ?ler_pmul2l //; exact: ltW.
Qed.
Lemma lim_sum (I : Type) (s : seq I) (f : I -> R -> R) (l : I -> R) : (forall i, lim (f i) (l i)) -> lim (fun j => \sum_(i <- s) f i j) (\sum_(i <- s) l i).
Proof.
  move=> H. elim: s => [|i s IH].
  - rewrite big_nil. apply: lim_eq (lim_const 0). apply: ev_all => j _. by rewrite big_nil.
  - rewrite big_cons. apply: lim_eq (lim_add (H i) IH). apply: ev_all => j _. by rewrite big_cons.
Qed.
Lemma lim_prod (I : Type) (s : seq I) (f : I -> R -> R) (l : I -> R) : (forall i, lim (f i) (l i)) -> lim (fun j => \prod_(i <- s) f i j) (\prod_(i <- s) l i).
Proof.
  move=> H. elim: s => [|i s IH].
  - rewrite big_nil. apply: lim_eq (lim_const 1). apply: ev_all => j _. by rewrite big_nil.
  - rewrite big_cons. apply: lim_eq (lim_mul (H i) IH). apply: ev_all => j _. by rewrite big_cons.
Qed.
(** matrices, entry by entry *)
Definition mlim m n (f : R -> 'M[R]_(m, n)) (L : 'M[R]_(m, n)) : Prop := forall i k, lim (fun j => f j i k) (L i k).
Lemma mlim_eq m n (f g : R -> 'M[R]_(m, n)) L : ev (fun j => f j = g j) -> mlim g L -> mlim f L.
Proof. move=> E H i k. apply: lim_eq (H i k). by apply: ev_imp E => j _ ->. Qed.
Lemma mlim_const m n (L : 'M[R]_(m, n)) : mlim (fun _ => L) L.
Proof. move=> i k. exact: lim_const. Qed.
Lemma mlim_add m n (f g : R -> 'M[R]_(m, n)) A B : mlim f A -> mlim g B -> mlim (fun j => f j + g j) (A + B).
Proof. move=> F G i k. rewrite mxE. apply: lim_eq (lim_add (F i k) (G i k)). apply: ev_all => j _. by rewrite mxE. Qed.
Lemma mlim_opp m n (f : R -> 'M[R]_(m, n)) A : mlim f A -> mlim (fun j => - f j) (- A).
Proof. move=> F i k. rewrite mxE. apply: lim_eq (lim_opp (F i k)). apply: ev_all => j _. by rewrite mxE. Qed.
Lemma mlim_sub m n (f g : R -> 'M[R]_(m, n)) A B : mlim f A -> mlim g B -> mlim (fun j => f j - g j) (A - B).
Proof. move=> F G. exact: mlim_add F (mlim_opp G). Qed.
Lemma mlim_mul m n q (f : R -> 'M[R]_(m, n)) (g : R -> 'M[R]_(n, q)) A B : mlim f A -> mlim g B -> mlim (fun j => f j *m g j) (A *m B).
Proof.
  move=> F G i k. rewrite mxE. apply: (@lim_eq _ (fun j => \sum_l f j i l * g j l k)); first by apply: ev_all => j _; rewrite mxE.
  apply: lim_sum => l. exact: lim_mul (F i l) (G l k).
Qed.
Lemma mlim_tr m n (f : R -> 'M[R]_(m, n)) A : mlim f A -> mlim (fun j => (f j)^T) A^T.
Proof. move=> F i k. rewrite mxE. apply: lim_eq (F k i). apply: ev_all => j _. by rewrite mxE. Qed.
Lemma mlim_scale m n (c : R -> R) (f : R -> 'M[R]_(m, n)) a A : lim c a -> mlim f A -> mlim (fun j => c j *: f j) (a *: A).
Proof. move=> C F i k. rewrite mxE. apply: lim_eq (lim_mul C (F i k)). apply: ev_all => j _. by rewrite mxE. Qed.
Lemma mlim_det m (f : R -> 'M[R]_m) A : mlim f A -> lim (fun j => \det (f j)) (\det A).
Proof. move=> F. rewrite /determinant. apply: lim_sum => s. apply: lim_mul (lim_const _) _. apply: lim_prod => i. exact: F. Qed.
Lemma mlim_adj m (f : R -> 'M[R]_m) A : mlim f A -> mlim (fun j => \adj (f j)) (\adj A).
Proof.
  move=> F i k. rewrite mxE /cofactor. apply: (@lim_eq _ (fun j => (-1) ^+ (k + i) * \det (row' k (col' i (f j))))); first by apply: ev_all => j _; rewrite mxE.
  apply: lim_mul (lim_const _) _. apply: mlim_det => a b. rewrite !mxE. apply: lim_eq (F (lift k a) (lift i b)). by apply: ev_all => j _; rewrite !mxE.
Qed.
Lemma lim_nz f a : a != 0 -> lim f a -> ev (fun j => f j != 0).
Proof.
  move=> a0 F. have A : 0 < `|a| by rewrite normr_gt0. apply: ev_imp (F _ A) => j _ h. apply/negP => /eqP E. by rewrite E sub0r normrN ltxx in h.
Qed.
Lemma mlim_unit m (f : R -> 'M[R]_m) A : A \in unitmx -> mlim f A -> ev (fun j => f j \in unitmx).
Proof. rewrite unitmxE unitfE => U F. apply: ev_imp (lim_nz U (mlim_det F)) => j _. by rewrite unitmxE unitfE. Qed.
Lemma mlim_inv m (f : R -> 'M[R]_m) A : A \in unitmx -> mlim f A -> mlim (fun j => invmx (f j)) (invmx A).
Proof.
  move=> U F. rewrite {2}/invmx U. apply: (@mlim_eq _ _ _ (fun j => (\det (f j))^-1 *: \adj (f j))).
  { apply: ev_imp (mlim_unit U F) => j _ Uj. by rewrite /invmx Uj. }
  apply: mlim_scale (mlim_adj F). apply: lim_inv (mlim_det F). by rewrite -unitfE -unitmxE.
Qed.
End Lim.
