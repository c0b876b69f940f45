(** Lists of observed numbers: appending, full rows, orthogonality to later shocks. *)
From mathcomp Require Import all_ssreflect all_algebra.
From Verif Require Import McTac Kalman_Model Kalman_Spec Kalman_Proofs Joint_Spec Joint_Proofs.
Set Implicit Arguments.
Unset Strict Implicit.
Unset Printing Implicit Defensive.
Import Order.Theory GRing.Theory Num.Theory.
Local Open Scope ring_scope.

Section Stack.
Context (R : realFieldType) (N : nat).
Local Notation rv := (rv R N).
Local Notation datum := (datum R N).
Implicit Types (l : seq datum).
Definition dat l m (mY : 'cV[R]_m) (Y : 'M[R]_(m, N)) (yd : 'cV[R]_m) : Prop :=
  exists e : m = size l, [/\ mean (stack l) = castmx (e, erefl) mY, load (stack l) = castmx (e, erefl) Y & values l = castmx (e, erefl) yd].
Lemma dat_self l : dat l (mean (stack l)) (load (stack l)) (values l).
Proof. by exists erefl; rewrite !castmx_id. Qed.
Lemma dat_cat l l' m (mY : 'cV[R]_m) Y yd m' (mY' : 'cV[R]_m') Y' yd' : dat l mY Y yd -> dat l' mY' Y' yd' ->
  dat (l ++ l') (col_mx mY mY') (col_mx Y Y') (col_mx yd yd').
Proof.
  move=> [e [E1 E2 E3]] [e' [E1' E2' E3']]. subst m m'. rewrite !castmx_id in E1 E2 E3 E1' E2' E3'. rewrite -{}E1 -{}E2 -{}E3 -{}E1' -{}E2' -{}E3'.
  have ec : (size l + size l' = size (l ++ l'))%N by rewrite size_cat. exists ec.
  have K : forall (B : Type) (g : datum -> B) (i : 'I_(size (l ++ l'))) d0 (h : 'I_(size l) -> B) (h' : 'I_(size l') -> B),
    (forall k, h k = g (nth d0 l k)) -> (forall k, h' k = g (nth d0 l' k)) ->
    g (nth d0 (l ++ l') i) = match split (cast_ord (esym ec) i) with inl k => h k | inr k => h' k end.
  { move=> B g i d0 h h' eh eh'. rewrite nth_cat. case: splitP => k /= Ek. - by rewrite Ek ltn_ord eh. - by rewrite Ek ltnNge leq_addr /= addKn eh'. }
  split; apply/matrixP => i j; rewrite castmxE !mxE.
  - rewrite (K _ (@d_mean R N) i _ (fun k => mean (stack l) k (cast_ord (esym erefl) j)) (fun k => mean (stack l') k (cast_ord (esym erefl) j))) //; by move=> k; rewrite mxE.
  - rewrite (K _ (fun d => d_load d 0 j) i _ (fun k => load (stack l) k (cast_ord (esym erefl) j)) (fun k => load (stack l') k (cast_ord (esym erefl) j))) //; by move=> k; rewrite mxE cast_ord_id.
  - rewrite (K _ (@d_val R N) i _ (fun k => values l k (cast_ord (esym erefl) j)) (fun k => values l' k (cast_ord (esym erefl) j))) //; by move=> k; rewrite mxE.
Qed.
(** conditioning on a list *)
Definition condL n (X : rv n) l a P : Prop := isCond (mean X) (load X) (mean (stack l)) (load (stack l)) (values l) a P.
Lemma condL_dat n (X : rv n) l m (mY : 'cV[R]_m) Y yd a P : dat l mY Y yd -> isCond (mean X) (load X) mY Y yd a P -> condL X l a P.
Proof. move=> [e [E1 E2 E3]]. subst m. by rewrite !castmx_id in E1 E2 E3; rewrite /condL E1 E2 E3. Qed.
Lemma dat_gram l m (mY : 'cV[R]_m) Y yd : dat l mY Y yd -> \det (cov (stack l) (stack l)) = \det (gram Y) /\
  (values l - mean (stack l))^T *m invmx (cov (stack l) (stack l)) *m (values l - mean (stack l)) = (yd - mY)^T *m invmx (gram Y) *m (yd - mY).
Proof. move=> [e [E1 E2 E3]]. subst m. by rewrite !castmx_id in E1 E2 E3; rewrite /cov /gram E1 E2 E3. Qed.
Lemma dat_unit l m (mY : 'cV[R]_m) Y yd : dat l mY Y yd -> nonsingular l <-> gram Y \in unitmx.
Proof. move=> /dat_gram [D _]. by rewrite /nonsingular !unitmxE D. Qed.
Lemma nonsingular_cat l l' : nonsingular (l ++ l') -> nonsingular l.
Proof. move/(dat_unit (dat_cat (dat_self l) (dat_self l'))) => /gram_sub U. by apply: (dat_unit (dat_self l)).2. Qed.
Lemma condL_given n (X : rv n) l a P : nonsingular l -> condL X l a P -> a = given_mean X l /\ P = given_cov X l.
Proof. move=> U C. by have := isCond_given U C. Qed.
(** a fully observed vector *)
Lemma dat_full p (Y : rv p) (row : obs R p) (v : 'cV[R]_p) : (forall i, row i = Some (v i 0)) -> dat (observed Y row) (mean Y) (load Y) v.
Proof.
  move=> E. have -> : observed Y row = [seq Datum (mean Y i 0) (\row_j load Y i j) (v i 0) | i <- enum 'I_p].
  { rewrite /observed. elim: (enum 'I_p) => //= i s ->. by rewrite E. }
  have e : p = size [seq Datum (mean Y i 0) (\row_j load Y i j) (v i 0) | i <- enum 'I_p] by rewrite size_map size_enum_ord.
  exists e. set l := [seq _ | _ <- _] in e *. 
  have K : forall (i : 'I_(size l)) d0, nth d0 l i = let k := cast_ord (esym e) i in Datum (mean Y k 0) (\row_j load Y k j) (v k 0).
  { move=> i d0. pose k := cast_ord (esym e) i. have ik : (i < size (enum 'I_p))%N by rewrite -(size_map (fun i => Datum (mean Y i 0) (\row_j load Y i j) (v i 0))).
    rewrite /l (nth_map k) //. have -> : nth k (enum 'I_p) i = k by apply/val_inj; rewrite /= nth_enum_ord //; move: ik; rewrite size_enum_ord. by []. }
  split; apply/matrixP => i j; rewrite castmxE mxE K /= ?ord1 ?mxE ?cast_ord_id //; by congr (_ _ _); apply/val_inj.
Qed.
Lemma dat_one (d : datum) : dat [:: d] (d_mean d)%:M (d_load d) (d_val d)%:M.
Proof. exists erefl. rewrite !castmx_id. split; apply/matrixP => i j; rewrite ?ord1 !mxE //. Qed.

(** orthogonality *)
Definition orth q (E : 'M[R]_(q, N)) l : Prop := List.Forall (fun d => d_load d *m E^T = 0) l.
Lemma orth_cat q (E : 'M[R]_(q, N)) l l' : orth E (l ++ l') <-> orth E l /\ orth E l'.
Proof. exact: List.Forall_app. Qed.
Lemma orth_stack q (E : 'M[R]_(q, N)) l : orth E l -> load (stack l) *m E^T = 0.
Proof.
  move=> O. apply/row_matrixP => i. rewrite row_mul row0. have -> : row i (load (stack l)) = d_load (nth (Datum 0 0 0) l i) by apply/matrixP => a b; rewrite !mxE ord1.
  move: (ltn_ord i). move: {i} (nat_of_ord i) => i. elim: O i => [|d l' Hd _ IH] [|i] //=. exact: IH.
Qed.
Lemma orth_observed q (E : 'M[R]_(q, N)) p (Y : rv p) (ob : obs R p) : load Y *m E^T = 0 -> orth E (observed Y ob).
Proof.
  move=> O. rewrite /orth /observed. elim: (enum 'I_p) => [|i s IH] /=; first by constructor. case: (ob i) => [v|] //=. constructor=> //=.
  have -> : (\row_j load Y i j) = row i (load Y) by apply/matrixP => a b; rewrite !mxE. by rewrite -row_mul O row0.
Qed.
End Stack.
