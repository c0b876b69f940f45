(** Entries of the transition matrices of the VARMAX and ETS models of Multi_Model, for C88. *)
From Coq Require Import Reals String Lra Lia List.
From Verif Require Import Common Struct_Model Multi_Model Multi_Varma Multi_Ets.
Import ListNotations.
Open Scope nat_scope.
Lemma vT_shift p q k v i j : 0 < k -> k <= i -> i < k * (max p 1 + q) -> j < k * (max p 1 + q) ->
  vT p q k v i j = if (k * max p 1 <=? i) && (i <? k * (max p 1 + 1)) then 0%R else if j + k =? i then 1%R else 0%R.
Proof.
  intros Hk Hi Hi' Hj. unfold vT. set (a := max p 1) in *. assert (Ha : 1 <= a /\ p <= a /\ (p = 0 \/ p = a)) by lia.
  destruct (Nat.ltb_spec i k); [lia|]. destruct (Nat.ltb_spec i (k * a)) as [H1|H1].
  - destruct (Nat.leb_spec (k * a) i); [lia|]. cbn [andb]. assert (E : p - 1 = a - 1) by nia. rewrite E. clear E.
    destruct (Nat.ltb_spec j (k * (a - 1))) as [H2|H2]; [unfold eye, eye_below; destruct (Nat.eqb_spec (i - k) (j + 0)), (Nat.eqb_spec (j + k) i); try lia; auto|].
    destruct (Nat.eqb_spec (j + k) i); [|auto]. nia.
  - destruct (Nat.leb_spec (k * a) i); [|lia]. destruct (Nat.leb_spec (k * (a + 1)) i), (Nat.ltb_spec i (k * (a + 1))); try lia; cbn [andb]; auto.
    destruct (Nat.ltb_spec i (k * (a + q))); [|lia]. cbn [andb].
    destruct (Nat.leb_spec (k * a) j), (Nat.ltb_spec j (k * (a + q - 1))); cbn [andb]; try (destruct (Nat.eqb_spec (j + k) i); [nia|auto]).
    unfold eye, eye_below. destruct (Nat.eqb_spec (i - k * (a + 1)) (j - k * a + 0)), (Nat.eqb_spec (j + k) i); auto; exfalso; nia.
Qed.
Lemma vT_top p q k v i b l : i < k -> b < p -> l < k -> vT p q k v i (b * k + l) = v_ar v i b l.
Proof.
  intros Hi Hb Hl. unfold vT. destruct (Nat.ltb_spec i k); [|lia]. destruct (Nat.ltb_spec (b * k + l) (k * p)); [|nia]. apply reshape3E; auto.
Qed.
Lemma vT_top0 q k v i j : i < k -> j < k -> vT 0 q k v i j = 0%R.
Proof. intros Hi Hj. unfold vT. destruct (Nat.ltb_spec i k); [|lia]. destruct (Nat.ltb_spec j (k * 0)); [lia|]. cbn [max]. destruct (Nat.leb_spec (k * 1) j); [lia|]. auto. Qed.

(** the block of series i in the damped transition matrix *)
Definition Tbd (dm : R) (trend damped seasonal : bool) (mm : nat) (v : epar) (i r s : nat) : R :=
  block_diag_l (ets_T_base trend damped dm (e_phi v i) :: (if seasonal then [ets_T_seasonal mm dm] else [])) r s.
Lemma ets_T_at dm k mm trend damped seasonal v i j r s : let each := 2 + b2n trend + b2n seasonal * mm in i < k -> j < k -> r < each -> s < each ->
  ets_T k mm trend damped seasonal dm v (i * each + r) (j * each + s) = if i =? j then Tbd dm trend damped seasonal mm v i r s else 0%R.
Proof.
  intros each Hi Hj Hr Hs. unfold ets_T.
  rewrite (bd_groups (fun i => ets_T_base trend damped dm (e_phi v i) :: (if seasonal then [ets_T_seasonal mm dm] else [])) each each); auto.
  - intros i0. unfold each, ets_T_base, rows_of. destruct trend, seasonal; simpl; lia.
  - intros i0. unfold each, ets_T_base, cols_of. destruct trend, seasonal; simpl; lia.
Qed.
(** the dampening that stands on the diagonal of the trend: phi itself in a damped model *)
Definition trend_damp (damped : bool) (dm phi : R) : R := if damped then phi else dm.
Lemma Tbd_base dm trend damped seasonal mm v i r s : r < 2 + b2n trend ->
  Tbd dm trend damped seasonal mm v i r s =
  if (r =? 1) && (s =? 1) then dm
  else if trend && (r =? 1) && (s =? 2) then trend_damp damped 1 (e_phi v i)
  else if trend && (r =? 2) && (s =? 2) then trend_damp damped dm (e_phi v i) else 0%R.
Proof.
  intros Hr. unfold Tbd, ets_T_base, trend_damp.
  destruct trend; cbn [block_diag_l b2n] in *; unfold block_diag.
  - destruct (Nat.ltb_spec r 3); [|lia]. destruct (Nat.ltb_spec s 3).
    + destruct r as [|[|[|r]]]; try lia; destruct s as [|[|[|s]]]; try lia; destruct damped; reflexivity.
    + destruct s as [|[|[|s]]]; try lia. destruct r as [|[|[|r]]]; try lia; reflexivity.
  - destruct (Nat.ltb_spec r 2); [|lia]. destruct (Nat.ltb_spec s 2).
    + destruct r as [|[|r]]; try lia; destruct s as [|[|s]]; try lia; reflexivity.
    + destruct s as [|[|s]]; try lia. destruct r as [|[|r]]; try lia; reflexivity.
Qed.
Lemma Tbd_season dm trend damped mm v i r s : let so := 2 + b2n trend in r < mm -> s < so + mm ->
  Tbd dm trend damped true mm v i (so + r) s = if s <? so then 0%R else if (r =? 0) && (s - so =? mm - 1) then dm else if r =? (s - so) + 1 then 1%R else 0%R.
Proof.
  intros so Hr Hs. unfold Tbd, so in *. unfold ets_T_base.
  assert (EQ : forall r s, r < mm -> s < mm -> block_diag_l [ets_T_seasonal mm dm] r s
               = (if (r =? 0) && (s =? mm - 1) then dm else if r =? s + 1 then 1%R else 0%R)).
  { intros r' s' H1 H2. simpl. unfold block_diag. destruct (Nat.ltb_spec r' mm); [|lia].
    destruct (Nat.ltb_spec s' mm); [|lia]. unfold set1, eye_below. auto. }
  destruct trend; cbn [b2n] in *.
  - cbn [block_diag_l]. unfold block_diag at 1.
    destruct (Nat.ltb_spec (2 + 1 + r) 3); [lia|].
    destruct (Nat.ltb_spec s 3), (Nat.ltb_spec s (2 + 1)); try lia; auto.
    replace (2 + 1 + r - 3) with r by lia. apply EQ; lia.
  - cbn [block_diag_l]. unfold block_diag at 1.
    destruct (Nat.ltb_spec (2 + 0 + r) 2); [lia|].
    destruct (Nat.ltb_spec s 2), (Nat.ltb_spec s (2 + 0)); try lia; auto.
    replace (2 + 0 + r - 2) with r by lia. apply EQ; lia.
Qed.
