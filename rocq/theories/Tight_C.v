(** C10, C22, continued: naming a variable that cannot be marginalized; the size of the SARIMA design row. *)
From Coq Require Import List.
From Verif Require Import Common MargState_Model.
From mathcomp Require Import all_ssreflect all_algebra.
From Verif Require Import Sarima_Model.
Set Implicit Arguments.
Unset Strict Implicit.
Unset Printing Implicit Defensive.

(** marginalize(name): KeyError when the model has no variable of that name, ValueError when it is not a free random variable
    (observed, deterministic, data); the model is left as it was. *)
Theorem C10_wrong_variable : forall w h (m : mmodel) n, ~ List.In n (MargState_Model.free m) ->
  (List.In n (observed m) \/ List.In n (others m) -> MargState_Model.marginalize w h m [:: ByName n] = (h, m, Some ValueError)) /\
  (~ List.In n (observed m) -> ~ List.In n (others m) -> MargState_Model.marginalize w h m [:: ByName n] = (h, m, Some KeyError)).
Proof.
  have memP n l : MargState_Model.mem n l = true <-> List.In n l.
  { elim: l => [|a l IH] //=. rewrite Bool.orb_true_iff PeanoNat.Nat.eqb_eq IH. intuition. }
  have memF n l : ~ List.In n l -> MargState_Model.mem n l = false by move=> H; apply: Bool.not_true_is_false => /memP.
  move=> w h m n NF. rewrite /MargState_Model.marginalize /= /named (memF _ _ NF). split.
  - move=> H. have -> : MargState_Model.mem n (observed m) || MargState_Model.mem n (others m).
    { apply/orP. case: H => /memP H; by [left | right]. }
    by rewrite /= memF.
  - by move=> /memF -> /memF ->.
Qed.
Print Assumptions C10_wrong_variable.
(** The hypothesis can be met. *)
Example C10_wrong_variable_example : let m := {| MargState_Model.free := [:: 1]; observed := [:: 2]; others := [:: 3]; marged := [::]; nvd := 0; mnvd := 1; initvals := fun _ => None; transforms := fun _ => 0 |} in
  forall w h, MargState_Model.marginalize w h m [:: ByName 3] = (h, m, Some ValueError) /\ MargState_Model.marginalize w h m [:: ByName 4] = (h, m, Some KeyError).
Proof. by []. Qed.

(** The SARIMA design row has one entry per hidden state: d + S D + max(p + P S, q + Q S + 1). *)
Theorem C22_design_size : forall (R : comRingType) (p d q P D Q S : nat), (0 < D -> 0 < S)%N ->
  size (sarima_Z R p d q P D Q S) = (d + S * D + maxn (p + P * S) (q + Q * S + 1))%N.
Proof.
  move=> R p d q P D Q S HS. have ts T (l : seq T) k : size (np_tile l k) = (k * size l)%N.
  { elim: k => [|k IH] //=. by rewrite size_cat -/(np_tile l k) IH mulSn. }
  rewrite /sarima_Z !size_cat /= !size_nseq ts size_rcons size_nseq.
  have e : (D * (S - 1).+1 = S * D)%N. { case: D HS => [|D] HS; first by rewrite muln0. by rewrite subn1 prednK ?HS // mulnC. }
  have k1 : (0 < k_lags p q P Q S)%N by rewrite /k_lags leq_max addn1 orbT.
  by rewrite e addnA add1n subn1 prednK.
Qed.
Print Assumptions C22_design_size.
