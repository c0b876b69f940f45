(** C94, continued: the residual scale R2D2M2CP returns. *)
From Coq Require Import Reals String Lra Psatz.
From Verif Require Import Common LogR Dist_Model Dist_Props R2D2_Model R2D2_Props.
Open Scope R_scope.

(** One residual standard deviation per row: the square is the share of output_sigma^2 that r2 leaves, with the row's own r2
    (the one drawn when r2_std is given). *)
Theorem C94_residual : forall erfinv env name ncol os isg r2 r2_std imp ve conc cp cs probs std centered resid beta regs,
  r2d2m2cp erfinv env name ncol os isg r2 r2_std imp ve conc cp cs probs std centered = Ok (resid, beta, regs) ->
  let r2v := match r2_std with Some _ => env (under name "r2") | None => r2 end in
  length r2v = length os ->
  length resid = length os /\
  forall i, (i < length os)%nat -> nth i r2v 0 <= 1 ->
    nth i resid 0 ^ 2 = (1 - nth i r2v 0) * nth i os 0 ^ 2 /\ (0 <= nth i os 0 -> 0 <= nth i resid 0).
Proof.
  intros erfinv env name ncol os isg r2 r2_std imp ve conc cp cs probs std centered resid beta regs E r2v L.
  assert (H : resid = map (fun os => resid_sigma (fst os) (snd os)) (combine os r2v)).
  { unfold r2d2m2cp in E. unfold r2v. destruct r2_std; unfold bind in E;
      destruct (phi_param _ _ _ _ _ _) as [[phi rp]|]; try discriminate;
      destruct (psi_param _ _ _ _ _ _) as [[[mask psi] rq]|]; try discriminate;
      destruct (beta_coef _ _ _ _ _ _ _ _ _ _ _); injection E as <- _ _; reflexivity. }
  split; [rewrite H, map_length, combine_length, L; apply Nat.min_id|]. intros i Hi Hr.
  assert (Q : nth i resid 0 = resid_sigma (nth i os 0) (nth i r2v 0)).
  { rewrite H. rewrite nth_indep with (d' := resid_sigma (fst (0, 0)) (snd (0, 0))) by (rewrite map_length, combine_length; lia).
    rewrite (map_nth (fun os => resid_sigma (fst os) (snd os))). rewrite combine_nth by congruence. reflexivity. }
  rewrite Q. unfold resid_sigma. split.
  - rewrite Rpow_mult_distr, pow2_sqrt by lra. ring.
  - intros Ho. apply Rmult_le_pos; [|exact Ho] || apply Rmult_le_pos; auto using sqrt_pos.
Qed.
Example C94_residual_example : exists resid beta regs,
  r2d2m2cp (fun x => x) ex_env "b" 3 [2] [1; 1; 4] [1/2] None None (Some [1/2; 1/4; 1/4]) None true true [1/2; 1; 3/4] None false = Ok (resid, beta, regs) /\
  nth 0 resid 0 ^ 2 = 2.
Proof.
  destruct r2d2_meets_hypotheses as (resid & beta & regs & E & _). exists resid, beta, regs. split; [exact E|].
  destruct (C94_residual _ _ _ _ _ _ _ _ _ _ _ _ _ _ _ _ _ _ _ E eq_refl) as [_ H].
  destruct (H 0%nat ltac:(cbn; lia) ltac:(cbn; lra)) as [-> _]. cbn. lra.
Qed.
