(** WitnessFloatUniform.v -- a concrete case for C103: the mixture of
    WitnessFloatConverge.v after 640 steps. *)

From Flocq Require Import Core BinarySingleNaN.
From Coq Require Import Reals ZArith String List Bool Arith Lia Lra.
From Verif Require Import Base ModelParts ModelKernel ModelFloat ModelFloatKernel ModelFloatParts PropertiesFloat ProofsFloatKernel
  PropertiesFloatKernel ProofsRounding PropertiesRounding ProofsFloatError PropertiesFloatError PropertiesFloatParts ProofsFloatRevive
  ProofsParts ProofsKernel ProofsSteps ProofsBounds ProofsEquilibrium PropertiesKernel PropertiesConstraints PropertiesEquilibrium
  PropertiesFeatures PropertiesBinary ProofsContract ProofsContractLoose PropertiesContract WitnessFloatError PropertiesFloatConverge
  WitnessFloatConverge PropertiesFloatBalance WitnessFloatBalance PropertiesConvex PropertiesFloatUniform Spec.
Import ListNotations.
Open Scope R_scope.
Local Arguments B_top : simpl never.
Local Arguments half64 : simpl never.
Local Arguments one64 : simpl never.
Local Arguments dy64 : simpl never.
Local Arguments bpow : simpl never.
Local Arguments mat_min : simpl never.

(** chi = 1/64 uses up 1/64 of the entropy of mixing. *)
Lemma v_mixes : mixes_up_to 2 v_chis (fun _ => 1) (/ 64) 0.
Proof.
  intros y. unfold form. cbn. pose proof (Rle_0_sqr (y 0%nat + y 1%nat)) as S1. unfold Rsqr in S1. lra.
Qed.
Lemma v_total : 0 <= total_rounding v_q64 v_s 2 4 <= / 10 ^ 8.
Proof. unfold total_rounding, phi_rounding, k_phi, S_incomp, eps64. cbn. lra. Qed.

(** No two phases that the converged run returns differ by more than 1/4000 in
    squared distance. *)
Example C103_case : exists o J phis, run64 exact_pf v_q64 (dy64 1 (-16)) 640 1 0 v_k64 = Ok (o, J, phis) /\
  converged64 (dy64 1 (-16)) (oc_safe o) (oc_rep o) = true /\
  forall p1 p2, (p1 < 2)%nat -> (p2 < 2)%nat ->
    rsum 2 (fun i => (B2R (phis i p1) - B2R (phis i p2)) * (B2R (phis i p1) - B2R (phis i p2)) / 1) <= / 4000.
Proof.
  destruct v_tol as (F & ET). pose proof v_precision as P.
  destruct (C101_run _ _ _ _ _ _ _ _ _ _ _ _ _ _ _ _ _ _ _ _ _ _ _ _ _ _ _ v_setting v_weak v_budget (dy64 1 (-16)) 640 1 0 1) as (o & J & phis & H1 & H2 & _ & _ & H3).
  - exact F.
  - lia.
  - lia.
  - lia.
  - rewrite ET. exact P.
  - exists o, J, phis. split; [exact H1|]. split; [exact H2|].
    destruct (C103_uniform _ _ _ _ _ _ _ _ _ _ _ _ _ _ _ _ _ _ _ _ _ _ (/ 64) 0 v_mixture v_mixes (Rle_refl 0) ltac:(lra) v_ops _ _ _ _ _ _ _ v_draws v_rng H1) as (n & k1 & nv & Ln & Lk & I & K).
    pose proof (C103_moderate _ _ _ _ _ _ _ _ _ _ _ _ _ _ _ _ _ _ _ _ _ _ _ _ _ _ _ n k1 v_setting v_weak v_budget Lk ltac:(lia)) as MO.
    destruct v_rounding as (R1 & R2). destruct v_total as (T0 & T1).
    assert (LB : forall i p, (i < 2)%nat -> (p < 2)%nat -> / 4 <= B2R (phis i p)).
    { intros i p Hi Hp. destruct (H3 i p Hi Hp) as (_ & A). change (640 - 1)%nat with 639%nat in A. apply Rabs_le_inv in A. lra. }
    destruct (K MO (/ 4) ltac:(lra) ltac:(lra) LB) as (_ & K2). intros p1 p2 P1 P2.
    eapply Rle_trans; [apply (K2 F H2 (/ 65536 + / 10 ^ 8) (8 / 100000) p1 p2)|].
    + rewrite ET. lra.
    + lra.
    + rewrite ET. replace (Rabs (shifted_sum (z_nf v_q64) v_chis 0 (/ 4))) with (33 / 32).
      * change (INR (z_nf v_q64)) with (1 + 1). lra.
      * unfold shifted_sum. cbn. rewrite Rabs_pos_eq; lra.
    + lra.
    + exact P1.
    + exact P2.
    + unfold spread. lra.
Qed.

(** All of them are the mean composition within 1/50. *)
Example C103_mean_case : exists o J phis, run64 exact_pf v_q64 (dy64 1 (-16)) 640 1 0 v_k64 = Ok (o, J, phis) /\
  forall i p, (i < 2)%nat -> (p < 2)%nat -> Rabs (B2R (phis i p) - / 2) <= / 50.
Proof.
  destruct v_tol as (F & ET). pose proof v_precision as P.
  destruct (C101_run _ _ _ _ _ _ _ _ _ _ _ _ _ _ _ _ _ _ _ _ _ _ _ _ _ _ _ v_setting v_weak v_budget (dy64 1 (-16)) 640 1 0 1) as (o & J & phis & H1 & H2 & _ & (_ & _ & EP) & H3).
  - exact F.
  - lia.
  - lia.
  - lia.
  - rewrite ET. exact P.
  - exists o, J, phis. split; [exact H1|].
    destruct (C103_mean _ _ _ _ _ _ _ _ _ _ _ _ _ _ _ _ _ _ _ _ _ _ (/ 64) 0 v_mixture v_mixes (Rle_refl 0) ltac:(lra) v_ops (fun _ => / 2) _ _ _ _ _ _ _ (eq_refl _) v_draws v_rng H1) as (n & k1 & nv & Ln & Lk & I & K).
    pose proof (C103_moderate _ _ _ _ _ _ _ _ _ _ _ _ _ _ _ _ _ _ _ _ _ _ _ _ _ _ _ n k1 v_setting v_weak v_budget Lk ltac:(lia)) as MO.
    destruct v_rounding as (R1 & R2). destruct v_total as (T0 & T1). intros i p Hi Hp.
    eapply Rle_trans; [apply (K MO (/ 4) (/ 65536 + / 10 ^ 8) (8 / 100000)); try assumption; try lra|].
    + intros j m Hj Hm _. rewrite <- EP. destruct (H3 j m Hj Hm) as (_ & A). change (640 - 1)%nat with 639%nat in A. apply Rabs_le_inv in A. lra.
    + right. split; [exact F|]. split; [exact H2|]. split; [rewrite ET; lra|].
      rewrite ET. replace (Rabs (shifted_sum (z_nf v_q64) v_chis 0 (/ 4))) with (33 / 32).
      * change (INR (z_nf v_q64)) with (1 + 1). lra.
      * unfold shifted_sum. cbn. rewrite Rabs_pos_eq; lra.
    + apply Rle_trans with (sqrt (/ 60 * / 60) + / 10 ^ 10).
      * apply Rplus_le_compat; [|lra]. apply sqrt_le_1_alt. unfold spread. lra.
      * rewrite sqrt_square by lra. lra.
Qed.
