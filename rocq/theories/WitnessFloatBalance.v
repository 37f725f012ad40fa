(** WitnessFloatBalance.v -- a concrete case for C102: the mixture of
    WitnessFloatConverge.v after one step. *)

From Flocq Require Import Core BinarySingleNaN.
From Coq Require Import Reals ZArith String List Bool Arith Lia Lra.
From Verif Require Import Base ModelParts ModelKernel ModelFloat ModelFloatKernel ModelFloatParts PropertiesFloat ProofsFloatKernel
  PropertiesFloatKernel ProofsRounding PropertiesRounding ProofsFloatError PropertiesFloatError PropertiesFloatParts ProofsFloatRevive
  ProofsParts ProofsKernel ProofsSteps ProofsBounds ProofsEquilibrium PropertiesKernel PropertiesConstraints PropertiesEquilibrium
  PropertiesFeatures PropertiesBinary ProofsContract ProofsContractLoose PropertiesContract WitnessFloatError PropertiesFloatConverge
  WitnessFloatConverge PropertiesFloatBalance Spec.
Import ListNotations.
Open Scope R_scope.
Local Arguments B_top : simpl never.
Local Arguments half64 : simpl never.
Local Arguments one64 : simpl never.
Local Arguments dy64 : simpl never.
Local Arguments bpow : simpl never.
Local Arguments mat_min : simpl never.

Definition v_ops : rng_ops unit := {| g_uniform := fun g => (/ 2, g); g_integers := fun g _ => (O, g); g_normal := fun g _ _ => (0, g); g_beta := fun g _ => (/ 2, g) |}.
Lemma v_draws : same_draws exact_pf v_ops. Proof. split; [reflexivity|]. intros g. split; [apply is_half|reflexivity]. Qed.
Lemma v_rng : rng_contract v_ops. Proof. split; intros; cbn; try lra; lia. Qed.

Lemma v_mixture : mixture64 exact_pf dot_loop v_q64 v_q v_k64 v_s 2 4 8 v_chis64 (dy64 33 (-5)) v_chis v_shift 1 (fun _ => 1%nat) (fun _ => 1)
  (fun i => i) (/ 4) 0 (fun _ => / 2) (/ 64) 1.
Proof.
  pose proof v_setting as S. destruct S. split; try assumption.
  - left. reflexivity.
  - split.
    + exists 0%nat, 0%nat. repeat split; cbn; lia.
    + intros r t _ _. unfold v_chis. destruct (Nat.eqb r t); lra.
  - intros r t _ _. unfold v_chis. apply Rabs_le. destruct (Nat.eqb r t); lra.
  - intros i _. lra.
Qed.
Lemma v_exp64 : 63 / 64 <= exp (- / 64) <= 1.
Proof.
  split; [pose proof (exp_ineq1_le (- / 64)); lra|]. rewrite <- exp_0. left. apply exp_increasing. lra.
Qed.
Lemma v_fields r m : B2R (x_omegas v_k64 r m) = 0 \/ B2R (x_omegas v_k64 r m) = / 64.
Proof.
  cbn. destruct (_ && _)%bool; [right|left; reflexivity]. destruct (is_dyv 1 (-6) (/ 64)) as (_ & E); [cbn; lia|lia|rewrite b6; lra|exact E].
Qed.
Lemma v_volumes m : fin (x_Js v_k64 m) /\ B2R (x_Js v_k64 m) = 1. Proof. apply is_one. Qed.
Lemma v_fractions k' nv rep i m : iterate v_q (twin v_k64) = Ok (k', nv, rep) -> (i < 2)%nat -> 63 / 128 <= v_phis_comp k' i m <= 32 / 63.
Proof.
  intros H Hi.
  assert (HM : mixture v_q 2 2 (fun i => i) v_chis (/ 4) (fun _ => 1)) by (apply mix_plain; reflexivity).
  destruct (mixture_facts _ _ _ _ _ _ _ _ _ _ _ _ _ HM (ek_can v_q (twin v_k64) 2 (fun i => i) (fun _ => 1) (fun _ => / 2) eq_refl) H) as (phis & inc & MF).
  destruct (mf_it _ _ _ _ _ _ _ _ _ _ _ _ _ MF) as [nv' I]. rewrite (if_comp I). rewrite (mf_frac _ _ _ _ _ _ _ _ _ _ _ _ _ MF i m Hi).
  assert (AL : forall m, q_thr v_q < v_Js (twin v_k64) m) by (intros; cbn [twin v_Js]; rewrite (proj2 (v_volumes _)); cbn; lra).
  rewrite mask_alive by apply AL.
  assert (B : forall m, 63 / 64 <= exp (- v_omegas (twin v_k64) i m * 1) <= 1).
  { intros m'. cbn [twin v_omegas]. destruct (v_fields i m') as [-> | ->]; rewrite Rmult_1_r; [rewrite Ropp_0, exp_0; lra|apply v_exp64]. }
  assert (LV : forall m, living (q_thr v_q) (v_Js (twin v_k64)) m = 1).
  { intros m'. unfold living. destruct (Rlt_dec _ _) as [_|N]; [apply v_volumes|exfalso; apply N, AL]. }
  assert (Q : 63 / 64 <= Qbar v_q (twin v_k64) (fun i => i) (fun _ => 1) i <= 1).
  { unfold Qbar. change (q_np v_q) with 2%nat. cbn [rsum]. rewrite !LV. pose proof (B 0%nat). pose proof (B 1%nat). lra. }
  set (Q1 := Qbar _ _ _ _ _) in *. specialize (B m). set (e := exp _) in *.
  assert (IQ : 1 <= / Q1 <= 64 / 63).
  { split; apply (Rmult_le_reg_r Q1); try lra; rewrite Rinv_l by lra; lra. }
  unfold Rdiv. nra.
Qed.
Lemma v_moderate : moderate64 v_q64 v_q v_s 4 v_k64.
Proof.
  assert (FW : forall r m, fin (x_omegas v_k64 r m)) by (intros r m; cbn; destruct (_ && _)%bool; [apply (is_dyv 1 (-6) (/ 64)); [cbn; lia|lia|rewrite b6; lra]|reflexivity]).
  split; [split|].
  - intros r m _ _. split; [split; [apply FW|reflexivity]|]. cbn [twin v_omegas]. change (s_w v_s) with 4. destruct (v_fields r m) as [-> | ->]; apply Rabs_le; lra.
  - intros m _. split; [split; [apply v_volumes|reflexivity]|]. cbn [twin v_Js]. rewrite (proj2 (v_volumes m)). change (s_J v_s) with 2. apply Rabs_le. lra.
  - change (z_np v_q64) with 2%nat. cbn [rsum]. unfold t_J, t_masks.
    rewrite !mask_alive by (cbn [twin v_Js]; rewrite (proj2 (v_volumes _)); cbn; lra). cbn [twin v_Js]. rewrite !(proj2 (v_volumes _)). lra.
  - intros i m _ _. change (z_sizes v_q64 i) with one64. change (z_rho v_q64 i) with i. destruct is_one as (_ & ->). rewrite Rmult_1_r. change (INR 4) with (2 + 1 + 1).
    destruct (v_fields i m) as [-> | ->]; apply Rabs_le; lra.
  - intros rk' nv rrep H i m Hi Hm. pose proof (v_fractions rk' nv rrep i m H Hi). change (s_phi v_s) with 2. apply Rabs_le. lra.
Qed.
Lemma v_rounding : 0 <= phi_rounding v_q64 v_s 2 4 <= / 10 ^ 10 /\ mu_rounding v_q64 v_k64 v_s 2 4 8 v_chis (/ 4) 0 (/ 64) 1 (/ 4) <= / 10 ^ 7.
Proof.
  assert (P : 0 <= phi_rounding v_q64 v_s 2 4 <= / 10 ^ 10) by (unfold phi_rounding, k_phi, eps64; cbn; lra).
  split; [exact P|]. unfold mu_rounding, mu_shift. set (d := phi_rounding _ _ _ _) in *.
  change (z_nc v_q64) with 2%nat. change (s_phi v_s) with 2. change (INR 2) with (1 + 1).
  assert (D : report_rounding v_q64 v_k64 v_s 2 4 8 v_chis (/ 4) 0 <= / 10 ^ 8).
  { unfold report_rounding. replace (Rabs (shifted_sum (z_nf v_q64) v_chis 0 (/ 4))) with (33 / 32).
    - unfold k_diff, k_energy, k_xi, k_pot, k_phi, S_diff, S_energy, S_field, S_xi, S_incomp, eps64. cbn. lra.
    - unfold shifted_sum. cbn. rewrite Rabs_pos_eq; lra. }
  assert (d * d <= / 10 ^ 10 * / 10 ^ 10) by (apply Rmult_le_compat; lra). lra.
Qed.
Lemma v_alive m : lt64 (z_thr v_q64) (x_Js v_k64 m) = true.
Proof.
  destruct (sp_thr _ _ v_problem) as (Ft & Et). rewrite (alive_test _ Ft) by apply v_volumes. apply Rltb_true. rewrite Et, (proj2 (v_volumes m)). cbn. lra.
Qed.
Lemma v_leads k : leads exact_pf v_q64 v_k64 0 k -> k = v_k64.
Proof.
  intros H. remember 0%nat as z eqn:Z. induction H as [|n k tries cnt H IH|]; [reflexivity| |discriminate]. rewrite (IH Z).
  unfold maybe_revive64. destruct (Z.ltb _ _); [|reflexivity].
  assert (E : count_valid64 (z_np v_q64) (x_Js v_k64) (z_thr v_q64) = z_np v_q64).
  { unfold count_valid64. apply ncount_all. intros m _. apply v_alive. }
  rewrite E, Nat.eqb_refl. reflexivity.
Qed.
Lemma v_precision1 : precision64 v_q64 v_q v_k64 v_s 2 4 8 (fun _ => 1) (fun _ => / 2) (3 / 16) (9 / 32) (/ 64) (/ 64) 1 (/ 8) 0 < 4.
Proof.
  destruct v_TH as (T1 & T2). destruct v_d as (D1 & D2 & D3). pose proof v_res as R1. pose proof v_CL as C1. pose proof v_LB as L1.
  unfold precision64. change (z_nc v_q64) with 2%nat. change (z_nf v_q64) with 2%nat. change (s_w v_s) with 4. rewrite pow_O, Rmult_1_l.
  assert (DL : d_volume v_q64 v_q v_k64 v_s 2 4 8 * le_bound v_q 2 2 (fun _ => 1) (fun _ => / 2) (9 / 32) (/ 64) 1 4 <= / 10 ^ 10 * 8) by (apply Rmult_le_compat; lra).
  assert (HC : 0 <= c_report v_q64 v_q (fun _ => 1) (fun _ => / 2) (9 / 32) (/ 64) (/ 64) 1 <= 15).
  { unfold c_report. change (z_nc v_q64) with 2%nat. change (z_nf v_q64) with 2%nat. rewrite v_c0. lra. }
  apply Rle_lt_trans with (15 * (3 / 16 + / 10 ^ 7) + / 10 ^ 10 * 8 + / 10 ^ 8); [|lra].
  apply Rplus_le_compat; [|lra]. apply Rplus_le_compat; [|exact DL]. apply Rmult_le_compat; lra.
Qed.

(** One step from fields that are off by 1/64: the run is finite, its fractions are
    above 1/4, and the chemical potentials of its phases differ by no more than
    the errors it reports and 10^-7. *)
Example C102_case : exists o J phis, run64 exact_pf v_q64 (dy64 1 2) 1 1 0 v_k64 = Ok (o, J, phis) /\
  (forall i p, (i < 2)%nat -> (p < 2)%nat -> / 4 <= B2R (phis i p)) /\ exists mu : nat -> vec,
  (forall p, (p < 2)%nat -> potentials (fe_of 2 (fun i => i) v_chis (fun _ => 1)) (fun i => B2R (phis i p)) (mu p)) /\
  forall p1 p2 i, (p1 < 2)%nat -> (p2 < 2)%nat -> (i < 2)%nat ->
    Rabs (mu p1 i - mu p2 i) <= 2 * B2R (r6_Js (oc_rep o)) + 2 * B2R (r6_omega (oc_rep o)) + 33 / 32 * B2R (r6_incomp (oc_rep o)) + / 10 ^ 7.
Proof.
  destruct (is_dyv 1 2 4) as (F & ET); [cbn; lia|lia|unfold bpow; cbn; lra|]. pose proof v_precision1 as P.
  destruct (C101_run _ _ _ _ _ _ _ _ _ _ _ _ _ _ _ _ _ _ _ _ _ _ _ _ _ _ _ v_setting v_weak v_budget (dy64 1 2) 1 1 0 1) as (o & J & phis & H1 & _).
  - exact F.
  - lia.
  - lia.
  - lia.
  - rewrite ET. exact P.
  - exists o, J, phis. split; [exact H1|].
    destruct (C102_run _ _ _ _ _ _ _ _ _ _ _ _ _ _ _ _ _ _ _ _ _ _ v_mixture v_ops _ _ _ _ _ _ _ v_draws v_rng H1) as (n & k1 & nv & Ln & Lk & I & K).
    assert (n = 0%nat) by lia. subst n. apply v_leads in Lk. subst k1. specialize (K v_moderate).
    destruct v_rounding as (R1 & R2).
    assert (LB : forall i p, (i < 2)%nat -> (p < 2)%nat -> / 4 <= B2R (phis i p)).
    { intros i p Hi Hp. destruct (run64_last _ _ _ _ _ _ _ _ _ _ H1) as [_ C]. destruct (C p Hp) as (m & Hm & ->).
      destruct v_setting as [EA DA FL FS SP LI HM _ _ _ HI _ _ _]. destruct v_moderate as [SS HB].
      destruct (iterate_total v_q (twin v_k64)) as (rk' & nv' & rrep & EI).
      - eapply mixture_total; [exact HM|left; reflexivity].
      - cbn. lra.
      - cbn. lra.
      - exists 0%nat. split; [cbn; lia|]. cbn [twin v_Js]. rewrite (proj2 (v_volumes _)). cbn. lra.
      - destruct (C96_package _ _ _ _ _ (twin v_k64) _ _ _ _ _ _ _ _ _ _ _ rk' nv' rrep EA DA FL FS (twin_cons dot_loop v_q64 v_s 8 v_k64 HI) SP SS LI EI (HB _ _ _ EI))
          as (k' & rep & I' & FO). rewrite I in I'. injection I' as <- _ _. pose proof (fo_phis _ _ _ _ _ _ _ _ _ _ _ FO i m Hi Hm) as N. apply near_dist in N.
        pose proof (v_fractions rk' nv' rrep i m EI Hi) as V. change (k_phi v_q64 2 4 * eps64 * s_phi v_s) with (phi_rounding v_q64 v_s 2 4) in N.
        apply Rabs_le_inv in N. lra. }
    split; [exact LB|]. destruct (K (/ 4) ltac:(lra) ltac:(lra) LB) as (_ & _ & mu & M1 & M2 & _).
    exists mu. split; [exact M1|]. intros p1 p2 i A1 A2 A3. specialize (M2 p1 p2 i A1 A2 A3). unfold reported_imbalance in M2.
    replace (Rabs (shifted_sum (z_nf v_q64) v_chis 0 (/ 4))) with (33 / 32) in M2.
    + change (INR (z_nf v_q64)) with (1 + 1) in M2. lra.
    + unfold shifted_sum. cbn. rewrite Rabs_pos_eq; lra.
Qed.
