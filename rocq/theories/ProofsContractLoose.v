(** ProofsContractLoose.v -- one step for volumes whose mean is only nearly one
    (for C101). *)

From Coquelicot Require Import Coquelicot.
From Coq Require Import Reals Lra Lia String List Bool Arith ZArith.
From Verif Require Import Base ModelCommon ModelParts ModelKernel ModelPhases ModelFinder ProofsKernel ProofsParts ProofsSteps ProofsBounds
  Spec ModelFreeEnergy ProofsFreeEnergy PropertiesKernel PropertiesConstraints ProofsEquilibrium PropertiesEquilibrium PropertiesBinary PropertiesRelax
  ProofsContract.
Import ListNotations.
Open Scope R_scope.

Section Loose.
Context {G : Type}.
Variables (q : kernel) (k k' : kstate G cstate) (rep : report).
Variables (nc nf : nat) (rho : nat -> nat) (chis : mat) (sizes pm : vec).
Hypothesis HAd : admissible nc nf chis sizes pm.
Hypothesis HI : Forall idle (v_cons k).
Hypothesis Ht : 0 <= q_thr q.
Hypothesis Hu : 0 < q_ub q.
Variables (phis : mat) (inc : vec).
Hypothesis MF : mix_facts q k k' rep nc nf rho chis sizes pm (fun i => pm i / Qbar q k rho sizes i) phis inc.
Variables (B D X M W V eta : R).
Hypothesis HC : close q k nc rho chis pm B.
Hypothesis HBD : 3 / 2 * B <= D.
Hypothesis HX : forall r s t, (r < nf)%nat -> (s < nf)%nat -> (t < nf)%nat -> Rabs (chis r t - chis s t) <= X.
Hypothesis HMx : forall r s, (r < nf)%nat -> (s < nf)%nat -> Rabs (chis r s) <= M.
Hypothesis HW : forall i, (i < nc)%nat -> 1 / sizes i <= W.
Hypothesis PS : rsum nc pm = 1.
(** all compartments are alive, with fields up to [V] and nearly normalised volumes *)
Hypothesis HA : forall m, (m < q_np q)%nat -> alive (q_thr q) (v_Js k) m.
Hypothesis HV : forall m r, (m < q_np q)%nat -> (r < nf)%nat -> Rabs (v_omegas k r m) <= V.
Hypothesis Heta : Rabs (rsum (q_np q) (v_Js k) / INR (q_np q) - 1) <= eta.
Hypothesis Heta1 : eta <= 1.
Let TH := upper_size nc sizes pm D.
Let c0 := coef_of q / INR nf.
Hypothesis Hc0 : 0 <= c0.
Let CL := le_const q nc nf sizes pm D M W.
Let le := t_le q k phis inc.

(** bound of the local energies *)
Definition le_bound : R :=
  let P := 1 + upper_size nc sizes pm D * D in
  1 / 2 * (M * P * P) + W * P + coef_of q / INR nf * (upper_size nc sizes pm D * D) + V + M * P.

Lemma l_lives m : (m < q_np q)%nat -> lives q k m.
Proof using HA. intros Hm. split; auto. Qed.
Lemma l_np : (0 < q_np q)%nat.
Proof using MF. destruct (some_lives q k k' rep nc nf rho chis sizes pm phis inc MF) as (m & Hm & _). lia. Qed.
Lemma l_n : t_nv q k = q_np q.
Proof using HA. unfold t_nv, count_valid. apply ncount_all. intros m Hm. apply Rltb_true. now apply HA. Qed.
Lemma l_npR : 0 < INR (q_np q).
Proof using MF. apply lt_0_INR, l_np. Qed.
Lemma l_J m : (m < q_np q)%nat -> t_J q k m = v_Js k m.
Proof using HA. intros Hm. unfold t_J, t_masks. rewrite mask_alive by now apply HA. ring. Qed.
Lemma l_Jpos m : (m < q_np q)%nat -> 0 <= v_Js k m.
Proof using HA Ht. intros Hm. specialize (HA m Hm). unfold alive in HA. lra. Qed.

Lemma le_value m : (m < q_np q)%nat -> Rabs (le m) <= le_bound.
Proof using HAd HI Ht MF HC HBD HMx HW PS HA HV Hc0.
  intros Hm. pose proof (l_lives m Hm) as Hl. pose proof (nf_pos nc nf chis sizes pm HAd) as NP.
  pose proof (B_nonneg q k k' rep nc nf rho chis sizes pm phis inc MF B HC) as B0.
  assert (T0 : 0 <= TH) by (apply (TH_nonneg nc nf chis sizes pm HAd)).
  destruct (idle_sums q k phis HI) as (EP & EV).
  assert (M0 : 0 <= M) by (destruct HAd as (NF & _); eapply Rle_trans; [apply Rabs_pos|apply (HMx 0%nat 0%nat); auto]).
  set (pot := t_pot q k phis).
  assert (LE : le m = - (1 / 2) * rsum nc (fun i => pot (rho i) m * phis i m) - rsum nc (fun i => phis i m / sizes i)
     - (c0 * inc m + field_mean q k m - rsum nf (fun r => pot r m) / INR nf)).
  { unfold le. rewrite (le_identity _ _ _ _ _ _ _ _ _ _ _ _ _ MF m (proj2 Hl)), EV.
    rewrite (xi_alive q k k' rep nc nf rho chis sizes pm HAd HI phis inc MF) by auto.
    rewrite (rsum_zero nc (fun i => P_of _ _ _ * _)) by (intros; rewrite EP; ring). unfold pot, c0. ring. }
  set (P := 1 + TH * D).
  assert (HP : rsum nc (fun i => Rabs (phis i m)) <= P) by (apply (total_le q k k' rep nc nf rho chis sizes pm HAd Ht phis inc MF B D HC HBD PS m Hl)).
  assert (P0 : 0 <= P) by (eapply Rle_trans; [|apply HP]; apply rsum_nonneg; intros; apply Rabs_pos).
  assert (PB : forall r, (r < nf)%nat -> Rabs (pot r m) <= M * P).
  { intros r Hr. unfold pot. rewrite (pot_alive q k k' rep nc nf rho chis sizes pm phis inc MF r m Hr). apply Rle_trans with (rsum nc (fun j => M * Rabs (phis j m))).
    - apply rsum_Rabs_le. intros j Hj. rewrite Rabs_mult. apply Rmult_le_compat_r; [apply Rabs_pos|].
      apply HMx; auto. apply (mf_rho _ _ _ _ _ _ _ _ _ _ _ _ _ MF j Hj).
    - rewrite rsum_scal_l. now apply Rmult_le_compat_l. }
  assert (A1 : Rabs (rsum nc (fun i => pot (rho i) m * phis i m)) <= M * P * P).
  { apply Rle_trans with (rsum nc (fun i => M * P * Rabs (phis i m))).
    - apply rsum_Rabs_le. intros i Hi. rewrite Rabs_mult. apply Rmult_le_compat_r; [apply Rabs_pos|]. apply PB.
      apply (mf_rho _ _ _ _ _ _ _ _ _ _ _ _ _ MF i Hi).
    - rewrite rsum_scal_l. apply Rmult_le_compat_l; auto. apply Rmult_le_pos; auto. }
  assert (W0 : 0 <= W).
  { destruct (Nat.eq_dec nc 0) as [EN|EN].
    - rewrite EN in PS. simpl in PS. lra.
    - apply Rle_trans with (1 / sizes 0%nat); [left; apply Rdiv_lt_0_compat; [lra|apply (size_pos nc nf chis sizes pm HAd); lia]|apply HW; lia]. }
  assert (A2 : Rabs (rsum nc (fun i => phis i m / sizes i)) <= W * P).
  { apply Rle_trans with (rsum nc (fun i => W * Rabs (phis i m))).
    - apply rsum_Rabs_le. intros i Hi. pose proof (size_pos nc nf chis sizes pm HAd i Hi) as Hs.
      replace (phis i m / sizes i) with (1 / sizes i * phis i m) by (field; lra). rewrite Rabs_mult.
      rewrite (Rabs_right (1 / sizes i)) by (apply Rle_ge; left; apply Rdiv_lt_0_compat; lra). apply Rmult_le_compat_r; [apply Rabs_pos|]. auto.
    - rewrite rsum_scal_l. apply Rmult_le_compat_l; auto. }
  assert (A3 : Rabs (inc m) <= TH * D).
  { eapply Rle_trans; [apply (inc_near q k k' rep nc nf rho chis sizes pm HAd Ht phis inc MF B D HC HBD PS m Hl)|]. apply Rmult_le_compat_l; auto. }
  assert (AV : forall g b, (forall r, (r < nf)%nat -> Rabs (g r) <= b) -> Rabs (rsum nf g / INR nf) <= b).
  { intros g b H. unfold Rdiv. rewrite Rabs_mult, (Rabs_right (/ INR nf)) by (apply Rle_ge; left; now apply Rinv_0_lt_compat).
    apply (Rmult_le_reg_r (INR nf)); auto. rewrite Rmult_assoc, Rinv_l, Rmult_1_r by lra.
    rewrite (Rmult_comm b), <- rsum_const. now apply rsum_Rabs_le. }
  assert (A4 : Rabs (rsum nf (fun r => pot r m) / INR nf) <= M * P) by (apply AV; auto).
  assert (A5 : Rabs (field_mean q k m) <= V).
  { unfold field_mean. rewrite (mf_nf _ _ _ _ _ _ _ _ _ _ _ _ _ MF). apply AV. intros; now apply HV. }
  rewrite LE. unfold le_bound. fold TH c0 P. clear Heta.
  repeat match goal with H : Rabs _ <= _ |- _ => apply Rabs_le_between in H end. apply Rabs_le_between.
  assert (c0 * inc m <= c0 * (TH * D)) by (apply Rmult_le_compat_l; lra).
  assert (c0 * - (TH * D) <= c0 * inc m) by (apply Rmult_le_compat_l; lra). lra.
Qed.

Lemma diff_J m : (m < q_np q)%nat -> Rabs (t_Jdiff q k phis inc m) <= 2 * CL * B + eta * le_bound.
Proof using HAd HI Ht MF HC HBD HMx HW PS HA HV Hc0 Heta Heta1.
  intros Hm. pose proof l_npR as NP. pose proof (B_nonneg q k k' rep nc nf rho chis sizes pm phis inc MF B HC) as B0.
  assert (C1 : 1 <= CL) by (apply (le_const_pos q k k' rep nc nf rho chis sizes pm HAd Ht phis inc MF B D HC HBD M W HMx HW PS Hc0)).
  unfold t_Jdiff, t_masks. rewrite mask_alive, Rmult_1_r by now apply HA. fold le.
  set (S := rsum (q_np q) (v_Js k) / INR (q_np q)) in *.
  assert (E : t_mean q k phis inc - le m = rsum (q_np q) (fun o => (le o - le m) * v_Js k o) / INR (q_np q) + le m * (S - 1)).
  { unfold t_mean. rewrite t_n_eq, l_n. fold le.
    rewrite (rsum_ext _ (fun o => (le o - le m) * v_Js k o) (fun o => le o * v_Js k o - le m * v_Js k o)) by (intros; ring).
    rewrite rsum_minus, rsum_scal_l. rewrite (rsum_ext _ (fun o => le o * t_J q k o) (fun o => le o * v_Js k o)) by (intros; now rewrite l_J).
    unfold S. field. lra. }
  rewrite E.
  assert (A1 : Rabs (rsum (q_np q) (fun o => (le o - le m) * v_Js k o) / INR (q_np q)) <= CL * B * S).
  { unfold S, Rdiv. rewrite Rabs_mult, (Rabs_right (/ INR (q_np q))) by (apply Rle_ge; left; now apply Rinv_0_lt_compat).
    rewrite <- Rmult_assoc. apply Rmult_le_compat_r; [left; now apply Rinv_0_lt_compat|]. rewrite <- rsum_scal_l.
    apply rsum_Rabs_le. intros o Ho. pose proof (l_Jpos o Ho). rewrite Rabs_mult, (Rabs_right (v_Js k o)) by lra. apply Rmult_le_compat_r; auto.
    apply (le_close q k k' rep nc nf rho chis sizes pm HAd HI Ht phis inc MF B D HC HBD M W HMx HW PS o m Hc0); now apply l_lives. }
  pose proof (le_value m Hm) as A2.
  assert (A3 : Rabs (le m * (S - 1)) <= eta * le_bound).
  { rewrite Rabs_mult, Rmult_comm. apply Rmult_le_compat; auto using Rabs_pos. }
  eapply Rle_trans; [apply Rabs_triang|]. apply Rplus_le_compat; auto. eapply Rle_trans; [exact A1|].
  assert (S <= 2) by (apply Rabs_le_between in Heta; lra). assert (0 <= CL * B) by (apply Rmult_le_pos; lra). nra.
Qed.

Lemma maxJ_loose : t_maxJ q k phis inc <= 2 * CL * B + eta * le_bound.
Proof using HAd HI Ht MF HC HBD HMx HW PS HA HV Hc0 Heta Heta1.
  unfold t_maxJ. apply vmax_le; [apply l_np|]. apply diff_J.
Qed.

Lemma Js_loose : e_Js rep <= 2 * CL * B + eta * le_bound.
Proof using HAd HI Ht MF HC HBD HMx HW PS HA HV Hc0 Heta Heta1.
  destruct (mf_it _ _ _ _ _ _ _ _ _ _ _ _ _ MF) as [nv' I]. rewrite (if_e_Js I). apply maxJ_loose.
Qed.

Lemma loose_pos : 0 <= 2 * CL * B + eta * le_bound.
Proof using HAd HI Ht MF HC HBD HMx HW PS HA HV Hc0 Heta Heta1.
  eapply Rle_trans; [apply Rabs_pos|]. apply (diff_J 0%nat). apply l_np.
Qed.

Lemma factor_loose e : 0 <= q_acc_J q -> 2 * CL * B + eta * le_bound <= e -> q_ub q / (e * q_acc_J q + q_ub q) <= t_factor q k phis inc.
Proof using HAd HI Ht MF HC HBD HMx HW PS HA HV Hc0 Heta Heta1 Hu.
  intros HJ He. pose proof maxJ_loose as H. pose proof loose_pos as LP.
  pose proof (t_change_pos q k phis inc Hu) as CP. unfold t_factor, Rdiv. apply Rmult_le_compat_l; [lra|]. apply Rinv_le_contravar; auto.
  unfold t_change. assert (0 <= e * q_acc_J q) by (apply Rmult_le_pos; lra).
  apply Rmax_lub; [|lra]. assert (t_maxJ q k phis inc * q_acc_J q <= e * q_acc_J q) by (apply Rmult_le_compat_r; lra). lra.
Qed.

Lemma volume_loose m : 0 <= q_acc_J q -> (m < q_np q)%nat ->
  Rabs (v_Js k' m - v_Js k m) <= 2 * (q_acc_J q * (2 * CL * B + eta * le_bound)) + eta.
Proof using HAd HI Ht MF HC HBD HMx HW PS HA HV Hc0 Heta Heta1 Hu.
  intros HJ Hm. pose proof l_npR as NP. pose proof loose_pos as LP. destruct (mf_it _ _ _ _ _ _ _ _ _ _ _ _ _ MF) as [nv' I].
  pose proof (t_factor_range q k phis inc Hu) as Hf. set (f := t_factor q k phis inc) in *. set (e := 2 * CL * B + eta * le_bound) in *.
  rewrite (if_Js I), t_J2_eq, (t_J1_alive q k phis inc m (HA m Hm)). unfold t_masks at 1. rewrite mask_alive by now apply HA.
  fold f. unfold t_shift. rewrite t_n_eq, l_n.
  rewrite (rsum_ext _ (t_J1 q k phis inc) (fun o => v_Js k o + f * q_acc_J q * t_Jdiff q k phis inc o)) by (intros o Ho; apply (t_J1_alive q k phis inc o (HA o Ho))).
  rewrite rsum_plus. set (dJ := fun o => f * q_acc_J q * t_Jdiff q k phis inc o).
  change (rsum (q_np q) (fun o => f * q_acc_J q * t_Jdiff q k phis inc o)) with (rsum (q_np q) dJ).
  change (f * q_acc_J q * t_Jdiff q k phis inc m) with (dJ m).
  assert (FJ : 0 <= f * q_acc_J q <= q_acc_J q) by (split; [apply Rmult_le_pos; lra|nra]).
  assert (BJ : forall o, (o < q_np q)%nat -> Rabs (dJ o) <= q_acc_J q * e).
  { intros o Ho. unfold dJ. rewrite Rabs_mult, (Rabs_right (f * q_acc_J q)) by lra. apply Rmult_le_compat; try lra; [apply Rabs_pos|]. now apply diff_J. }
  assert (B2 : Rabs (rsum (q_np q) dJ / INR (q_np q)) <= q_acc_J q * e).
  { unfold Rdiv. rewrite Rabs_mult, (Rabs_right (/ INR (q_np q))) by (apply Rle_ge; left; now apply Rinv_0_lt_compat).
    apply (Rmult_le_reg_r (INR (q_np q))); auto. rewrite Rmult_assoc, Rinv_l, Rmult_1_r by lra.
    rewrite (Rmult_comm _ (INR (q_np q))), <- rsum_const. now apply rsum_Rabs_le. }
  pose proof (BJ m Hm) as B1. change (rsum (q_np q) (fun i => v_Js k i)) with (rsum (q_np q) (v_Js k)).
  replace (_ - _) with (dJ m - rsum (q_np q) dJ / INR (q_np q) - (rsum (q_np q) (v_Js k) / INR (q_np q) - 1)) by (field; lra).
  apply Rabs_le_between in B1. apply Rabs_le_between in B2. apply Rabs_le_between in Heta. apply Rabs_le_between. lra.
Qed.

Lemma volume_total : rsum (q_np q) (v_Js k') = INR (q_np q).
Proof using MF HA.
  destruct (mf_it _ _ _ _ _ _ _ _ _ _ _ _ _ MF) as [nv' I]. rewrite (if_Js I), t_J2_sum; rewrite l_n; auto. apply l_np.
Qed.

Lemma omega_move r m : (r < nf)%nat -> (m < q_np q)%nat -> 0 < q_acc_w q ->
  Rabs (v_omegas k' r m - v_omegas k r m) <= q_acc_w q * (((c0 + X) * (TH * (3 / 2)) + 1 / 4) * B).
Proof using HAd HI Ht MF HC HBD HX PS HA Hc0 Hu.
  intros Hr Hm Hw. pose proof (l_lives m Hm) as Hl. rewrite (omega_next q k k' rep nc nf rho chis sizes pm phis inc MF r m Hl).
  pose proof (t_factor_range q k phis inc Hu) as Hf. set (f := t_factor q k phis inc) in *.
  replace (_ - _) with (f * q_acc_w q * t_diff q k phis inc r m) by ring. rewrite Rabs_mult, (Rabs_right (f * q_acc_w q)) by (apply Rle_ge; apply Rmult_le_pos; lra).
  assert (H : Rabs (t_diff q k phis inc r m) <= ((c0 + X) * (TH * (3 / 2)) + 1 / 4) * B).
  { rewrite (diff_lives q k k' rep nc nf rho chis sizes pm HAd HI phis inc MF r m Hl).
    pose proof (inc_near q k k' rep nc nf rho chis sizes pm HAd Ht phis inc MF B D HC HBD PS m Hl) as H1.
    pose proof (centred_pot q k k' rep nc nf rho chis sizes pm HAd Ht phis inc MF B D X HC HBD HX r m Hr Hl) as H2.
    destruct HC as (_ & C2). rewrite (mf_nf _ _ _ _ _ _ _ _ _ _ _ _ _ MF) in C2. specialize (C2 m r Hl Hr).
    fold TH in H1, H2. fold c0. set (a1 := inc m) in *. 
    set (a2 := t_pot q k phis r m - rsum nf (fun s => t_pot q k phis s m) / INR nf) in *.
    set (a3 := mean_potential nc rho chis pm r - rsum nf (mean_potential nc rho chis pm) / INR nf) in *.
    set (a4 := v_omegas k r m - field_mean q k m) in *. clearbody a1 a2 a3 a4.
    apply Rabs_le_between in H1. apply Rabs_le_between in H2. apply Rabs_le_between in C2. apply Rabs_le_between.
    assert (c0 * a1 <= c0 * (TH * (3 / 2 * B))) by (apply Rmult_le_compat_l; lra).
    assert (c0 * - (TH * (3 / 2 * B)) <= c0 * a1) by (apply Rmult_le_compat_l; lra). lra. }
  apply Rmult_le_compat; [apply Rmult_le_pos; lra|apply Rabs_pos|nra|exact H].
Qed.
End Loose.
