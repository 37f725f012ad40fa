(** PropertiesGauge.v -- descriptions of the same physics: interaction matrices
    that differ by a gauge (C67) and the choice of the reference volume (C68). *)

From Coquelicot Require Import Coquelicot.
From Coq Require Import Reals Lra Lia List Bool Arith ZArith FunctionalExtensionality.
From Verif Require Import Base ModelCommon ModelParts ModelKernel ModelPhases ModelFinder ProofsKernel ProofsParts ProofsSteps
  ProofsRun ProofsRun2 ModelFreeEnergy ProofsFreeEnergy Spec Examples PropertiesKernel PropertiesRun PropertiesFreeEnergy
  PropertiesConstraints ProofsEquilibrium PropertiesEquilibrium PropertiesFeatures.
Import ListNotations.
Open Scope R_scope.

(* ------------------------------------------------------------------ *)
(** * Two steps whose residuals are proportional *)

Lemma vmax_scal n s f : 0 <= s -> vmax n (fun i => s * f i) = s * vmax n f.
Proof.
  intros Hs. destruct n as [|n]; [cbn; ring|].
  induction n as [|n IH]; [reflexivity|]. rewrite !vmax_S, IH. now rewrite <- RmaxRmult.
Qed.

Lemma vmin_scal n s f : 0 <= s -> vmin n (fun i => s * f i) = s * vmin n f.
Proof.
  intros Hs. destruct n as [|n]; [cbn; ring|].
  induction n as [|n IH]; [reflexivity|]. rewrite !vmin_S, IH.
  unfold Rmin. destruct (Rle_dec _ _), (Rle_dec _ _); try reflexivity; nra.
Qed.

Lemma max_omega_scal nf np s d : 0 <= s -> max_omega_diff nf np (fun r m => s * d r m) = s * max_omega_diff nf np d.
Proof.
  intros Hs. unfold max_omega_diff. induction nf as [|n IH]; [cbn; ring|]. rewrite !for_S, IH, vmax_scal by auto.
  now rewrite <- RmaxRmult.
Qed.

Lemma max_omega_ext nf np d d' : (forall r m, (r < nf)%nat -> (m < np)%nat -> d r m = d' r m) -> max_omega_diff nf np d = max_omega_diff nf np d'.
Proof.
  intros H. unfold max_omega_diff. apply for_ext. intros r s Hr. f_equal. apply vmax_ext. intros; auto.
Qed.

Section Proportional.
Context {G St : Type} (q1 q2 : kernel) (k1 k2 : kstate G St) (phis1 phis2 : mat) (inc1 inc2 : vec) (s : R) (D : nat -> Prop).
Hypothesis HD : forall m, (m < q_np q1)%nat -> D m.
Hypothesis Enp : q_np q2 = q_np q1.
Hypothesis Enf : q_nf q2 = q_nf q1.
Hypothesis Ethr : q_thr q2 = q_thr q1.
Hypothesis Eub : q_ub q2 = q_ub q1.
Hypothesis EaJ : q_acc_J q2 * s = q_acc_J q1.
Hypothesis Eaw : q_acc_w q2 = q_acc_w q1.
Hypothesis EJ : v_Js k2 = v_Js k1.
Hypothesis Hs : 0 <= s.
Hypothesis Ele : forall m, D m -> alive (q_thr q1) (v_Js k1) m -> t_le q2 k2 phis2 inc2 m = s * t_le q1 k1 phis1 inc1 m.
Hypothesis Ediff : forall r m, (r < q_nf q1)%nat -> D m -> alive (q_thr q1) (v_Js k1) m ->
  t_diff q2 k2 phis2 inc2 r m = s * t_diff q1 k1 phis1 inc1 r m.

Lemma pr_masks m : t_masks q2 k2 m = t_masks q1 k1 m.
Proof. unfold t_masks. now rewrite EJ, Ethr. Qed.

Lemma pr_mask_cases m : (alive (q_thr q1) (v_Js k1) m /\ t_masks q1 k1 m = 1) \/ t_masks q1 k1 m = 0.
Proof.
  unfold t_masks. destruct (Rlt_dec (q_thr q1) (v_Js k1 m)) as [L|L].
  - left. split; [exact L|]. now apply mask_alive.
  - right. apply mask_dead. lra.
Qed.

Lemma pr_J m : t_J q2 k2 m = t_J q1 k1 m.
Proof. unfold t_J. now rewrite pr_masks, EJ. Qed.

Lemma pr_n : t_n q2 k2 = t_n q1 k1.
Proof. rewrite !t_n_eq. unfold t_nv. now rewrite Enp, EJ, Ethr. Qed.

Lemma pr_mean : t_mean q2 k2 phis2 inc2 = s * t_mean q1 k1 phis1 inc1.
Proof.
  unfold t_mean. rewrite pr_n, Enp. unfold Rdiv. rewrite <- Rmult_assoc, <- rsum_scal_l. f_equal. apply rsum_ext. intros m Hm.
  rewrite pr_J. unfold t_J. destruct (pr_mask_cases m) as [[L E]|E]; rewrite E; [|ring]. rewrite Ele by auto. ring.
Qed.

Lemma pr_Jdiff m : D m -> t_Jdiff q2 k2 phis2 inc2 m = s * t_Jdiff q1 k1 phis1 inc1 m.
Proof.
  intros Dm. unfold t_Jdiff. rewrite pr_mean, pr_masks. destruct (pr_mask_cases m) as [[L E]|E]; rewrite E; [|ring]. rewrite Ele by auto. ring.
Qed.

Lemma pr_maxJ : t_maxJ q2 k2 phis2 inc2 = s * t_maxJ q1 k1 phis1 inc1.
Proof.
  unfold t_maxJ. rewrite Enp, <- vmax_scal by auto. apply vmax_ext. intros m Hm. rewrite pr_Jdiff, Rabs_mult, (Rabs_right s) by (auto; lra). reflexivity.
Qed.

Lemma pr_factor : t_factor q2 k2 phis2 inc2 = t_factor q1 k1 phis1 inc1.
Proof. unfold t_factor, t_change. rewrite pr_maxJ, Eub, <- EaJ. do 2 f_equal. ring. Qed.

Lemma pr_J1 m : D m -> t_J1 q2 k2 phis2 inc2 m = t_J1 q1 k1 phis1 inc1 m.
Proof. intros Dm. unfold t_J1. rewrite pr_factor, pr_J, pr_masks, pr_Jdiff, <- EaJ by auto. f_equal. ring. Qed.

Lemma pr_J2 m : D m -> t_J2 q2 k2 phis2 inc2 m = t_J2 q1 k1 phis1 inc1 m.
Proof.
  intros Dm. unfold t_J2, t_shift. rewrite pr_J1, pr_masks, pr_n, Enp by auto.
  rewrite (rsum_ext (q_np q1) (t_J1 q2 k2 phis2 inc2) (t_J1 q1 k1 phis1 inc1)) by (intros; apply pr_J1; auto). reflexivity.
Qed.

Lemma pr_diff r m : (r < q_nf q1)%nat -> D m -> t_diff q2 k2 phis2 inc2 r m = s * t_diff q1 k1 phis1 inc1 r m.
Proof.
  intros Hr Dm. destruct (pr_mask_cases m) as [[L E]|E]; [auto|].
  unfold t_diff. rewrite pr_masks, E. ring.
Qed.

Lemma pr_omega : max_omega_diff (q_nf q2) (q_np q2) (t_diff q2 k2 phis2 inc2) = s * max_omega_diff (q_nf q1) (q_np q1) (t_diff q1 k1 phis1 inc1).
Proof. rewrite Enf, Enp, <- max_omega_scal by auto. apply max_omega_ext. intros. apply pr_diff; auto. Qed.

Lemma pr_fields r m : (r < q_nf q1)%nat -> D m ->
  t_omegas q2 k2 phis2 inc2 r m = 
  (v_omegas k2 r m + s * (t_factor q1 k1 phis1 inc1 * q_acc_w q1 * t_diff q1 k1 phis1 inc1 r m)) * t_masks q1 k1 m.
Proof. intros Hr Dm. unfold t_omegas. rewrite pr_diff, pr_factor, Eaw, pr_masks by auto. f_equal. ring. Qed.
End Proportional.

(* ------------------------------------------------------------------ *)
(** ** C67 *)

(** Adding [a r + a s] to every entry chi_rs changes the energy of a
    composition with unit total only by a linear term. *)
Definition gauged (nf : nat) (a : vec) (chis1 chis2 : mat) : Prop :=
  forall r s, (r < nf)%nat -> (s < nf)%nat -> chis2 r s = chis1 r s + a r + a s.

(** The energy density changes by a linear term, so the free energy objects
    describe the same coexistence. *)
Theorem C67_energy nc chi1 chi2 l a phi : gauged nc a chi1 chi2 -> rsum nc phi = 1 ->
  fh nc chi2 l phi = fh nc chi1 l phi + rsum nc (fun i => a i * phi i).
Proof.
  intros HG HS. unfold fh.
  rewrite (rsum_ext nc (fun i => rsum nc (fun j => chi2 i j * phi i * phi j))
    (fun i => rsum nc (fun j => chi1 i j * phi i * phi j) + (a i * phi i * rsum nc phi + phi i * rsum nc (fun j => a j * phi j)))).
  - rewrite rsum_plus, rsum_plus, HS, !rsum_scal_r, HS. field.
  - intros i Hi. rewrite <- !rsum_scal_l, <- !rsum_plus. apply rsum_ext. intros j Hj. rewrite HG by auto. ring.
Qed.

Section Gauge.
Context {G : Type} (q1 q2 : kernel) (nc nf : nat) (rho : nat -> nat) (chis1 chis2 : mat) (sh1 sh2 : R) (sizes x1 x2 a : vec).
Hypothesis M1 : mixture q1 nc nf rho chis1 sh1 sizes.
Hypothesis M2 : mixture q2 nc nf rho chis2 sh2 sizes.
Hypothesis HG : gauged nf a chis1 chis2.
Hypothesis Enp : q_np q2 = q_np q1.
Hypothesis Ethr : q_thr q2 = q_thr q1.
Hypothesis Eub : q_ub q2 = q_ub q1.
Hypothesis EaJ : q_acc_J q2 = q_acc_J q1.
Hypothesis Eaw : q_acc_w q2 = q_acc_w q1.
Hypothesis Hnf : (0 < nf)%nat.
Hypothesis Ht : 0 <= q_thr q1.
Hypothesis Hub : 0 < q_ub q1.
Implicit Types (k : kstate G cstate).

(** the state in the other gauge: fields shifted by [a] *)
Definition shifted k1 k2 : Prop :=
  v_Js k2 = v_Js k1 /\ v_cons k2 = v_cons k1 /\ v_g k2 = v_g k1 /\
  forall r m, (r < nf)%nat -> v_omegas k2 r m = v_omegas k1 r m + a r.

(** canonical ensembles with the same means, or grand canonical ensembles whose
    activities are transformed accordingly *)
Inductive gauged_ensemble : Prop :=
| ge_can : q_ensemble q1 = can_compiled nc x1 -> q_ensemble q2 = can_compiled nc x1 -> gauged_ensemble
| ge_gc : q_ensemble q1 = gc_compiled nc x1 -> q_ensemble q2 = gc_compiled nc x2 ->
    (forall i, (i < nc)%nat -> x2 i = x1 i * exp (a (rho i) * sizes i)) -> gauged_ensemble.
Hypothesis HE : gauged_ensemble.

Lemma gauge_kind k1 k2 : shifted k1 k2 -> (forall i, (i < nc)%nat -> (rho i < nf)%nat) ->
  (exists m, (m < q_np q1)%nat /\ alive (q_thr q1) (v_Js k1) m) ->
  exists y1 y2 a1 a2, ens_kind q1 k1 nc rho sizes y1 a1 /\ ens_kind q2 k2 nc rho sizes y2 a2 /\
    forall i m, (i < nc)%nat -> a2 i * exp (- v_omegas k2 (rho i) m * sizes i) = a1 i * exp (- v_omegas k1 (rho i) m * sizes i).
Proof.
  intros (EJ & _ & _ & EW) HR HL. destruct HE as [E1 E2|E1 E2 EX].
  - exists x1, x1, (fun i => x1 i / Qbar q1 k1 rho sizes i), (fun i => x1 i / Qbar q2 k2 rho sizes i).
    split; [now constructor|]. split; [now constructor|]. intros i m Hi.
    pose proof (Qbar_pos q1 k1 rho sizes i Ht HL) as P1.
    assert (EB : forall n, exp (- v_omegas k2 (rho i) n * sizes i) = exp (- v_omegas k1 (rho i) n * sizes i) * exp (- (a (rho i) * sizes i))).
    { intros n. rewrite <- exp_plus. f_equal. rewrite EW by auto. ring. }
    assert (EQ : Qbar q2 k2 rho sizes i = Qbar q1 k1 rho sizes i * exp (- (a (rho i) * sizes i))).
    { unfold Qbar. rewrite Enp, EJ, Ethr.
      rewrite (rsum_ext _ (fun m0 => exp (- v_omegas k2 (rho i) m0 * sizes i) * living (q_thr q1) (v_Js k1) m0)
        (fun m0 => exp (- v_omegas k1 (rho i) m0 * sizes i) * living (q_thr q1) (v_Js k1) m0 * exp (- (a (rho i) * sizes i)))).
      - rewrite rsum_scal_r. unfold Rdiv. ring.
      - intros n _. rewrite EB. ring. }
    rewrite EB, EQ. pose proof (exp_pos (- (a (rho i) * sizes i))). field. split; lra.
  - exists x1, x2, x1, x2. split; [now constructor|]. split; [now constructor|]. intros i m Hi.
    rewrite EX, EW by auto. rewrite !Rmult_assoc, <- exp_plus. f_equal. f_equal. ring.
Qed.

(** total and gauge energy of a compartment, over features and components *)
Lemma feat_total (phis : mat) feat m (g : vec) :
  (forall i, (i < nc)%nat -> (rho i < nf)%nat) ->
  (forall r, (r < nf)%nat -> feat r = fsum nc rho (fun i => phis i m) r) ->
  rsum nf (fun r => g r * feat r) = rsum nc (fun i => g (rho i) * phis i m).
Proof.
  intros HR HF. rewrite (rsum_ext nf _ (fun r => g r * fsum nc rho (fun i => phis i m) r)) by (intros; now rewrite HF).
  now apply fsum_sum.
Qed.

(** A step at an incompressible state (all total fractions equal to one) is
    the same in every gauge: same fractions, volumes and errors; the fields
    keep their offset. *)
Theorem C67_step k1 k2 k1' nv1 rep1 : shifted k1 k2 -> Forall idle (v_cons k1) ->
  iterate q1 k1 = Ok (k1', nv1, rep1) -> e_incomp rep1 = 0 ->
  exists k2' rep2, iterate q2 k2 = Ok (k2', nv1, rep2) /\
    e_incomp rep2 = 0 /\ e_omega rep2 = e_omega rep1 /\ e_Js rep2 = e_Js rep1 /\
    (forall i m, (i < nc)%nat -> v_phis_comp k2' i m = v_phis_comp k1' i m) /\
    (forall m, (m < q_np q1)%nat -> v_Js k2' m = v_Js k1' m) /\ v_cons k2' = v_cons k1' /\ v_g k2' = v_g k1' /\
    (forall r m, (r < nf)%nat -> (m < q_np q1)%nat -> alive (q_thr q1) (v_Js k1) m -> v_omegas k2' r m = v_omegas k1' r m + a r).
Proof.
  intros HS HI H1 E0. pose proof HS as (EJ & EC & EG & EW).
  assert (HE2 : exists y, any_ensemble q2 nc y) by (destruct HE as [? E|? E ?]; [exists x1; now left|exists x2; now right]).
  destruct HE2 as [y HE2].
  assert (HL : exists m, (m < q_np q1)%nat /\ alive (q_thr q1) (v_Js k1) m) by (eapply iterate_alive; eauto).
  destruct (iterate_total q2 k2) as (k2' & nv2 & rep2 & H2).
  { eapply mixture_total; eauto. }
  { now rewrite Ethr. }
  { now rewrite Eub. }
  { destruct HL as (m & Hm & Lm). exists m. rewrite Enp, Ethr, EJ. auto. }
  assert (HR : forall i, (i < nc)%nat -> (rho i < nf)%nat).
  { destruct M1; auto. intros. now apply feature_of_lt. }
  destruct (gauge_kind k1 k2 HS HR HL) as (y1 & y2 & a1 & a2 & K1 & K2 & EA).
  destruct (mixture_facts _ _ _ _ _ _ _ _ _ _ _ _ _ M1 K1 H1) as (phis1 & inc1 & MF1).
  destruct (mixture_facts _ _ _ _ _ _ _ _ _ _ _ _ _ M2 K2 H2) as (phis2 & inc2 & MF2).
  destruct (mf_it _ _ _ _ _ _ _ _ _ _ _ _ _ MF1) as [n1 I1]. destruct (mf_it _ _ _ _ _ _ _ _ _ _ _ _ _ MF2) as [n2 I2].
  assert (N1 : q_nf q1 = nf) by apply (mf_nf _ _ _ _ _ _ _ _ _ _ _ _ _ MF1).
  assert (N2 : q_nf q2 = nf) by apply (mf_nf _ _ _ _ _ _ _ _ _ _ _ _ _ MF2).
  assert (EP : forall i m, (i < nc)%nat -> phis2 i m = phis1 i m).
  { intros i m Hi. rewrite (mf_frac _ _ _ _ _ _ _ _ _ _ _ _ _ MF1), (mf_frac _ _ _ _ _ _ _ _ _ _ _ _ _ MF2) by auto.
    rewrite EJ, Ethr. f_equal. now apply EA. }
  assert (EI : forall m, inc2 m = inc1 m).
  { intros m. rewrite (mf_inc _ _ _ _ _ _ _ _ _ _ _ _ _ MF1), (mf_inc _ _ _ _ _ _ _ _ _ _ _ _ _ MF2). rewrite EJ, Ethr. do 2 f_equal.
    apply rsum_ext. intros; now apply EP. }
  assert (EF : forall r m, (r < nf)%nat -> t_feat q2 k2 phis2 r m = t_feat q1 k1 phis1 r m).
  { intros r m Hr. rewrite (mf_feat _ _ _ _ _ _ _ _ _ _ _ _ _ MF1), (mf_feat _ _ _ _ _ _ _ _ _ _ _ _ _ MF2) by auto.
    unfold fsum. apply rsum_ext. intros i Hi. now rewrite EP. }
  (* incompressible *)
  assert (Z1 : forall m, (m < q_np q1)%nat -> inc1 m = 0).
  { intros m Hm. pose proof (incomp_le _ _ _ _ _ _ _ _ _ _ _ _ _ MF1 m Hm) as L. rewrite E0 in L. apply Rabs_le_inv in L. lra. }
  assert (HI2 : Forall idle (v_cons k2)) by now rewrite EC.
  destruct (idle_sums q1 k1 phis1 HI) as [ZP1 ZV1]. destruct (idle_sums q2 k2 phis2 HI2) as [ZP2 ZV2].
  set (A := fun m => rsum nc (fun i => a (rho i) * phis1 i m)).
  assert (SUM : forall m, (m < q_np q1)%nat -> alive (q_thr q1) (v_Js k1) m -> rsum nc (fun i => phis1 i m) = 1).
  { intros m Hm Lm. pose proof (mf_inc _ _ _ _ _ _ _ _ _ _ _ _ _ MF1 m) as E. rewrite Z1, mask_alive in E by auto. lra. }
  assert (POT : forall r m, (r < nf)%nat -> (m < q_np q1)%nat -> alive (q_thr q1) (v_Js k1) m ->
    t_pot q2 k2 phis2 r m = t_pot q1 k1 phis1 r m + a r + A m).
  { intros r m Hr Hm Lm. rewrite (mf_pot _ _ _ _ _ _ _ _ _ _ _ _ _ MF1), (mf_pot _ _ _ _ _ _ _ _ _ _ _ _ _ MF2).
    rewrite (rsum_ext nf (fun s => chis2 r s * t_feat q2 k2 phis2 s m)
      (fun s => chis1 r s * t_feat q1 k1 phis1 s m + (a r * t_feat q1 k1 phis1 s m + a s * t_feat q1 k1 phis1 s m)))
      by (intros s Hs; rewrite HG, EF by auto; ring).
    rewrite !rsum_plus.
    rewrite (feat_total phis1 (fun r => t_feat q1 k1 phis1 r m) m a) by (auto; intros; apply (mf_feat _ _ _ _ _ _ _ _ _ _ _ _ _ MF1); auto).
    rewrite (feat_total phis1 (fun r => t_feat q1 k1 phis1 r m) m (fun _ => a r)) by (auto; intros; apply (mf_feat _ _ _ _ _ _ _ _ _ _ _ _ _ MF1); auto).
    rewrite (rsum_scal_l nc (a r) (fun i => phis1 i m)), SUM by auto. unfold A. ring. }
  assert (L2 : forall m, alive (q_thr q1) (v_Js k1) m -> alive (q_thr q2) (v_Js k2) m) by (intros; now rewrite Ethr, EJ).
  assert (XI : forall m, (m < q_np q1)%nat -> alive (q_thr q1) (v_Js k1) m -> t_xi q2 k2 phis2 inc2 m = t_xi q1 k1 phis1 inc1 m - A m).
  { intros m Hm Lm.
    pose proof (diff_sum _ _ _ _ _ _ _ _ _ _ _ _ _ MF1 m Hnf Lm) as D1. pose proof (diff_sum _ _ _ _ _ _ _ _ _ _ _ _ _ MF2 m Hnf (L2 m Lm)) as D2.
    cbv zeta in D1, D2. rewrite EI, Z1, Rmult_0_r in D2 by auto. rewrite Z1, Rmult_0_r in D1 by auto.
    rewrite (rsum_ext nf _ (fun r => (t_pot q1 k1 phis1 r m - v_omegas k1 r m) + t_xi q1 k1 phis1 inc1 m)) in D1
      by (intros; rewrite diff_alive, ZP1 by auto; ring).
    rewrite (rsum_ext nf _ (fun r => (t_pot q1 k1 phis1 r m - v_omegas k1 r m) + (A m + t_xi q2 k2 phis2 inc2 m))) in D2
      by (intros; rewrite diff_alive, ZP2, POT, EW by auto; ring).
    rewrite rsum_plus, rsum_const in D1, D2. assert (INR nf <> 0) by now apply INR_neq0.
    apply (Rmult_eq_reg_l (INR nf)); auto. lra. }
  assert (DIFF : forall r m, (r < q_nf q1)%nat -> (m < q_np q1)%nat -> alive (q_thr q1) (v_Js k1) m ->
    t_diff q2 k2 phis2 inc2 r m = 1 * t_diff q1 k1 phis1 inc1 r m).
  { intros r m Hr Hm Lm. rewrite N1 in Hr. rewrite !diff_alive, ZP1, ZP2, POT, XI, EW by auto. ring. }
  assert (LE : forall m, (m < q_np q1)%nat -> alive (q_thr q1) (v_Js k1) m -> t_le q2 k2 phis2 inc2 m = 1 * t_le q1 k1 phis1 inc1 m).
  { intros m Hm Lm. rewrite (le_identity _ _ _ _ _ _ _ _ _ _ _ _ _ MF1 m Lm), (le_identity _ _ _ _ _ _ _ _ _ _ _ _ _ MF2 m (L2 m Lm)).
    rewrite ZV1, ZV2, XI by auto.
    rewrite (rsum_zero nc (fun i => P_of (t_cs q1 k1 phis1) (rho i) m * phis1 i m)) by (intros; rewrite ZP1; ring).
    rewrite (rsum_zero nc (fun i => P_of (t_cs q2 k2 phis2) (rho i) m * phis2 i m)) by (intros; rewrite ZP2; ring).
    rewrite (rsum_ext nc (fun i => phis2 i m / sizes i) (fun i => phis1 i m / sizes i)) by (intros; now rewrite EP).
    rewrite (rsum_ext nc (fun i => t_pot q2 k2 phis2 (rho i) m * phis2 i m)
      (fun i => t_pot q1 k1 phis1 (rho i) m * phis1 i m + (a (rho i) * phis1 i m + A m * phis1 i m)))
      by (intros; rewrite POT, EP by auto; ring).
    rewrite !rsum_plus, (rsum_scal_l nc (A m) (fun i => phis1 i m)), SUM by auto. fold (A m). field. }
  assert (EAJ : q_acc_J q2 * 1 = q_acc_J q1) by lra.
  assert (N21 : q_nf q2 = q_nf q1) by congruence.
  set (D := fun m => (m < q_np q1)%nat).
  assert (HD : forall m, (m < q_np q1)%nat -> D m) by auto.
  assert (S0 : 0 <= 1) by lra.
  exists k2', rep2.
  assert (ENV : nv2 = nv1).
  { apply iterate_inv in H1. apply iterate_inv in H2. destruct H1 as (? & ? & ? & ? & _ & _ & J1), H2 as (? & ? & ? & ? & _ & _ & J2).
    rewrite (if_nv J1), (if_nv J2). unfold t_nv. now rewrite Enp, Ethr, EJ. }
  split; [rewrite <- ENV; exact H2|].
  split. { rewrite (if_e_incomp I2), <- E0, (if_e_incomp I1), Enp. apply vmax_ext. intros m _. now rewrite EI. }
  split. { rewrite (if_e_omega I2), (if_e_omega I1). rewrite (pr_omega q1 q2 k1 k2 phis1 phis2 inc1 inc2 1 D HD Enp N21 Ethr EJ S0 DIFF). ring. }
  split. { rewrite (if_e_Js I2), (if_e_Js I1). rewrite (pr_maxJ q1 q2 k1 k2 phis1 phis2 inc1 inc2 1 D HD Enp Ethr EJ S0 LE). ring. }
  split. { intros i m Hi. rewrite (if_comp I2), (if_comp I1). now apply EP. }
  split. { intros m Hm. rewrite (if_Js I2), (if_Js I1). now apply (pr_J2 q1 q2 k1 k2 phis1 phis2 inc1 inc2 1 D HD Enp Ethr Eub EAJ EJ S0 LE). }
  split. { rewrite (idle_step _ _ _ _ _ HI2 H2), (idle_step _ _ _ _ _ HI H1). exact EC. }
  split. { rewrite (if_g I2), (if_g I1). exact EG. }
  intros r m Hr Hm Lm. rewrite (if_omegas I2), (if_omegas I1). rewrite <- N1 in Hr.
  rewrite (pr_fields q1 q2 k1 k2 phis1 phis2 inc1 inc2 1 D HD Enp Ethr Eub EAJ Eaw EJ S0 LE DIFF r m Hr Hm).
  unfold t_omegas, t_masks. rewrite mask_alive by auto. rewrite EW by (rewrite <- N1; auto). ring.
Qed.
End Gauge.

(* ------------------------------------------------------------------ *)
(** ** C68 *)

(** The same mixture in units of a molecular volume [sg] times smaller: sizes
    grow, energies per reference volume shrink. *)
Definition other_unit (nc nf : nat) (sg : R) (chis1 chis2 : mat) (sh1 sh2 : R) (sizes1 sizes2 : vec) : Prop :=
  (forall i, (i < nc)%nat -> sizes2 i = sg * sizes1 i) /\
  (forall r s, (r < nf)%nat -> (s < nf)%nat -> chis2 r s = chis1 r s / sg) /\ sh2 = sh1 / sg.

(** The energy density in the new unit is the old one divided by the factor,
    so all physics described by the free energy objects is the same. *)
Theorem C68_energy nc sg chi1 chi2 l1 l2 phi : 0 < sg -> (forall i, (i < nc)%nat -> 0 < l1 i) ->
  other_unit nc nc sg chi1 chi2 0 0 l1 l2 -> 
  fh nc chi2 l2 phi = fh nc chi1 l1 phi / sg /\ forall i, (i < nc)%nat -> dfh nc chi2 l2 phi i = dfh nc chi1 l1 phi i / sg.
Proof.
  intros Hs Hl (EL & EC & _). split; [|intros i Hi].
  - unfold fh. 
    rewrite (rsum_ext nc (fun i => phi i * ln (phi i) / l2 i) (fun i => phi i * ln (phi i) / l1 i * / sg)).
    2:{ intros i Hi. rewrite EL by auto. specialize (Hl i Hi). field. lra. }
    rewrite (rsum_ext nc (fun i => rsum nc (fun j => chi2 i j * phi i * phi j)) (fun i => rsum nc (fun j => chi1 i j * phi i * phi j) * / sg)).
    2:{ intros i Hi. rewrite <- rsum_scal_r. apply rsum_ext. intros j Hj. rewrite EC by auto. field. lra. }
    rewrite !rsum_scal_r. field. lra.
  - unfold dfh. rewrite EL by auto.
    rewrite (rsum_ext nc (fun j => chi2 i j * phi j) (fun j => chi1 i j * phi j * / sg)) by (intros; rewrite EC by auto; field; lra).
    rewrite rsum_scal_r. specialize (Hl i Hi). field. lra.
Qed.

Section Unit.
Context {G : Type} (q1 q2 : kernel) (nc nf : nat) (rho : nat -> nat) (chis1 chis2 : mat) (sh1 sh2 : R) (sizes1 sizes2 x : vec) (sg : R).
Hypothesis M1 : mixture q1 nc nf rho chis1 sh1 sizes1.
Hypothesis M2 : mixture q2 nc nf rho chis2 sh2 sizes2.
Hypothesis Hsg : 0 < sg.
Hypothesis HU : other_unit nc nf sg chis1 chis2 sh1 sh2 sizes1 sizes2.
Hypothesis Hsz : forall i, (i < nc)%nat -> 0 < sizes1 i.
Hypothesis HE : (q_ensemble q1 = can_compiled nc x /\ q_ensemble q2 = can_compiled nc x) \/
  (q_ensemble q1 = gc_compiled nc x /\ q_ensemble q2 = gc_compiled nc x).
Hypothesis Enp : q_np q2 = q_np q1.
Hypothesis Ethr : q_thr q2 = q_thr q1.
Hypothesis Eub : q_ub q2 = q_ub q1.
Hypothesis EaJ : q_acc_J q2 = sg * q_acc_J q1.
Hypothesis Eaw : q_acc_w q2 = q_acc_w q1.
Hypothesis Esc : q_scaler q2 = q_scaler q1.
Hypothesis Hnf : (0 < nf)%nat.
Hypothesis Ht : 0 <= q_thr q1.
Hypothesis Hub : 0 < q_ub q1.
Implicit Types (k : kstate G cstate).

(** the same state, with the fields in the new unit *)
Definition same_state k1 k2 : Prop :=
  v_Js k2 = v_Js k1 /\ v_cons k2 = v_cons k1 /\ v_g k2 = v_g k1 /\
  forall r m, (r < nf)%nat -> v_omegas k2 r m = v_omegas k1 r m / sg.

Lemma unit_boltz k1 k2 i m : same_state k1 k2 -> (i < nc)%nat -> (rho i < nf)%nat ->
  exp (- v_omegas k2 (rho i) m * sizes2 i) = exp (- v_omegas k1 (rho i) m * sizes1 i).
Proof.
  intros (_ & _ & _ & EW) Hi HR. destruct HU as (EL & _). f_equal. rewrite EW, EL by auto. field. lra.
Qed.

Lemma unit_kind k1 k2 : same_state k1 k2 -> (forall i, (i < nc)%nat -> (rho i < nf)%nat) ->
  exists a1 a2, ens_kind q1 k1 nc rho sizes1 x a1 /\ ens_kind q2 k2 nc rho sizes2 x a2 /\ forall i, (i < nc)%nat -> a2 i = a1 i.
Proof.
  intros HS HR. destruct HE as [[E1 E2]|[E1 E2]].
  - exists (fun i => x i / Qbar q1 k1 rho sizes1 i), (fun i => x i / Qbar q2 k2 rho sizes2 i).
    split; [now constructor|]. split; [now constructor|]. intros i Hi. f_equal. unfold Qbar. rewrite Enp, Ethr.
    destruct (HS) as (EJ & _). rewrite EJ. f_equal. apply rsum_ext. intros m _. f_equal. apply unit_boltz; auto.
  - exists x, x. split; [now constructor|]. split; [now constructor|]. reflexivity.
Qed.

Lemma unit_coef : coef_of q2 = coef_of q1 / sg.
Proof.
  destruct HU as (_ & EC & ES).
  assert (E1 : q_inter q1 = fh_compile nf chis1 sh1) by (destruct M1; auto).
  assert (E2 : q_inter q2 = fh_compile nf chis2 sh2) by (destruct M2; auto).
  unfold coef_of. rewrite E1, E2. unfold fh_compile, fh_compiled. cbn [i_coef].
  assert (X1 : mat_sum nf chis2 = mat_sum nf chis1 * / sg).
  { unfold mat_sum. rewrite <- rsum_scal_r. apply rsum_ext. intros r Hr. rewrite <- rsum_scal_r. apply rsum_ext. intros s Hs.
    now rewrite EC by auto. }
  assert (X2 : mat_min nf chis2 = / sg * mat_min nf chis1).
  { assert (0 <= / sg) by (left; now apply Rinv_0_lt_compat). unfold mat_min. rewrite <- vmin_scal by auto. apply vmin_ext. intros r Hr.
    rewrite <- vmin_scal by auto. apply vmin_ext. intros s Hs. rewrite EC by auto. unfold Rdiv. ring. }
  rewrite X1, X2, ES. field. lra.
Qed.

Lemma unit_step k1 k2 k1' nv rep1 : same_state k1 k2 -> Forall idle (v_cons k1) ->
  iterate q1 k1 = Ok (k1', nv, rep1) ->
  exists k2' rep2, iterate q2 k2 = Ok (k2', nv, rep2) /\ same_state k1' k2' /\
    (forall i m, (i < nc)%nat -> v_phis_comp k2' i m = v_phis_comp k1' i m) /\
    e_incomp rep2 = e_incomp rep1 /\ e_omega rep2 = e_omega rep1 / sg /\ e_Js rep2 = e_Js rep1 / sg.
Proof.
  intros HS HI H1. pose proof HS as (EJ & EC & EG & EW). destruct HU as (EL & ECH & _).
  assert (HE2 : any_ensemble q2 nc x) by (destruct HE as [[? ?]|[? ?]]; [now left|now right]).
  assert (HL : exists m, (m < q_np q1)%nat /\ alive (q_thr q1) (v_Js k1) m) by (eapply iterate_alive; eauto).
  destruct (iterate_total q2 k2) as (k2' & nv2 & rep2 & H2).
  { eapply mixture_total; eauto. }
  { now rewrite Ethr. }
  { now rewrite Eub. }
  { destruct HL as (m & Hm & Lm). exists m. rewrite Enp, Ethr, EJ. auto. }
  assert (HR : forall i, (i < nc)%nat -> (rho i < nf)%nat).
  { destruct M1; auto. intros. now apply feature_of_lt. }
  destruct (unit_kind k1 k2 HS HR) as (a1 & a2 & K1 & K2 & EA).
  destruct (mixture_facts _ _ _ _ _ _ _ _ _ _ _ _ _ M1 K1 H1) as (phis1 & inc1 & MF1).
  destruct (mixture_facts _ _ _ _ _ _ _ _ _ _ _ _ _ M2 K2 H2) as (phis2 & inc2 & MF2).
  destruct (mf_it _ _ _ _ _ _ _ _ _ _ _ _ _ MF1) as [n1 I1]. destruct (mf_it _ _ _ _ _ _ _ _ _ _ _ _ _ MF2) as [n2 I2].
  assert (N1 : q_nf q1 = nf) by apply (mf_nf _ _ _ _ _ _ _ _ _ _ _ _ _ MF1).
  assert (N2 : q_nf q2 = nf) by apply (mf_nf _ _ _ _ _ _ _ _ _ _ _ _ _ MF2).
  assert (EP : forall i m, (i < nc)%nat -> phis2 i m = phis1 i m).
  { intros i m Hi. rewrite (mf_frac _ _ _ _ _ _ _ _ _ _ _ _ _ MF1), (mf_frac _ _ _ _ _ _ _ _ _ _ _ _ _ MF2) by auto.
    rewrite EJ, Ethr, EA, (unit_boltz k1 k2) by auto. reflexivity. }
  assert (EI : forall m, inc2 m = inc1 m).
  { intros m. rewrite (mf_inc _ _ _ _ _ _ _ _ _ _ _ _ _ MF1), (mf_inc _ _ _ _ _ _ _ _ _ _ _ _ _ MF2). rewrite EJ, Ethr. do 2 f_equal.
    apply rsum_ext. intros; now apply EP. }
  assert (EF : forall r m, (r < nf)%nat -> t_feat q2 k2 phis2 r m = t_feat q1 k1 phis1 r m).
  { intros r m Hr. rewrite (mf_feat _ _ _ _ _ _ _ _ _ _ _ _ _ MF1), (mf_feat _ _ _ _ _ _ _ _ _ _ _ _ _ MF2) by auto.
    unfold fsum. apply rsum_ext. intros i Hi. now rewrite EP. }
  assert (HI2 : Forall idle (v_cons k2)) by now rewrite EC.
  destruct (idle_sums q1 k1 phis1 HI) as [ZP1 ZV1]. destruct (idle_sums q2 k2 phis2 HI2) as [ZP2 ZV2].
  assert (POT : forall r m, (r < nf)%nat -> t_pot q2 k2 phis2 r m = t_pot q1 k1 phis1 r m / sg).
  { intros r m Hr. rewrite (mf_pot _ _ _ _ _ _ _ _ _ _ _ _ _ MF1), (mf_pot _ _ _ _ _ _ _ _ _ _ _ _ _ MF2).
    unfold Rdiv. rewrite <- rsum_scal_r. apply rsum_ext. intros s Hs. rewrite ECH, EF by auto. unfold Rdiv. ring. }
  assert (L2 : forall m, alive (q_thr q1) (v_Js k1) m -> alive (q_thr q2) (v_Js k2) m) by (intros; now rewrite Ethr, EJ).
  assert (XI : forall m, alive (q_thr q1) (v_Js k1) m -> t_xi q2 k2 phis2 inc2 m = t_xi q1 k1 phis1 inc1 m / sg).
  { intros m Lm.
    pose proof (diff_sum _ _ _ _ _ _ _ _ _ _ _ _ _ MF1 m Hnf Lm) as D1. pose proof (diff_sum _ _ _ _ _ _ _ _ _ _ _ _ _ MF2 m Hnf (L2 m Lm)) as D2.
    cbv zeta in D1, D2. rewrite EI, unit_coef in D2.
    rewrite (rsum_ext nf _ (fun r => (t_pot q1 k1 phis1 r m - v_omegas k1 r m) + t_xi q1 k1 phis1 inc1 m)) in D1
      by (intros; rewrite diff_alive, ZP1 by auto; ring).
    rewrite (rsum_ext nf _ (fun r => (t_pot q1 k1 phis1 r m - v_omegas k1 r m) * / sg + t_xi q2 k2 phis2 inc2 m)) in D2
      by (intros; rewrite diff_alive, ZP2, POT, EW by auto; unfold Rdiv; ring).
    rewrite rsum_plus, rsum_const in D1, D2. rewrite rsum_scal_r in D2. assert (INR nf <> 0) by now apply INR_neq0.
    apply (Rmult_eq_reg_l (INR nf)); auto.
    replace (INR nf * (t_xi q1 k1 phis1 inc1 m / sg)) with ((INR nf * t_xi q1 k1 phis1 inc1 m) * / sg) by (unfold Rdiv; ring).
    replace (INR nf * t_xi q1 k1 phis1 inc1 m) with (coef_of q1 * inc1 m - rsum nf (fun r => t_pot q1 k1 phis1 r m - v_omegas k1 r m)) by lra.
    replace (coef_of q1 / sg * inc1 m) with (coef_of q1 * inc1 m * / sg) in D2 by (unfold Rdiv; ring). lra. }
  assert (DIFF : forall r m, (r < q_nf q1)%nat -> True -> alive (q_thr q1) (v_Js k1) m ->
    t_diff q2 k2 phis2 inc2 r m = / sg * t_diff q1 k1 phis1 inc1 r m).
  { intros r m Hr _ Lm. rewrite N1 in Hr. rewrite !diff_alive, ZP1, ZP2, POT, XI, EW by auto. unfold Rdiv. ring. }
  assert (LE : forall m, True -> alive (q_thr q1) (v_Js k1) m -> t_le q2 k2 phis2 inc2 m = / sg * t_le q1 k1 phis1 inc1 m).
  { intros m _ Lm. rewrite (le_identity _ _ _ _ _ _ _ _ _ _ _ _ _ MF1 m Lm), (le_identity _ _ _ _ _ _ _ _ _ _ _ _ _ MF2 m (L2 m Lm)).
    rewrite ZV1, ZV2, XI by auto.
    rewrite (rsum_zero nc (fun i => P_of (t_cs q1 k1 phis1) (rho i) m * phis1 i m)) by (intros; rewrite ZP1; ring).
    rewrite (rsum_zero nc (fun i => P_of (t_cs q2 k2 phis2) (rho i) m * phis2 i m)) by (intros; rewrite ZP2; ring).
    rewrite (rsum_ext nc (fun i => phis2 i m / sizes2 i) (fun i => phis1 i m / sizes1 i * / sg))
      by (intros i Hi; specialize (Hsz i Hi); rewrite EP, EL by auto; field; lra).
    rewrite (rsum_ext nc (fun i => t_pot q2 k2 phis2 (rho i) m * phis2 i m) (fun i => t_pot q1 k1 phis1 (rho i) m * phis1 i m * / sg))
      by (intros; rewrite POT, EP by auto; unfold Rdiv; ring).
    rewrite !rsum_scal_r. unfold Rdiv. ring. }
  assert (EAJ : q_acc_J q2 * / sg = q_acc_J q1) by (rewrite EaJ; field; lra).
  assert (N21 : q_nf q2 = q_nf q1) by congruence.
  set (D := fun m : nat => True).
  assert (HD : forall m, (m < q_np q1)%nat -> D m) by (intros; exact I).
  assert (S0 : 0 <= / sg) by (left; now apply Rinv_0_lt_compat).
  exists k2', rep2.
  assert (ENV : nv2 = nv).
  { apply iterate_inv in H1. apply iterate_inv in H2. destruct H1 as (? & ? & ? & ? & _ & _ & J1), H2 as (? & ? & ? & ? & _ & _ & J2).
    rewrite (if_nv J1), (if_nv J2). unfold t_nv. now rewrite Enp, Ethr, EJ. }
  split; [rewrite <- ENV; exact H2|].
  split; [|split; [|split; [|split]]].
  - split; [|split; [|split]].
    + rewrite (if_Js I2), (if_Js I1). apply functional_extensionality. intros m.
      now apply (pr_J2 q1 q2 k1 k2 phis1 phis2 inc1 inc2 (/ sg) D HD Enp Ethr Eub EAJ EJ S0 LE).
    + rewrite (idle_step _ _ _ _ _ HI2 H2), (idle_step _ _ _ _ _ HI H1). exact EC.
    + rewrite (if_g I2), (if_g I1). exact EG.
    + intros r m Hr. rewrite (if_omegas I2), (if_omegas I1). rewrite <- N1 in Hr.
      rewrite (pr_fields q1 q2 k1 k2 phis1 phis2 inc1 inc2 (/ sg) D HD Enp Ethr Eub EAJ Eaw EJ S0 LE DIFF r m Hr I).
      unfold t_omegas, t_masks. rewrite EW by (rewrite <- N1; auto). unfold Rdiv. ring.
  - intros i m Hi. rewrite (if_comp I2), (if_comp I1). now apply EP.
  - rewrite (if_e_incomp I2), (if_e_incomp I1), Enp. apply vmax_ext. intros m _. now rewrite EI.
  - rewrite (if_e_omega I2), (if_e_omega I1). rewrite (pr_omega q1 q2 k1 k2 phis1 phis2 inc1 inc2 (/ sg) D HD Enp N21 Ethr EJ S0 DIFF).
    unfold Rdiv. ring.
  - rewrite (if_e_Js I2), (if_e_Js I1). rewrite (pr_maxJ q1 q2 k1 k2 phis1 phis2 inc1 inc2 (/ sg) D HD Enp Ethr EJ S0 LE).
    unfold Rdiv. ring.
Qed.

(** revival draws the same random numbers and is linear in the fields *)
Lemma redraw_scal (ops : rng_ops G) n np sc m (A0 B0 A B : mat) g :
  (forall r j, (r < n)%nat -> B0 r j = A0 r j / sg) -> (forall r j, (r < n)%nat -> B r j = A r j / sg) ->
  (forall r j, (r < n)%nat -> fst (redraw_column ops n np B0 sc m (B, g)) r j = fst (redraw_column ops n np A0 sc m (A, g)) r j / sg) /\
  snd (redraw_column ops n np B0 sc m (B, g)) = snd (redraw_column ops n np A0 sc m (A, g)).
Proof.
  intros H0 H. unfold redraw_column.
  set (step := fun (X : mat) i '(targets, g) => let '(u, g') := g_uniform ops g in
       (upd2 targets i m (target_center np X i + target_width np X i * sc * u), g')).
  assert (L : forall l, (l <= n)%nat ->
    (forall r j, (r < n)%nat -> fst (for_ l (step B0) (B, g)) r j = fst (for_ l (step A0) (A, g)) r j / sg) /\
    snd (for_ l (step B0) (B, g)) = snd (for_ l (step A0) (A, g))); [|exact (L n (le_n n))].
  induction l as [|l IH]; intros Hl; [split; [exact H|reflexivity]|].
  specialize (IH ltac:(lia)). rewrite !for_S. unfold step at 1 3 5 7.
  destruct (for_ l (step B0) (B, g)) as [b gb]. destruct (for_ l (step A0) (A, g)) as [a ga]. cbn [fst snd] in IH.
  destruct IH as (I1 & ->). destruct (g_uniform ops ga) as [u g']. cbn [fst snd]. split; [|reflexivity].
  assert (S0 : 0 <= / sg) by (left; now apply Rinv_0_lt_compat).
  assert (X1 : vmax np (B0 l) = / sg * vmax np (A0 l)).
  { rewrite <- vmax_scal by auto. apply vmax_ext. intros j _. rewrite H0 by lia. unfold Rdiv. ring. }
  assert (X2 : vmin np (B0 l) = / sg * vmin np (A0 l)).
  { rewrite <- vmin_scal by auto. apply vmin_ext. intros j _. rewrite H0 by lia. unfold Rdiv. ring. }
  intros r j Hr. unfold upd2. destruct (_ && _)%bool; [|auto].
  unfold target_center, target_width. rewrite X1, X2. field. lra.
Qed.

Lemma unit_revive (ops : rng_ops G) tries c k1 k2 : same_state k1 k2 -> q_nf q1 = nf -> q_nf q2 = nf ->
  fst (maybe_revive ops q2 tries c k2) = fst (maybe_revive ops q1 tries c k1) /\
  same_state (snd (maybe_revive ops q1 tries c k1)) (snd (maybe_revive ops q2 tries c k2)).
Proof.
  intros HS N1 N2. pose proof HS as (EJ & EC & EG & EW). unfold maybe_revive. rewrite Enp, Ethr, Esc, N1, N2, EJ, EG.
  destruct (Z.ltb _ _); [|split; [reflexivity|exact HS]]. destruct (Nat.eqb _ _); [split; [reflexivity|exact HS]|].
  unfold revive_by_random.
  set (step := fun (X : mat) m '(count, J, t, g) => if Rleb (J m) (q_thr q1) then
       let '(t', g') := redraw_column ops nf (q_np q1) X (q_scaler q1) m (t, g) in (S count, upd J m 1, t', g')
     else (count, J, t, g)).
  assert (L : forall n, 
    let '(c1, J1, t1, g1) := for_ n (step (v_omegas k1)) (O, v_Js k1, v_omegas k1, v_g k1) in
    let '(c2, J2, t2, g2) := for_ n (step (v_omegas k2)) (O, v_Js k1, v_omegas k2, v_g k1) in
    c2 = c1 /\ J2 = J1 /\ g2 = g1 /\ forall r j, (r < nf)%nat -> t2 r j = t1 r j / sg).
  { induction n as [|n IH]; [repeat split; auto|]. rewrite !for_S.
    destruct (for_ n (step (v_omegas k1)) _) as [[[c1 J1] t1] g1]. destruct (for_ n (step (v_omegas k2)) _) as [[[c2 J2] t2] g2].
    destruct IH as (-> & -> & -> & ET). unfold step. destruct (Rleb (J1 n) (q_thr q1)); [|repeat split; auto].
    destruct (redraw_scal ops nf (q_np q1) (q_scaler q1) n _ _ _ _ g1 EW ET) as [X1 X2].
    destruct (redraw_column ops nf _ (v_omegas k2) _ _ _) as [b gb]. destruct (redraw_column ops nf _ (v_omegas k1) _ _ _) as [a ga].
    cbn [fst snd] in X1, X2. subst gb. repeat split; auto. }
  specialize (L (q_np q1)).
  change (for_ (q_np q1) _ (O, v_Js k1, v_omegas k1, v_g k1)) with (for_ (q_np q1) (step (v_omegas k1)) (O, v_Js k1, v_omegas k1, v_g k1)).
  change (for_ (q_np q1) _ (O, v_Js k1, v_omegas k2, v_g k1)) with (for_ (q_np q1) (step (v_omegas k2)) (O, v_Js k1, v_omegas k2, v_g k1)).
  destruct (for_ _ (step (v_omegas k1)) _) as [[[c1 J1] t1] g1]. destruct (for_ _ (step (v_omegas k2)) _) as [[[c2 J2] t2] g2].
  destruct L as (-> & -> & -> & ET). split; [reflexivity|]. split; [reflexivity|]. split; [exact EC|]. split; [reflexivity|exact ET].
Qed.

(** Any number of steps, with revival: fractions, volumes, revivals and the
    use of the random generator do not depend on the unit when [acceptance_Js]
    is given in the new unit; fields and the errors that have the dimension of
    an energy are rescaled. *)
Theorem C68_steps (ops : rng_ops G) tries n k1 k2 w1 : same_state k1 k2 -> Forall idle (v_cons k1) ->
  steps ops q1 tries n (start k1) = Ok w1 ->
  exists w2, steps ops q2 tries n (start k2) = Ok w2 /\ same_state (w_k w1) (w_k w2) /\
    w_count w2 = w_count w1 /\ w_valid w2 = w_valid w1 /\
    ((n > 0)%nat -> exists rep1 rep2, w_rep w1 = Some rep1 /\ w_rep w2 = Some rep2 /\
      (forall i m, (i < nc)%nat -> v_phis_comp (w_k w2) i m = v_phis_comp (w_k w1) i m) /\
      e_incomp rep2 = e_incomp rep1 /\ e_omega rep2 = e_omega rep1 / sg /\ e_Js rep2 = e_Js rep1 / sg).
Proof.
  intros HS HI. revert w1. 
  assert (N1 : q_nf q1 = nf) by (destruct M1; auto). assert (N2 : q_nf q2 = nf) by (destruct M2; auto).
  induction n as [|n IH]; intros w1 H; cbn [steps] in *.
  - injection H as <-. exists (start k2). repeat split; auto; try apply HS. lia.
  - apply bind_Ok in H. destruct H as (u1 & E1 & H).
    destruct (IH u1 E1) as (u2 & E2 & S2 & C2 & V2 & _).
    assert (HI1 : Forall idle (v_cons (w_k u1))) by (rewrite (idle_steps ops q1 tries n (start k1) u1 HI E1); exact HI).
    destruct (unit_revive ops tries (w_count u1) (w_k u1) (w_k u2) S2 N1 N2) as [R1 R2].
    rewrite E2. cbn [bind]. unfold one_step in *. rewrite C2.
    destruct (maybe_revive ops q1 tries (w_count u1) (w_k u1)) as [c1 p1] eqn:EM1.
    destruct (maybe_revive ops q2 tries (w_count u1) (w_k u2)) as [c2 p2] eqn:EM2. cbn [fst snd] in R1, R2. subst c2.
    assert (HI2 : Forall idle (v_cons p1)).
    { replace (v_cons p1) with (v_cons (w_k u1)); auto. unfold maybe_revive in EM1. destruct (Z.ltb _ _); [|now injection EM1 as _ <-].
      destruct (Nat.eqb _ _); [now injection EM1 as _ <-|].
      destruct (revive_by_random _ _ _ _ _ _ _ _) as [[[c' J] t] g]. now injection EM1 as _ <-. }
    apply bind_Ok in H. destruct H as ([[k1' nv] rep1] & EI & H). injection H as <-.
    destruct (unit_step p1 p2 k1' nv rep1 R2 HI2 EI) as (k2' & rep2 & X1 & X2 & X3 & X4 & X5 & X6).
    rewrite X1. cbn [bind]. eexists. split; [reflexivity|]. cbn [w_k w_count w_valid w_rep]. split; [exact X2|].
    split; [reflexivity|]. split; [reflexivity|]. intros _. exists rep1, rep2. repeat split; auto.
Qed.
End Unit.
