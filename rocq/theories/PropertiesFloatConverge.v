(** PropertiesFloatConverge.v -- in binary64 arithmetic the iteration converges
    for weakly interacting mixtures, down to the rounding errors (C101). *)

From Flocq Require Import Core BinarySingleNaN.
From Coq Require Import Reals ZArith String List Bool Arith Lia Lra.
From Verif Require Import Base ModelParts ModelKernel ModelFloat ModelFloatKernel ModelFloatParts PropertiesFloat ProofsFloatKernel
  PropertiesFloatKernel ProofsRounding PropertiesRounding ProofsFloatError PropertiesFloatError PropertiesFloatParts ProofsFloatRevive
  ProofsParts ProofsKernel ProofsSteps ProofsBounds ProofsEquilibrium PropertiesKernel PropertiesConstraints PropertiesEquilibrium
  PropertiesFeatures PropertiesBinary ProofsContract ProofsContractLoose PropertiesContract Spec.
Import ListNotations.
Open Scope R_scope.

(** a finder without constraints holds one [NoConstraintCompiled] *)
Definition idle64 (o : cons64 cstate64 * cstate64) : Prop :=
  fst o = no_class64 /\ (forall r m, d_pot (snd o) r m = zero64) /\ (forall m, d_vold (snd o) m = zero64).

Lemma idle_prepare feat Js masks l : Forall idle64 l -> prepare64 feat Js masks l = l.
Proof.
  intros H. unfold prepare64. induction H as [|[o st] l (E & _) Hl IH]; [reflexivity|]. cbn [map fst snd] in *. rewrite IH, E. reflexivity.
Qed.
Lemma idle_evolve step masks l : Forall idle64 l -> forall w, fst (evolve64 step masks w l) = l.
Proof.
  intros H. induction H as [|[o st] l (E & _) Hl IH]; intros w; [reflexivity|]. cbn [fst snd] in E. subst o.
  cbn [evolve64 fst snd no_class64 c6_evolve]. specialize (IH (pymax64 w zero64)). destruct (evolve64 _ _ _ _) as [l' w']. cbn [fst] in *.
  rewrite IH. reflexivity.
Qed.

(** the same numbers in exact arithmetic *)
Definition twin {G} (k : state64 G cstate64) : kstate unit cstate := {|
  v_omegas := fun r m => B2R (x_omegas k r m); v_Js := fun m => B2R (x_Js k m);
  v_phis_comp := fun i m => B2R (x_comp k i m); v_phis_feat := fun r m => B2R (x_featv k r m);
  v_cons := map (fun _ => {| o_class := no_class 0; o_state := cstate0 |}) (x_cons k); v_g := tt
|}.
Lemma twin_idle {G} (k : state64 G cstate64) : Forall idle (v_cons (twin k)).
Proof.
  cbn. induction (x_cons k) as [|o l IH]; constructor; [|exact IH]. split; [exists 0%nat; reflexivity|]. split; reflexivity.
Qed.
Lemma twin_cons {G} dot q s c (k : state64 G cstate64) : Forall idle64 (x_cons k) ->
  Forall2 (same_constraint dot q s c) (x_cons k) (v_cons (twin k)).
Proof.
  cbn. induction 1 as [|[o st] l (E & E1 & E2) Hl IH]; constructor; [|exact IH]. cbn [fst snd] in *. subst o. apply sc_no.
  split; [exact E1|]. split; [exact E2|]. split; reflexivity.
Qed.

Lemma limits_cons {G} q (k k1 : state64 G cstate64) rq s kx E c : x_cons k1 = x_cons k -> limits q k rq s kx E c -> limits q k1 rq s kx E c.
Proof.
  intros EC [H1 H2 H3 H4 H5 H6 H7 H8 H9 H10 H11 H12]. split; try assumption; revert H4 H5;
    unfold k_volume, k_diff, k_energy, k_xi, S_diff, S_energy, S_field, S_xi; rewrite EC; auto.
Qed.

Lemma near_dist B k x r : near B k x r -> Rabs (B2R x - r) <= k * eps64 * B.
Proof. intros H. apply H. Qed.
Lemma near_upper B k x r b : near B k x r -> r <= b -> B2R x <= b + k * eps64 * B.
Proof. intros H L. apply near_dist in H. apply Rabs_le_inv in H. lra. Qed.

(* ------------------------------------------------------------------ *)
(** * One step *)

Section Converge.
Context {G : Type}.
Variables (pf : platform64 G) (dot : nat -> vec64 -> vec64 -> f64) (q : kernel64) (rq : kernel) (tries : Z) (k0 : state64 G cstate64).
Variables (s : scales) (kx E : nat) (c : R) (chis64 : mat64) (coef64 : f64) (chis : mat) (shf Xc : R) (npf : nat -> nat) (sizes : vec).
Variables (rho : nat -> nat) (sh : R) (pm : vec).
Local Notation nf := (z_nf q).
Local Notation np := (z_np q).
Local Notation nc := (z_nc q).
Hypothesis EA : exp_accurate pf kx.
Hypothesis DA : dot_accurate dot.
Hypothesis FL : flory64 dot q rq s c chis64 coef64 chis shf Xc npf sizes.
Hypothesis FS : flory_scales q s c Xc.
Hypothesis SP : same_problem q rq.
Hypothesis LI : limits q k0 rq s kx E c.
Hypothesis HM : mixture rq nc nf rho chis sh sizes.
Hypothesis HE : q_ensemble rq = can_compiled nc pm.
Hypothesis HAd : admissible nc nf chis sizes pm.
Hypothesis PS : rsum nc pm = 1.
Hypothesis HI0 : Forall idle64 (x_cons k0).
Hypothesis Hnp : (2 <= np)%nat.

Variables (B D X M W kap : R).
Hypothesis HBD : 3 / 2 * B <= D.
Hypothesis HX : forall r t u, (r < nf)%nat -> (t < nf)%nat -> (u < nf)%nat -> Rabs (chis r u - chis t u) <= X.
Hypothesis HMx : forall r t, (r < nf)%nat -> (t < nf)%nat -> Rabs (chis r t) <= M.
Hypothesis HW : forall i, (i < nc)%nat -> 1 / sizes i <= W.
Let TH := upper_size nc sizes pm D.
Let TL := lower_size nc sizes pm D.
Let c0 := coef_of rq / INR nf.
Hypothesis Hc0 : 0 <= c0.
Hypothesis Hcap : q_acc_w rq * c0 * TH <= 1.
Hypothesis K0 : 0 < kap.
Hypothesis K1 : kap <= c0 * TL / 2.
Hypothesis K2 : kap <= 1 - 6 * X * TH.
Let CL := le_const rq nc nf sizes pm D M W.
Let LB := le_bound rq nc nf sizes pm D M W (s_w s).

(** rounding errors of fields and volumes in a step, and of what is reported *)
Definition d_field : R := k_omega q k0 kx E c * eps64 * S_omega q k0 rq s.
Definition d_volume : R := k_volume q k0 kx E c * eps64 * S_Js q k0 rq s.
Definition d_error : R := k_volume q k0 kx E c * eps64 * (2 * S_diff q k0 s + s_res s).
Let dw := d_field.
Let dJ := d_volume.
Let eJ := 2 * CL * B + dJ * LB.
Let fl := q_ub rq / (eJ * q_acc_J rq + q_ub rq).
(** factor by which the distance shrinks in a step; speed of the fields; ratio of
    what is reported to the distance *)
Definition shrink : R := 1 - fl * q_acc_w rq * kap.
Definition c_field : R := (c0 + X) * (TH * (3 / 2)) + 1 / 4.
Definition c_report : R := TH * (3 / 2) * (1 + c0 + X) + 1 + 2 * CL.
Let gam := shrink.
Let Cd := c_field.
Let C := c_report.
Hypothesis Hexp : forall i, (i < nc)%nat -> s_w s * sizes i <= INR E.
Hypothesis Hphi : 1 + TH * D <= s_phi s.
Hypothesis HdJ : dJ <= 1 / 2.

(** ** constants *)
Lemma cv_np : 2 <= INR np. Proof using Hnp. apply le_INR in Hnp. cbn in Hnp. lra. Qed.
Lemma cv_thr : 0 < q_thr rq. Proof using LI. pose proof (li_thr _ _ _ _ _ _ _ LI). pose proof (bpow_gt_0 radix2 (-100)). lra. Qed.
Lemma cv_ub : 0 < q_ub rq. Proof using LI. pose proof (li_ub _ _ _ _ _ _ _ LI). pose proof (bpow_gt_0 radix2 (-100)). lra. Qed.
Lemma cv_aJ : 0 < q_acc_J rq <= 1. Proof using LI. pose proof (li_acc_J _ _ _ _ _ _ _ LI). pose proof (bpow_gt_0 radix2 (-100)). lra. Qed.
Lemma cv_aw : 0 < q_acc_w rq <= 1. Proof using LI. pose proof (li_acc_w _ _ _ _ _ _ _ LI). pose proof (bpow_gt_0 radix2 (-100)). lra. Qed.
Lemma cv_TH : 0 <= TH. Proof using HAd. apply (TH_nonneg nc nf chis sizes pm HAd D). Qed.
Lemma cv_X : 0 <= X. Proof using HAd HX. destruct HAd as (NF & _). eapply Rle_trans; [apply Rabs_pos|apply (HX 0%nat 0%nat 0%nat); auto]. Qed.
Lemma cv_units : 0 <= d_field /\ 0 <= d_volume /\ k_volume q k0 kx E c <= k_top /\ 0 <= k_phi q kx E /\
  k_phi q kx E <= k_volume q k0 kx E c /\ k_phi q kx E + 2 * INR nc <= k_volume q k0 kx E c /\ k_xi q k0 kx E c + 4 <= k_volume q k0 kx E c /\
  k_diff q k0 kx E c <= k_volume q k0 kx E c /\ k_pot q kx E c <= k_volume q k0 kx E c.
Proof using LI.
  destruct (unit_facts _ _ _ _ _ _ _ LI) as (U1 & U2 & U3 & U4 & U5 & U6 & U7 & _). pose proof (pos_INR np) as Pn. pose proof (pos_INR nc) as Pc.
  pose proof eps_pos as Pe. destruct (factor_facts _ _ _ _ _ _ _ LI) as (F1 & _ & F2 & F3 & F4 & F5 & _).
  destruct (scale_facts _ _ _ _ _ _ _ LI) as (A1 & A2 & A3 & A4 & A5 & A6 & A7 & A8 & A9 & _).
  pose proof (bpow_gt_0 radix2 (-100)) as P1. pose proof (li_scales _ _ _ _ _ _ _ LI) as [so1 so2 so3 so4 so5 so6 so7 so8 so9 so10 so11].
  assert (KP : k_phi q kx E + 2 * INR nc <= k_pot q kx E c) by (unfold k_pot; lra).
  assert (KV : k_volume q k0 kx E c = 2 * k_diff q k0 kx E c + 2 * INR np + 16) by reflexivity.
  assert (P2 : 0 <= S_omega q k0 rq s).
  { unfold S_omega. assert (0 <= S_factor q k0 rq s * q_acc_w rq * (S_field q k0 s + s_w s)) by (apply Rmult_le_pos; lra). lra. }
  assert (P3 : 0 <= S_Js q k0 rq s).
  { unfold S_Js, S_volume. assert (0 <= INR np * (s_J s + S_factor q k0 rq s * q_acc_J rq * S_diff q k0 s)) by (apply Rmult_le_pos; lra). lra. }
  repeat split; try lra; apply Rmult_le_pos; auto; apply Rmult_le_pos; try lra. unfold k_omega. lra.
Qed.
(** the error of a reported quantity *)
Lemma cv_error S k x r b : near S k x r -> k <= k_volume q k0 kx E c -> S <= 2 * S_diff q k0 s + s_res s -> r <= b -> B2R x <= b + d_error.
Proof using LI.
  intros HN Hk HS Hb. pose proof (near_scale _ _ _ _ HN) as S0. destruct HN as (_ & _ & Pk & H). apply Rabs_le_inv in H. pose proof eps_pos as Pe.
  assert (k * eps64 * S <= d_error); [|lra]. unfold d_error. apply Rmult_le_compat; auto; [apply Rmult_le_pos; lra|]. apply Rmult_le_compat_r; lra.
Qed.

Lemma cv_LB b : 0 <= b <= B -> 0 <= LB /\ 1 <= CL.
Proof using LI HAd PS HBD HMx HW Hc0 Hnp.
  intros Hb. pose proof cv_TH as T0. pose proof (li_scales _ _ _ _ _ _ _ LI) as [so1 so2 so3 so4 so5 so6 so7 so8 so9 so10 so11].
  assert (D0 : 0 <= D) by lra.
    assert (M0 : 0 <= M) by (destruct HAd as (NF' & _); eapply Rle_trans; [apply Rabs_pos|apply (HMx 0%nat 0%nat); auto]).
    assert (W0 : 0 <= W).
    { destruct (Nat.eq_dec nc 0) as [EN|EN].
      - rewrite EN in PS. simpl in PS. lra.
      - apply Rle_trans with (1 / sizes 0%nat); [left; apply Rdiv_lt_0_compat; [lra|apply (size_pos nc nf chis sizes pm HAd); lia]|apply HW; lia]. }
    assert (TD : 0 <= TH * D) by (apply Rmult_le_pos; auto). split.
    - unfold LB, le_bound. fold TH c0. 
      assert (0 <= M * (1 + TH * D) * (1 + TH * D)) by (repeat apply Rmult_le_pos; lra). assert (0 <= W * (1 + TH * D)) by (apply Rmult_le_pos; lra).
      assert (0 <= c0 * (TH * D)) by (apply Rmult_le_pos; lra). assert (0 <= M * (1 + TH * D)) by (apply Rmult_le_pos; lra). lra.
    - unfold CL, le_const. fold TH c0. assert (0 <= M * (1 + TH * D)) by (apply Rmult_le_pos; lra).
      assert (0 <= TH * (3 / 2) * (M * (1 + TH * D) + W + c0 + M)) by (apply Rmult_le_pos; lra). lra. 
Qed.

(** what a state must satisfy for a step with distance [b] *)
Record ready (k : state64 G cstate64) (b : R) : Prop := {
  rd_cons : x_cons k = x_cons k0;
  rd_w : forall r m, (r < nf)%nat -> (m < np)%nat -> fin (x_omegas k r m) /\ Rabs (B2R (x_omegas k r m)) <= s_w s;
  rd_J : forall m, (m < np)%nat -> fin (x_Js k m) /\ 1 / 2 <= B2R (x_Js k m) <= s_J s /\
    q_thr rq + (2 * (q_acc_J rq * (2 * CL * b + dJ * LB)) + 2 * dJ) < B2R (x_Js k m);
  rd_total : Rabs (rsum np (fun m => B2R (x_Js k m)) / INR np - 1) <= dJ;
  rd_close : close rq (twin k) nc rho chis pm b
}.

Lemma step_ready k b : 0 <= b <= B -> ready k b -> exists k' rep,
  iterate64 pf q k = Ok (k', Z.of_nat np, rep) /\ x_cons k' = x_cons k0 /\
  (forall r m, (r < nf)%nat -> (m < np)%nat -> fin (x_omegas k' r m) /\ Rabs (B2R (x_omegas k' r m) - B2R (x_omegas k r m)) <= q_acc_w rq * (Cd * b) + dw) /\
  (forall m, (m < np)%nat -> fin (x_Js k' m) /\ Rabs (B2R (x_Js k' m) - B2R (x_Js k m)) <= 2 * (q_acc_J rq * (2 * CL * b + dJ * LB)) + 2 * dJ) /\
  Rabs (rsum np (fun m => B2R (x_Js k' m)) / INR np - 1) <= dJ /\
  close rq (twin k') nc rho chis pm (gam * b + 8 * dw) /\
  (fin (r6_incomp rep) /\ B2R (r6_incomp rep) <= C * b + dJ * LB + d_error) /\
  (fin (r6_omega rep) /\ B2R (r6_omega rep) <= C * b + dJ * LB + d_error) /\
  (fin (r6_Js rep) /\ B2R (r6_Js rep) <= C * b + dJ * LB + d_error) /\
  (fin (r6_cons rep) /\ B2R (r6_cons rep) <= C * b + dJ * LB + d_error) /\
  (forall i m, (i < nc)%nat -> (m < np)%nat -> fin (x_comp k' i m) /\ Rabs (B2R (x_comp k' i m) - pm i) <= C * b + dJ * LB + d_error) /\
  (0 <= 2 * CL * b + dJ * LB /\ 0 <= LB /\ 1 <= CL /\ same_state q k rq (twin k) s E /\
   (forall rk' nv rrep, iterate rq (twin k) = Ok (rk', nv, rrep) -> phis_bounded q s (v_phis_comp rk'))).
Proof using EA DA FL FS SP LI HM HE HAd PS HI0 Hnp HBD HX HMx HW Hc0 Hcap K0 K1 K2 Hexp Hphi HdJ.
  intros Hb HR. destruct HR as [RC RW RJ RT RCl]. set (rk := twin k) in *.
  pose proof cv_thr as Ht. pose proof cv_ub as Hu. pose proof cv_aJ as HJ. pose proof cv_aw as Hw. pose proof cv_TH as T0. pose proof cv_X as X0. pose proof cv_np as Pnp.
  destruct cv_units as (dw0 & dJ0 & U1 & U2 & U3 & U4 & U5 & U6 & U7). fold dw in dw0. fold dJ in dJ0.
  destruct (scale_facts _ _ _ _ _ _ _ LI) as (A1 & A2 & A3 & A4 & A5 & A6 & A7 & A8 & A9 & _).
  pose proof (li_scales _ _ _ _ _ _ _ LI) as [so1 so2 so3 so4 so5 so6 so7 so8 so9 so10 so11].
  assert (Enp : q_np rq = np) by apply (sp_np _ _ SP). assert (Enf : q_nf rq = nf) by apply (sp_nf _ _ SP).
  assert (NF : 0 < INR nf) by (apply (nf_pos nc nf chis sizes pm HAd)).
  assert (HI : Forall idle (v_cons rk)) by apply twin_idle.
  set (eb := 2 * CL * b + dJ * LB) in *.
  assert (EB : 0 <= eb -> 0 <= q_acc_J rq * eb) by (intros; apply Rmult_le_pos; lra).
  assert (AL0 : forall m, (m < np)%nat -> 0 < v_Js rk m). { intros m Hm. destruct (RJ m Hm) as (_ & H & _). cbn. lra. }
  assert (TOT : parts_total rq) by (eapply mixture_total; eauto; left; exact HE).
  (* alive as soon as the error is not negative *)
  assert (ALs : 0 <= eb -> forall m, (m < np)%nat -> alive (q_thr rq) (v_Js rk) m).
  { intros H m Hm. destruct (RJ m Hm) as (_ & _ & H'). specialize (EB H). unfold alive. cbn. lra. }
  pose proof (cv_LB b Hb) as LBp.
  destruct LBp as (LB0 & CL1).
  assert (EBp : 0 <= eb) by (unfold eb; assert (0 <= dJ * LB) by (apply Rmult_le_pos; lra); assert (0 <= CL * b) by (apply Rmult_le_pos; lra); lra).
  specialize (EB EBp). specialize (ALs EBp). clear AL0.
  destruct (iterate_total rq rk TOT ltac:(lra) Hu) as (rk' & nv & rrep & EI).
  { exists 0%nat. split; [rewrite Enp; lia|]. apply ALs. lia. }
  destruct (mixture_facts rq rk rk' nv rrep nc nf rho chis sh sizes pm _ HM (ek_can _ _ _ _ _ pm HE) EI) as (phis & inc & MF).
  assert (HBD' : 3 / 2 * b <= D) by lra. assert (HT0 : 0 <= q_thr rq) by lra. assert (HK0 : 0 <= kap) by lra.
  assert (HA : forall m, (m < q_np rq)%nat -> alive (q_thr rq) (v_Js rk) m) by (rewrite Enp; exact ALs).
  assert (HV : forall m r, (m < q_np rq)%nat -> (r < nf)%nat -> Rabs (v_omegas rk r m) <= s_w s).
  { rewrite Enp. intros m r Hm Hr. apply (RW r m Hr Hm). }
  assert (HT : Rabs (rsum (q_np rq) (v_Js rk) / INR (q_np rq) - 1) <= dJ) by (rewrite Enp; exact RT).
  assert (d1 : dJ <= 1) by lra.
  destruct (close_next rq rk rk' rrep nc nf rho chis sizes pm HAd HI HT0 Hu phis inc MF b D X RCl HBD' HX kap Hw Hc0 Hcap HK0 K1 K2) as (Hf & HCn).
  pose proof (Js_loose rq rk rk' rrep nc nf rho chis sizes pm HAd HI HT0 phis inc MF b D M W (s_w s) dJ RCl HBD' HMx HW PS HA HV HT d1 Hc0) as EJs. fold CL LB eb in EJs.
  pose proof (factor_loose rq rk rk' rrep nc nf rho chis sizes pm HAd HI HT0 Hu phis inc MF b D M W (s_w s) dJ RCl HBD' HMx HW PS HA HV HT d1 Hc0 eJ ltac:(lra)) as FB.
  fold CL LB eb in FB. specialize (FB ltac:(unfold eb, eJ; assert (CL * b <= CL * B) by (apply Rmult_le_compat_l; lra); lra)). fold fl in FB.
  assert (VN := fun m => volume_loose rq rk rk' rrep nc nf rho chis sizes pm HAd HI HT0 Hu phis inc MF b D M W (s_w s) dJ RCl HBD' HMx HW PS HA HV HT d1 Hc0 m ltac:(lra)).
  fold CL LB eb in VN. pose proof (volume_total rq rk rk' rrep nc nf rho chis sizes pm phis inc MF HA) as VT.
  assert (WN := fun r m Hr Hm => omega_move rq rk rk' rrep nc nf rho chis sizes pm HAd HI HT0 Hu phis inc MF b D X RCl HBD' HX PS HA Hc0 r m Hr Hm ltac:(lra)).
  fold TH c0 in WN. fold c_field in WN. fold Cd in WN.
  pose proof (inc_bound rq rk rk' rrep nc nf rho chis sizes pm HAd HT0 phis inc MF b D RCl HBD' PS) as E1.
  pose proof (omega_bound rq rk rk' rrep nc nf rho chis sizes pm HAd HI HT0 phis inc MF b D X RCl HBD' HX PS Hc0) as E2.
  pose proof (idle_residue rq rk rk' rrep nc nf rho chis sizes pm HI phis inc MF) as E4. fold TH c0 in E1, E2.
  assert (PN : forall i m, (i < nc)%nat -> (m < np)%nat -> Rabs (v_phis_comp rk' i m - pm i) <= TH * (3 / 2 * b)).
  { intros i m Hi Hm. destruct (mf_it _ _ _ _ _ _ _ _ _ _ _ _ _ MF) as [nv' I]. rewrite (if_comp I).
    assert (Hl : lives rq rk m) by (split; [rewrite Enp; exact Hm|now apply ALs]).
    eapply Rle_trans; [|apply (total_near rq rk rk' rrep nc nf rho chis sizes pm HAd HT0 phis inc MF b D RCl HBD' m Hl)].
    rewrite (rsum_remove nc _ i Hi). assert (0 <= rsum nc (fun j => if Nat.eqb j i then 0 else Rabs (phis j m - pm j))); [|lra].
    apply rsum_nonneg. intros j _. destruct (Nat.eqb j i); [lra|apply Rabs_pos]. }
  assert (PM : forall i, (i < nc)%nat -> 0 <= pm i <= 1).
  { intros i Hi. split; [left; apply (pm_pos nc nf chis sizes pm HAd i Hi)|]. rewrite <- PS, (rsum_remove nc _ i Hi).
    assert (0 <= rsum nc (fun j => if Nat.eqb j i then 0 else pm j)); [|lra].
    apply rsum_nonneg. intros j Hj. destruct (Nat.eqb j i); [lra|left; apply (pm_pos nc nf chis sizes pm HAd j Hj)]. }
  assert (TB : TH * (3 / 2 * b) <= TH * D) by (apply Rmult_le_compat_l; lra).
  assert (PB : phis_bounded q s (v_phis_comp rk')).
  { intros i m Hi Hm. specialize (PN i m Hi Hm). specialize (PM i Hi). apply Rabs_le_inv in PN. apply Rabs_le. lra. }
  assert (EN : nv = Z.of_nat np).
  { destruct (C02_volumes_normalised rq _ _ _ _ EI) as (-> & _). rewrite num_alive_ncount, <- Enp. f_equal.
    apply ncount_all. intros m Hm. apply Rltb_true. now apply HA. }
  assert (LI' : limits q k rq s kx E c) by (eapply limits_cons; [exact RC|exact LI]).
  assert (SSt : same_state q k rq rk s E).
  { split.
    - intros r m Hr Hm. destruct (RW r m Hr Hm). split; [split; [assumption|reflexivity]|assumption].
    - intros m Hm. destruct (RJ m Hm) as (F & H & _). split; [split; [assumption|reflexivity]|]. cbn. apply Rabs_le. lra.
    - rewrite (rsum_ext np _ (v_Js rk)) by (intros m Hm; apply (l_J rq rk HA); rewrite Enp; exact Hm).
      apply Rle_trans with (rsum np (fun _ => 1 / 2)); [rewrite rsum_const; lra|]. apply rsum_le. intros m Hm. cbn. apply RJ, Hm.
    - intros i m Hi Hm. destruct (fl_sizes _ _ _ _ _ _ _ _ _ _ _ _ FL i Hi) as [[_ ->] Hs]. rewrite Rabs_mult, (Rabs_pos_eq (sizes i)) by lra.
      eapply Rle_trans; [|apply Hexp; exact Hi]. apply Rmult_le_compat_r; [lra|]. apply RW; [|exact Hm]. apply (rho_lt q rq SP i Hi). }
  assert (HCk : Forall2 (same_constraint dot q s c) (x_cons k) (v_cons rk)) by (apply twin_cons; rewrite RC; exact HI0).
  destruct (C96_package pf dot q k rq rk s kx E c chis64 coef64 chis shf Xc npf sizes rk' nv rrep EA DA FL FS HCk SP SSt LI' EI PB) as (k' & rep & I64 & FO).
  pose proof (iterate64_inv _ _ _ _ _ _ I64) as VV.
  destruct FO as [fo1 fo2 fo3 fo4 fo5 fo6 fo7 fo8].
  unfold S_omega, k_omega, S_Js, S_volume, S_factor, k_volume, k_diff, k_energy, k_xi, S_diff, S_energy, S_field, S_xi in fo1, fo2, fo6, fo7.
  rewrite RC in fo1, fo2, fo6, fo7.
  change (near_mat q nf (S_omega q k0 rq s) (k_omega q k0 kx E c) (x_omegas k') (v_omegas rk')) in fo1.
  change (near_vec q (S_Js q k0 rq s) (k_volume q k0 kx E c) (x_Js k') (v_Js rk')) in fo2.
  change (near (S_field q k0 s + s_w s) (k_xi q k0 kx E c + 4) (r6_omega rep) (e_omega rrep)) in fo6.
  change (near (S_diff q k0 s) (k_diff q k0 kx E c) (r6_Js rep) (e_Js rrep)) in fo7.
  assert (DW : forall r m, (r < nf)%nat -> (m < np)%nat -> Rabs (B2R (x_omegas k' r m) - v_omegas rk' r m) <= dw) by (intros r m Hr Hm; apply (fo1 r m Hr Hm)).
  assert (DJ : forall m, (m < np)%nat -> Rabs (B2R (x_Js k' m) - v_Js rk' m) <= dJ) by (intros m Hm; apply (fo2 m Hm)).
  assert (CB1 : TH * (3 / 2 * b) <= C * b).
  { unfold C, c_report. assert (0 <= (TH * (3 / 2) * (c0 + X) + 1 + 2 * CL) * b) by (apply Rmult_le_pos; [assert (0 <= TH * (3 / 2) * (c0 + X)) by (apply Rmult_le_pos; lra); lra|lra]). lra. }
  assert (CB2 : (c0 + X) * (TH * (3 / 2 * b)) + b / 4 <= C * b).
  { unfold C, c_report. assert (0 <= (TH * (3 / 2) + 3 / 4 + 2 * CL) * b) by (apply Rmult_le_pos; lra). lra. }
  assert (CB3 : 2 * CL * b <= C * b).
  { unfold C, c_report. assert (0 <= (TH * (3 / 2) * (1 + c0 + X) + 1) * b) by (apply Rmult_le_pos; [assert (0 <= TH * (3 / 2) * (1 + c0 + X)) by (apply Rmult_le_pos; lra); lra|lra]). lra. }
  assert (CB0 : 0 <= C * b) by (assert (0 <= CL * b) by (apply Rmult_le_pos; lra); lra).
  assert (DL : 0 <= dJ * LB) by (apply Rmult_le_pos; lra).
  exists k', rep. split; [rewrite <- EN; exact I64|]. split; [|split; [|split; [|split; [|split; [|split; [|split; [|split; [|split; [|split]]]]]]]]].
  - rewrite (vl_cons' _ _ _ _ _ _ VV), (vl_cs_eq _ _ _ _ _ _ VV), RC, idle_prepare by exact HI0. apply idle_evolve, HI0.
  - intros r m Hr Hm. split; [apply (fo1 r m Hr Hm)|]. specialize (DW r m Hr Hm). specialize (WN r m Hr ltac:(rewrite Enp; exact Hm)). cbn [twin v_omegas rk] in WN.
    apply Rabs_le_inv in DW. apply Rabs_le_inv in WN. apply Rabs_le. cbn in WN. lra.
  - intros m Hm. split; [apply (fo2 m Hm)|]. specialize (DJ m Hm). specialize (VN m ltac:(rewrite Enp; exact Hm)).
    apply Rabs_le_inv in DJ. apply Rabs_le_inv in VN. apply Rabs_le. cbn in VN. lra.
  - rewrite Enp in VT. replace (rsum np (fun m => B2R (x_Js k' m)) / INR np - 1) with (rsum np (fun m => B2R (x_Js k' m) - v_Js rk' m) / INR np).
    + apply mean_range; [lia|exact DJ].
    + rewrite rsum_minus. change (rsum np (fun i => v_Js rk' i)) with (rsum np (v_Js rk')). rewrite VT. field. lra.
  - set (f := t_factor rq rk phis inc) in *. clearbody f.
    assert (B1 : b * (1 - f * q_acc_w rq * kap) <= gam * b).
    { rewrite (Rmult_comm gam). apply Rmult_le_compat_l; [lra|]. unfold gam, shrink.
      assert (fl * q_acc_w rq * kap <= f * q_acc_w rq * kap); [|lra]. apply Rmult_le_compat_r; [lra|]. apply Rmult_le_compat_r; lra. }
    assert (LV : forall m, lives rq (twin k') m -> lives rq rk' m /\ (m < np)%nat).
    { intros m (Hm & _). pose proof Hm as Hm'. rewrite Enp in Hm'. split; [|exact Hm']. split; [exact Hm|]. destruct (RJ m Hm') as (_ & _ & HH).
      specialize (VN m Hm). apply Rabs_le_inv in VN. unfold alive. cbn in VN. lra. }
    assert (MN : forall m, (m < np)%nat -> Rabs (field_mean rq (twin k') m - field_mean rq rk' m) <= dw).
    { intros m Hm. unfold field_mean. rewrite Enf. cbn [twin v_omegas].
      replace (rsum nf (fun r => B2R (x_omegas k' r m)) / INR nf - rsum nf (fun r => v_omegas rk' r m) / INR nf) with (rsum nf (fun r => B2R (x_omegas k' r m) - v_omegas rk' r m) / INR nf).
      - apply mean_range; [apply INR_lt; cbn; lra|]. intros r Hr. apply DW; assumption.
      - rewrite rsum_minus. field. lra. }
    destruct HCn as (N1 & N2). split.
    + intros m n Lm Ln. apply LV in Lm. apply LV in Ln. specialize (N1 m n (proj1 Lm) (proj1 Ln)). pose proof (MN m (proj2 Lm)) as Q1. pose proof (MN n (proj2 Ln)) as Q2.
      apply Rabs_le_inv in N1. apply Rabs_le_inv in Q1. apply Rabs_le_inv in Q2. apply Rabs_le. lra.
    + intros m r Lm Hr. apply LV in Lm. specialize (N2 m r (proj1 Lm) Hr). pose proof (MN m (proj2 Lm)) as Q1. rewrite Enf in Hr.
      pose proof (DW r m Hr (proj2 Lm)) as Q2. cbn [twin v_omegas] in *.
      set (z := mean_potential nc rho chis pm r - rsum (q_nf rq) (mean_potential nc rho chis pm) / INR (q_nf rq)) in *.
      apply Rabs_le_inv in N2. apply Rabs_le_inv in Q1. apply Rabs_le_inv in Q2. apply Rabs_le. lra.
  - split; [apply fo5|]. apply (cv_error _ _ _ _ _ fo5); lra.
  - split; [apply fo6|]. apply (cv_error _ _ _ _ _ fo6); lra.
  - split; [apply fo7|]. apply (cv_error _ _ _ _ _ fo7); unfold eb in EJs; lra.
  - split; [apply fo8|]. apply (cv_error _ _ _ _ _ fo8); lra.
  - intros i m Hi Hm. split; [apply (fo3 i m Hi Hm)|]. specialize (PN i m Hi Hm). pose proof (fo3 i m Hi Hm) as (_ & _ & Pk & Q). 
    assert (k_phi q kx E * eps64 * s_phi s <= d_error).
    { unfold d_error. pose proof eps_pos. apply Rmult_le_compat; [apply Rmult_le_pos; lra|lra|apply Rmult_le_compat_r; lra|].
      assert (s_phi s <= S_diff q k0 s); [|lra]. assert (1 <= INR nc). { destruct (Nat.eq_dec nc 0) as [En|En]; [lia|]. apply (INR_1 nc). lia. }
      assert (s_phi s <= INR nc * s_phi s) by (rewrite <- (Rmult_1_l (s_phi s)) at 1; apply Rmult_le_compat_r; lra). unfold S_incomp in A1, A2. lra. }
    apply Rabs_le_inv in PN. apply Rabs_le_inv in Q. apply Rabs_le. lra.
  - split; [exact EBp|]. split; [exact LB0|]. split; [exact CL1|]. split; [exact SSt|]. intros rk2 nv2 rrep2 EI2. rewrite EI in EI2. injection EI2 as <- <- <-. exact PB.
Qed.

(* ------------------------------------------------------------------ *)
(** ** All steps *)
Variables (V0 : R) (N : nat).
Hypothesis H1 : forall m, (m < np)%nat -> is64 (x_Js k0 m) 1.
Hypothesis HV : forall r m, (r < nf)%nat -> (m < np)%nat -> fin (x_omegas k0 r m) /\ Rabs (B2R (x_omegas k0 r m)) <= V0.
Hypothesis HC : close rq (twin k0) nc rho chis pm B.

(** the distance that rounding errors maintain *)
Definition residual : R := 8 * dw / (1 - gam).
(** the distance after [n] steps, and the sum of the distances before *)
Definition distance (n : nat) : R := gam ^ n * (B - residual) + residual.
Let path (n : nat) : R := (B - distance n + INR n * (8 * dw)) / (1 - gam).
Let field (n : nat) : R := V0 + q_acc_w rq * (Cd * path n) + INR n * dw.
Let drift (n : nat) : R := 4 * q_acc_J rq * CL * path n + INR n * (2 * (q_acc_J rq * (dJ * LB)) + 2 * dJ).
(** bounds of these in [N] steps *)
Definition path_bound : R := (B + INR N * (8 * dw)) / (1 - gam).
Definition field_bound : R := V0 + q_acc_w rq * (Cd * path_bound) + INR N * dw.
Definition drift_bound : R := 4 * q_acc_J rq * CL * path_bound + INR N * (2 * (q_acc_J rq * (dJ * LB)) + 2 * dJ).
(** bound of the errors reported by step [n] *)
Definition report_bound (n : nat) : R := C * distance n + dJ * LB + d_error.
Hypothesis Hres : 8 * dw <= (1 - gam) * B.
Hypothesis Hfield : field_bound <= s_w s.
Hypothesis Hdrift : drift_bound < 1 - q_thr rq.
Hypothesis Hdrift2 : drift_bound <= 1 / 2.
Hypothesis HsJ : 1 + drift_bound <= s_J s.

Hypothesis HB0 : 0 <= B.

Lemma cv_gam : 0 <= gam < 1 /\ 0 <= dw /\ 0 <= dJ /\ 0 <= LB /\ 1 <= CL /\ 0 <= Cd.
Proof using LI HAd PS HBD HX HMx HW Hc0 Hnp K0 K2 HB0.
  destruct (cv_LB B ltac:(lra)) as (LB0 & CL1). destruct cv_units as (dw0 & dJ0 & _). fold dw in dw0. fold dJ in dJ0.
  pose proof cv_ub as Hu. pose proof cv_aJ as HJ. pose proof cv_aw as Hw. pose proof cv_TH as T0. pose proof cv_X as X0.
  assert (e0 : 0 <= eJ) by (unfold eJ; assert (0 <= dJ * LB) by (apply Rmult_le_pos; lra); assert (0 <= CL * B) by (apply Rmult_le_pos; lra); lra).
  assert (e1 : 0 <= eJ * q_acc_J rq) by (apply Rmult_le_pos; lra).
  assert (F : 0 < fl <= 1).
  { unfold fl. split; [apply Rdiv_lt_0_compat; lra|]. apply (Rmult_le_reg_r (eJ * q_acc_J rq + q_ub rq)); [lra|]. unfold Rdiv. rewrite Rmult_assoc, Rinv_l by lra. lra. }
  assert (KL : kap <= 1) by (assert (0 <= X * TH) by (apply Rmult_le_pos; auto); lra).
  assert (0 < fl * q_acc_w rq) by (apply Rmult_lt_0_compat; lra). assert (0 < fl * q_acc_w rq * kap) by (apply Rmult_lt_0_compat; lra).
  assert (fl * q_acc_w rq <= 1 * 1) by (apply Rmult_le_compat; lra). assert (fl * q_acc_w rq * kap <= 1 * 1) by (apply Rmult_le_compat; lra).
  assert (0 <= (c0 + X) * (TH * (3 / 2))) by (apply Rmult_le_pos; lra). unfold gam, shrink, Cd, c_field. lra.
Qed.

Lemma cv_residual : 0 <= residual <= B /\ (1 - gam) * residual = 8 * dw.
Proof using LI HAd PS HBD HX HMx HW Hc0 Hnp K0 K2 HB0 Hres.
  destruct cv_gam as (G1 & dw0 & _). unfold residual. split; [split|].
  - apply Rmult_le_pos; [lra|left; apply Rinv_0_lt_compat; lra].
  - apply (Rmult_le_reg_l (1 - gam)); [lra|]. replace ((1 - gam) * (8 * dw / (1 - gam))) with (8 * dw) by (field; lra). exact Hres.
  - field. lra.
Qed.

Lemma cv_pow n : 0 <= gam ^ n <= 1.
Proof using LI HAd PS HBD HX HMx HW Hc0 Hnp K0 K2 HB0.
  destruct cv_gam as (G1 & _). split; [apply pow_le; lra|]. rewrite <- (pow1 n). apply pow_incr. lra.
Qed.

Lemma distance_range n : 0 <= distance n <= B.
Proof using LI HAd PS HBD HX HMx HW Hc0 Hnp K0 K2 HB0 Hres.
  destruct cv_residual as (R1 & _). pose proof (cv_pow n) as P. unfold distance.
  assert (0 <= gam ^ n * (B - residual)) by (apply Rmult_le_pos; lra). assert (gam ^ n * (B - residual) <= 1 * (B - residual)) by (apply Rmult_le_compat_r; lra). lra.
Qed.

Lemma distance_S n : distance (S n) = gam * distance n + 8 * dw.
Proof using LI HAd PS HBD HX HMx HW Hc0 Hnp K0 K2 HB0 Hres.
  destruct cv_residual as (_ & R1). unfold distance. rewrite <- R1. cbn [pow]. ring.
Qed.

Lemma distance_anti n d : distance (n + d) <= distance n.
Proof using LI HAd PS HBD HX HMx HW Hc0 Hnp K0 K2 HB0 Hres.
  destruct cv_residual as (R1 & _). unfold distance. rewrite pow_add. pose proof (cv_pow n). pose proof (cv_pow d).
  apply Rplus_le_compat_r. apply Rmult_le_compat_r; [lra|]. rewrite <- (Rmult_1_r (gam ^ n)) at 2. apply Rmult_le_compat_l; lra.
Qed.

Lemma path_S n : path (S n) = path n + distance n.
Proof using LI HAd PS HBD HX HMx HW Hc0 Hnp K0 K2 HB0 Hres.
  destruct cv_gam as (G1 & _). unfold path. rewrite distance_S, S_INR. field. lra.
Qed.

Lemma path_range n : (n <= N)%nat -> 0 <= path n <= path_bound.
Proof using LI HAd PS HBD HX HMx HW Hc0 Hnp K0 K2 HB0 Hres.
  intros Hn. destruct cv_gam as (G1 & dw0 & _). pose proof (distance_range n) as D1. apply le_INR in Hn. pose proof (pos_INR n) as Pn.
  assert (I0 : 0 < / (1 - gam)) by (apply Rinv_0_lt_compat; lra).
  assert (0 <= INR n * (8 * dw)) by (apply Rmult_le_pos; lra). assert (INR n * (8 * dw) <= INR N * (8 * dw)) by (apply Rmult_le_compat_r; lra).
  unfold path, path_bound. split; [apply Rmult_le_pos; lra|]. apply Rmult_le_compat_r; lra.
Qed.

Lemma drift_range n : (n <= N)%nat -> 0 <= drift n <= drift_bound.
Proof using LI HAd PS HBD HX HMx HW Hc0 Hnp K0 K2 HB0 Hres.
  intros Hn. destruct cv_gam as (G1 & dw0 & dJ0 & LB0 & CL1 & _). pose proof cv_aJ as HJ. pose proof (path_range n Hn) as P1. apply le_INR in Hn. pose proof (pos_INR n) as Pn.
  assert (D0 : 0 <= dJ * LB) by (apply Rmult_le_pos; lra). assert (D1 : 0 <= q_acc_J rq * (dJ * LB)) by (apply Rmult_le_pos; lra).
  assert (A0 : 0 <= 4 * q_acc_J rq * CL) by (apply Rmult_le_pos; lra). unfold drift, drift_bound.
  assert (0 <= 4 * q_acc_J rq * CL * path n) by (apply Rmult_le_pos; lra). assert (4 * q_acc_J rq * CL * path n <= 4 * q_acc_J rq * CL * path_bound) by (apply Rmult_le_compat_l; lra).
  set (z := 2 * (q_acc_J rq * (dJ * LB)) + 2 * dJ) in *. assert (0 <= z) by (unfold z; lra). assert (0 <= INR n * z) by (apply Rmult_le_pos; lra).
  assert (INR n * z <= INR N * z) by (apply Rmult_le_compat_r; lra). lra.
Qed.

Lemma field_range n : (n <= N)%nat -> field n <= field_bound.
Proof using LI HAd PS HBD HX HMx HW Hc0 Hnp K0 K2 HB0 Hres.
  intros Hn. destruct cv_gam as (G1 & dw0 & dJ0 & LB0 & CL1 & C0). pose proof cv_aw as HJ. pose proof (path_range n Hn) as P1. apply le_INR in Hn.
  unfold field, field_bound. assert (Cd * path n <= Cd * path_bound) by (apply Rmult_le_compat_l; lra).
  assert (q_acc_w rq * (Cd * path n) <= q_acc_w rq * (Cd * path_bound)) by (apply Rmult_le_compat_l; lra).
  assert (INR n * dw <= INR N * dw) by (apply Rmult_le_compat_r; lra). lra.
Qed.

(** the state after [n] steps *)
Record good64 (n : nat) (k : state64 G cstate64) : Prop := {
  gd_cons : x_cons k = x_cons k0;
  gd_w : forall r m, (r < nf)%nat -> (m < np)%nat -> fin (x_omegas k r m) /\ Rabs (B2R (x_omegas k r m)) <= field n;
  gd_J : forall m, (m < np)%nat -> fin (x_Js k m) /\ Rabs (B2R (x_Js k m) - 1) <= drift n;
  gd_total : Rabs (rsum np (fun m => B2R (x_Js k m)) / INR np - 1) <= dJ;
  gd_close : close rq (twin k) nc rho chis pm (distance n)
}.

Lemma good_start : good64 0 k0.
Proof using LI HAd PS HBD HX HMx HW Hc0 Hnp K0 K2 HB0 Hres H1 HV HC.
  destruct cv_gam as (G1 & dw0 & dJ0 & _). pose proof cv_np as Pn.
  assert (E0 : distance 0 = B) by (unfold distance; cbn [pow]; ring).
  assert (P0 : path 0 = 0) by (unfold path; rewrite E0; cbn [INR]; field; lra).
  split.
  - reflexivity.
  - intros r m Hr Hm. destruct (HV r m Hr Hm) as (F & Hb). split; [exact F|]. unfold field. rewrite P0. cbn [INR]. lra.
  - intros m Hm. destruct (H1 m Hm) as (F & ->). split; [exact F|]. unfold drift. rewrite P0. cbn [INR]. rewrite Rminus_diag_eq, Rabs_R0 by reflexivity. lra.
  - rewrite (rsum_ext np _ (fun _ => 1)) by (intros m Hm; apply H1, Hm). rewrite rsum_const. replace (INR np * 1 / INR np - 1) with 0 by (field; lra). rewrite Rabs_R0. exact dJ0.
  - rewrite E0. exact HC.
Qed.

Lemma good_alive64 n k m : (n <= N)%nat -> good64 n k -> (m < np)%nat -> lt64 (z_thr q) (x_Js k m) = true /\ dead64 (z_thr q) (x_Js k m) = false.
Proof using LI HAd PS HBD HX HMx HW Hc0 Hnp K0 K2 HB0 Hres Hdrift SP.
  intros Hn HG Hm. destruct (gd_J _ _ HG m Hm) as (F & HJ). pose proof (drift_range n Hn) as DR. apply Rabs_le_inv in HJ.
  destruct (sp_thr _ _ SP) as (Ft & Et).
  split.
  - rewrite (alive_test _ Ft) by exact F. apply Rltb_true. lra.
  - rewrite (dead_test _ Ft) by exact F. apply Rleb_false. lra.
Qed.

Lemma good_ready n k : (n < N)%nat -> good64 n k -> ready k (distance n).
Proof using LI HAd PS HBD HX HMx HW Hc0 Hnp K0 K2 HB0 Hres Hdrift Hdrift2 HsJ Hfield.
  intros Hn HG. pose proof (drift_range (S n) Hn) as DR. pose proof (drift_range n ltac:(lia)) as DR0. pose proof (field_range n ltac:(lia)) as FR.
  destruct HG as [g1 g2 g3 g4 g5]. destruct cv_gam as (_ & _ & dJ0 & _).
  assert (EQ : drift (S n) = drift n + (2 * (q_acc_J rq * (2 * CL * distance n + dJ * LB)) + 2 * dJ)).
  { unfold drift. rewrite path_S, S_INR. ring. }
  split; auto.
  - intros r m Hr Hm. destruct (g2 r m Hr Hm). split; [assumption|lra].
  - intros m Hm. destruct (g3 m Hm) as (F & HJ). split; [exact F|]. apply Rabs_le_inv in HJ. lra.
Qed.

(** one step *)
Lemma good_next n k : (n < N)%nat -> good64 n k -> exists k' rep,
  iterate64 pf q k = Ok (k', Z.of_nat np, rep) /\ good64 (S n) k' /\
  (fin (r6_incomp rep) /\ B2R (r6_incomp rep) <= report_bound n) /\ (fin (r6_omega rep) /\ B2R (r6_omega rep) <= report_bound n) /\
  (fin (r6_Js rep) /\ B2R (r6_Js rep) <= report_bound n) /\ (fin (r6_cons rep) /\ B2R (r6_cons rep) <= report_bound n) /\
  (forall i m, (i < nc)%nat -> (m < np)%nat -> fin (x_comp k' i m) /\ Rabs (B2R (x_comp k' i m) - pm i) <= report_bound n).
Proof using EA DA FL FS SP LI HM HE HAd PS HI0 Hnp HBD HX HMx HW Hc0 Hcap K0 K1 K2 Hexp Hphi HdJ HB0 Hres Hdrift Hdrift2 HsJ Hfield.
  intros Hn HG. destruct (step_ready k (distance n) (distance_range n) (good_ready n k Hn HG)) as
    (k' & rep & E0 & E1 & E2 & E3 & E4 & E5 & E6 & E7 & E8 & E9 & E10 & E11).
  exists k', rep. split; [exact E0|]. split; [|split; [exact E6|split; [exact E7|split; [exact E8|split; [exact E9|exact E10]]]]].
  destruct HG as [g1 g2 g3 g4 g5]. split.
  - exact E1.
  - intros r m Hr Hm. destruct (E2 r m Hr Hm) as (F & Q). split; [exact F|]. destruct (g2 r m Hr Hm) as (_ & Q0).
    unfold field in *. rewrite path_S, S_INR. apply Rabs_le_inv in Q. apply Rabs_le_inv in Q0. apply Rabs_le. lra.
  - intros m Hm. destruct (E3 m Hm) as (F & Q). split; [exact F|]. destruct (g3 m Hm) as (_ & Q0).
    unfold drift in *. rewrite path_S, S_INR. apply Rabs_le_inv in Q. apply Rabs_le_inv in Q0. apply Rabs_le. lra.
  - exact E4.
  - rewrite distance_S. exact E5.
Qed.

Lemma good_moderate n k : (n < N)%nat -> good64 n k -> same_state q k rq (twin k) s E /\
  (forall rk' nv rrep, iterate rq (twin k) = Ok (rk', nv, rrep) -> phis_bounded q s (v_phis_comp rk')).
Proof using EA DA FL FS SP LI HM HE HAd PS HI0 Hnp HBD HX HMx HW Hc0 Hcap K0 K1 K2 Hexp Hphi HdJ HB0 Hres Hdrift Hdrift2 HsJ Hfield.
  intros Hn HG. destruct (step_ready k (distance n) (distance_range n) (good_ready n k Hn HG)) as (k' & rep & _ & _ & _ & _ & _ & _ & _ & _ & _ & _ & _ & _ & _ & _ & Q). exact Q.
Qed.

Lemma good_count64 n k : (n <= N)%nat -> good64 n k -> count_valid64 np (x_Js k) (z_thr q) = np.
Proof using LI HAd PS HBD HX HMx HW Hc0 Hnp K0 K2 HB0 Hres Hdrift SP.
  intros Hn HG. unfold count_valid64. apply ncount_all. intros m Hm. apply (good_alive64 n k m Hn HG Hm).
Qed.

(** what the step that ends with state [k] reports *)
Definition reported (n : nat) (k : state64 G cstate64) (rep : report64) : Prop :=
  (fin (r6_incomp rep) /\ B2R (r6_incomp rep) <= report_bound n) /\ (fin (r6_omega rep) /\ B2R (r6_omega rep) <= report_bound n) /\
  (fin (r6_Js rep) /\ B2R (r6_Js rep) <= report_bound n) /\ (fin (r6_cons rep) /\ B2R (r6_cons rep) <= report_bound n) /\
  (forall i m, (i < nc)%nat -> (m < np)%nat -> fin (x_comp k i m) /\ Rabs (B2R (x_comp k i m) - pm i) <= report_bound n).

Lemma good_steps tr n0 w d : (n0 + S d <= N)%nat -> good64 n0 (u_k w) -> u_count w = 0%nat -> exists w' rep,
  steps64 pf q tr (S d) w = Ok w' /\ good64 (n0 + S d) (u_k w') /\ u_count w' = 0%nat /\ u_valid w' = Z.of_nat np /\ u_rep w' = Some rep /\
  reported (n0 + d) (u_k w') rep.
Proof using EA DA FL FS SP LI HM HE HAd PS HI0 Hnp HBD HX HMx HW Hc0 Hcap K0 K1 K2 Hexp Hphi HdJ HB0 Hres Hdrift Hdrift2 HsJ Hfield.
  assert (ONE : forall n w, (n < N)%nat -> good64 n (u_k w) -> u_count w = 0%nat -> exists w' rep,
    one_step64 pf q tr w = Ok w' /\ good64 (S n) (u_k w') /\ u_count w' = 0%nat /\ u_valid w' = Z.of_nat np /\ u_rep w' = Some rep /\ reported n (u_k w') rep).
  { intros n w1 Hn HG HC0. destruct (good_next n (u_k w1) Hn HG) as (k' & rep & E0 & E1 & E2).
    assert (MR : maybe_revive64 pf q tr (u_count w1) (u_k w1) = (u_count w1, u_k w1)).
    { unfold maybe_revive64. destruct (Z.ltb _ _); [|reflexivity]. rewrite (good_count64 n _ ltac:(lia) HG), Nat.eqb_refl. reflexivity. }
    unfold one_step64. rewrite MR, E0. cbn. eexists. exists rep. split; [reflexivity|]. cbn. split; [exact E1|]. split; [exact HC0|]. split; [reflexivity|]. split; [reflexivity|exact E2]. }
  intros Hn HG HC0. induction d as [|d IH].
  - destruct (ONE n0 w ltac:(lia) HG HC0) as (w' & rep & E0 & E1). exists w', rep. rewrite Nat.add_1_r, Nat.add_0_r. split; [exact E0|exact E1].
  - destruct (IH ltac:(lia)) as (w1 & rep1 & E0 & E1 & E2 & _). destruct (ONE (n0 + S d)%nat w1 ltac:(lia) E1 E2) as (w' & rep & F0 & F1).
    exists w', rep. rewrite (Nat.add_succ_r n0 (S d)). split; [|exact F1]. change (bind (steps64 pf q tr (S d) w) (one_step64 pf q tr) = Ok w'). rewrite E0. exact F0.
Qed.

Lemma reported_converged n k rep tol : fin tol -> reported n k rep -> report_bound n < B2R tol -> converged64 tol true rep = true.
Proof using.
  intros Ft ((F1 & L1) & (F2 & L2) & (F3 & L3) & (F4 & L4) & _) L. unfold converged64. cbn [andb].
  rewrite !(fun x F => alive_test x F tol Ft) by assumption. rewrite !(proj2 (Rltb_true _ _)) by lra. reflexivity.
Qed.

Lemma good_loop tol inner left : fin tol -> (1 <= inner)%nat -> forall tr n k last, good64 n k -> (n + inner * tr <= N)%nat ->
  (exists j, (1 <= j <= tr)%nat /\ report_bound (n + inner * j - 1) < B2R tol) ->
  exists o n', loop64 pf q tol inner tr k left last = Ok o /\ converged64 tol (oc_safe o) (oc_rep o) = true /\ oc_left o = left /\
    (n + inner <= S n' <= N)%nat /\ good64 (S n') (oc_k o) /\ reported n' (oc_k o) (oc_rep o).
Proof using EA DA FL FS SP LI HM HE HAd PS HI0 Hnp HBD HX HMx HW Hc0 Hcap K0 K1 K2 Hexp Hphi HdJ HB0 Hres Hdrift Hdrift2 HsJ Hfield.
  intros Ft Hin. induction tr as [|tr IH]; intros n k last HG Hn (j & Hj & HL); [lia|].
  destruct inner as [|inn]; [lia|]. cbn [loop64]. unfold metastep64.
  destruct (good_steps left n {| u_k := k; u_count := 0; u_valid := 0; u_rep := None |} inn) as (w & rep & E0 & E1 & E2 & E3 & E4 & E5); [nia|exact HG|reflexivity|].
  rewrite E0. cbn [bind]. rewrite E4. cbn [bind].
  rewrite E2, E3, (good_count64 (n + S inn) _ ltac:(nia) E1), Z.eqb_refl, Z.sub_0_r.
  destruct (converged64 tol true rep) eqn:EC.
  - eexists. exists (n + inn)%nat. split; [reflexivity|]. cbn [oc_safe oc_rep oc_left oc_k]. rewrite <- Nat.add_succ_r. split; [exact EC|]. split; [reflexivity|]. split; [nia|]. split; [exact E1|exact E5].
  - destruct (IH (n + S inn)%nat (u_k w) (Some {| oc_k := u_k w; oc_left := left; oc_rep := rep; oc_safe := true |}) E1 ltac:(nia)) as (o & n' & F0 & F1 & F2 & F3 & F4 & F5).
    + destruct (Nat.eq_dec j 1) as [->|Hj1].
      * exfalso. assert (converged64 tol true rep = true); [|congruence]. eapply reported_converged; [exact Ft|exact E5|].
        replace (n + inn)%nat with (n + S inn * 1 - 1)%nat by lia. exact HL.
      * exists (j - 1)%nat. split; [lia|]. replace (n + S inn + S inn * (j - 1) - 1)%nat with (n + S inn * j - 1)%nat by nia. exact HL.
    + exists o, n'. split; [exact F0|]. split; [exact F1|]. split; [exact F2|]. split; [lia|]. split; [exact F4|exact F5].
Qed.
End Converge.

(* ------------------------------------------------------------------ *)
(** * C101 *)

(** A weakly interacting canonical mixture: [X] bounds the differences within a
    column of [chis], [M] bounds its entries and [W] the inverse sizes; initial
    fields are at most [V0].  These are the conditions of C95. *)
Record weak64 (q : kernel64) (rq : kernel) (chis : mat) (sizes pm : vec) (V0 B D X M W kap : R) : Prop := {
  wk_X : forall r t u, (r < z_nf q)%nat -> (t < z_nf q)%nat -> (u < z_nf q)%nat -> Rabs (chis r u - chis t u) <= X;
  wk_M : forall r t, (r < z_nf q)%nat -> (t < z_nf q)%nat -> Rabs (chis r t) <= M;
  wk_W : forall i, (i < z_nc q)%nat -> 1 / sizes i <= W;
  wk_V0 : 0 <= V0;
  wk_B : 8 * V0 + 4 * X <= B;
  wk_D : 3 / 2 * B <= D;
  wk_coef : 0 <= coef_of rq / INR (z_nf q);
  wk_cap : q_acc_w rq * (coef_of rq / INR (z_nf q)) * upper_size (z_nc q) sizes pm D <= 1;
  wk_kap : 0 < kap;
  wk_mean : kap <= coef_of rq / INR (z_nf q) * lower_size (z_nc q) sizes pm D / 2;
  wk_rest : kap <= 1 - 6 * X * upper_size (z_nc q) sizes pm D
}.
(** rounding errors, and the volumes exchanged in [N] steps, are small enough *)
Record budget64 {G} (q : kernel64) (rq : kernel) (k0 : state64 G cstate64) (s : scales) (kx E : nat) (c : R) (sizes pm : vec)
    (V0 B D X M W kap : R) (N : nat) : Prop := {
  bg_exp : forall i, (i < z_nc q)%nat -> s_w s * sizes i <= INR E;
  bg_phi : 1 + upper_size (z_nc q) sizes pm D * D <= s_phi s;
  bg_dJ : d_volume q rq k0 s kx E c <= 1 / 2;
  bg_res : residual q rq k0 s kx E c sizes pm B D M W kap <= B;
  bg_field : field_bound q rq k0 s kx E c sizes pm B D X M W kap V0 N <= s_w s;
  bg_thr : drift_bound q rq k0 s kx E c sizes pm B D M W kap N < 1 - q_thr rq;
  bg_half : drift_bound q rq k0 s kx E c sizes pm B D M W kap N <= 1 / 2;
  bg_J : 1 + drift_bound q rq k0 s kx E c sizes pm B D M W kap N <= s_J s
}.

Section Claims.
Context {G : Type}.
Variables (pf : platform64 G) (dot : nat -> vec64 -> vec64 -> f64) (q : kernel64) (rq : kernel) (k0 : state64 G cstate64).
Variables (s : scales) (kx E : nat) (c : R) (chis64 : mat64) (coef64 : f64) (chis : mat) (shf Xc : R) (npf : nat -> nat) (sizes : vec).
Variables (rho : nat -> nat) (sh : R) (pm : vec) (V0 B D X M W kap : R) (N : nat).
Local Notation nf := (z_nf q).
Local Notation np := (z_np q).
Local Notation nc := (z_nc q).
Local Notation shrink := (shrink q rq k0 s kx E c sizes pm B D M W kap).

(** What the step with number [n] (from 0) leaves of errors: a part that shrinks
    by a constant factor with every step, and rounding errors. *)
Definition precision64 (n : nat) : R :=
  c_report q rq sizes pm D X M W * (shrink ^ n * B + residual q rq k0 s kx E c sizes pm B D M W kap)
  + d_volume q rq k0 s kx E c * le_bound rq nc nf sizes pm D M W (s_w s) + d_error q k0 s kx E c.

(** arithmetic of the processor, the mixture of the package in exact and in
    binary64 arithmetic, no constraints, volumes of one and fields up to [V0] *)
Record setting64 : Prop := {
  se_exp : exp_accurate pf kx;
  se_dot : dot_accurate dot;
  se_flory : flory64 dot q rq s c chis64 coef64 chis shf Xc npf sizes;
  se_scales : flory_scales q s c Xc;
  se_same : same_problem q rq;
  se_limits : limits q k0 rq s kx E c;
  se_mix : mixture rq nc nf rho chis sh sizes;
  se_ens : q_ensemble rq = can_compiled nc pm;
  se_adm : admissible nc nf chis sizes pm;
  se_pm : rsum nc pm = 1;
  se_cons : Forall idle64 (x_cons k0);
  se_np : (2 <= np)%nat;
  se_J : forall m, (m < np)%nat -> is64 (x_Js k0 m) 1;
  se_w : forall r m, (r < nf)%nat -> (m < np)%nat -> fin (x_omegas k0 r m) /\ Rabs (B2R (x_omegas k0 r m)) <= V0
}.
Hypothesis SE : setting64.
Hypothesis WK : weak64 q rq chis sizes pm V0 B D X M W kap.
Hypothesis BG : budget64 q rq k0 s kx E c sizes pm V0 B D X M W kap N.

Lemma cl_B : 0 <= B.
Proof using SE WK.
  pose proof (wk_V0 _ _ _ _ _ _ _ _ _ _ _ _ WK). pose proof (wk_B _ _ _ _ _ _ _ _ _ _ _ _ WK).
  destruct (se_adm SE) as (NF & _). assert (0 <= X) by (eapply Rle_trans; [apply Rabs_pos|apply (wk_X _ _ _ _ _ _ _ _ _ _ _ _ WK 0%nat 0%nat 0%nat); auto]). lra.
Qed.
Lemma cl_close : close rq (twin k0) nc rho chis pm B.
Proof using SE WK.
  destruct WK as [HX HMx HW V00 HB]. eapply close_mono; [|exact HB]. eapply bounded_close; try eassumption; try apply SE.
  intros m r (Hm & _) Hr. cbn. apply (se_w SE); [exact Hr|]. rewrite <- (sp_np _ _ (se_same SE)). exact Hm.
Qed.
Lemma cl_gam : 0 <= shrink < 1.
Proof using SE WK.
  pose proof cl_B. destruct SE, WK.
  pose proof (cv_gam q rq k0 s kx E c chis sizes pm ltac:(assumption) ltac:(assumption) ltac:(assumption) ltac:(assumption)
    B D X M W kap ltac:(assumption) ltac:(assumption) ltac:(assumption) ltac:(assumption) ltac:(assumption) ltac:(assumption) ltac:(assumption) ltac:(assumption)) as (H1 & _).
  exact H1.
Qed.
Lemma cl_res : 8 * d_field q rq k0 s kx E c <= (1 - shrink) * B.
Proof using SE WK BG.
  pose proof cl_gam as G1. pose proof (bg_res _ _ _ _ _ _ _ _ _ _ _ _ _ _ _ _ _ BG) as H. unfold residual in H.
  apply (Rmult_le_compat_l (1 - shrink)) in H; [|lra]. eapply Rle_trans; [|exact H]. apply Req_le. field. lra.
Qed.
Lemma cl_const : 0 <= c_report q rq sizes pm D X M W /\ 0 <= residual q rq k0 s kx E c sizes pm B D M W kap.
Proof using SE WK.
  pose proof cl_B as B0. pose proof cl_gam as G1. destruct SE, WK.
  destruct (cv_gam q rq k0 s kx E c chis sizes pm ltac:(assumption) ltac:(assumption) ltac:(assumption) ltac:(assumption)
    B D X M W kap ltac:(assumption) ltac:(assumption) ltac:(assumption) ltac:(assumption) ltac:(assumption) ltac:(assumption) ltac:(assumption) ltac:(assumption)) as (_ & dw0 & _ & _ & CL1 & Cd0).
  split.
  - pose proof (cv_TH q chis sizes pm ltac:(assumption) D) as T0. pose proof (cv_X q chis sizes pm ltac:(assumption) X ltac:(assumption)) as X0. unfold c_report.
    match goal with |- 0 <= ?a * _ * ?b + _ + _ => assert (0 <= a * (3 / 2) * b) by (apply Rmult_le_pos; lra) end. lra.
  - unfold residual. apply Rmult_le_pos; [lra|left; apply Rinv_0_lt_compat; lra].
Qed.
Lemma cl_precision n : report_bound q rq k0 s kx E c sizes pm B D X M W kap n <= precision64 n.
Proof using SE WK.
  pose proof cl_gam as G1. destruct cl_const as (C0 & R0). unfold report_bound, precision64.
  apply Rplus_le_compat_r, Rplus_le_compat_r, Rmult_le_compat_l; [exact C0|]. unfold distance. fold shrink. apply Rplus_le_compat_r.
  apply Rmult_le_compat_l; [apply pow_le; lra|]. lra.
Qed.
Lemma precision_anti n d : precision64 (n + d) <= precision64 n.
Proof using SE WK.
  pose proof cl_gam as G1. pose proof cl_B as B0. destruct cl_const as (C0 & R0). unfold precision64.
  apply Rplus_le_compat_r, Rplus_le_compat_r, Rmult_le_compat_l; [exact C0|]. apply Rplus_le_compat_r. apply Rmult_le_compat_r; [exact B0|].
  rewrite pow_add. assert (0 <= shrink ^ n) by (apply pow_le; lra). assert (shrink ^ d <= 1) by (rewrite <- (pow1 d); apply pow_incr; lra).
  rewrite <- (Rmult_1_r (shrink ^ n)) at 2. apply Rmult_le_compat_l; assumption.
Qed.

(** the arguments of [metastep64] before the first step *)
Definition begin64 (k : state64 G cstate64) : mstate64 G cstate64 := {| u_k := k; u_count := 0; u_valid := 0; u_rep := None |}.
(** [x] is a finite number and at most [b] *)
Definition at_most (x : f64) (b : R) : Prop := fin x /\ B2R x <= b.

(** In each of [N] steps nothing dies and nothing is revived, and errors and
    distances of the compositions from the mean composition are finite and at most
    [precision64], a geometric sequence plus rounding errors. *)
Theorem C101_steps : 0 <= shrink < 1 /\ forall tries n, (n < N)%nat -> exists w rep,
  steps64 pf q tries (S n) (begin64 k0) = Ok w /\ u_rep w = Some rep /\ u_count w = 0%nat /\ u_valid w = Z.of_nat np /\
  (forall m, (m < np)%nat -> lt64 (z_thr q) (x_Js (u_k w) m) = true) /\
  at_most (r6_incomp rep) (precision64 n) /\ at_most (r6_omega rep) (precision64 n) /\
  at_most (r6_Js rep) (precision64 n) /\ at_most (r6_cons rep) (precision64 n) /\
  forall i m, (i < nc)%nat -> (m < np)%nat -> fin (x_comp (u_k w) i m) /\ Rabs (B2R (x_comp (u_k w) i m) - pm i) <= precision64 n.
Proof using SE WK BG.
  split; [apply cl_gam|]. intros tries n Hn. pose proof cl_B as B0. pose proof cl_close as HC. pose proof cl_res as HR. pose proof (cl_precision n) as HP.
  destruct SE, WK, BG.
  assert (GS : good64 q rq k0 s kx E c chis sizes rho pm B D X M W kap V0 0 k0) by (eapply good_start; eassumption).
  destruct (good_steps pf dot q rq k0 s kx E c chis64 coef64 chis shf Xc npf sizes rho sh pm ltac:(assumption) ltac:(assumption) ltac:(assumption) ltac:(assumption)
    ltac:(assumption) ltac:(assumption) ltac:(assumption) ltac:(assumption) ltac:(assumption) ltac:(assumption) ltac:(assumption) ltac:(assumption)
    B D X M W kap ltac:(assumption) ltac:(assumption) ltac:(assumption) ltac:(assumption) ltac:(assumption) ltac:(assumption) ltac:(assumption) ltac:(assumption) ltac:(assumption)
    ltac:(assumption) ltac:(assumption) ltac:(assumption) V0 N ltac:(assumption) ltac:(assumption) ltac:(assumption) ltac:(assumption) ltac:(assumption) ltac:(assumption)
    tries 0%nat (begin64 k0) n ltac:(lia) GS eq_refl) as (w & rep & E0 & E1 & E2 & E3 & E4 & ((F1 & L1) & (F2 & L2) & (F3 & L3) & (F4 & L4) & L5)).
  cbn [Nat.add] in *. exists w, rep. split; [exact E0|]. split; [exact E4|]. split; [exact E2|]. split; [exact E3|].
  split; [|repeat split; auto; try lra].
  - intros m Hm. eapply (fun H => good_alive64 q rq k0 s kx E c chis sizes rho pm H) with (n := S n) (N := N) (X := X); try eassumption.
  - apply L5; assumption.
  - destruct (L5 i m ltac:(assumption) ltac:(assumption)). lra.
Qed.

(** If the bound falls below the tolerance at the end of one of the [tr] blocks of
    [inner] steps, the run stops before its steps are used up and returns the
    homogeneous state. *)
Theorem C101_run tol inner tr left j : fin tol -> (1 <= inner)%nat -> (1 <= j <= tr)%nat -> (inner * tr <= N)%nat ->
  precision64 (inner * j - 1) < B2R tol ->
  exists o J phis, run64 pf q tol inner tr left k0 = Ok (o, J, phis) /\ converged64 tol (oc_safe o) (oc_rep o) = true /\ oc_left o = left /\
  ((forall m, (m < np)%nat -> lt64 (z_thr q) (J m) = true) /\ J = x_Js (oc_k o) /\ phis = x_comp (oc_k o)) /\
  forall i m, (i < nc)%nat -> (m < np)%nat -> fin (phis i m) /\ Rabs (B2R (phis i m) - pm i) <= precision64 (inner - 1).
Proof using SE WK BG.
  intros Ft Hin Hj Htr HL. pose proof cl_B as B0. pose proof cl_close as HC. pose proof cl_res as HR. pose proof cl_precision as HP. pose proof precision_anti as PA.
  destruct SE, WK, BG.
  assert (GS : good64 q rq k0 s kx E c chis sizes rho pm B D X M W kap V0 0 k0) by (eapply good_start; eassumption).
  destruct (good_loop pf dot q rq k0 s kx E c chis64 coef64 chis shf Xc npf sizes rho sh pm ltac:(assumption) ltac:(assumption) ltac:(assumption) ltac:(assumption)
    ltac:(assumption) ltac:(assumption) ltac:(assumption) ltac:(assumption) ltac:(assumption) ltac:(assumption) ltac:(assumption) ltac:(assumption)
    B D X M W kap ltac:(assumption) ltac:(assumption) ltac:(assumption) ltac:(assumption) ltac:(assumption) ltac:(assumption) ltac:(assumption) ltac:(assumption) ltac:(assumption)
    ltac:(assumption) ltac:(assumption) ltac:(assumption) V0 N ltac:(assumption) ltac:(assumption) ltac:(assumption) ltac:(assumption) ltac:(assumption) ltac:(assumption)
    tol inner left Ft Hin tr 0%nat k0 None GS ltac:(lia)) as (o & n' & E0 & E1 & E2 & E3 & E4 & (_ & _ & _ & _ & L5)).
  { exists j. split; [exact Hj|]. cbn [Nat.add]. eapply Rle_lt_trans; [apply HP|exact HL]. }
  assert (AL : forall m, (m < np)%nat -> lt64 (z_thr q) (x_Js (oc_k o) m) = true /\ dead64 (z_thr q) (x_Js (oc_k o) m) = false).
  { intros m Hm. eapply (fun H => good_alive64 q rq k0 s kx E c chis sizes rho pm H) with (n := S n') (N := N) (X := X); try eassumption. lia. }
  unfold run64. rewrite E0. cbn [bind].
  assert (RC : exists g, revive_copy64 pf np (x_Js (oc_k o)) (x_comp (oc_k o)) (z_thr q) (x_g (oc_k o)) = Ok (x_Js (oc_k o), x_comp (oc_k o), g)).
  { unfold revive_copy64. pose proof (classify_in np (x_Js (oc_k o)) (z_thr q)) as CI.
    destruct (classify64 np (x_Js (oc_k o)) (z_thr q)) as [[l cc] [|d0 d]]; [eexists; reflexivity|].
    destruct CI as (_ & C2). destruct (C2 d0 ltac:(left; reflexivity)) as [Ld Ed]. rewrite (proj2 (AL d0 Ld)) in Ed. discriminate. }
  destruct RC as (g & RC). rewrite RC. cbn [bind]. exists o, (x_Js (oc_k o)), (x_comp (oc_k o)). split; [reflexivity|]. split; [exact E1|]. split; [exact E2|].
  split; [split; [intros m Hm; apply (AL m Hm)|split; reflexivity]|]. intros i m Hi Hm. destruct (L5 i m Hi Hm) as (F & L). split; [exact F|]. eapply Rle_trans; [exact L|].
  eapply Rle_trans; [apply HP|]. replace n' with ((inner - 1) + (n' - (inner - 1)))%nat by lia. apply PA.
Qed.

(** what all states along [N] steps have in common *)
Lemma run_invariant : exists P : nat -> state64 G cstate64 -> Prop, P 0%nat k0 /\
  (forall n k tries cnt, (n <= N)%nat -> P n k -> snd (maybe_revive64 pf q tries cnt k) = k) /\
  (forall n k k' nv rep, (n < N)%nat -> P n k -> iterate64 pf q k = Ok (k', nv, rep) -> P (S n) k') /\
  (forall n k, (n < N)%nat -> P n k -> same_state q k rq (twin k) s E /\
     forall rk' nv rrep, iterate rq (twin k) = Ok (rk', nv, rrep) -> phis_bounded q s (v_phis_comp rk')).
Proof using SE WK BG.
  pose proof cl_B as B0. pose proof cl_close as HC. pose proof cl_res as HR. destruct SE, WK, BG.
  exists (good64 q rq k0 s kx E c chis sizes rho pm B D X M W kap V0). split; [eapply good_start; eassumption|]. split; [|split].
  - intros n k tries cnt Hn HG. unfold maybe_revive64. destruct (Z.ltb _ _); [|reflexivity].
    assert (CV : count_valid64 np (x_Js k) (z_thr q) = np).
    { unfold count_valid64. apply ncount_all. intros m Hm.
      eapply (fun H => good_alive64 q rq k0 s kx E c chis sizes rho pm H) with (n := n) (N := N) (X := X); eassumption. }
    rewrite CV, Nat.eqb_refl. reflexivity.
  - intros n k k' nv rep Hn HG I. destruct (good_next pf dot q rq k0 s kx E c chis64 coef64 chis shf Xc npf sizes rho sh pm ltac:(assumption) ltac:(assumption) ltac:(assumption) ltac:(assumption)
    ltac:(assumption) ltac:(assumption) ltac:(assumption) ltac:(assumption) ltac:(assumption) ltac:(assumption) ltac:(assumption) ltac:(assumption)
    B D X M W kap ltac:(assumption) ltac:(assumption) ltac:(assumption) ltac:(assumption) ltac:(assumption) ltac:(assumption) ltac:(assumption) ltac:(assumption) ltac:(assumption)
    ltac:(assumption) ltac:(assumption) ltac:(assumption) V0 N ltac:(assumption) ltac:(assumption) ltac:(assumption) ltac:(assumption) ltac:(assumption) ltac:(assumption)
    n k Hn HG) as (k2 & rep2 & I2 & G2 & _). rewrite I in I2. injection I2 as <- _ _. exact G2.
  - intros n k Hn HG. exact (good_moderate pf dot q rq k0 s kx E c chis64 coef64 chis shf Xc npf sizes rho sh pm ltac:(assumption) ltac:(assumption) ltac:(assumption) ltac:(assumption)
    ltac:(assumption) ltac:(assumption) ltac:(assumption) ltac:(assumption) ltac:(assumption) ltac:(assumption) ltac:(assumption) ltac:(assumption)
    B D X M W kap ltac:(assumption) ltac:(assumption) ltac:(assumption) ltac:(assumption) ltac:(assumption) ltac:(assumption) ltac:(assumption) ltac:(assumption) ltac:(assumption)
    ltac:(assumption) ltac:(assumption) ltac:(assumption) V0 N ltac:(assumption) ltac:(assumption) ltac:(assumption) ltac:(assumption) ltac:(assumption) ltac:(assumption)
    n k Hn HG).
Qed.
End Claims.
