(** PropertiesHomogeneous.v -- a homogeneous start stays homogeneous and its
    field error decays geometrically (C64). *)

From Coq Require Import String Reals Lra Lia List Bool Arith ZArith FunctionalExtensionality.
From Verif Require Import Base ModelCommon ModelParts ModelKernel ModelPhases ModelFinder
  ProofsKernel ProofsParts ProofsSteps ProofsCopy ProofsRun ProofsHistory ProofsRun2 Spec
  PropertiesKernel PropertiesRun PropertiesConstraints ProofsEquilibrium PropertiesEquilibrium.
Import ListNotations.
Open Scope R_scope.

(* ------------------------------------------------------------------ *)
(** * Vocabulary *)

(** all compartments have volume one and the fields [u] *)
Definition homogeneous {G} (nf np : nat) (k : kstate G cstate) (u : vec) : Prop :=
  (forall m, (m < np)%nat -> v_Js k m = 1) /\
  (forall r m, (r < nf)%nat -> (m < np)%nat -> v_omegas k r m = u r).

(** interaction potential of feature [r] in the homogeneous mixture *)
Definition mean_potential (nc nf : nat) (rho : nat -> nat) (chis : mat) (pm : vec) (r : nat) : R :=
  rsum nc (fun i => chis r (rho i) * pm i).

(** distance of the fields from the potential, without its mean over features *)
Definition offset (nc nf : nat) (rho : nat -> nat) (chis : mat) (pm u : vec) (r : nat) : R :=
  let p := mean_potential nc nf rho chis pm in
  p r - u r - rsum nf (fun s => p s - u s) / INR nf.

Section Homogeneous.
Context {G : Type} (ops : rng_ops G).
Context (q : kernel) (nc nf : nat) (rho : nat -> nat) (chis : mat) (sh : R) (sizes pm : vec).
Hypothesis HM : mixture q nc nf rho chis sh sizes.
Hypothesis HE : q_ensemble q = can_compiled nc pm.
Hypothesis Hsum : rsum nc pm = 1.
Hypothesis Hnf : (0 < nf)%nat.
Hypothesis Hnp : (0 < q_np q)%nat.
Hypothesis Hthr : 0 <= q_thr q < 1.
Hypothesis Hub : 0 < q_ub q.
Implicit Types (k : kstate G cstate).

Let off := offset nc nf rho chis pm.
Let np := q_np q.

Lemma mixture_nf : q_nf q = nf.
Proof. now destruct HM. Qed.

Lemma hom_alive k u m : homogeneous nf np k u -> (m < np)%nat -> alive (q_thr q) (v_Js k) m.
Proof. intros [H _] Hm. unfold alive. rewrite H by auto. lra. Qed.

Lemma hom_masks k u m : homogeneous nf np k u -> (m < np)%nat -> make_masks (v_Js k) (q_thr q) m = 1.
Proof. intros H Hm. apply mask_alive. now apply (hom_alive k u). Qed.

Lemma hom_total : parts_total q.
Proof.
  destruct HM as [q n chis sh sizes E1 E2 E3|q nf npf chis sh sizes E1 E2 E3 E4].
  - eapply builtin_total_ig_can; eauto.
  - eapply builtin_total_pg_can; eauto.
Qed.

Lemma hom_count k u : homogeneous nf np k u -> t_nv q k = np.
Proof. intros H. apply ncount_all. intros m Hm. apply Rltb_true. now apply (hom_alive k u). Qed.

(** one step *)
Lemma hom_step k u : homogeneous nf np k u -> Forall idle (v_cons k) ->
  exists k' rep, iterate q k = Ok (k', Z.of_nat np, rep) /\
    homogeneous nf np k' (fun r => u r + q_acc_w q * off u r) /\ v_cons k' = v_cons k /\ v_g k' = v_g k /\
    (forall i m, (i < nc)%nat -> (m < np)%nat -> v_phis_comp k' i m = pm i) /\
    e_incomp rep = 0 /\ e_Js rep = 0 /\ e_omega rep = for_ nf (fun r acc => Rmax acc (off u r)) 0 /\ e_cons rep = 0.
Proof.
  intros HH HI. pose proof HH as [HJ HW].
  destruct (iterate_total q k) as (k' & nv & rep & H); auto using hom_total; [lra| |].
  { exists 0%nat. split; [auto|]. now apply (hom_alive k u). }
  assert (HA : ens_kind q k nc rho sizes pm (fun i => pm i / Qbar q k rho sizes i)) by now apply ek_can.
  destruct (mixture_facts _ _ _ _ _ _ _ _ _ _ _ _ _ HM HA H) as (phis & inc & MF).
  pose proof (idle_step _ _ _ _ _ HI H) as EC.
  pose proof H as H0. apply iterate_inv in H0. destruct H0 as (p0 & Q & phis' & inc' & _ & _ & F').
  destruct (mf_it _ _ _ _ _ _ _ _ _ _ _ _ _ MF) as [nv' F].
  assert (EL : forall m, (m < np)%nat -> living (q_thr q) (v_Js k) m = 1).
  { intros m Hm. unfold living. destruct (Rlt_dec _ _) as [L|L]; [now apply HJ|]. exfalso. apply L. now apply (hom_alive k u). }
  assert (HQ : forall i, (i < nc)%nat -> Qbar q k rho sizes i = exp (- u (rho i) * sizes i)).
  { intros i Hi. pose proof (mf_rho _ _ _ _ _ _ _ _ _ _ _ _ _ MF i Hi) as Hr. unfold Qbar. fold np.
    rewrite (rsum_ext np _ (fun _ => exp (- u (rho i) * sizes i))) by (intros m Hm; rewrite HW, EL by auto; ring).
    rewrite (rsum_ext np (living _ _) (fun _ => 1)) by (intros; now apply EL).
    rewrite !rsum_const. field. apply INR_neq0. exact Hnp. }
  assert (HP : forall i m, (i < nc)%nat -> (m < np)%nat -> phis i m = pm i).
  { intros i m Hi Hm. pose proof (mf_rho _ _ _ _ _ _ _ _ _ _ _ _ _ MF i Hi) as Hr.
    rewrite (mf_frac _ _ _ _ _ _ _ _ _ _ _ _ _ MF) by auto. rewrite HQ by auto. rewrite (hom_masks k u) by auto. rewrite HW by auto.
    pose proof (exp_pos (- u (rho i) * sizes i)). field. lra. }
  assert (HInc : forall m, (m < np)%nat -> inc m = 0).
  { intros m Hm. rewrite (mf_inc _ _ _ _ _ _ _ _ _ _ _ _ _ MF). rewrite (rsum_ext nc _ pm) by (intros; now apply HP). rewrite Hsum. ring. }
  assert (HPot : forall r m, (r < nf)%nat -> (m < np)%nat -> t_pot q k phis r m = mean_potential nc nf rho chis pm r).
  { intros r m Hr Hm. rewrite (mf_pot _ _ _ _ _ _ _ _ _ _ _ _ _ MF).
    rewrite (rsum_ext nf _ (fun s => chis r s * fsum nc rho (fun i => phis i m) s)) by (intros s Hs; f_equal; now apply (mf_feat _ _ _ _ _ _ _ _ _ _ _ _ _ MF)).
    rewrite (fsum_sum nc nf rho (fun i => phis i m) (chis r)) by apply (mf_rho _ _ _ _ _ _ _ _ _ _ _ _ _ MF).
    apply rsum_ext. intros i Hi. now rewrite HP. }
  destruct (idle_sums q k phis HI) as [ZP ZV].
  set (p := mean_potential nc nf rho chis pm) in *.
  set (x := - (rsum nf (fun s => p s - u s) / INR nf)).
  assert (HXi : forall m, (m < np)%nat -> t_xi q k phis inc m = x).
  { intros m Hm. unfold t_xi, xi_of, t_masks. rewrite (hom_masks k u) by auto. rewrite HInc by auto. rewrite mixture_nf.
    rewrite <- lsum_rsum. rewrite (rsum_zero nf (fun i => lsum (t_cs q k phis) (fun a => pot_of a i m))) by (intros; apply ZP).
    rewrite (rsum_ext nf (fun r => v_omegas k r m - t_pot q k phis r m) (fun s => - (p s - u s))) by (intros r Hr; rewrite HW, HPot by auto; ring).
    rewrite rsum_opp. unfold x. field. now apply INR_neq0. }
  assert (HD : forall r m, (r < nf)%nat -> (m < np)%nat -> t_diff q k phis inc r m = off u r).
  { intros r m Hr Hm. unfold t_diff, t_masks. rewrite (hom_masks k u) by auto. unfold t_otemp, omega_temp_of.
    change (lsum (t_cs q k phis) (fun o => pot_of o r m)) with (P_of (t_cs q k phis) r m). rewrite ZP.
    rewrite HPot, HXi, HW by auto. unfold off, offset. fold p. unfold x. ring. }
  assert (HLe : forall m, (m < np)%nat -> t_le q k phis inc m = t_le q k phis inc 0%nat).
  { assert (K : forall m, (m < np)%nat -> t_le q k phis inc m =
       - (1/2) * rsum nc (fun i => p (rho i) * pm i) - rsum nc (fun i => pm i / sizes i) - x).
    { intros m Hm. rewrite (le_identity _ _ _ _ _ _ _ _ _ _ _ _ _ MF) by (now apply (hom_alive k u)). rewrite ZV, HXi by auto.
      rewrite (rsum_zero nc (fun i => P_of (t_cs q k phis) (rho i) m * phis i m)) by (intros; rewrite ZP; ring).
      rewrite (rsum_ext nc (fun i => t_pot q k phis (rho i) m * phis i m) (fun i => p (rho i) * pm i))
        by (intros i Hi; rewrite HPot, HP by (auto; now apply (mf_rho _ _ _ _ _ _ _ _ _ _ _ _ _ MF)); reflexivity).
      rewrite (rsum_ext nc (fun i => phis i m / sizes i) (fun i => pm i / sizes i)) by (intros; now rewrite HP). ring. }
    intros m Hm. now rewrite !K. }
  assert (ET : t_n q k = INR np) by (now rewrite t_n_eq, (hom_count k u)).
  assert (EJ : forall m, (m < np)%nat -> t_J q k m = 1).
  { intros m Hm. unfold t_J, t_masks. rewrite (hom_masks k u), HJ by auto. ring. }
  assert (Hn0 : INR np <> 0) by (apply INR_neq0; exact Hnp).
  assert (HMean : t_mean q k phis inc = t_le q k phis inc 0%nat).
  { unfold t_mean. rewrite ET. fold np. rewrite (rsum_ext np _ (fun _ => t_le q k phis inc 0%nat)) by (intros m Hm; rewrite EJ, (HLe m) by auto; ring).
    rewrite rsum_const. now field. }
  assert (HJd : forall m, (m < np)%nat -> t_Jdiff q k phis inc m = 0).
  { intros m Hm. unfold t_Jdiff. rewrite HMean, (HLe m) by auto. ring. }
  assert (HMax : t_maxJ q k phis inc = 0).
  { unfold t_maxJ. fold np. rewrite (vmax_ext np _ (fun _ => 0)) by (intros m Hm; rewrite HJd by auto; apply Rabs_R0).
    destruct (vmax_in np (fun _ => 0) Hnp) as (j & _ & ->). reflexivity. }
  assert (HFac : t_factor q k phis inc = 1).
  { unfold t_factor, t_change. rewrite HMax, Rmult_0_l. rewrite Rmax_right by lra. field. lra. }
  assert (HJ1 : forall m, (m < np)%nat -> t_J1 q k phis inc m = 1).
  { intros m Hm. unfold t_J1, t_masks. rewrite (hom_masks k u), EJ, HJd by auto. ring. }
  exists k', rep. split; [|split; [|split; [exact EC|split]]].
  - rewrite H. do 2 f_equal. rewrite (if_nv F'). now rewrite (hom_count k u).
  - split.
    + intros m Hm. rewrite (if_Js F), t_J2_eq. unfold t_shift, t_masks. rewrite (hom_masks k u), HJ1, ET by auto. fold np.
      rewrite (rsum_ext np _ (fun _ => 1)) by (intros; now apply HJ1). rewrite rsum_const. now field.
    + intros r m Hr Hm. rewrite (if_omegas F). unfold t_omegas, t_masks. rewrite (hom_masks k u) by auto.
      rewrite HFac, HW by auto. rewrite HD by auto. ring.
  - now rewrite (if_g F).
  - split; [|split; [|split; [|split]]].
    + intros i m Hi Hm. rewrite (if_comp F). now apply HP.
    + rewrite (if_e_incomp F). fold np. rewrite (vmax_ext np _ (fun _ => 0)) by (intros m Hm; rewrite HInc by auto; apply Rabs_R0).
      destruct (vmax_in np (fun _ => 0) Hnp) as (j & _ & ->). reflexivity.
    + rewrite (if_e_Js F). exact HMax.
    + rewrite (if_e_omega F). unfold max_omega_diff. rewrite mixture_nf. fold np. apply for_ext. intros r acc Hr. f_equal.
      rewrite (vmax_ext np _ (fun _ => off u r)) by (intros m Hm; now apply HD).
      destruct (vmax_in np (fun _ => off u r) Hnp) as (j & _ & ->). reflexivity.
    + rewrite (if_e_cons F). unfold t_evolve. rewrite evolve_all_eq. cbn [snd]. unfold t_cs, prepare_all.
      clear - HI. assert (K : forall s, fold_left (fun acc o => Rmax acc (snd (k_evolve (o_class o) (q_np q) s (t_masks q k) (o_state o))))
        (map (fun o => set_state o (k_prepare (o_class o) (q_np q) (t_feat q k phis) (t_J q k) (t_masks q k) (o_state o))) (v_cons k)) 0 = 0); [|apply K].
      intros s. induction HI as [|o l Ho HI IH]; [reflexivity|]. cbn [map fold_left].
      destruct (prepare_idle (q_np q) (t_feat q k phis) (t_J q k) (t_masks q k) o Ho) as (_ & _ & -> & E4). rewrite E4. cbn [snd].
      rewrite Rmax_left by lra. exact IH.
Qed.

(** the offset shrinks linearly along itself *)
Lemma off_along u c r : off (fun s => u s + c * off u s) r = (1 - c) * off u r.
Proof.
  unfold off, offset. set (p := mean_potential nc nf rho chis pm).
  set (A := rsum nf (fun s => p s - u s)).
  rewrite (rsum_ext nf _ (fun s => (1 - c) * (p s - u s) + c * (A / INR nf))) by (intros; ring).
  rewrite rsum_plus, rsum_scal_l, rsum_const. fold A. field. now apply INR_neq0.
Qed.

Lemma for_max_scal n c (f : nat -> R) : 0 <= c ->
  for_ n (fun r acc => Rmax acc (c * f r)) 0 = c * for_ n (fun r acc => Rmax acc (f r)) 0.
Proof.
  intros Hc. induction n as [|n IH]; [simpl; ring|]. rewrite !for_S, IH. now rewrite RmaxRmult.
Qed.

Lemma for_max_bounds n (f : nat -> R) : let M := for_ n (fun r acc => Rmax acc (f r)) 0 in
  (M = 0 \/ exists r, (r < n)%nat /\ f r = M) /\ forall r, (r < n)%nat -> f r <= M.
Proof.
  cbv zeta. induction n as [|n [I1 I2]]; [split; [now left|lia]|]. rewrite for_S. set (M := for_ n _ 0) in *. split.
  - destruct (Rle_dec M (f n)) as [L|L].
    + rewrite Rmax_right by auto. right. exists n. split; [lia|reflexivity].
    + rewrite Rmax_left by lra. destruct I1 as [I1|(r & Hr & E)]; [now left|]. right. exists r. split; [lia|exact E].
  - intros r Hr. destruct (Nat.eq_dec r n) as [->|].
    + apply Rmax_r.
    + eapply Rle_trans; [apply I2; lia|apply Rmax_l].
Qed.

Lemma hom_no_revive k u tries c : homogeneous nf np k u -> maybe_revive ops q tries c k = (c, k).
Proof.
  intros H. unfold maybe_revive. destruct (Z.ltb _ _); [|reflexivity].
  change (count_valid (q_np q) (v_Js k) (q_thr q)) with (t_nv q k). rewrite (hom_count k u) by auto. unfold np. now rewrite Nat.eqb_refl.
Qed.

(** C64: after [n] steps from the homogeneous fields [u], whatever the revive
    budget, the fields have moved the fraction 1 - (1 - acceptance_omega)^n of
    their offset, every compartment has the mean composition and volume one,
    no random number was drawn, and only the field error is left; it has
    shrunk by (1 - acceptance_omega)^(n-1). *)
Theorem C64_steps tries n k u :
  0 <= q_acc_w q <= 1 -> homogeneous nf np k u -> Forall idle (v_cons k) ->
  exists w, steps ops q tries n (start k) = Ok w /\
    homogeneous nf np (w_k w) (fun r => u r + (1 - (1 - q_acc_w q) ^ n) * off u r) /\
    v_g (w_k w) = v_g k /\ w_count w = 0%nat /\ v_cons (w_k w) = v_cons k /\
    ((1 <= n)%nat -> w_valid w = Z.of_nat np /\
      (forall i m, (i < nc)%nat -> (m < np)%nat -> v_phis_comp (w_k w) i m = pm i) /\
      exists rep d, w_rep w = Some rep /\ e_incomp rep = 0 /\ e_Js rep = 0 /\ e_cons rep = 0 /\
        e_omega rep = (1 - q_acc_w q) ^ (n - 1) * d /\
        (* [d] is the initial field error *)
        (d = 0 \/ exists r, (r < nf)%nat /\ off u r = d) /\ forall r, (r < nf)%nat -> off u r <= d).
Proof.
  intros Ha HH HI. induction n as [|n IH].
  - exists (start k). split; [reflexivity|]. split; [|split; [reflexivity|split; [reflexivity|split; [reflexivity|lia]]]].
    destruct HH as [H1 H2]. split; [exact H1|]. intros r m Hr Hm. cbn. rewrite H2 by auto. ring.
  - destruct IH as (w & E & IH1 & IH2 & IH3 & IH4 & _).
    destruct (hom_step (w_k w) _ IH1 ltac:(rewrite IH4; exact HI)) as (k' & rep & I1 & I2 & I3 & I4 & I5 & I6 & I7 & I8 & I9).
    eexists. split; [cbn [steps]; rewrite E; cbn [bind]; unfold one_step; rewrite (hom_no_revive _ _ tries (w_count w) IH1), I1; reflexivity|].
    cbn [w_k w_count w_valid w_rep]. rewrite I4, I3. split.
    + destruct I2 as [J1 J2]. split; [exact J1|]. intros r m Hr Hm. rewrite J2 by auto. rewrite off_along. cbn [pow]. ring.
    + split; [exact IH2|]. split; [exact IH3|]. split; [exact IH4|]. intros _. split; [reflexivity|]. split; [exact I5|].
      exists rep, (for_ nf (fun r acc => Rmax acc (off u r)) 0). split; [reflexivity|]. do 3 (split; [assumption|]).
      split; [|].
      * rewrite I8. rewrite <- for_max_scal by (apply pow_le; lra). apply for_ext. intros r acc Hr. rewrite off_along.
        replace (S n - 1)%nat with n by lia. f_equal. ring.
      * apply for_max_bounds.
Qed.

(** Hence the iteration converges to any tolerance. *)
Theorem C64_converges tries k u tol :
  0 < q_acc_w q <= 1 -> homogeneous nf np k u -> Forall idle (v_cons k) -> 0 < tol ->
  exists N, forall n, (N <= n)%nat -> exists w rep,
    steps ops q tries n (start k) = Ok w /\ w_rep w = Some rep /\ w_valid w = Z.of_nat np /\
    e_incomp rep < tol /\ e_omega rep < tol /\ e_Js rep < tol /\ e_cons rep < tol.
Proof.
  intros Ha HH HI Htol.
  set (D := rsum nf (fun r => Rabs (off u r))).
  assert (HD0 : 0 <= D) by (apply rsum_nonneg; intros; apply Rabs_pos).
  assert (HD : forall r, (r < nf)%nat -> off u r <= D).
  { intros r Hr. eapply Rle_trans; [apply Rle_abs|]. unfold D. pose proof (rsum_remove nf (fun r => Rabs (off u r)) r Hr) as E.
    assert (0 <= rsum nf (fun i => if Nat.eqb i r then 0 else Rabs (off u i))); [|lra].
    apply rsum_nonneg. intros i _. destruct (Nat.eqb i r); [lra|apply Rabs_pos]. }
  destruct (pow_lt_1_zero (1 - q_acc_w q) ltac:(apply Rabs_def1; lra) (tol / (D + 1))) as (N & HN).
  { apply Rdiv_lt_0_compat; lra. }
  exists (S N). intros n Hn. destruct (C64_steps tries n k u ltac:(lra) HH HI) as (w & E & _ & _ & _ & _ & X).
  destruct (X ltac:(lia)) as (X1 & _ & rep & d & X2 & X3 & X4 & X5 & X6 & X7 & X8).
  exists w, rep. do 3 (split; [assumption|]). rewrite X3, X4, X5, X6. split; [lra|]. split; [|lra].
  specialize (HN (n - 1)%nat ltac:(lia)). assert (P0 : 0 <= (1 - q_acc_w q) ^ (n - 1)) by (apply pow_le; lra).
  rewrite Rabs_pos_eq in HN by auto.
  assert (d <= D) by (destruct X7 as [->|(r & Hr & <-)]; [exact HD0|auto]).
  apply Rle_lt_trans with ((1 - q_acc_w q) ^ (n - 1) * (D + 1)).
  - apply Rmult_le_compat_l; lra.
  - apply (Rmult_lt_compat_r (D + 1)) in HN; [|lra]. replace (tol / (D + 1) * (D + 1)) with tol in HN by (field; lra). exact HN.
Qed.

End Homogeneous.

(** Runs from homogeneous fields return the homogeneous mixture, converged or
    not: the finder cannot leave it. *)
Theorem C64_run {G} (ops : rng_ops G) (f f' : finder G cstate) a t i ph nf rho chis sh sizes pm u :
  mixture (kernel_of f) (f_nc f) nf rho chis sh sizes -> f_ensemble f = can_compiled (f_nc f) pm ->
  rsum (f_nc f) pm = 1 -> (0 < nf)%nat -> (0 < f_np f)%nat -> 0 <= m_thr (f_par f) < 1 -> 0 < m_ub (f_par f) ->
  0 <= m_acc_w (f_par f) <= 1 -> homogeneous nf (f_np f) (f_k f) u -> Forall idle (v_cons (f_k f)) ->
  run ops f a t i = (f', Ok ph) ->
  p_vol ph = repeat 1 (f_np f) /\ p_frac ph = repeat (map pm (seq 0 (f_nc f))) (f_np f) /\
  f_left f' = f_left f /\ v_g (f_k f') = v_g (f_k f) /\
  exists d, f_diag f' = Some d /\ d_incomp d = 0 /\ d_Js d = 0 /\ d_cons d = 0 /\
    forall e, 0 <= e -> (forall r, (r < nf)%nat -> offset (f_nc f) nf rho chis pm u r <= e) ->
      d_omega d <= (1 - m_acc_w (f_par f)) ^ (Z.to_nat (d_steps d) - 1) * e.
Proof.
  intros HM HE Hs Hnf Hnp Ht Hu Ha HH HI H. apply run_inv in H.
  destruct H as (tr & inner & j & w & rep & n & J & phi & g & RF).
  pose proof (rf_steps RF) as ES. pose proof (rf_inner RF) as B1. pose proof (rf_j RF) as B2.
  assert (Hji : (1 <= j * inner)%nat) by nia.
  destruct (C64_steps ops (kernel_of f) (f_nc f) nf rho chis sh sizes pm HM HE Hs Hnf Hnp Ht Hu (f_left f) (j * inner) (f_k f) u Ha HH HI)
    as (w' & E & [K1 K2] & K3 & K4 & _ & K5).
  unfold fsteps in ES. rewrite E in ES. injection ES as ->. cbn [q_np kernel_of] in *.
  destruct (K5 Hji) as (_ & K6 & rep' & d0 & K7 & K8 & K9 & K10 & K11 & K12 & K13).
  rewrite (rf_rep RF) in K7. injection K7 as <-.
  pose proof (rf_copy RF) as CP. rewrite revive_by_copy_none in CP; [|tauto|].
  2:{ intros m Hm. rewrite K1 by auto. lra. }
  injection CP as <- <- <- <-.
  pose proof (result_phases_ok _ _ _ _ _ (rf_ph RF)) as (E1 & E2 & _).
  assert (RP : forall (A : Type) (h : nat -> A) c len, (forall m, (m < len)%nat -> h m = c) -> map h (seq 0 len) = repeat c len).
  { intros A h c len. induction len as [|len IH]; intros Hh; [reflexivity|]. rewrite seq_S, map_app, IH by auto. cbn. rewrite Hh by auto.
    clear. induction len as [|len IH]; [reflexivity|]. cbn. now rewrite IH. }
  split; [|split; [|split; [|split]]].
  - rewrite E1. apply RP. auto.
  - rewrite E2. apply RP. intros m Hm. apply map_ext_in. intros c Hc. apply in_seq in Hc. apply K6; lia.
  - rewrite (rf_f RF). cbn. rewrite K4. lia.
  - rewrite (rf_f RF). cbn. exact K3.
  - rewrite (rf_f RF). cbn [f_diag with_diag]. eexists. split; [reflexivity|]. cbn [d_incomp d_Js d_cons d_omega d_steps].
    do 3 (split; [assumption|]). intros e He HB. rewrite Nat2Z.id. rewrite K11. cbn [q_acc_w kernel_of].
    apply Rmult_le_compat_l; [apply pow_le; lra|]. destruct K12 as [->|(r & Hr & <-)]; auto.
Qed.

(** For instance after [reinitialize_from_phis] with equal columns. *)
Theorem C64_from_phis {G} (f f' : finder G cstate) x psi chis sh :
  f_inter f = fh_compile (f_nf f) chis sh -> reinitialize_from_phis f x = (f', Ok tt) ->
  (forall r m, (r < f_nf f)%nat -> (m < f_np f)%nat -> nd_at x [r; m] = psi r) ->
  homogeneous (f_nf f') (f_np f') (f_k f') (fun r => rsum (f_nf f) (fun s => chis r s * psi s)).
Proof.
  intros EI H HX. unfold reinitialize_from_phis in H. destruct (check_field f x) as [w0|e] eqn:EC; [|discriminate].
  injection H as <-. unfold check_field in EC. destruct (nd_shape x) as [|? [|? [|? ?]]]; try discriminate.
  destruct (_ && _)%bool; [|discriminate]. injection EC as <-. split; [reflexivity|]. intros r m Hr Hm. cbn in *. rewrite EI. cbn.
  apply rsum_ext. intros s Hs. now rewrite HX.
Qed.
