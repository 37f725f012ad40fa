(** PropertiesFloatUniform.v -- C103: in double precision, mixtures whose free energy
    is convex are returned as (nearly) equal phases. *)

From Flocq Require Import Core BinarySingleNaN.
From Coq Require Import Reals ZArith String List Bool Arith Lia Lra.
From Verif Require Import Base ModelParts ModelKernel ModelFreeEnergy ModelFloat ModelFloatKernel ModelFloatParts PropertiesFloat ProofsFloatKernel
  PropertiesFloatKernel ProofsRounding PropertiesRounding ProofsFloatError PropertiesFloatError PropertiesFloatParts ProofsFloatRevive
  PropertiesFloatRevive ProofsParts ProofsKernel ProofsSteps ProofsBounds ProofsFreeEnergy ProofsEquilibrium PropertiesKernel PropertiesConstraints
  PropertiesEquilibrium PropertiesConvex PropertiesFeatures PropertiesBinary ProofsContract ProofsContractLoose PropertiesContract
  PropertiesFloatConverge PropertiesFloatBalance Spec.
Import ListNotations.
Open Scope R_scope.

(** The entropy of mixing outweighs attraction: [theta] is the part of it that is
    used up, [kappa] a penalty for changing the total fraction. *)
Definition mixes_up_to (nc : nat) (chi : mat) (sizes : vec) (theta kappa : R) : Prop :=
  forall y, - (theta * rsum nc (fun i => y i * y i / sizes i)) - kappa * (rsum nc y * rsum nc y) <= form nc chi y.

(** squared distance of two phases if totals are off by [d] and chemical potentials
    by [e]; chi at most [M], sizes at least [1 / W] *)
Definition spread (M W theta kappa d e : R) : R :=
  (1 + d) * (2 * (1 + d) * e + 2 * d * (M * ((1 + d) * (1 + d)) + 2 * (1 + d) * W) + 4 * kappa * (d * d)) / (1 - theta * (1 + d)).

Lemma spread_bound nc chi sizes M W theta kappa d e phi psi mu nu :
  (forall i, (i < nc)%nat -> 0 < sizes i /\ 1 / sizes i <= W) -> (forall i j, (i < nc)%nat -> (j < nc)%nat -> Rabs (chi i j) <= M) -> 0 <= M -> 0 < W ->
  (forall i j, (i < nc)%nat -> (j < nc)%nat -> chi i j = chi j i) ->
  mixes_up_to nc chi sizes theta kappa -> 0 <= kappa -> 0 <= d -> 0 <= e -> theta * (1 + d) < 1 ->
  (forall i, (i < nc)%nat -> 0 < phi i /\ 0 < psi i) -> Rabs (rsum nc phi - 1) <= d -> Rabs (rsum nc psi - 1) <= d ->
  potentials {| fe_nc := nc; fe_chis := chi; fe_sizes := sizes |} phi mu -> potentials {| fe_nc := nc; fe_chis := chi; fe_sizes := sizes |} psi nu ->
  (forall i, (i < nc)%nat -> Rabs (mu i - nu i) <= e) ->
  rsum nc (fun i => (phi i - psi i) * (phi i - psi i) / sizes i) <= spread M W theta kappa d e.
Proof.
  intros HW HM M0 W0 HC HX K0 D0 E0 HT HP S1 S2 P1 P2 HE. set (F := {| fe_nc := nc; fe_chis := chi; fe_sizes := sizes |}) in *.
  assert (WF : wf_fe F) by (split; cbn; [intros i Hi; destruct (HW i Hi); lra|exact HC]).
  assert (HP1 : forall i, (i < nc)%nat -> 0 < phi i) by (intros; now apply HP). assert (HP2 : forall i, (i < nc)%nat -> 0 < psi i) by (intros; now apply HP).
  set (S := rsum nc (fun i => (phi i - psi i) * (phi i - psi i) / sizes i)) in *.
  assert (HL : forall i, (i < nc)%nat -> / W <= sizes i).
  { intros i Hi. destruct (HW i Hi) as (A & B). rewrite <- (Rinv_inv (sizes i)). apply Rinv_le_contravar; [now apply Rinv_0_lt_compat|]. unfold Rdiv in B. lra. }
  assert (L0 : 0 < / W) by now apply Rinv_0_lt_compat.
  pose proof (legendre_abs nc chi sizes (fun i Hi => proj1 (HW i Hi)) phi d M (/ W) HP1 HM L0 HL D0 M0 S1) as A1.
  pose proof (legendre_abs nc chi sizes (fun i Hi => proj1 (HW i Hi)) psi d M (/ W) HP2 HM L0 HL D0 M0 S2) as A2.
  assert (EW : (1 + d) / / W = (1 + d) * W) by (unfold Rdiv; rewrite Rinv_inv; reflexivity). rewrite EW in A1, A2.
  assert (T2 : rsum nc (fun i => phi i - psi i) * rsum nc (fun i => phi i - psi i) <= 4 * (d * d)).
  { rewrite rsum_minus. change (rsum nc (fun i => phi i)) with (rsum nc phi). change (rsum nc (fun i => psi i)) with (rsum nc psi).
    apply Rabs_le_inv in S1, S2. set (t := rsum nc phi - rsum nc psi) in *. assert (- (2 * d) <= t <= 2 * d) by (unfold t; lra). nra. }
  pose proof (gap_bound nc chi sizes) as GB.
  specialize (GB ltac:(intros i Hi; now apply HW) phi psi d e (theta * S + kappa * (4 * (d * d))) (M * ((1 + d) * (1 + d)) + 2 * (1 + d) * W) HP1 HP2 D0 E0 S1 S2).
  fold S in GB.
  assert (Q : S <= (1 + d) * (2 * (1 + d) * e + 2 * d * (M * ((1 + d) * (1 + d)) + 2 * (1 + d) * W) + (theta * S + kappa * (4 * (d * d))))).
  { apply GB.
    - intros i Hi. pose proof (potentials_value F phi mu i WF HP1 P1 Hi) as V1. pose proof (potentials_value F psi nu i WF HP2 P2 Hi) as V2.
      cbn [fe_nc fe_chis fe_sizes F] in V1, V2. rewrite <- V1, <- V2. now apply HE.
    - pose proof (HX (fun i => phi i - psi i)) as X1. cbn beta in X1. fold S in X1.
      assert (kappa * (rsum nc (fun i => phi i - psi i) * rsum nc (fun i => phi i - psi i)) <= kappa * (4 * (d * d))) by (apply Rmult_le_compat_l; lra). lra.
    - apply Rabs_le_inv in A1, A2. apply Rabs_le. lra. }
  unfold spread. apply (Rmult_le_reg_r (1 - theta * (1 + d))); [lra|]. unfold Rdiv. rewrite Rmult_assoc, Rinv_l, Rmult_1_r by lra. lra.
Qed.

Section Uniform.
Context {G : Type}.
Variables (pf : platform64 G) (dot : nat -> vec64 -> vec64 -> f64) (q : kernel64) (rq : kernel) (k0 : state64 G cstate64).
Variables (s : scales) (kx E : nat) (c : R) (chis64 : mat64) (coef64 : f64) (chis : mat) (shf Xc : R) (npf : nat -> nat) (sizes : vec).
Variables (rho : nat -> nat) (sh cmin : R) (x : vec) (M W theta kappa : R).
Local Notation nf := (z_nf q).
Local Notation np := (z_np q).
Local Notation nc := (z_nc q).
Hypothesis MX : mixture64 pf dot q rq k0 s kx E c chis64 coef64 chis shf Xc npf sizes rho sh cmin x M W.
Hypothesis HX : mixes_up_to nc (fun i j => chis (rho i) (rho j)) sizes theta kappa.
Hypothesis K0 : 0 <= kappa.
Hypothesis W0 : 0 < W.

(** Whatever a run of the binary64 model returns, with or without convergence: if
    the state that entered its last step is moderate, then no two returned phases
    are further apart than [spread] of the reported errors plus rounding. *)
Theorem C103_uniform ops tol inner tr left o J phis : same_draws pf ops -> rng_contract ops ->
  run64 pf q tol inner tr left k0 = Ok (o, J, phis) -> exists n k1 nv,
  (n < inner * tr)%nat /\ leads pf q k0 n k1 /\ iterate64 pf q k1 = Ok (oc_k o, nv, oc_rep o) /\
  (moderate64 q rq s E k1 -> forall lo, 0 < lo -> 2 * phi_rounding q s kx E <= lo ->
   (forall i p, (i < nc)%nat -> (p < np)%nat -> lo <= B2R (phis i p)) ->
   (forall d e p1 p2, B2R (r6_incomp (oc_rep o)) + total_rounding q s kx E <= d -> 0 <= e ->
      reported_imbalance q chis sh cmin (oc_rep o) + mu_rounding q k0 s kx E c chis sh cmin M W lo <= e ->
      theta * (1 + d) < 1 -> (p1 < np)%nat -> (p2 < np)%nat ->
      rsum nc (fun i => (B2R (phis i p1) - B2R (phis i p2)) * (B2R (phis i p1) - B2R (phis i p2)) / sizes i) <= spread M W theta kappa d e) /\
   (fin tol -> converged64 tol (oc_safe o) (oc_rep o) = true -> forall d e p1 p2, B2R tol + total_rounding q s kx E <= d -> 0 <= e ->
      (2 + INR nf + Rabs (shifted_sum nf chis cmin sh)) * B2R tol + mu_rounding q k0 s kx E c chis sh cmin M W lo <= e ->
      theta * (1 + d) < 1 -> (p1 < np)%nat -> (p2 < np)%nat ->
      rsum nc (fun i => (B2R (phis i p1) - B2R (phis i p2)) * (B2R (phis i p1) - B2R (phis i p2)) / sizes i) <= spread M W theta kappa d e)).
Proof using MX HX K0 W0.
  intros SD RC H. destruct (C102_run _ _ _ _ _ _ _ _ _ _ _ _ _ _ _ _ _ _ _ _ _ _ MX ops tol inner tr left o J phis SD RC H) as (n & k1 & nv & Ln & Lk & I & K).
  exists n, k1, nv. split; [exact Ln|]. split; [exact Lk|]. split; [exact I|]. intros MO lo Hlo H2 Hph.
  pose proof (leads_cons _ _ _ n k1 (mx_cons _ _ _ _ _ _ _ _ _ _ _ _ _ _ _ _ _ _ _ _ _ _ MX) Lk) as Ck.
  destruct (C102_step _ _ _ _ _ _ _ _ _ _ _ _ _ _ _ _ _ _ _ _ _ _ MX k1 Ck MO) as (k' & nv' & rep & I' & F1 & F2 & F3 & _).
  rewrite I in I'. injection I' as <- <- <-.
  destruct (K MO lo Hlo H2 Hph) as (_ & TS & mu & PM & BD & CD).
  pose proof (fe_conditions _ _ _ _ _ _ _ _ _ _ _ _ _ _ _ _ _ _ _ _ _ _ MX) as FC. pose proof (fe_chis_le _ _ _ _ _ _ _ _ _ _ _ _ _ _ _ _ _ _ _ _ _ _ MX) as FM. cbn in FC, FM.
  destruct (mx_adm _ _ _ _ _ _ _ _ _ _ _ _ _ _ _ _ _ _ _ _ _ _ MX) as (Hn & Hsym & _).
  assert (M0 : 0 <= M) by (eapply Rle_trans; [apply Rabs_pos|apply (mx_M _ _ _ _ _ _ _ _ _ _ _ _ _ _ _ _ _ _ _ _ _ _ MX 0%nat 0%nat Hn Hn)]).
  assert (HR := rho_lt _ _ _ _ _ _ (mx_mix _ _ _ _ _ _ _ _ _ _ _ _ _ _ _ _ _ _ _ _ _ _ MX)).
  assert (CORE : forall d e p1 p2, (p1 < np)%nat -> (p2 < np)%nat -> 0 <= e -> theta * (1 + d) < 1 -> B2R (r6_incomp (oc_rep o)) + total_rounding q s kx E <= d ->
    (forall i, (i < nc)%nat -> Rabs (mu p1 i - mu p2 i) <= e) ->
    rsum nc (fun i => (B2R (phis i p1) - B2R (phis i p2)) * (B2R (phis i p1) - B2R (phis i p2)) / sizes i) <= spread M W theta kappa d e).
  { intros d e p1 p2 P1 P2 He Ht Hd HE. pose proof (TS p1 P1) as T1. pose proof (TS p2 P2) as T2.
    assert (D0 : 0 <= d) by (pose proof (Rabs_pos (rsum nc (fun i => B2R (phis i p1)) - 1)); lra).
    apply (spread_bound nc (fun i j => chis (rho i) (rho j)) sizes M W theta kappa d e (fun i => B2R (phis i p1)) (fun i => B2R (phis i p2)) (mu p1) (mu p2)); auto; try lra.
    - intros i Hi. pose proof (Hph i p1 Hi P1). pose proof (Hph i p2 Hi P2). lra. }
  split.
  - intros d e p1 p2 Hd He0 He Ht P1 P2. apply CORE; auto. intros i Hi. eapply Rle_trans; [now apply BD|exact He].
  - intros Fo CV d e p1 p2 Hd He0 He Ht P1 P2. apply CORE; auto.
    + unfold converged64 in CV. rewrite !andb_true_iff in CV. destruct CV as ((((_ & C1) & C2) & C3) & _). apply lt_B2R in C1, C2, C3; try assumption. lra.
    + intros i Hi. left. eapply Rlt_le_trans; [now apply CD|exact He].
Qed.

Lemma step_phis k : x_cons k = x_cons k0 -> moderate64 q rq s E k -> exists k' nv rep rk' rnv rrep,
  iterate64 pf q k = Ok (k', nv, rep) /\ iterate rq (twin k) = Ok (rk', rnv, rrep) /\
  forall i m, (i < nc)%nat -> (m < np)%nat -> Rabs (B2R (x_comp k' i m) - v_phis_comp rk' i m) <= phi_rounding q s kx E.
Proof using MX.
  intros EC [SS HB]. destruct MX as [EA DA FL FS SP LI0 HM HE HA Hmin HI0 HMx HW].
  assert (HI : Forall idle64 (x_cons k)) by (rewrite EC; exact HI0).
  assert (LI : limits q k rq s kx E c) by (eapply limits_cons; eassumption).
  assert (Ht : 0 <= q_thr rq) by (pose proof (li_thr _ _ _ _ _ _ _ LI); pose proof (bpow_gt_0 radix2 (-100)); lra).
  assert (Hu : 0 < q_ub rq) by (pose proof (li_ub _ _ _ _ _ _ _ LI); pose proof (bpow_gt_0 radix2 (-100)); lra).
  assert (Enp : q_np rq = np) by apply (sp_np _ _ SP).
  assert (TOT : parts_total rq) by (eapply mixture_total; eauto).
  destruct (iterate_total rq (twin k) TOT Ht Hu) as (rk' & nv & rrep & EI).
  { destruct (Rle_dec (rsum (q_np rq) (t_J rq (twin k))) 0) as [Z|Z]; [rewrite Enp in Z; pose proof (ss_total _ _ _ _ _ _ SS); lra|].
    apply Classical_Prop.NNPP. intros NA. apply Z. apply Req_le, rsum_zero. intros m Hm. unfold t_J, t_masks.
    destruct (mask_cases (v_Js (twin k)) (q_thr rq) m) as [[H ->]|[_ ->]]; [exfalso; apply NA; exists m; split; assumption|ring]. }
  destruct (C96_package pf dot q k rq (twin k) s kx E c chis64 coef64 chis shf Xc npf sizes rk' nv rrep EA DA FL FS (twin_cons dot q s c k HI) SP SS LI EI (HB _ _ _ EI))
    as (k' & rep & H64 & FO).
  exists k', nv, rep, rk', nv, rrep. split; [exact H64|]. split; [exact EI|]. intros i m Hi Hm.
  pose proof (fo_phis _ _ _ _ _ _ _ _ _ _ _ FO i m Hi Hm) as N. apply near_dist in N. exact N.
Qed.

(** With the canonical ensemble every living compartment is close to the mean
    composition [pm]. *)
Theorem C103_canonical k pm : q_ensemble rq = can_compiled nc pm -> x_cons k = x_cons k0 -> moderate64 q rq s E k -> exists k' nv rep,
  iterate64 pf q k = Ok (k', nv, rep) /\
  forall lo d e, 0 < lo -> 2 * phi_rounding q s kx E <= lo ->
    (forall i m, (i < nc)%nat -> (m < np)%nat -> lt64 (z_thr q) (x_Js k m) = true -> lo <= B2R (x_comp k' i m)) ->
    B2R (r6_incomp rep) + total_rounding q s kx E <= d -> 0 <= e ->
    reported_imbalance q chis sh cmin rep + mu_rounding q k0 s kx E c chis sh cmin M W lo <= e -> theta * (1 + d) < 1 ->
    forall i m, (i < nc)%nat -> (m < np)%nat -> lt64 (z_thr q) (x_Js k m) = true ->
      Rabs (B2R (x_comp k' i m) - pm i) <= sqrt (sizes i * spread M W theta kappa d e) + phi_rounding q s kx E.
Proof using MX HX K0 W0.
  intros HC Ck MO. destruct (C102_step _ _ _ _ _ _ _ _ _ _ _ _ _ _ _ _ _ _ _ _ _ _ MX k Ck MO) as (k' & nv & rep & I & _ & _ & _ & _ & TS & PB).
  exists k', nv, rep. split; [exact I|]. intros lo d e Hlo H2 Hph Hd He0 He Ht i m Hi Hm Lm.
  destruct (step_phis k Ck MO) as (k2 & nv2 & rep2 & rk' & rnv & rrep & I2 & EI & PN). rewrite I in I2. injection I2 as <- <- <-.
  pose proof (fe_conditions _ _ _ _ _ _ _ _ _ _ _ _ _ _ _ _ _ _ _ _ _ _ MX) as FC. pose proof (fe_chis_le _ _ _ _ _ _ _ _ _ _ _ _ _ _ _ _ _ _ _ _ _ _ MX) as FM. cbn in FC, FM.
  destruct (mx_adm _ _ _ _ _ _ _ _ _ _ _ _ _ _ _ _ _ _ _ _ _ _ MX) as (Hn & Hsym & _).
  assert (M0 : 0 <= M) by (eapply Rle_trans; [apply Rabs_pos|apply (mx_M _ _ _ _ _ _ _ _ _ _ _ _ _ _ _ _ _ _ _ _ _ _ MX 0%nat 0%nat Hn Hn)]).
  assert (HR := rho_lt _ _ _ _ _ _ (mx_mix _ _ _ _ _ _ _ _ _ _ _ _ _ _ _ _ _ _ _ _ _ _ MX)).
  assert (PR : forall n, (n < np)%nat -> lt64 (z_thr q) (x_Js k n) = true ->
    Rabs (B2R (x_comp k' i m) - v_phis_comp rk' i n) <= sqrt (sizes i * spread M W theta kappa d e) + phi_rounding q s kx E).
  { intros n Hnn Ln. destruct (PB lo m n Hlo H2 Hm Hnn Lm Ln) as (mu & nu & P1 & P2 & BD); [intros j Hj; split; auto|].
    pose proof (TS m Hm Lm) as T1. pose proof (TS n Hnn Ln) as T2.
    assert (D0 : 0 <= d) by (pose proof (Rabs_pos (rsum nc (fun i => B2R (x_comp k' i m)) - 1)); lra).
    assert (SB : rsum nc (fun i => (B2R (x_comp k' i m) - B2R (x_comp k' i n)) * (B2R (x_comp k' i m) - B2R (x_comp k' i n)) / sizes i) <= spread M W theta kappa d e).
    { apply (spread_bound nc (fun i j => chis (rho i) (rho j)) sizes M W theta kappa d e (fun i => B2R (x_comp k' i m)) (fun i => B2R (x_comp k' i n)) mu nu); auto; try lra.
      - intros j Hj. pose proof (Hph j m Hj Hm Lm). pose proof (Hph j n Hj Hnn Ln). lra.
      - intros j Hj. eapply Rle_trans; [now apply BD|exact He]. }
    set (y := B2R (x_comp k' i m) - B2R (x_comp k' i n)).
    assert (Y : y * y <= sizes i * spread M W theta kappa d e).
    { rewrite (rsum_remove nc _ i Hi) in SB. fold y in SB. destruct (FC i Hi) as (Sp & _).
      match type of SB with _ + ?r <= _ => assert (0 <= r) end.
      { apply rsum_nonneg. intros j Hj. destruct (Nat.eqb j i); [lra|]. apply Rmult_le_pos; [apply Rle_0_sqr|]. left. apply Rinv_0_lt_compat. apply (FC j Hj). }
      apply (Rmult_le_reg_r (/ sizes i)); [now apply Rinv_0_lt_compat|]. replace (sizes i * spread M W theta kappa d e * / sizes i) with (spread M W theta kappa d e) by (field; lra).
      unfold Rdiv in *. lra. }
    assert (Z : Rabs y <= sqrt (sizes i * spread M W theta kappa d e)).
    { rewrite <- sqrt_Rsqr_abs. apply sqrt_le_1_alt. exact Y. }
    pose proof (PN i n Hi Hnn) as Q. replace (B2R (x_comp k' i m) - v_phis_comp rk' i n) with (y + (B2R (x_comp k' i n) - v_phis_comp rk' i n)) by (unfold y; ring).
    eapply Rle_trans; [apply Rabs_triang|]. lra. }
  set (b := sqrt _ + _) in *.
  assert (Wm : wmean (q_np rq) (living (q_thr rq) (v_Js (twin k))) (fun n => v_phis_comp rk' i n) = pm i).
  { pose proof (mx_mix _ _ _ _ _ _ _ _ _ _ _ _ _ _ _ _ _ _ _ _ _ _ MX) as HM. clear - HM HC EI Hi. inversion HM; subst.
    - eapply C01_canonical_mean_ideal_gas; eauto.
    - match goal with H : nsum _ _ = z_nc q |- _ => rewrite <- H in * | H : z_nc q = nsum _ _ |- _ => rewrite H in * | _ => idtac end. eapply C01_canonical_mean_polydispersed; eauto. }
  destruct MO as [SS _]. destruct (sp_thr _ _ (mx_same _ _ _ _ _ _ _ _ _ _ _ _ _ _ _ _ _ _ _ _ _ _ MX)) as (Ft & Et).
  assert (Enp : q_np rq = np) by apply (sp_np _ _ (mx_same _ _ _ _ _ _ _ _ _ _ _ _ _ _ _ _ _ _ _ _ _ _ MX)).
  assert (AL : forall p, (p < np)%nat -> lt64 (z_thr q) (x_Js k p) = true <-> q_thr rq < v_Js (twin k) p).
  { intros p Hp. rewrite <- Et. cbn [twin v_Js]. rewrite (alive_test _ Ft) by apply (proj1 (ss_J _ _ _ _ _ _ SS p Hp)). apply Rltb_true. }
  assert (T0 : 0 <= q_thr rq) by (pose proof (li_thr _ _ _ _ _ _ _ (mx_limits _ _ _ _ _ _ _ _ _ _ _ _ _ _ _ _ _ _ _ _ _ _ MX)); pose proof (bpow_gt_0 radix2 (-100)); lra).
  set (w := living (q_thr rq) (v_Js (twin k))) in *.
  assert (w0 : forall n, 0 <= w n) by (intros n; unfold w, living; destruct (Rlt_dec _ _); lra).
  assert (SW : 0 < rsum np w).
  { apply rsum_pos; [intros; apply w0|]. exists m. split; [exact Hm|]. unfold w, living. destruct (Rlt_dec _ _) as [L|L]; [lra|]. exfalso. apply L. now apply AL. }
  rewrite <- Wm. unfold wmean. rewrite Enp. set (t := B2R (x_comp k' i m)) in *.
  replace (t - rsum np (fun n => w n * v_phis_comp rk' i n) / rsum np w) with (rsum np (fun n => w n * (t - v_phis_comp rk' i n)) / rsum np w).
  - unfold Rdiv. rewrite Rabs_mult, (Rabs_pos_eq (/ _)) by (left; now apply Rinv_0_lt_compat). apply (Rmult_le_reg_r (rsum np w)); [exact SW|].
    rewrite Rmult_assoc, Rinv_l, Rmult_1_r by lra. eapply Rle_trans; [apply rsum_Rabs|]. rewrite <- rsum_scal_l. apply rsum_le. intros n Hnn.
    rewrite Rabs_mult, (Rabs_pos_eq (w n)) by apply w0. rewrite (Rmult_comm b). unfold w, living. destruct (Rlt_dec _ _) as [L|L]; [|lra].
    apply Rmult_le_compat_l; [lra|]. apply PR; [exact Hnn|]. now apply AL.
  - rewrite (rsum_ext np (fun n => w n * (t - v_phis_comp rk' i n)) (fun n => t * w n - w n * v_phis_comp rk' i n)) by (intros; ring).
    rewrite rsum_minus, rsum_scal_l. field. lra.
Qed.

(** The same for the phases that a run returns: they are the mean composition. *)
Theorem C103_mean ops pm tol inner tr left o J phis : q_ensemble rq = can_compiled nc pm -> same_draws pf ops -> rng_contract ops ->
  run64 pf q tol inner tr left k0 = Ok (o, J, phis) -> exists n k1 nv,
  (n < inner * tr)%nat /\ leads pf q k0 n k1 /\ iterate64 pf q k1 = Ok (oc_k o, nv, oc_rep o) /\
  (moderate64 q rq s E k1 -> forall lo d e, 0 < lo -> 2 * phi_rounding q s kx E <= lo ->
    (forall i m, (i < nc)%nat -> (m < np)%nat -> lt64 (z_thr q) (x_Js k1 m) = true -> lo <= B2R (x_comp (oc_k o) i m)) ->
    0 <= e -> theta * (1 + d) < 1 ->
    ((B2R (r6_incomp (oc_rep o)) + total_rounding q s kx E <= d /\
      reported_imbalance q chis sh cmin (oc_rep o) + mu_rounding q k0 s kx E c chis sh cmin M W lo <= e) \/
     (fin tol /\ converged64 tol (oc_safe o) (oc_rep o) = true /\ B2R tol + total_rounding q s kx E <= d /\
      (2 + INR nf + Rabs (shifted_sum nf chis cmin sh)) * B2R tol + mu_rounding q k0 s kx E c chis sh cmin M W lo <= e)) ->
    forall i p, (i < nc)%nat -> (p < np)%nat ->
      Rabs (B2R (phis i p) - pm i) <= sqrt (sizes i * spread M W theta kappa d e) + phi_rounding q s kx E).
Proof using MX HX K0 W0.
  intros HC SD RC H. unfold run64 in H.
  destruct (loop64 pf q tol inner tr k0 left None) as [o'|] eqn:EL; [|discriminate]. cbn [bind] in H.
  destruct (revive_copy64 _ _ _ _ _ _) as [[[J' phis'] g']|] eqn:ER; [|discriminate]. cbn [bind] in H. injection H as -> -> ->.
  apply (loop_leads pf q k0 tol inner tr 0%nat) in EL; [|apply leads_start]. destruct EL as [[_ EL]|(n & k1 & nv & Ln & Lk & I)]; [discriminate|].
  pose proof (leads_cons _ _ _ n k1 (mx_cons _ _ _ _ _ _ _ _ _ _ _ _ _ _ _ _ _ _ _ _ _ _ MX) Lk) as Ck.
  exists n, k1, nv. split; [exact Ln|]. split; [exact Lk|]. split; [exact I|]. intros MO lo d e Hlo H2 Hph He0 Ht HD i p Hi Hp.
  destruct (C102_step _ _ _ _ _ _ _ _ _ _ _ _ _ _ _ _ _ _ _ _ _ _ MX k1 Ck MO) as (k' & nv' & rep & I' & F1 & F2 & F3 & VJ & _). rewrite I in I'. injection I' as <- <- <-.
  destruct (C103_canonical k1 pm HC Ck MO) as (k' & nv' & rep & I' & K). rewrite I in I'. injection I' as <- <- <-.
  destruct (sp_thr _ _ (mx_same _ _ _ _ _ _ _ _ _ _ _ _ _ _ _ _ _ _ _ _ _ _ MX)) as (Ft & Et).
  pose proof (li_thr _ _ _ _ _ _ _ (mx_limits _ _ _ _ _ _ _ _ _ _ _ _ _ _ _ _ _ _ _ _ _ _ MX)) as Hth. rewrite <- Et in Hth. pose proof (bpow_gt_0 radix2 (-100)) as B0.
  assert (Gr : bpow radix2 (-1022) <= B2R (z_thr q)) by (eapply Rle_trans; [|exact Hth]; apply bpow_le; lia).
  destruct (C97_copy pf ops np (z_thr q) _ _ _ _ _ _ SD RC Ft ltac:(lra) (fun m Hm => proj1 (VJ m Hm)) (or_introl Gr) ER) as (_ & (pick & O1 & _) & _).
  destruct (O1 p Hp) as (Ho & HL & EP). rewrite EP.
  apply (K lo d e); auto.
  - destruct HD as [(HD & _)|(Fo & CV & HD & _)]; [exact HD|].
    unfold converged64 in CV. rewrite !andb_true_iff in CV. destruct CV as ((((_ & C1) & C2) & C3) & _). apply lt_B2R in C1, C2, C3; try assumption. lra.
  - destruct HD as [(_ & HD)|(Fo & CV & _ & HD)]; [exact HD|].
    unfold converged64 in CV. rewrite !andb_true_iff in CV. destruct CV as ((((_ & C1) & C2) & C3) & _). apply lt_B2R in C1, C2, C3; try assumption.
    unfold reported_imbalance. pose proof (pos_INR nf). pose proof (Rabs_pos (shifted_sum nf chis cmin sh)).
    assert (INR nf * B2R (r6_omega (oc_rep o)) <= INR nf * B2R tol) by (apply Rmult_le_compat_l; lra).
    assert (Rabs (shifted_sum nf chis cmin sh) * B2R (r6_incomp (oc_rep o)) <= Rabs (shifted_sum nf chis cmin sh) * B2R tol) by (apply Rmult_le_compat_l; lra).
    lra.
  - destruct MO as [SS _].
    apply (proj1 (proj2 (proj2 (C60_masks (z_thr q) (x_Js k1 (pick p)) Ft (proj1 (proj1 (ss_J _ _ _ _ _ _ SS _ Ho))))))). now apply VJ.
Qed.
End Uniform.

(** All states along the run of a weakly interacting mixture (C101) are moderate. *)
Theorem C103_moderate {G} (pf : platform64 G) dot q rq k0 s kx E c chis64 coef64 chis shf Xc npf sizes rho sh pm V0 B D X M W kap N n k :
  setting64 pf dot q rq k0 s kx E c chis64 coef64 chis shf Xc npf sizes rho sh pm V0 -> weak64 q rq chis sizes pm V0 B D X M W kap ->
  budget64 q rq k0 s kx E c sizes pm V0 B D X M W kap N -> leads pf q k0 n k -> (n < N)%nat -> moderate64 q rq s E k.
Proof.
  intros SE WK BG L Hn. destruct (run_invariant pf dot q rq k0 s kx E c chis64 coef64 chis shf Xc npf sizes rho sh pm V0 B D X M W kap N SE WK BG) as (P & P0 & P1 & P2 & P3).
  assert (Q : (n <= N)%nat -> P n k).
  { clear Hn. induction L as [|n k tries cnt L IH|n k k' nv rep L IH I]; intros Hn; [exact P0| |].
    - rewrite (P1 n) by auto. auto.
    - eapply P2; [lia| |exact I]. apply IH. lia. }
  destruct (P3 n k Hn (Q ltac:(lia))) as (Q1 & Q2). split; assumption.
Qed.
