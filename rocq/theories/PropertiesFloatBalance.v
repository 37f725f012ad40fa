(** PropertiesFloatBalance.v -- C102: what the errors reported in double precision
    say about chemical potentials. *)

From Flocq Require Import Core BinarySingleNaN.
From Coq Require Import Reals ZArith String List Bool Arith Lia Lra.
From Verif Require Import Base ModelParts ModelKernel ModelFreeEnergy ModelFloat ModelFloatKernel ModelFloatParts PropertiesFloat ProofsFloatKernel
  PropertiesFloatKernel ProofsRounding PropertiesRounding ProofsFloatError PropertiesFloatError PropertiesFloatParts ProofsFloatRevive
  PropertiesFloatRevive ProofsParts ProofsKernel ProofsSteps ProofsBounds ProofsFreeEnergy ProofsEquilibrium PropertiesKernel PropertiesConstraints
  PropertiesEquilibrium PropertiesConvex PropertiesFeatures PropertiesBinary ProofsContract ProofsContractLoose PropertiesContract
  PropertiesFloatConverge Spec.
Import ListNotations.
Open Scope R_scope.

(* ------------------------------------------------------------------ *)
(** * Chemical potentials of perturbed compositions *)

Lemma sum_abs n f b : (forall i, (i < n)%nat -> Rabs (f i) <= b) -> Rabs (rsum n f) <= INR n * b.
Proof.
  intros H. rewrite <- rsum_const. induction n as [|n IH]; [cbn; rewrite Rabs_R0; lra|]. cbn [rsum].
  eapply Rle_trans; [apply Rabs_triang|]. apply Rplus_le_compat; [apply IH; intros; apply H; lia|apply H; lia].
Qed.
Lemma ln_quot a b : 0 < a -> 0 < b -> ln (a / b) = ln a - ln b.
Proof. intros Ha Hb. unfold Rdiv. rewrite ln_mult, ln_Rinv by (try apply Rinv_0_lt_compat; assumption). lra. Qed.
Lemma ln_shift x y d lo : lo <= y -> 0 < lo -> Rabs (y - x) <= d -> 2 * d <= lo -> Rabs (ln y - ln x) <= 2 * d / lo.
Proof.
  intros Hy Hl Hd H2. apply Rabs_le_inv in Hd. assert (Hx : lo / 2 <= x) by lra.
  assert (A : forall a b, lo / 2 <= a -> lo / 2 <= b -> a - b <= d -> ln a - ln b <= 2 * d / lo).
  { intros a b Ha Hb Hab. rewrite <- ln_quot by lra. eapply Rle_trans; [apply ln_le_sub; apply Rdiv_lt_0_compat; lra|].
    replace (a / b - 1) with ((a - b) / b) by (field; lra). apply (Rmult_le_reg_r b); [lra|].
    replace ((a - b) / b * b) with (a - b) by (field; lra).
    assert (D0 : 0 <= d) by lra. replace (2 * d / lo * b) with (d * (b * (2 / lo))) by (field; lra).
    assert (1 <= b * (2 / lo)). { apply (Rmult_le_reg_r (lo / 2)); [lra|]. replace (b * (2 / lo) * (lo / 2)) with b by (field; lra). lra. }
    assert (d * 1 <= d * (b * (2 / lo))) by (apply Rmult_le_compat_l; lra). lra. }
  apply Rabs_le. pose proof (A y x ltac:(lra) Hx ltac:(lra)). pose proof (A x y Hx ltac:(lra) ltac:(lra)). lra.
Qed.

(** the chemical potential without the terms that cancel *)
Lemma mu_short F phi i : (forall j, (j < fe_nc F)%nat -> fe_sizes F j <> 0) -> (i < fe_nc F)%nat ->
  mu_of F phi i = (ln (phi i) + 1) / fe_sizes F i + rsum (fe_nc F) (fun j => fe_chis F i j * phi j)
    - rsum (fe_nc F) (fun j => phi j / fe_sizes F j)
    - 1 / 2 * rsum (fe_nc F) (fun j => rsum (fe_nc F) (fun l => fe_chis F j l * phi j * phi l)).
Proof.
  intros Hs Hi. unfold mu_of, fh, dfh.
  assert (E : rsum (fe_nc F) (fun j => phi j * ((ln (phi j) + 1) / fe_sizes F j + rsum (fe_nc F) (fun l => fe_chis F j l * phi l)))
    = rsum (fe_nc F) (fun j => phi j * ln (phi j) / fe_sizes F j) + rsum (fe_nc F) (fun j => phi j / fe_sizes F j)
      + rsum (fe_nc F) (fun j => rsum (fe_nc F) (fun l => fe_chis F j l * phi j * phi l))).
  { rewrite <- !rsum_plus. apply rsum_ext. intros j Hj. rewrite Rmult_plus_distr_l, <- rsum_scal_l.
    f_equal; [field; now apply Hs|]. apply rsum_ext. intros l _. ring. }
  rewrite E. lra.
Qed.

(** how far chemical potentials move when fractions of at most [P] and at least
    [lo] move by [d] *)
Definition mu_shift (nc : nat) (M W P lo d : R) : R :=
  d * (2 * W / lo + INR nc * M + INR nc * W + INR nc * (INR nc * (M * (P + d)))).
Lemma mu_perturb F x y M W P lo d i :
  (forall j, (j < fe_nc F)%nat -> 0 < fe_sizes F j /\ 1 / fe_sizes F j <= W) ->
  (forall j l, (j < fe_nc F)%nat -> (l < fe_nc F)%nat -> Rabs (fe_chis F j l) <= M) ->
  (forall j, (j < fe_nc F)%nat -> Rabs (x j) <= P /\ Rabs (y j - x j) <= d) ->
  0 < lo -> lo <= y i -> 2 * d <= lo -> (i < fe_nc F)%nat -> Rabs (mu_of F y i - mu_of F x i) <= mu_shift (fe_nc F) M W P lo d.
Proof.
  intros HW HM HX Hlo Hy H2 Hi. set (nc := fe_nc F) in *.
  assert (D0 : 0 <= d) by (eapply Rle_trans; [apply Rabs_pos|apply (HX i Hi)]).
  assert (M0 : 0 <= M) by (eapply Rle_trans; [apply Rabs_pos|apply (HM i i Hi Hi)]).
  assert (P0 : 0 <= P) by (eapply Rle_trans; [apply Rabs_pos|apply (HX i Hi)]).
  assert (HI : forall j, (j < nc)%nat -> 0 < / fe_sizes F j <= W).
  { intros j Hj. destruct (HW j Hj) as (A & B). split; [now apply Rinv_0_lt_compat|]. unfold Rdiv in B. lra. }
  rewrite !mu_short by (try exact Hi; intros j Hj; destruct (HW j Hj); lra). fold nc.
  assert (T1 : Rabs ((ln (y i) + 1) / fe_sizes F i - (ln (x i) + 1) / fe_sizes F i) <= d * (2 * W / lo)).
  { replace ((ln (y i) + 1) / fe_sizes F i - (ln (x i) + 1) / fe_sizes F i) with ((ln (y i) - ln (x i)) * / fe_sizes F i) by (unfold Rdiv; ring).
    rewrite Rabs_mult, (Rabs_pos_eq (/ _)) by (left; now apply HI).
    replace (d * (2 * W / lo)) with (2 * d / lo * W) by (unfold Rdiv; ring).
    apply Rmult_le_compat; [apply Rabs_pos|left; now apply HI| |now apply HI].
    destruct (HX i Hi) as (_ & HD). now apply ln_shift. }
  assert (T2 : Rabs (rsum nc (fun j => fe_chis F i j * y j) - rsum nc (fun j => fe_chis F i j * x j)) <= d * (INR nc * M)).
  { rewrite <- rsum_minus. replace (d * (INR nc * M)) with (INR nc * (M * d)) by ring. apply sum_abs. intros j Hj.
    replace (fe_chis F i j * y j - fe_chis F i j * x j) with (fe_chis F i j * (y j - x j)) by ring. rewrite Rabs_mult.
    apply Rmult_le_compat; try apply Rabs_pos; [now apply HM|now apply HX]. }
  assert (T3 : Rabs (rsum nc (fun j => y j / fe_sizes F j) - rsum nc (fun j => x j / fe_sizes F j)) <= d * (INR nc * W)).
  { rewrite <- rsum_minus. replace (d * (INR nc * W)) with (INR nc * (d * W)) by ring. apply sum_abs. intros j Hj.
    replace (y j / fe_sizes F j - x j / fe_sizes F j) with ((y j - x j) * / fe_sizes F j) by (unfold Rdiv; ring).
    rewrite Rabs_mult, (Rabs_pos_eq (/ _)) by (left; now apply HI).
    apply Rmult_le_compat; [apply Rabs_pos|left; now apply HI|now apply HX|now apply HI]. }
  assert (T4 : Rabs (rsum nc (fun j => rsum nc (fun l => fe_chis F j l * y j * y l)) - rsum nc (fun j => rsum nc (fun l => fe_chis F j l * x j * x l)))
     <= 2 * (d * (INR nc * (INR nc * (M * (P + d)))))).
  { rewrite <- rsum_minus. replace (2 * (d * (INR nc * (INR nc * (M * (P + d)))))) with (INR nc * (INR nc * (M * (2 * (d * (P + d)))))) by ring.
    apply sum_abs. intros j Hj. rewrite <- rsum_minus. apply sum_abs. intros l Hl.
    replace (fe_chis F j l * y j * y l - fe_chis F j l * x j * x l) with (fe_chis F j l * (y j * y l - x j * x l)) by ring.
    rewrite Rabs_mult. apply Rmult_le_compat; try apply Rabs_pos; [now apply HM|].
    replace (y j * y l - x j * x l) with ((y j - x j) * (y l - x l) + (y j - x j) * x l + x j * (y l - x l)) by ring.
    destruct (HX j Hj) as (B1 & B2). destruct (HX l Hl) as (B3 & B4).
    eapply Rle_trans; [apply Rabs_triang|]. eapply Rle_trans; [apply Rplus_le_compat_r, Rabs_triang|]. rewrite !Rabs_mult.
    assert (Rabs (y j - x j) * Rabs (y l - x l) <= d * d) by (apply Rmult_le_compat; auto using Rabs_pos).
    assert (Rabs (y j - x j) * Rabs (x l) <= d * P) by (apply Rmult_le_compat; auto using Rabs_pos).
    assert (Rabs (x j) * Rabs (y l - x l) <= P * d) by (apply Rmult_le_compat; auto using Rabs_pos).
    assert (0 <= d * d) by (apply Rmult_le_pos; lra). lra. }
  unfold mu_shift. rewrite !Rmult_plus_distr_l.
  apply Rabs_le_inv in T1. apply Rabs_le_inv in T2. apply Rabs_le_inv in T3. apply Rabs_le_inv in T4. apply Rabs_le. lra.
Qed.

(* ------------------------------------------------------------------ *)
(** * One step *)

Section Balance.
Context {G : Type}.
Variables (pf : platform64 G) (dot : nat -> vec64 -> vec64 -> f64) (q : kernel64) (rq : kernel) (k0 : state64 G cstate64).
Variables (s : scales) (kx E : nat) (c : R) (chis64 : mat64) (coef64 : f64) (chis : mat) (shf Xc : R) (npf : nat -> nat) (sizes : vec).
Variables (rho : nat -> nat) (sh cmin : R) (x : vec) (M W : R).
Local Notation nf := (z_nf q).
Local Notation np := (z_np q).
Local Notation nc := (z_nc q).
Local Notation F := (fe_of nc rho chis sizes).

(** the mixture of the package in exact and in binary64 arithmetic, without
    constraints; chi at most [M], sizes at least [1 / W] *)
Record mixture64 : Prop := {
  mx_exp : exp_accurate pf kx;
  mx_dot : dot_accurate dot;
  mx_flory : flory64 dot q rq s c chis64 coef64 chis shf Xc npf sizes;
  mx_scales : flory_scales q s c Xc;
  mx_same : same_problem q rq;
  mx_limits : limits q k0 rq s kx E c;
  mx_mix : mixture rq nc nf rho chis sh sizes;
  mx_ens : any_ensemble rq nc x;
  mx_adm : admissible nc nf chis sizes x;
  mx_min : smallest nf chis cmin;
  mx_cons : Forall idle64 (x_cons k0);
  mx_M : forall r t, (r < nf)%nat -> (t < nf)%nat -> Rabs (chis r t) <= M;
  mx_W : forall i, (i < nc)%nat -> 1 / sizes i <= W
}.
(** numbers in the fields and volumes of [k] within the scales; the fractions that
    belong to them too *)
Record moderate64 (k : state64 G cstate64) : Prop := {
  mo_state : same_state q k rq (twin k) s E;
  mo_phis : forall rk' nv rrep, iterate rq (twin k) = Ok (rk', nv, rrep) -> phis_bounded q s (v_phis_comp rk')
}.
Hypothesis MX : mixture64.

(** rounding errors of fractions, of the combined reported errors, and of
    differences of chemical potentials if fractions are at least [lo] *)
Definition phi_rounding : R := k_phi q kx E * eps64 * s_phi s.
Definition report_rounding : R :=
  2 * (k_diff q k0 kx E c * eps64 * S_diff q k0 s) + INR nf * ((k_xi q k0 kx E c + 4) * eps64 * (S_field q k0 s + s_w s))
  + Rabs (shifted_sum nf chis cmin sh) * ((k_phi q kx E + 2 * INR nc) * eps64 * S_incomp q s).
Definition total_rounding : R := (k_phi q kx E + 2 * INR nc) * eps64 * S_incomp q s + INR nc * phi_rounding.
Definition mu_rounding (lo : R) : R := report_rounding + 2 * mu_shift nc M W (s_phi s) lo phi_rounding.
(** the bound from the errors that are reported *)
Definition reported_imbalance (rep : report64) : R :=
  2 * B2R (r6_Js rep) + INR nf * B2R (r6_omega rep) + Rabs (shifted_sum nf chis cmin sh) * B2R (r6_incomp rep).

Lemma fe_conditions : forall j, (j < fe_nc F)%nat -> 0 < fe_sizes F j /\ 1 / fe_sizes F j <= W.
Proof using MX. intros j Hj. destruct MX. destruct mx_adm0 as (_ & _ & HS & _). split; [now apply HS|now apply mx_W0]. Qed.
Lemma rho_lt : mixture rq nc nf rho chis sh sizes -> forall i, (i < nc)%nat -> (rho i < nf)%nat.
Proof using.
  intros HM. inversion HM; subst; auto. intros i Hi. apply feature_of_lt. exact Hi.
Qed.
Lemma fe_chis_le : forall j l, (j < fe_nc F)%nat -> (l < fe_nc F)%nat -> Rabs (fe_chis F j l) <= M.
Proof using MX.
  intros j l Hj Hl. cbn in *. assert (HR : forall i, (i < nc)%nat -> (rho i < nf)%nat).
  { apply rho_lt, (mx_mix MX). }
  apply (mx_M MX); auto.
Qed.

(** A step from a moderate state succeeds with finite errors and volumes.  No dead
    compartment comes to life.  Fractions of living compartments sum to one within
    the reported error and rounding.  Chemical potentials that [chemical_potentials] gives
    for the fractions (as real numbers) of two living compartments differ by no more
    than the reported errors, weighted as in C11, and the rounding errors. *)
Theorem C102_step k : x_cons k = x_cons k0 -> moderate64 k -> exists k' nv rep,
  iterate64 pf q k = Ok (k', nv, rep) /\ fin (r6_incomp rep) /\ fin (r6_omega rep) /\ fin (r6_Js rep) /\
  (forall m, (m < np)%nat -> fin (x_Js k' m) /\ (B2R (z_thr q) < B2R (x_Js k' m) -> B2R (z_thr q) < B2R (x_Js k m))) /\
  (forall m, (m < np)%nat -> lt64 (z_thr q) (x_Js k m) = true ->
     Rabs (rsum nc (fun i => B2R (x_comp k' i m)) - 1) <= B2R (r6_incomp rep) + total_rounding) /\
  forall lo m n, 0 < lo -> 2 * phi_rounding <= lo -> (m < np)%nat -> (n < np)%nat ->
    lt64 (z_thr q) (x_Js k m) = true -> lt64 (z_thr q) (x_Js k n) = true ->
    (forall i, (i < nc)%nat -> lo <= B2R (x_comp k' i m) /\ lo <= B2R (x_comp k' i n)) ->
    exists mu_m mu_n, potentials F (fun i => B2R (x_comp k' i m)) mu_m /\ potentials F (fun i => B2R (x_comp k' i n)) mu_n /\
      forall i, (i < nc)%nat -> Rabs (mu_m i - mu_n i) <= reported_imbalance rep + mu_rounding lo.
Proof using MX.
  intros EC [SS HB]. pose proof MX as MX'. destruct MX' as [EA DA FL FS SP LI0 HM HE HA Hmin HI0 HMx HW].
  assert (HI : Forall idle64 (x_cons k)) by (rewrite EC; exact HI0).
  assert (LI : limits q k rq s kx E c) by (eapply limits_cons; eassumption).
  set (rk := twin k) in *.
  destruct (sp_thr _ _ SP) as (Ft & Et).
  assert (Ht : 0 <= q_thr rq) by (pose proof (li_thr _ _ _ _ _ _ _ LI); pose proof (bpow_gt_0 radix2 (-100)); lra).
  assert (Hu : 0 < q_ub rq) by (pose proof (li_ub _ _ _ _ _ _ _ LI); pose proof (bpow_gt_0 radix2 (-100)); lra).
  assert (Enp : q_np rq = np) by apply (sp_np _ _ SP).
  assert (TOT : parts_total rq) by (eapply mixture_total; eauto).
  destruct (iterate_total rq rk TOT Ht Hu) as (rk' & nv & rrep & EI).
  { destruct (Rle_dec (rsum (q_np rq) (t_J rq rk)) 0) as [Z|Z]; [rewrite Enp in Z; pose proof (ss_total _ _ _ _ _ _ SS); lra|].
    apply Classical_Prop.NNPP. intros NA. apply Z. apply Req_le, rsum_zero. intros m Hm. unfold t_J, t_masks.
    destruct (mask_cases (v_Js rk) (q_thr rq) m) as [[H ->]|[_ ->]]; [exfalso; apply NA; exists m; split; assumption|ring]. }
  destruct (C96_package pf dot q k rq rk s kx E c chis64 coef64 chis shf Xc npf sizes rk' nv rrep EA DA FL FS (twin_cons dot q s c k HI) SP SS LI EI (HB _ _ _ EI))
    as (k' & rep & H64 & FO).
  exists k', nv, rep. split; [exact H64|]. destruct FO as [FO1 FO2 FO3 FO4 FO5 FO6 FO7 FO8].
  split; [apply FO5|]. split; [apply FO6|]. split; [apply FO7|]. split.
  { intros m Hm. split; [apply (FO2 m Hm)|]. intros Hj. apply Rnot_le_lt. intros Hd.
    assert (Fj : is_finite (x_Js k m) = true) by apply (ss_J _ _ _ _ _ _ SS m Hm).
    pose proof (iterate64_inv _ _ _ _ _ _ H64) as V.
    destruct (proj1 (proj2 (C60_masks (z_thr q) (x_Js k m) Ft Fj)) Hd) as (b & Eb).
    rewrite (vl_Js' _ _ _ _ _ _ V), (vl_masks_eq _ _ _ _ _ _ V), Eb, mul_zero in Hj. rewrite Et in Hj. lra. }
  assert (EK : S_diff q k s = S_diff q k0 s /\ k_diff q k kx E c = k_diff q k0 kx E c /\ S_field q k s = S_field q k0 s /\ k_xi q k kx E c = k_xi q k0 kx E c).
  { unfold S_diff, k_diff, k_energy, S_energy, S_field, k_xi, S_xi. rewrite EC. repeat split. }
  destruct EK as (EK1 & EK2 & EK3 & EK4). rewrite EK1, EK2 in FO7. rewrite EK3, EK4 in FO6.
  apply near_dist in FO5, FO6, FO7. apply Rabs_le_inv in FO5, FO6, FO7.
  assert (AL : forall p, (p < np)%nat -> lt64 (z_thr q) (x_Js k p) = true -> alive (q_thr rq) (v_Js rk) p).
  { intros p Hp HL. apply (proj1 (proj2 (proj2 (C60_masks (z_thr q) (x_Js k p) Ft (proj1 (proj1 (ss_J _ _ _ _ _ _ SS p Hp))))))) in HL.
    unfold alive. rewrite <- Et. exact HL. }
  assert (NE : forall p, (p < np)%nat -> forall j, (j < nc)%nat -> Rabs (v_phis_comp rk' j p) <= s_phi s /\ Rabs (B2R (x_comp k' j p) - v_phis_comp rk' j p) <= phi_rounding).
  { intros p Hp j Hj. split; [apply (HB _ _ _ EI); assumption|apply near_dist, (FO3 j p Hj Hp)]. }
  split.
  { intros m Hm Lm.
    destruct (step_fractions _ _ _ _ _ _ _ _ _ _ _ _ HM HE HA Ht EI) as (_ & _ & _ & _ & _ & SF).
    destruct (SF m ltac:(rewrite Enp; exact Hm) (AL m Hm Lm)) as (_ & ST). apply Rabs_le_inv in ST.
    assert (D : Rabs (rsum nc (fun i => B2R (x_comp k' i m) - v_phis_comp rk' i m)) <= INR nc * phi_rounding) by (apply sum_abs; intros i Hi; now apply NE).
    rewrite rsum_minus in D. apply Rabs_le_inv in D. unfold total_rounding. apply Rabs_le. lra. }
  intros lo m n Hlo H2 Hm Hn Lm Ln Hph.
  destruct (C11_step_bound _ _ _ _ _ _ _ _ _ _ _ _ _ HM HE HA Hmin Ht (twin_idle k) EI) as (mu & P1 & P2).
  specialize (P2 m n). rewrite Enp in P1, P2.
  pose proof (P1 m Hm (AL m Hm Lm)) as Pm. pose proof (P1 n Hn (AL n Hn Ln)) as Pn.
  assert (WF : wf_fe F).
  { apply (step_fractions _ _ _ _ _ _ _ _ _ _ _ _ HM HE HA Ht EI). }
  assert (PO : forall p, (p < np)%nat -> (forall j, (j < nc)%nat -> lo <= B2R (x_comp k' j p)) -> forall j, (j < nc)%nat -> 0 < v_phis_comp rk' j p).
  { intros p Hp Hl j Hj. destruct (NE p Hp j Hj) as [_ D]. apply Rabs_le_inv in D. specialize (Hl j Hj). lra. }
  assert (Q : forall p, (p < np)%nat -> (forall j, (j < nc)%nat -> lo <= B2R (x_comp k' j p)) -> potentials F (fun i => v_phis_comp rk' i p) (mu p) ->
    forall i, (i < nc)%nat -> Rabs (mu_of F (fun j => B2R (x_comp k' j p)) i - mu p i) <= mu_shift nc M W (s_phi s) lo phi_rounding).
  { intros p Hp Hl Pp i Hi. rewrite (potentials_inj _ _ _ _ Pp (potentials_mu F _ WF (PO p Hp Hl)) i Hi).
    apply (mu_perturb F (fun j => v_phis_comp rk' j p) (fun j => B2R (x_comp k' j p))); auto using fe_conditions, fe_chis_le. }
  exists (mu_of F (fun i => B2R (x_comp k' i m))), (mu_of F (fun i => B2R (x_comp k' i n))).
  assert (Lm' : forall j, (j < nc)%nat -> lo <= B2R (x_comp k' j m)) by (intros; now apply Hph).
  assert (Ln' : forall j, (j < nc)%nat -> lo <= B2R (x_comp k' j n)) by (intros; now apply Hph).
  split; [|split].
  - apply potentials_mu; [exact WF|]. intros j Hj. specialize (Lm' j Hj). lra.
  - apply potentials_mu; [exact WF|]. intros j Hj. specialize (Ln' j Hj). lra.
  - intros i Hi. specialize (P2 i Hm Hn (AL m Hm Lm) (AL n Hn Ln) Hi).
    pose proof (Q m Hm Lm' Pm i Hi) as D1. pose proof (Q n Hn Ln' Pn i Hi) as D2.
    unfold reported_imbalance, mu_rounding, report_rounding.
    pose proof (pos_INR nf) as N0. pose proof (Rabs_pos (shifted_sum nf chis cmin sh)) as S0.
    assert (B1 : INR nf * e_omega rrep <= INR nf * (B2R (r6_omega rep) + (k_xi q k0 kx E c + 4) * eps64 * (S_field q k0 s + s_w s))) by (apply Rmult_le_compat_l; lra).
    assert (B2 : Rabs (shifted_sum nf chis cmin sh) * e_incomp rrep <= Rabs (shifted_sum nf chis cmin sh) * (B2R (r6_incomp rep) + (k_phi q kx E + 2 * INR nc) * eps64 * S_incomp q s)) by (apply Rmult_le_compat_l; lra).
    rewrite Rmult_plus_distr_l in B1, B2.
    apply Rabs_le_inv in P2, D1, D2. apply Rabs_le. lra.
Qed.

(* ------------------------------------------------------------------ *)
(** * The phases that are returned *)

Lemma step_keeps_cons k k' nv rep : Forall idle64 (x_cons k) -> iterate64 pf q k = Ok (k', nv, rep) -> x_cons k' = x_cons k.
Proof using.
  intros HI H. pose proof (iterate64_inv _ _ _ _ _ _ H) as V.
  rewrite (vl_cons' _ _ _ _ _ _ V), (vl_cs_eq _ _ _ _ _ _ V), idle_prepare by exact HI. apply idle_evolve, HI.
Qed.
Lemma revive_keeps_cons tries n (k : state64 G cstate64) : x_cons (snd (maybe_revive64 pf q tries n k)) = x_cons k.
Proof using.
  unfold maybe_revive64. destruct (Z.ltb _ _); [|reflexivity]. destruct (Nat.eqb _ _); [reflexivity|].
  destruct (revive_random64 _ _ _ _ _ _ _ _) as [[[c' J] t] g]. reflexivity.
Qed.
(** [k1] is reached from [k0] with [n] steps (and revivals in between) *)
Inductive leads : nat -> state64 G cstate64 -> Prop :=
| leads_start : leads 0 k0
| leads_revive n k tries cnt : leads n k -> leads n (snd (maybe_revive64 pf q tries cnt k))
| leads_step n k k' nv rep : leads n k -> iterate64 pf q k = Ok (k', nv, rep) -> leads (S n) k'.
Lemma leads_cons n k : Forall idle64 (x_cons k0) -> leads n k -> x_cons k = x_cons k0.
Proof using.
  intros HI H. induction H as [|n k tries cnt H IH|n k k' nv rep H IH I]; [reflexivity|now rewrite revive_keeps_cons|].
  rewrite <- IH in HI. rewrite <- IH. eapply step_keeps_cons; eassumption.
Qed.
Lemma one_step_leads tries n w w' : leads n (u_k w) -> one_step64 pf q tries w = Ok w' ->
  leads (S n) (u_k w') /\ exists k1 rep, leads n k1 /\ iterate64 pf q k1 = Ok (u_k w', u_valid w', rep) /\ u_rep w' = Some rep.
Proof using.
  intros L. unfold one_step64. pose proof (leads_revive n (u_k w) tries (u_count w) L) as R.
  destruct (maybe_revive64 pf q tries (u_count w) (u_k w)) as [c' k]. cbn [snd] in R.
  destruct (iterate64 pf q k) as [[[k' nv] rep]|] eqn:I; [|discriminate]. cbn. intros H. injection H as <-. cbn.
  split; [eapply leads_step; eassumption|]. exists k, rep. auto.
Qed.
Lemma steps_leads tries a : forall n w w', leads a (u_k w) -> steps64 pf q tries n w = Ok w' -> leads (a + n) (u_k w').
Proof using.
  induction n as [|n IH]; intros w w' L H; cbn [steps64] in H; [injection H as <-; now rewrite Nat.add_0_r|].
  destruct (steps64 pf q tries n w) as [w1|] eqn:E1; [|discriminate]. cbn [bind] in H. specialize (IH w w1 L E1).
  rewrite Nat.add_succ_r. now apply (one_step_leads tries (a + n) w1 w').
Qed.
Lemma metastep_leads inner tries a k k' rep n safe : leads a k -> metastep64 pf q inner tries k = Ok (k', rep, n, safe) ->
  leads (a + inner) k' /\ exists b k1 nv, S b = (a + inner)%nat /\ leads b k1 /\ iterate64 pf q k1 = Ok (k', nv, rep).
Proof using.
  intros L. unfold metastep64. destruct inner as [|inner]; [discriminate|]. cbn [steps64].
  destruct (steps64 pf q tries inner _) as [w|] eqn:E0; [|discriminate]. cbn [bind].
  destruct (one_step64 pf q tries w) as [w'|] eqn:E1; [|discriminate]. cbn [bind].
  apply (steps_leads tries a) in E0; [|exact L].
  destruct (one_step_leads tries (a + inner) w w' E0 E1) as (C1 & k1 & rep' & C2 & I & Er). rewrite Er.
  intros H. injection H as <- <- <- <-. rewrite Nat.add_succ_r. split; [exact C1|]. exists (a + inner)%nat, k1, (u_valid w'). auto.
Qed.
Lemma loop_leads tol inner : forall tr a k left last o, leads a k ->
  loop64 pf q tol inner tr k left last = Ok o ->
  (tr = O /\ last = Some o) \/ exists b k1 nv, (b < a + inner * tr)%nat /\ leads b k1 /\ iterate64 pf q k1 = Ok (oc_k o, nv, oc_rep o).
Proof using.
  induction tr as [|tr IH]; intros a k left last o L H; cbn [loop64] in H.
  - left. destruct last; [injection H as <-; auto|discriminate].
  - right. destruct (metastep64 pf q inner left k) as [[[[k' rep] n] safe]|] eqn:E1; [|discriminate]. cbn [bind] in H.
    apply (metastep_leads inner left a) in E1; [|exact L]. destruct E1 as (C1 & b & k1 & nv & Eb & Lb & I).
    assert (K : forall o1, oc_k o1 = k' -> oc_rep o1 = rep -> exists b k1 nv, (b < a + inner * S tr)%nat /\ leads b k1 /\ iterate64 pf q k1 = Ok (oc_k o1, nv, oc_rep o1)).
    { intros o1 E2 E3. exists b, k1, nv. rewrite E2, E3. split; [nia|auto]. }
    destruct (converged64 tol safe rep); [injection H as <-; apply K; reflexivity|].
    apply (IH (a + inner)%nat) in H; [|exact C1]. destruct H as [[-> H]|(b' & k2 & nv' & B1 & B2 & B3)]; [injection H as <-; apply K; reflexivity|].
    exists b', k2, nv'. split; [nia|auto].
Qed.

Lemma potentials_ext_phi phi phi' mu : (forall i, (i < nc)%nat -> phi i = phi' i) -> potentials F phi mu -> potentials F phi' mu.
Proof using. intros H. unfold potentials. now rewrite (listed_ext (fe_nc F) phi phi' H). Qed.

(** The same for the phases that a run returns: if the state that entered its last
    step is moderate, then all returned volumes are finite and above the threshold,
    their fractions sum to one within the reported error, and the potentials of all returned compositions are balanced within the last
    reported errors; within a multiple of the tolerance if the run converged. *)
Theorem C102_run ops tol inner tr left o J phis : same_draws pf ops -> rng_contract ops ->
  run64 pf q tol inner tr left k0 = Ok (o, J, phis) -> exists n k1 nv,
  (n < inner * tr)%nat /\ leads n k1 /\ iterate64 pf q k1 = Ok (oc_k o, nv, oc_rep o) /\
  (moderate64 k1 -> forall lo, 0 < lo -> 2 * phi_rounding <= lo ->
   (forall i p, (i < nc)%nat -> (p < np)%nat -> lo <= B2R (phis i p)) ->
   (forall p, (p < np)%nat -> fin (J p) /\ B2R (z_thr q) < B2R (J p)) /\
   (forall p, (p < np)%nat -> Rabs (rsum nc (fun i => B2R (phis i p)) - 1) <= B2R (r6_incomp (oc_rep o)) + total_rounding) /\
   exists mu : nat -> vec,
     (forall p, (p < np)%nat -> potentials F (fun i => B2R (phis i p)) (mu p)) /\
     (forall p1 p2 i, (p1 < np)%nat -> (p2 < np)%nat -> (i < nc)%nat ->
        Rabs (mu p1 i - mu p2 i) <= reported_imbalance (oc_rep o) + mu_rounding lo) /\
     (fin tol -> converged64 tol (oc_safe o) (oc_rep o) = true -> forall p1 p2 i, (p1 < np)%nat -> (p2 < np)%nat -> (i < nc)%nat ->
        Rabs (mu p1 i - mu p2 i) < (2 + INR nf + Rabs (shifted_sum nf chis cmin sh)) * B2R tol + mu_rounding lo)).
Proof using MX.
  intros SD RC H. unfold run64 in H.
  destruct (loop64 pf q tol inner tr k0 left None) as [o'|] eqn:EL; [|discriminate]. cbn [bind] in H.
  destruct (revive_copy64 _ _ _ _ _ _) as [[[J' phis'] g']|] eqn:EC; [|discriminate]. cbn [bind] in H. injection H as -> -> ->.
  apply (loop_leads tol inner tr 0%nat) in EL; [|apply leads_start]. destruct EL as [[_ EL]|(n & k1 & nv & Ln & Lk & I)]; [discriminate|].
  pose proof (leads_cons n k1 (mx_cons MX) Lk) as Ck.
  exists n, k1, nv. split; [exact Ln|]. split; [exact Lk|]. split; [exact I|]. intros MO lo Hlo H2 Hph.
  destruct (C102_step k1 Ck MO) as (k' & nv' & rep & I' & F1 & F2 & F3 & VJ & TS & PB). rewrite I in I'. injection I' as <- <- <-.
  destruct (sp_thr _ _ (mx_same MX)) as (Ft & Et).
  pose proof (li_thr _ _ _ _ _ _ _ (mx_limits MX)) as Ht. rewrite <- Et in Ht. pose proof (bpow_gt_0 radix2 (-100)) as B0.
  assert (Gr : bpow radix2 (-1022) <= B2R (z_thr q)) by (eapply Rle_trans; [|exact Ht]; apply bpow_le; lia).
  destruct (C97_copy pf ops np (z_thr q) _ _ _ _ _ _ SD RC Ft ltac:(lra) (fun m Hm => proj1 (VJ m Hm)) (or_introl Gr) EC) as (V1 & (pick & O1 & _) & _).
  split; [exact V1|].
  assert (LV : forall p, (p < np)%nat -> lt64 (z_thr q) (x_Js k1 (pick p)) = true).
  { intros p Hp. destruct (O1 p Hp) as (Ho & HL & _). destruct MO as [SS _].
    apply (proj1 (proj2 (proj2 (C60_masks (z_thr q) (x_Js k1 (pick p)) Ft (proj1 (proj1 (ss_J _ _ _ _ _ _ SS _ Ho))))))). now apply VJ. }
  assert (EP : forall p, (p < np)%nat -> forall i, B2R (phis i p) = B2R (x_comp (oc_k o) i (pick p))) by (intros p Hp; now apply O1).
  split.
  { intros p Hp. rewrite (rsum_ext nc _ (fun i => B2R (x_comp (oc_k o) i (pick p)))) by (intros; now apply EP).
    apply TS; [now apply O1|now apply LV]. }
  assert (WF : wf_fe F).
  { pose proof (mx_adm MX) as (Hn & Hsym & Hsz & Hx). split; cbn.
    - intros i Hi. specialize (Hsz i Hi). lra.
    - intros i j Hi Hj. apply Hsym; apply rho_lt; auto; apply (mx_mix MX). }
  exists (fun p => mu_of F (fun i => B2R (phis i p))).
  assert (PM : forall p, (p < np)%nat -> potentials F (fun i => B2R (phis i p)) (mu_of F (fun i => B2R (phis i p)))).
  { intros p Hp. apply potentials_mu; [exact WF|]. intros i Hi. specialize (Hph i p Hi Hp). lra. }
  split; [exact PM|].
  assert (BD : forall p1 p2 i, (p1 < np)%nat -> (p2 < np)%nat -> (i < nc)%nat ->
    Rabs (mu_of F (fun i => B2R (phis i p1)) i - mu_of F (fun i => B2R (phis i p2)) i) <= reported_imbalance (oc_rep o) + mu_rounding lo).
  { intros p1 p2 i Hp1 Hp2 Hi.
    destruct (PB lo (pick p1) (pick p2) Hlo H2 (proj1 (O1 p1 Hp1)) (proj1 (O1 p2 Hp2)) (LV p1 Hp1) (LV p2 Hp2)) as (m1 & m2 & Q1 & Q2 & Q3).
    { intros j Hj. rewrite <- !EP by assumption. auto. }
    assert (X1 : potentials F (fun i => B2R (phis i p1)) m1) by (eapply potentials_ext_phi; [|exact Q1]; intros; symmetry; now apply EP).
    assert (X2 : potentials F (fun i => B2R (phis i p2)) m2) by (eapply potentials_ext_phi; [|exact Q2]; intros; symmetry; now apply EP).
    rewrite <- (potentials_inj _ _ _ _ X1 (PM p1 Hp1) i Hi), <- (potentials_inj _ _ _ _ X2 (PM p2 Hp2) i Hi). now apply Q3. }
  split; [exact BD|]. intros Fo CV p1 p2 i Hp1 Hp2 Hi. eapply Rle_lt_trans; [now apply BD|].
  unfold converged64 in CV. rewrite !andb_true_iff in CV. destruct CV as ((((_ & K1) & K2) & K3) & _).
  apply lt_B2R in K1, K2, K3; try assumption.
  unfold reported_imbalance. pose proof (pos_INR nf). pose proof (Rabs_pos (shifted_sum nf chis cmin sh)).
  assert (INR nf * B2R (r6_omega (oc_rep o)) <= INR nf * B2R tol) by (apply Rmult_le_compat_l; lra).
  assert (Rabs (shifted_sum nf chis cmin sh) * B2R (r6_incomp (oc_rep o)) <= Rabs (shifted_sum nf chis cmin sh) * B2R tol) by (apply Rmult_le_compat_l; lra).
  lra.
Qed.
End Balance.
