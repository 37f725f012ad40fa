(** PropertiesPartition.v -- how strongly a component can be enriched in one of
    the coexisting phases (C88). *)

From Coquelicot Require Import Coquelicot.
From Coq Require Import Reals Lra Lia List Bool Arith ZArith FunctionalExtensionality.
From Verif Require Import Base ModelCommon ModelParts ModelKernel ModelPhases ModelFinder ProofsKernel ProofsParts ProofsSteps
  ProofsRun ProofsRun2 ModelFreeEnergy ProofsFreeEnergy Spec Examples PropertiesKernel PropertiesRun PropertiesFreeEnergy
  PropertiesConstraints ProofsEquilibrium PropertiesEquilibrium PropertiesConvex.
Import ListNotations.
Open Scope R_scope.

Lemma exp_mono a b : a <= b -> exp a <= exp b.
Proof. intros [H| ->]; [left; now apply exp_increasing|right; reflexivity]. Qed.

(* ------------------------------------------------------------------ *)
(** * Boltzmann factors with nearly parallel fields *)

Lemma common_shift nc (l a u v phi psi : vec) t V lmin dx :
  0 < lmin -> (forall i, (i < nc)%nat -> lmin <= l i) -> (forall i, (i < nc)%nat -> 0 < a i) -> 0 <= t < 1 ->
  (forall i, (i < nc)%nat -> phi i = a i * exp (- u i * l i)) ->
  (forall i, (i < nc)%nat -> psi i = a i * exp (- v i * l i)) ->
  1 - t <= rsum nc phi -> rsum nc psi <= 1 + t ->
  (forall i, (i < nc)%nat -> Rabs (u i - v i - dx) <= V) ->
  dx <= V + ln ((1 + t) / (1 - t)) / lmin.
Proof.
  intros Hm Hl Ha Ht Hp Hq Sp Sq HV.
  assert (R1 : 1 <= (1 + t) / (1 - t)).
  { apply (Rmult_le_reg_r (1 - t)); [lra|]. unfold Rdiv. rewrite Rmult_assoc, Rinv_l by lra. lra. }
  assert (L0 : 0 <= ln ((1 + t) / (1 - t))) by (rewrite <- ln_1; apply ln_le; lra).
  assert (I0 : 0 < / lmin) by now apply Rinv_0_lt_compat.
  set (s0 := ln ((1 + t) / (1 - t)) / lmin).
  destruct (Rle_dec dx (V + s0)) as [L|L]; [exact L|exfalso].
  set (s := dx - V). assert (Hs : s0 < s) by (unfold s; lra).
  assert (Hs0 : 0 <= s0) by (unfold s0, Rdiv; nra).
  assert (E : rsum nc phi <= rsum nc psi * exp (- (s * lmin))).
  { rewrite <- rsum_scal_r. apply rsum_le. intros i Hi. rewrite Hp, Hq, Rmult_assoc, <- exp_plus by auto.
    apply Rmult_le_compat_l; [left; auto|]. apply exp_mono.
    specialize (HV i Hi). apply Rabs_le_inv in HV. specialize (Hl i Hi).
    assert (s <= u i - v i) by (unfold s; lra).
    assert (s * lmin <= (u i - v i) * l i) by (apply Rmult_le_compat; lra). lra. }
  assert (P : 0 < exp (- (s * lmin))) by apply exp_pos.
  assert (E2 : 1 - t <= (1 + t) * exp (- (s * lmin))) by nra.
  assert (E3 : exp (s * lmin) <= (1 + t) / (1 - t)).
  { rewrite exp_Ropp in E2. pose proof (exp_pos (s * lmin)) as P2.
    apply (Rmult_le_reg_r (1 - t)); [lra|]. unfold Rdiv. rewrite (Rmult_assoc (1 + t)), Rinv_l, Rmult_1_r by lra.
    apply (Rmult_le_compat_l (exp (s * lmin))) in E2; [|lra].
    replace (exp (s * lmin) * ((1 + t) * / exp (s * lmin))) with (1 + t) in E2 by (field; lra). exact E2. }
  assert (E4 : s * lmin <= ln ((1 + t) / (1 - t))).
  { rewrite <- (ln_exp (s * lmin)). apply ln_le; [apply exp_pos|exact E3]. }
  assert (E5 : s <= s0).
  { unfold s0, Rdiv. apply (Rmult_le_reg_r lmin); [lra|]. rewrite Rmult_assoc, Rinv_l by lra. lra. }
  lra.
Qed.

Lemma ratio_bound nc (l a u v phi psi : vec) t V lmin dx :
  0 < lmin -> (forall i, (i < nc)%nat -> lmin <= l i) -> (forall i, (i < nc)%nat -> 0 < a i) -> 0 <= t < 1 ->
  (forall i, (i < nc)%nat -> phi i = a i * exp (- u i * l i)) ->
  (forall i, (i < nc)%nat -> psi i = a i * exp (- v i * l i)) ->
  Rabs (rsum nc phi - 1) <= t -> Rabs (rsum nc psi - 1) <= t ->
  (forall i, (i < nc)%nat -> Rabs (u i - v i - dx) <= V) ->
  forall i, (i < nc)%nat -> phi i <= psi i * exp (l i * (2 * V + ln ((1 + t) / (1 - t)) / lmin)).
Proof.
  intros Hm Hl Ha Ht Hp Hq Sp Sq HV i Hi. apply Rabs_le_inv in Sp, Sq.
  pose proof (common_shift nc l a v u psi phi t V lmin (- dx) Hm Hl Ha Ht Hq Hp ltac:(lra) ltac:(lra)) as B.
  rewrite Hp, Hq, Rmult_assoc, <- exp_plus by auto. apply Rmult_le_compat_l; [left; auto|]. apply exp_mono.
  assert (B' : - dx <= V + ln ((1 + t) / (1 - t)) / lmin).
  { apply B. intros j Hj. specialize (HV j Hj). rewrite <- Rabs_Ropp. replace (- (v j - u j - - dx)) with (u j - v j - dx) by ring. exact HV. }
  specialize (HV i Hi). apply Rabs_le_inv in HV. specialize (Hl i Hi).
  assert (v i - u i <= 2 * V + ln ((1 + t) / (1 - t)) / lmin) by lra.
  assert (l i * (v i - u i) <= l i * (2 * V + ln ((1 + t) / (1 - t)) / lmin)) by (apply Rmult_le_compat_l; lra).
  lra.
Qed.

(* ------------------------------------------------------------------ *)
(** ** C88 *)

(** largest difference of a field between two compartments: twice the spread of
    the chi matrix and terms that vanish with the errors *)
Definition leeway (nf : nat) (chis : mat) (lo hi sh lmin w inc : R) : R :=
  2 * ((hi - lo) + (Rabs lo + Rabs hi) * inc + INR nf * w + Rabs (shifted_sum nf chis lo sh) * inc)
  + ln ((1 + inc) / (1 - inc)) / lmin.

Definition largest (n : nat) (A : mat) (c : R) : Prop :=
  (exists i j, (i < n)%nat /\ (j < n)%nat /\ A i j = c) /\ forall i j, (i < n)%nat -> (j < n)%nat -> A i j <= c.

(** In any two living compartments. *)
Theorem C88_step {G} q (k k' : kstate G cstate) nv rep nc nf rho chis sh sizes x lo hi lmin :
  mixture q nc nf rho chis sh sizes -> any_ensemble q nc x -> admissible nc nf chis sizes x ->
  smallest nf chis lo -> largest nf chis hi -> 0 < lmin -> (forall i, (i < nc)%nat -> lmin <= sizes i) ->
  0 <= q_thr q -> Forall idle (v_cons k) -> iterate q k = Ok (k', nv, rep) -> e_incomp rep < 1 ->
  forall m n i, (m < q_np q)%nat -> (n < q_np q)%nat -> alive (q_thr q) (v_Js k) m -> alive (q_thr q) (v_Js k) n -> (i < nc)%nat ->
  v_phis_comp k' i m <= v_phis_comp k' i n * exp (sizes i * leeway nf chis lo hi sh lmin (e_omega rep) (e_incomp rep)).
Proof.
  intros HM HE HA Hlo Hhi Hm0 Hl Ht HI H Hinc m n i Hm Hn Lm Ln Hi.
  destruct (step_fractions _ _ _ _ _ _ _ _ _ _ _ _ HM HE HA Ht H) as (HR & WF & N1 & N2 & N3 & HF).
  destruct (HF m Hm Lm) as (Pm & Sm), (HF n Hn Ln) as (Pn & Sn).
  destruct HA as (Hnf & Hsym & Hsz & Hx).
  destruct (ensemble_kind q k nc rho sizes x HE) as [a HA].
  destruct (mixture_facts _ _ _ _ _ _ _ _ _ _ _ _ _ HM HA H) as (phis & inc & MF).
  assert (EP : v_phis_comp k' = phis) by (destruct (mf_it _ _ _ _ _ _ _ _ _ _ _ _ _ MF) as [nv' I]; apply (if_comp I)).
  rewrite EP in *. clear EP.
  destruct (idle_sums q k phis HI) as [ZP ZV].
  set (t := e_incomp rep) in *.
  set (V := (hi - lo) + (Rabs lo + Rabs hi) * t + INR nf * e_omega rep + Rabs (shifted_sum nf chis lo sh) * t).
  change (leeway nf chis lo hi sh lmin (e_omega rep) t) with (2 * V + ln ((1 + t) / (1 - t)) / lmin).
  apply (ratio_bound nc sizes a (fun i => v_omegas k (rho i) m) (fun i => v_omegas k (rho i) n) (fun i => phis i m) (fun i => phis i n)
    t V lmin (t_xi q k phis inc m - t_xi q k phis inc n)); auto.
  - intros j Hj. eapply a_pos; eauto.
  - intros j Hj. eapply frac_alive; eauto.
  - intros j Hj. eapply frac_alive; eauto.
  - intros j Hj. clear i Hi.
    pose proof (mf_rho _ _ _ _ _ _ _ _ _ _ _ _ _ MF j Hj) as Hr.
    pose proof (max_diff_ge _ _ _ _ _ _ _ _ _ _ _ _ _ MF (rho j) m Hr Hm) as A1.
    pose proof (max_diff_ge _ _ _ _ _ _ _ _ _ _ _ _ _ MF (rho j) n Hr Hn) as A2.
    pose proof (diff_lower _ _ _ _ _ _ _ _ _ _ _ _ _ MF (rho j) m Hr Hm Lm) as B1.
    pose proof (diff_lower _ _ _ _ _ _ _ _ _ _ _ _ _ MF (rho j) n Hr Hn Ln) as B2.
    rewrite (coef_of_mixture _ _ _ _ _ _ _ _ Hnf HM Hlo) in B1, B2. fold t in B1, B2.
    rewrite (diff_alive q k phis inc (rho j) m Lm), ZP in A1, B1. rewrite (diff_alive q k phis inc (rho j) n Ln), ZP in A2, B2.
    pose proof (pot_comp _ _ _ _ _ _ _ _ _ _ _ _ _ MF j m Hj) as U1. pose proof (pot_comp _ _ _ _ _ _ _ _ _ _ _ _ _ MF j n Hj) as U2.
    assert (BU : forall c, (forall z, (z < nc)%nat -> 0 < phis z c) -> Rabs (rsum nc (fun z => phis z c) - 1) <= t ->
       t_pot q k phis (rho j) c = rsum nc (fun z => chis (rho j) (rho z) * phis z c) ->
       lo - Rabs lo * t <= t_pot q k phis (rho j) c <= hi + Rabs hi * t).
    { clear - HR Hlo Hhi Hr. intros c Pc Sc ->. set (S := rsum nc (fun z => phis z c)) in *. apply Rabs_le_inv in Sc. split.
      - apply Rle_trans with (lo * S).
        + pose proof (Rle_abs lo). pose proof (Rle_abs (- lo)) as X. rewrite Rabs_Ropp in X. destruct (Rle_dec 0 lo); nra.
        + unfold S. rewrite <- rsum_scal_l. apply rsum_le. intros z Hz. apply Rmult_le_compat_r; [left; auto|]. apply Hlo; auto.
      - apply Rle_trans with (hi * S).
        + unfold S. rewrite <- rsum_scal_l. apply rsum_le. intros z Hz. apply Rmult_le_compat_r; [left; auto|]. apply Hhi; auto.
        + pose proof (Rle_abs hi). pose proof (Rle_abs (- hi)) as X. rewrite Rabs_Ropp in X. destruct (Rle_dec 0 hi); nra. }
    pose proof (BU m Pm Sm U1) as V1. pose proof (BU n Pn Sn U2) as V2. unfold V. apply Rabs_le. lra.
Qed.

(** a weighted mean lies between the bounds of its members *)
Lemma wmean_between n (J f : vec) lo hi : (forall m, (m < n)%nat -> 0 <= J m) -> 0 < rsum n J ->
  (forall m, (m < n)%nat -> 0 < J m -> lo <= f m <= hi) -> lo <= wmean n J f <= hi.
Proof.
  intros HJ HS HF. unfold wmean.
  assert (A : lo * rsum n J <= rsum n (fun m => J m * f m) <= hi * rsum n J).
  { split; rewrite <- rsum_scal_l; apply rsum_le; intros m Hm; destruct (HJ m Hm) as [P|P];
      [destruct (HF m Hm P); nra|rewrite <- P; lra|destruct (HF m Hm P); nra|rewrite <- P; lra]. }
  split; [apply (Rmult_le_reg_r (rsum n J)); [lra|]|apply (Rmult_le_reg_r (rsum n J)); [lra|]];
    unfold Rdiv; rewrite (Rmult_assoc _ (/ _)), Rinv_l by lra; lra.
Qed.

(** In the canonical ensemble, compared with the prescribed mean. *)
Theorem C88_canonical {G} q (k k' : kstate G cstate) nv rep nc nf rho chis sh sizes pm lo hi lmin :
  mixture q nc nf rho chis sh sizes -> q_ensemble q = can_compiled nc pm -> admissible nc nf chis sizes pm ->
  smallest nf chis lo -> largest nf chis hi -> 0 < lmin -> (forall i, (i < nc)%nat -> lmin <= sizes i) ->
  0 <= q_thr q -> Forall idle (v_cons k) -> iterate q k = Ok (k', nv, rep) -> e_incomp rep < 1 ->
  forall m i, (m < q_np q)%nat -> alive (q_thr q) (v_Js k) m -> (i < nc)%nat ->
  let L := sizes i * leeway nf chis lo hi sh lmin (e_omega rep) (e_incomp rep) in
  pm i * exp (- L) <= v_phis_comp k' i m <= pm i * exp L.
Proof.
  intros HM HE HA Hlo Hhi Hm0 Hl Ht HI H Hinc m i Hm Lm Hi L.
  pose proof (C88_step q k k' nv rep nc nf rho chis sh sizes pm lo hi lmin HM (or_introl HE) HA Hlo Hhi Hm0 Hl Ht HI H Hinc) as C.
  fold L in C.
  assert (W : wmean (q_np q) (living (q_thr q) (v_Js k)) (fun n => v_phis_comp k' i n) = pm i).
  { destruct HM as [q n chis sh sizes F1 F2 F3|q nf npf chis sh sizes F1 F2 F3 F4].
    - eapply C01_canonical_mean_ideal_gas; eauto.
    - eapply C01_canonical_mean_polydispersed; eauto. }
  assert (J0 : forall n, 0 <= living (q_thr q) (v_Js k) n) by (intros n; unfold living; destruct (Rlt_dec _ _); lra).
  assert (JS : 0 < rsum (q_np q) (living (q_thr q) (v_Js k))).
  { apply rsum_pos; [auto|]. exists m. split; auto. unfold living, alive in *. destruct (Rlt_dec _ _); lra. }
  pose proof (exp_pos L) as P. pose proof (exp_pos (- L)) as P'.
  assert (EE : exp (- L) * exp L = 1) by (rewrite <- exp_plus, Rplus_opp_l; apply exp_0).
  assert (B : v_phis_comp k' i m * exp (- L) <= pm i <= v_phis_comp k' i m * exp L).
  { rewrite <- W. apply wmean_between; auto. intros n Hn Jn.
    assert (Ln : alive (q_thr q) (v_Js k) n) by (unfold living, alive in *; destruct (Rlt_dec _ _); lra).
    split; [|apply C; auto].
    pose proof (C m n i Hm Hn Lm Ln Hi) as X. fold L in X.
    apply (Rmult_le_compat_r (exp (- L))) in X; [|lra]. rewrite Rmult_assoc, (Rmult_comm (exp L)), EE in X. lra. }
  split.
  - apply Rle_trans with (v_phis_comp k' i m * exp L * exp (- L)); [apply Rmult_le_compat_r; lra|].
    rewrite Rmult_assoc, (Rmult_comm (exp L)), EE. lra.
  - apply Rle_trans with (v_phis_comp k' i m * exp (- L) * exp L); [rewrite Rmult_assoc, EE; lra|apply Rmult_le_compat_r; lra].
Qed.

(** At vanishing errors only the spread of the chi matrix and the molecule
    sizes enter. *)
Theorem C88_zero {G} q (k k' : kstate G cstate) nv rep nc nf rho chis sh sizes pm lo hi :
  mixture q nc nf rho chis sh sizes -> q_ensemble q = can_compiled nc pm -> admissible nc nf chis sizes pm ->
  smallest nf chis lo -> largest nf chis hi ->
  0 <= q_thr q -> Forall idle (v_cons k) -> iterate q k = Ok (k', nv, rep) -> e_incomp rep = 0 -> e_omega rep = 0 ->
  forall m i, (m < q_np q)%nat -> alive (q_thr q) (v_Js k) m -> (i < nc)%nat ->
  pm i * exp (- (2 * sizes i * (hi - lo))) <= v_phis_comp k' i m <= pm i * exp (2 * sizes i * (hi - lo)).
Proof.
  intros HM HE HA Hlo Hhi Ht HI H E1 E2 m i Hm Lm Hi.
  assert (HL : exists lmin, 0 < lmin /\ forall i, (i < nc)%nat -> lmin <= sizes i).
  { destruct HA as (_ & _ & Hs & _). clear - Hs. induction nc as [|n IH].
    - exists 1. split; [lra|]. intros; lia.
    - destruct IH as (y & Hy & B); [intros; apply Hs; lia|]. exists (Rmin y (sizes n)). split.
      + apply Rmin_glb_lt; [lra|]. apply Hs; lia.
      + intros j Hj. destruct (Nat.eq_dec j n) as [->|N]; [apply Rmin_r|]. eapply Rle_trans; [apply Rmin_l|]. apply B. lia. }
  destruct HL as (lmin & Hm0 & Hl).
  pose proof (C88_canonical q k k' nv rep nc nf rho chis sh sizes pm lo hi lmin HM HE HA Hlo Hhi Hm0 Hl Ht HI H ltac:(lra) m i Hm Lm Hi) as C.
  cbv zeta in C. rewrite E1, E2 in C. unfold leeway in C.
  replace ((1 + 0) / (1 - 0)) with 1 in C by field. rewrite ln_1 in C.
  replace (sizes i * (2 * (hi - lo + (Rabs lo + Rabs hi) * 0 + INR nf * 0 + Rabs (shifted_sum nf chis lo sh) * 0) + 0 / lmin))
    with (2 * sizes i * (hi - lo)) in C by (field; lra).
  exact C.
Qed.

(** The phases returned by [run], with the errors in the diagnostics. *)
Theorem C88_run {G} (ops : rng_ops G) (f : finder G cstate) a t i f' ph d nf rho chis sh sizes x lo hi lmin :
  rng_contract ops -> 0 <= m_thr (f_par f) ->
  mixture (kernel_of f) (f_nc f) nf rho chis sh sizes -> any_ensemble (kernel_of f) (f_nc f) x ->
  admissible (f_nc f) nf chis sizes x ->
  smallest nf chis lo -> largest nf chis hi -> 0 < lmin -> (forall c, (c < f_nc f)%nat -> lmin <= sizes c) ->
  Forall idle (v_cons (f_k f)) -> run ops f a t i = (f', Ok ph) -> f_diag f' = Some d -> d_incomp d < 1 ->
  let L := fun c => sizes c * leeway nf chis lo hi sh lmin (d_omega d) (d_incomp d) in
  (forall p1 p2 c, (p1 < f_np f)%nat -> (p2 < f_np f)%nat -> (c < f_nc f)%nat -> frac ph p1 c <= frac ph p2 c * exp (L c)) /\
  (f_ensemble f = can_compiled (f_nc f) x -> forall p c, (p < f_np f)%nat -> (c < f_nc f)%nat ->
     x c * exp (- L c) <= frac ph p c <= x c * exp (L c)).
Proof.
  intros HR Ht HM HE HA Hlo Hhi Hm0 Hl HI H HD Hinc L.
  destruct (run_columns ops f a t i f' ph d HR Ht H HD) as (k1 & k' & nv & rep & EI & HI1 & D1 & D2 & D3 & HC).
  apply (fun F => F HI) in HI1. unfold L. rewrite <- D1, <- D2 in *. split.
  - intros p1 p2 c H1 H2 Hc. destruct (HC p1 H1) as (m & Hm & Lm & Em), (HC p2 H2) as (n & Hn & Ln & En).
    rewrite Em, En by auto. eapply (C88_step (kernel_of f) k1); eauto.
  - intros EC p c Hp Hc. destruct (HC p Hp) as (m & Hm & Lm & Em). rewrite Em by auto.
    eapply (C88_canonical (kernel_of f) k1); eauto.
Qed.
