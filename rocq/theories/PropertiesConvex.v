(** PropertiesConvex.v -- mixtures that cannot demix (C65), the common tangent
    plane of coexisting phases (C66). *)

From Coquelicot Require Import Coquelicot.
From Coq Require Import Reals Lra Lia List Bool Arith ZArith FunctionalExtensionality.
From Verif Require Import Base ModelCommon ModelParts ModelKernel ModelPhases ModelFinder ProofsKernel ProofsParts ProofsSteps
  ProofsRun ProofsRun2 ModelFreeEnergy ProofsFreeEnergy Spec Examples PropertiesKernel PropertiesRun PropertiesFreeEnergy
  PropertiesConstraints ProofsEquilibrium PropertiesEquilibrium.
Import ListNotations.
Open Scope R_scope.

(* ------------------------------------------------------------------ *)
(** * Vocabulary *)

(** quadratic form of the interaction matrix *)
Definition form (n : nat) (chi : mat) (x : vec) : R := rsum n (fun i => rsum n (fun j => chi i j * x i * x j)).

(** the interaction energy does not decrease the curvature of the free energy
    along exchanges of material *)
Definition never_attractive (n : nat) (chi : mat) : Prop := forall x, rsum n x = 0 -> 0 <= form n chi x.

(** the same with a penalty for not conserving the total fraction *)
Definition never_attractive_up_to (n : nat) (chi : mat) (kappa : R) : Prop := 
  forall x, 0 <= form n chi x + kappa * (rsum n x * rsum n x).

(* ------------------------------------------------------------------ *)
(** * Monotonicity of the chemical potentials *)

Lemma ln_le_sub x : 0 < x -> ln x <= x - 1.
Proof. intros H. pose proof (exp_ineq1_le (ln x)) as E. rewrite exp_ln in E by auto. lra. Qed.

Lemma log_gap a b B : 0 < a -> 0 < b -> a <= B -> b <= B -> (a - b) * (a - b) <= B * ((ln a - ln b) * (a - b)).
Proof.
  assert (X : forall a b, 0 < a -> 0 < b -> b <= a -> a <= B -> (a - b) * (a - b) <= B * ((ln a - ln b) * (a - b))).
  { clear. intros a b Ha Hb L HB. pose proof (ln_le_sub (b / a) ltac:(apply Rdiv_lt_0_compat; auto)) as E.
    rewrite ln_div in E by auto.
    assert (E' : (a - b) / a <= ln a - ln b) by (replace ((a - b) / a) with (1 - b / a) by (field; lra); lra).
    assert (E2 : a - b <= a * (ln a - ln b)).
    { replace (a - b) with (a * ((a - b) / a)) at 1 by (field; lra). apply Rmult_le_compat_l; lra. }
    assert (0 <= ln a - ln b).
    { apply Rle_trans with ((a - b) / a); auto. apply Rmult_le_pos; [lra|]. left. now apply Rinv_0_lt_compat. }
    assert (a - b <= B * (ln a - ln b)) by nra. nra. }
  intros Ha Hb La Lb. destruct (Rle_dec b a) as [L|L]; [now apply X|].
  pose proof (X b a Hb Ha ltac:(lra) Lb). nra.
Qed.

Section Gap.
Context (nc : nat) (chi : mat) (l : vec).
Hypothesis Hl : forall i, (i < nc)%nat -> 0 < l i.
Hypothesis Hsym : forall i j, (i < nc)%nat -> (j < nc)%nat -> chi i j = chi j i.

(** energy minus gradient times composition *)
Definition legendre (phi : vec) : R := - (1 / 2) * form nc chi phi - rsum nc (fun i => phi i / l i).

Lemma legendre_eq phi : fh nc chi l phi - rsum nc (fun k => phi k * dfh nc chi l phi k) = legendre phi.
Proof.
  unfold fh, dfh, legendre, form.
  rewrite (rsum_ext nc (fun k => phi k * ((ln (phi k) + 1) / l k + rsum nc (fun j => chi k j * phi j)))
    (fun k => phi k * ln (phi k) / l k + phi k / l k + rsum nc (fun j => chi k j * phi k * phi j))).
  - rewrite !rsum_plus. field.
  - intros k _. unfold Rdiv. rewrite <- (rsum_ext nc (fun j => phi k * (chi k j * phi j)) (fun j => chi k j * phi k * phi j)) by (intros; ring).
    rewrite rsum_scal_l. ring.
Qed.

Lemma mono_identity phi psi :
  rsum nc (fun i => (dfh nc chi l phi i - dfh nc chi l psi i) * (phi i - psi i))
  = rsum nc (fun i => (ln (phi i) - ln (psi i)) * (phi i - psi i) / l i) + form nc chi (fun i => phi i - psi i).
Proof.
  unfold form. rewrite <- rsum_plus. apply rsum_ext. intros i _. unfold dfh.
  rewrite (rsum_ext nc (fun j => chi i j * (phi i - psi i) * (phi j - psi j)) 
    (fun j => (chi i j * phi j - chi i j * psi j) * (phi i - psi i))) by (intros; ring).
  rewrite rsum_scal_r, rsum_minus. unfold Rdiv. ring.
Qed.

Lemma term_le f i : (i < nc)%nat -> (forall j, (j < nc)%nat -> 0 < f j) -> f i <= rsum nc f.
Proof.
  intros Hi Hf. rewrite (rsum_remove nc f i Hi).
  assert (0 <= rsum nc (fun j => if Nat.eqb j i then 0 else f j)); [|lra].
  apply rsum_nonneg. intros j Hj. destruct (Nat.eqb j i); [lra|]. left. auto.
Qed.

Lemma gap_bound phi psi d e X B :
  (forall i, (i < nc)%nat -> 0 < phi i) -> (forall i, (i < nc)%nat -> 0 < psi i) -> 0 <= d -> 0 <= e ->
  Rabs (rsum nc phi - 1) <= d -> Rabs (rsum nc psi - 1) <= d ->
  (forall i, (i < nc)%nat -> Rabs ((legendre phi + dfh nc chi l phi i) - (legendre psi + dfh nc chi l psi i)) <= e) ->
  - X <= form nc chi (fun i => phi i - psi i) -> Rabs (legendre phi - legendre psi) <= B ->
  rsum nc (fun i => (phi i - psi i) * (phi i - psi i) / l i) <= (1 + d) * (2 * (1 + d) * e + 2 * d * B + X).
Proof.
  intros Hp Hq Hd He Sp Sq Hmu Hform HB.
  apply Rabs_le_inv in Sp, Sq.
  set (x := fun i => phi i - psi i).
  apply Rle_trans with ((1 + d) * rsum nc (fun i => (ln (phi i) - ln (psi i)) * (phi i - psi i) / l i)).
  - rewrite <- rsum_scal_l. apply rsum_le. intros i Hi. pose proof (Hl i Hi) as L.
    pose proof (term_le phi i Hi Hp). pose proof (term_le psi i Hi Hq).
    pose proof (log_gap (phi i) (psi i) (1 + d) (Hp i Hi) (Hq i Hi) ltac:(lra) ltac:(lra)) as G.
    unfold Rdiv. rewrite <- Rmult_assoc. apply Rmult_le_compat_r; [left; now apply Rinv_0_lt_compat|exact G].
  - apply Rmult_le_compat_l; [lra|].
    assert (E : rsum nc (fun i => (ln (phi i) - ln (psi i)) * (phi i - psi i) / l i)
      = rsum nc (fun i => ((legendre phi + dfh nc chi l phi i) - (legendre psi + dfh nc chi l psi i)) * x i)
        - (legendre phi - legendre psi) * rsum nc x - form nc chi x).
    { pose proof (mono_identity phi psi) as M. fold x in M.
      rewrite (rsum_ext nc (fun i => ((legendre phi + dfh nc chi l phi i) - (legendre psi + dfh nc chi l psi i)) * x i)
        (fun i => (legendre phi - legendre psi) * x i + (dfh nc chi l phi i - dfh nc chi l psi i) * (phi i - psi i)))
        by (intros; unfold x; ring).
      rewrite rsum_plus, rsum_scal_l. fold x in M. rewrite M. ring. }
    rewrite E. fold x in Hform.
    assert (A1 : rsum nc (fun i => ((legendre phi + dfh nc chi l phi i) - (legendre psi + dfh nc chi l psi i)) * x i) <= 2 * (1 + d) * e).
    { apply Rle_trans with (rsum nc (fun i => e * (phi i + psi i))).
      - apply rsum_le. intros i Hi. eapply Rle_trans; [apply Rle_abs|]. rewrite Rabs_mult.
        apply Rmult_le_compat; auto using Rabs_pos. unfold x. specialize (Hp i Hi). specialize (Hq i Hi). 
        apply Rabs_le. lra.
      - rewrite rsum_scal_l, rsum_plus. nra. }
    assert (A2 : - ((legendre phi - legendre psi) * rsum nc x) <= 2 * d * B).
    { eapply Rle_trans; [apply Rle_abs|]. rewrite Rabs_Ropp, Rabs_mult, Rmult_comm.
      apply Rmult_le_compat; auto using Rabs_pos. unfold x. rewrite rsum_minus. apply Rabs_le. lra. }
    lra.
Qed.

Lemma form_abs phi X : (forall i, (i < nc)%nat -> 0 < phi i) -> (forall i j, (i < nc)%nat -> (j < nc)%nat -> Rabs (chi i j) <= X) ->
  Rabs (form nc chi phi) <= X * (rsum nc phi * rsum nc phi).
Proof.
  intros Hp HX. unfold form. eapply Rle_trans; [apply rsum_Rabs|].
  replace (X * (rsum nc phi * rsum nc phi)) with (rsum nc (fun i => rsum nc (fun j => X * (phi i * phi j)))).
  - apply rsum_le. intros i Hi. eapply Rle_trans; [apply rsum_Rabs|]. apply rsum_le. intros j Hj.
    rewrite !Rabs_mult. rewrite (Rabs_right (phi i)), (Rabs_right (phi j)) by (apply Rle_ge; left; auto). rewrite Rmult_assoc.
    apply Rmult_le_compat_r; [|auto]. specialize (Hp i Hi) as A. specialize (Hp j Hj) as B. nra.
  - rewrite (rsum_ext nc (fun i => rsum nc (fun j => X * (phi i * phi j))) (fun i => X * (phi i * rsum nc phi))).
    + rewrite rsum_scal_l, rsum_scal_r. reflexivity.
    + intros i _. rewrite rsum_scal_l, rsum_scal_l. reflexivity.
Qed.

Lemma legendre_abs phi d X lmin : (forall i, (i < nc)%nat -> 0 < phi i) -> (forall i j, (i < nc)%nat -> (j < nc)%nat -> Rabs (chi i j) <= X) ->
  0 < lmin -> (forall i, (i < nc)%nat -> lmin <= l i) -> 0 <= d -> 0 <= X -> Rabs (rsum nc phi - 1) <= d ->
  Rabs (legendre phi) <= X * ((1 + d) * (1 + d)) / 2 + (1 + d) / lmin.
Proof.
  intros Hp HX Hm HL Hd HX0 HS. apply Rabs_le_inv in HS. unfold legendre.
  pose proof (form_abs phi X Hp HX) as A.
  assert (S0 : 0 <= rsum nc phi) by (apply rsum_nonneg; intros; left; auto).
  assert (B : 0 <= rsum nc (fun i => phi i / l i) <= (1 + d) / lmin).
  { split.
    - apply rsum_nonneg. intros i Hi. left. apply Rdiv_lt_0_compat; auto.
    - apply Rle_trans with (rsum nc (fun i => phi i / lmin)).
      + apply rsum_le. intros i Hi. apply Rmult_le_compat_l; [left; auto|]. apply Rinv_le_contravar; auto.
      + rewrite rsum_div. apply Rmult_le_compat_r; [left; now apply Rinv_0_lt_compat|lra]. }
  assert (C : X * (rsum nc phi * rsum nc phi) <= X * ((1 + d) * (1 + d))) by (apply Rmult_le_compat_l; auto; nra).
  apply Rabs_le_inv in A. apply Rabs_le. lra.
Qed.
End Gap.

(* ------------------------------------------------------------------ *)
(** * From features to components *)

Lemma form_comp nc nf rho chis x : (forall i, (i < nc)%nat -> (rho i < nf)%nat) ->
  form nc (fun i j => chis (rho i) (rho j)) x = form nf chis (fsum nc rho x).
Proof.
  intros H. unfold form.
  rewrite (rsum_ext nf (fun r => rsum nf (fun s => chis r s * fsum nc rho x r * fsum nc rho x s))
    (fun r => rsum nc (fun j => chis r (rho j) * x j) * fsum nc rho x r)).
  - rewrite (fsum_sum nc nf rho x (fun r => rsum nc (fun j => chis r (rho j) * x j)) H).
    apply rsum_ext. intros i _. rewrite <- rsum_scal_r. apply rsum_ext. intros; ring.
  - intros r _. rewrite <- (fsum_sum nc nf rho x (chis r) H), <- rsum_scal_r. apply rsum_ext. intros; ring.
Qed.

Lemma fsum_total nc nf rho x : (forall i, (i < nc)%nat -> (rho i < nf)%nat) -> rsum nf (fsum nc rho x) = rsum nc x.
Proof.
  intros H. pose proof (fsum_sum nc nf rho x (fun _ => 1) H) as E.
  rewrite (rsum_ext nf (fsum nc rho x) (fun r => 1 * fsum nc rho x r)) by (intros; ring).
  rewrite E. apply rsum_ext. intros; ring.
Qed.

Lemma never_attractive_comp nc nf rho chis : (forall i, (i < nc)%nat -> (rho i < nf)%nat) ->
  never_attractive nf chis -> never_attractive nc (fun i j => chis (rho i) (rho j)).
Proof. intros H N x Hx. rewrite (form_comp nc nf) by auto. apply N. now rewrite fsum_total. Qed.

Lemma never_attractive_up_to_comp nc nf rho chis kappa : (forall i, (i < nc)%nat -> (rho i < nf)%nat) ->
  never_attractive_up_to nf chis kappa -> never_attractive_up_to nc (fun i j => chis (rho i) (rho j)) kappa.
Proof. intros H N x. rewrite (form_comp nc nf) by auto. rewrite <- (fsum_total nc nf rho x) by auto. apply N. Qed.

Lemma potentials_value F phi mu i : wf_fe F -> (forall j, (j < fe_nc F)%nat -> 0 < phi j) -> potentials F phi mu -> (i < fe_nc F)%nat ->
  mu i = legendre (fe_nc F) (fe_chis F) (fe_sizes F) phi + dfh (fe_nc F) (fe_chis F) (fe_sizes F) phi i.
Proof.
  intros WF HP H Hi. rewrite (potentials_inj _ _ _ _ H (potentials_mu F phi WF HP) i Hi).
  unfold mu_of. now rewrite legendre_eq.
Qed.

(** fractions of the living compartments after a step *)
Lemma step_fractions {G St} q (k k' : kstate G St) nv rep nc nf rho chis sh sizes x :
  mixture q nc nf rho chis sh sizes -> any_ensemble q nc x -> admissible nc nf chis sizes x ->
  0 <= q_thr q -> iterate q k = Ok (k', nv, rep) ->
  (forall i, (i < nc)%nat -> (rho i < nf)%nat) /\ wf_fe (fe_of nc rho chis sizes) /\
  0 <= e_incomp rep /\ 0 <= e_omega rep /\ 0 <= e_Js rep /\
  forall m, (m < q_np q)%nat -> alive (q_thr q) (v_Js k) m ->
    (forall i, (i < nc)%nat -> 0 < v_phis_comp k' i m) /\ Rabs (rsum nc (fun i => v_phis_comp k' i m) - 1) <= e_incomp rep.
Proof.
  intros HM HE (Hn & Hsym & Hsz & Hx) Ht H.
  destruct (ensemble_kind q k nc rho sizes x HE) as [a HA].
  destruct (mixture_facts _ _ _ _ _ _ _ _ _ _ _ _ _ HM HA H) as (phis & inc & MF).
  assert (Hs0 : forall i, (i < nc)%nat -> sizes i <> 0) by (intros i Hi; specialize (Hsz i Hi); lra).
  destruct (mf_it _ _ _ _ _ _ _ _ _ _ _ _ _ MF) as [nv' I].
  split; [apply (mf_rho _ _ _ _ _ _ _ _ _ _ _ _ _ MF)|]. split; [eapply wf_fe_of; eauto|].
  split; [rewrite (if_e_incomp I); apply vmax_abs_nonneg|].
  split; [rewrite (if_e_omega I); unfold max_omega_diff|].
  { assert (K : forall n, 0 <= for_ n (fun r acc => Rmax acc (vmax (q_np q) (t_diff q k phis inc r))) 0).
    { induction n; [cbn; lra|]. rewrite for_S. eapply Rle_trans; [exact IHn|apply Rmax_l]. }
    apply K. }
  split; [rewrite (if_e_Js I); apply vmax_abs_nonneg|].
  intros m Hm Lm. rewrite (if_comp I). split.
  - intros i Hi. eapply frac_pos; eauto.
  - pose proof (incomp_le _ _ _ _ _ _ _ _ _ _ _ _ _ MF m Hm) as L.
    rewrite (mf_inc _ _ _ _ _ _ _ _ _ _ _ _ _ MF), mask_alive, Rmult_1_r in L by auto. exact L.
Qed.

(* ------------------------------------------------------------------ *)
(** ** C65 *)

(** A mixture whose interactions never favour demixing has, at vanishing
    errors, the same composition in all living compartments. *)
Theorem C65_zero {G} q (k k' : kstate G cstate) nv rep nc nf rho chis sh sizes x :
  mixture q nc nf rho chis sh sizes -> any_ensemble q nc x -> admissible nc nf chis sizes x -> never_attractive nf chis ->
  0 <= q_thr q -> Forall idle (v_cons k) -> iterate q k = Ok (k', nv, rep) ->
  e_incomp rep = 0 -> e_omega rep = 0 -> e_Js rep = 0 ->
  forall m n i, (m < q_np q)%nat -> (n < q_np q)%nat -> alive (q_thr q) (v_Js k) m -> alive (q_thr q) (v_Js k) n ->
  (i < nc)%nat -> v_phis_comp k' i m = v_phis_comp k' i n.
Proof.
  intros HM HE HA HN Ht HI H E1 E2 E3 m n i Hm Hnn Lm Ln Hi.
  destruct (C12_zero_residuals _ _ _ _ _ _ _ _ _ _ _ _ HM HE HA Ht HI H E1 E2 E3) as (mu & P).
  destruct (step_fractions _ _ _ _ _ _ _ _ _ _ _ _ HM HE HA Ht H) as (HR & WF & _ & _ & _ & HF).
  destruct (HF m Hm Lm) as (Pm & Sm), (HF n Hnn Ln) as (Pn & Sn). rewrite E1 in Sm, Sn.
  destruct (P m Hm Lm) as (Qm & _). destruct (P n Hnn Ln) as (Qn & _).
  assert (Hl : forall j, (j < nc)%nat -> 0 < sizes j) by apply HA.
  set (phi := fun j => v_phis_comp k' j m) in *. set (psi := fun j => v_phis_comp k' j n) in *.
  set (C := fun i j => chis (rho i) (rho j)).
  assert (B : rsum nc (fun j => (phi j - psi j) * (phi j - psi j) / sizes j) <= 0).
  { replace 0 with ((1 + 0) * (2 * (1 + 0) * 0 + 2 * 0 * Rabs (legendre nc C sizes phi - legendre nc C sizes psi) + 0)) by ring.
    apply (gap_bound nc C sizes Hl phi psi 0 0 0); auto; try lra.
    - intros j Hj.
      pose proof (potentials_value _ phi mu j WF Pm Qm Hj : mu j = legendre nc C sizes phi + dfh nc C sizes phi j) as V1.
      pose proof (potentials_value _ psi mu j WF Pn Qn Hj : mu j = legendre nc C sizes psi + dfh nc C sizes psi j) as V2.
      rewrite <- V1, <- V2, Rminus_diag_eq by reflexivity. rewrite Rabs_R0. lra.
    - rewrite Ropp_0. apply (never_attractive_comp nc nf rho chis HR HN). rewrite rsum_minus.
      change (rsum nc phi - rsum nc psi = 0). apply Rabs_le_inv in Sm, Sn. lra. }
  assert (T : forall j, (j < nc)%nat -> 0 <= (phi j - psi j) * (phi j - psi j) / sizes j).
  { intros j Hj. apply Rmult_le_pos; [apply Rle_0_sqr|]. left. apply Rinv_0_lt_compat; auto. }
  rewrite (rsum_remove nc _ i Hi) in B.
  assert (0 <= rsum nc (fun j => if Nat.eqb j i then 0 else (phi j - psi j) * (phi j - psi j) / sizes j)).
  { apply rsum_nonneg. intros j Hj. destruct (Nat.eqb j i); [lra|auto]. }
  pose proof (T i Hi) as Ti.
  assert (Z : (phi i - psi i) * (phi i - psi i) / sizes i = 0) by lra.
  assert (Z2 : (phi i - psi i) * (phi i - psi i) = 0).
  { replace ((phi i - psi i) * (phi i - psi i)) with ((phi i - psi i) * (phi i - psi i) / sizes i * sizes i)
      by (field; specialize (Hl i Hi); lra). rewrite Z. ring. }
  apply Rmult_integral in Z2. change (phi i = psi i). destruct Z2; lra.
Qed.

(** With the canonical ensemble this composition is the mean composition. *)
Theorem C65_canonical {G} q (k k' : kstate G cstate) nv rep nc nf rho chis sh sizes pm :
  mixture q nc nf rho chis sh sizes -> q_ensemble q = can_compiled nc pm -> admissible nc nf chis sizes pm -> never_attractive nf chis ->
  0 <= q_thr q -> Forall idle (v_cons k) -> iterate q k = Ok (k', nv, rep) ->
  e_incomp rep = 0 -> e_omega rep = 0 -> e_Js rep = 0 ->
  forall m i, (m < q_np q)%nat -> alive (q_thr q) (v_Js k) m -> (i < nc)%nat -> v_phis_comp k' i m = pm i.
Proof.
  intros HM HE HA HN Ht HI H E1 E2 E3 m i Hm Lm Hi.
  pose proof (C65_zero q k k' nv rep nc nf rho chis sh sizes pm HM (or_introl HE) HA HN Ht HI H E1 E2 E3) as C.
  assert (W : wmean (q_np q) (living (q_thr q) (v_Js k)) (fun n => v_phis_comp k' i n) = pm i).
  { destruct HM as [q n chis sh sizes F1 F2 F3|q nf npf chis sh sizes F1 F2 F3 F4].
    - eapply C01_canonical_mean_ideal_gas; eauto.
    - eapply C01_canonical_mean_polydispersed; eauto. }
  rewrite <- W. unfold wmean.
  rewrite (rsum_ext _ (fun n => living (q_thr q) (v_Js k) n * v_phis_comp k' i n) (fun n => living (q_thr q) (v_Js k) n * v_phis_comp k' i m)).
  - rewrite rsum_scal_r. field. apply Rgt_not_eq. apply rsum_pos.
    + intros n _. unfold living. destruct (Rlt_dec _ _); lra.
    + exists m. split; auto. unfold living, alive in *. destruct (Rlt_dec _ _); lra.
  - intros n Hn. unfold living. destruct (Rlt_dec (q_thr q) (v_Js k n)) as [L|L]; [|ring]. f_equal. symmetry. now apply C.
Qed.

(** Errors that are small but not zero: the compositions of two living
    compartments differ by the square root of the tolerance. *)
Definition closeness (nf : nat) (chis : mat) (cmin sh X lmin kappa : R) : R :=
  8 * (INR nf + 2 + Rabs (shifted_sum nf chis cmin sh)) + 16 * X + 16 / lmin + 8 * kappa.

Theorem C65_close {G} q (k k' : kstate G cstate) nv rep nc nf rho chis sh sizes x cmin X lmin kappa tol :
  mixture q nc nf rho chis sh sizes -> any_ensemble q nc x -> admissible nc nf chis sizes x -> smallest nf chis cmin ->
  never_attractive_up_to nf chis kappa -> 0 <= kappa ->
  (forall r s, (r < nf)%nat -> (s < nf)%nat -> Rabs (chis r s) <= X) ->
  0 < lmin -> (forall i, (i < nc)%nat -> lmin <= sizes i) ->
  0 <= q_thr q -> Forall idle (v_cons k) -> iterate q k = Ok (k', nv, rep) ->
  tol <= 1 -> e_incomp rep <= tol -> e_omega rep <= tol -> e_Js rep <= tol ->
  forall m n, (m < q_np q)%nat -> (n < q_np q)%nat -> alive (q_thr q) (v_Js k) m -> alive (q_thr q) (v_Js k) n ->
  rsum nc (fun i => (v_phis_comp k' i m - v_phis_comp k' i n) ^ 2 / sizes i) <= closeness nf chis cmin sh X lmin kappa * tol.
Proof.
  intros HM HE HA Hmin HN Hk HX Hl0 Hlm Ht HI H Htol E1 E2 E3 m n Hm Hnn Lm Ln.
  destruct (C11_step_bound _ _ _ _ _ _ _ _ _ _ _ _ _ HM HE HA Hmin Ht HI H) as (mu & P1 & P2).
  destruct (step_fractions _ _ _ _ _ _ _ _ _ _ _ _ HM HE HA Ht H) as (HR & WF & N1 & N2 & N3 & HF).
  destruct (HF m Hm Lm) as (Pm & Sm), (HF n Hnn Ln) as (Pn & Sn).
  assert (Hl : forall j, (j < nc)%nat -> 0 < sizes j) by apply HA.
  pose proof (P1 m Hm Lm) as Qm. pose proof (P1 n Hnn Ln) as Qn.
  set (phi := fun j => v_phis_comp k' j m) in *. set (psi := fun j => v_phis_comp k' j n) in *.
  set (C := fun i j => chis (rho i) (rho j)).
  set (S := Rabs (shifted_sum nf chis cmin sh)) in *. assert (S0 : 0 <= S) by apply Rabs_pos.
  assert (X0 : 0 <= X).
  { destruct HA as (Hnf & _). eapply Rle_trans; [apply Rabs_pos|apply (HX 0%nat 0%nat); auto]. }
  assert (I0 : 0 <= 1 / lmin) by (apply Rlt_le, Rdiv_lt_0_compat; lra).
  assert (F0 : 0 <= INR nf) by apply pos_INR.
  assert (T0 : 0 <= tol) by lra.
  assert (HC : forall i j, (i < nc)%nat -> (j < nc)%nat -> Rabs (C i j) <= X) by (intros; apply HX; auto).
  rewrite (rsum_ext nc _ (fun j => (phi j - psi j) * (phi j - psi j) / sizes j)) by (intros; unfold phi, psi; cbn [pow]; f_equal; ring).
  eapply Rle_trans.
  - apply (gap_bound nc C sizes Hl phi psi tol ((INR nf + 2 + S) * tol) (kappa * (4 * tol)) (4 * X + 4 / lmin)); auto; try lra; try nra.
    + intros j Hj.
      pose proof (potentials_value _ phi (mu m) j WF Pm Qm Hj : mu m j = legendre nc C sizes phi + dfh nc C sizes phi j) as V1.
      pose proof (potentials_value _ psi (mu n) j WF Pn Qn Hj : mu n j = legendre nc C sizes psi + dfh nc C sizes psi j) as V2.
      rewrite <- V1, <- V2. eapply Rle_trans; [apply P2; auto|]. fold S. nra.
    + pose proof (never_attractive_up_to_comp nc nf rho chis kappa HR HN (fun i => phi i - psi i)) as V. fold C in V.
      rewrite rsum_minus in V. apply Rabs_le_inv in Sm, Sn. 
      assert (B : (rsum nc phi - rsum nc psi) * (rsum nc phi - rsum nc psi) <= 4 * tol).
      { assert (- (2 * tol) <= rsum nc phi - rsum nc psi <= 2 * tol) by lra. nra. }
      assert (kappa * ((rsum nc phi - rsum nc psi) * (rsum nc phi - rsum nc psi)) <= kappa * (4 * tol)) by (apply Rmult_le_compat_l; auto).
      lra.
    + pose proof (legendre_abs nc C sizes Hl phi tol X lmin Pm HC Hl0 Hlm T0 X0 ltac:(lra)) as A1.
      pose proof (legendre_abs nc C sizes Hl psi tol X lmin Pn HC Hl0 Hlm T0 X0 ltac:(lra)) as A2.
      assert (A3 : X * ((1 + tol) * (1 + tol)) / 2 + (1 + tol) / lmin <= 2 * X + 2 / lmin).
      { assert (X * ((1 + tol) * (1 + tol)) <= X * 4) by (apply Rmult_le_compat_l; nra).
        replace ((1 + tol) / lmin) with ((1 + tol) * (1 / lmin)) by (field; lra).
        replace (2 / lmin) with (2 * (1 / lmin)) by (field; lra). nra. }
      replace (4 / lmin) with (2 * (2 / lmin)) by (field; lra).
      apply Rabs_le_inv in A1, A2. apply Rabs_le. lra.
  - unfold closeness. fold S. set (c := INR nf + 2 + S). assert (0 <= c) by (unfold c; lra).
    replace (4 / lmin) with (4 * (1 / lmin)) by (field; lra). replace (16 / lmin) with (16 * (1 / lmin)) by (field; lra).
    set (L := 1 / lmin) in *.
    apply Rle_trans with (2 * (2 * 2 * (c * tol) + 2 * tol * (4 * X + 4 * L) + kappa * (4 * tol))).
    + assert (0 <= c * tol) by nra. assert (0 <= tol * (4 * X + 4 * L)) by nra. assert (0 <= kappa * (4 * tol)) by nra.
      apply Rmult_le_compat; try lra; [|]. 
      * assert (0 <= 2 * (1 + tol) * (c * tol)) by nra. nra.
      * assert (2 * (1 + tol) * (c * tol) <= 2 * 2 * (c * tol)) by nra. lra.
    + apply Req_le. ring.
Qed.

(** The rows returned by [run] are compositions of living compartments after
    the last step, whose errors are the diagnostics. *)
Lemma run_columns {G} (ops : rng_ops G) (f : finder G cstate) a t i f' ph d :
  rng_contract ops -> 0 <= m_thr (f_par f) ->
  run ops f a t i = (f', Ok ph) -> f_diag f' = Some d ->
  exists (k1 k' : kstate G cstate) nv rep, iterate (kernel_of f) k1 = Ok (k', nv, rep) /\
    (Forall idle (v_cons (f_k f)) -> Forall idle (v_cons k1)) /\
    e_incomp rep = d_incomp d /\ e_omega rep = d_omega d /\ e_Js rep = d_Js d /\
    forall p, (p < f_np f)%nat -> exists m, (m < f_np f)%nat /\ alive (m_thr (f_par f)) (v_Js k1) m /\
      forall c, (c < f_nc f)%nat -> frac ph p c = v_phis_comp k' c m.
Proof.
  intros HR Ht H HD. apply run_inv in H.
  destruct H as (tr & inner & j & w & rep & n & J & phi & g & RF).
  rewrite (rf_f RF) in HD. injection HD as <-. cbn [d_Js d_omega d_incomp].
  destruct (run_last _ _ _ _ _ _ _ _ _ _ _ _ _ _ _ _ RF) as (w0 & cc & k1 & nv & EW & EM & EI & _).
  exists k1, (w_k w), nv, rep. split; [exact EI|]. split.
  { intros HI. assert (EC : v_cons k1 = v_cons (w_k w0)).
    { unfold maybe_revive in EM. destruct (Z.ltb _ _); [|now injection EM as _ <-].
      destruct (Nat.eqb _ _); [now injection EM as _ <-|].
      destruct (revive_by_random _ _ _ _ _ _ _ _) as [[[c' J'] t'] g']. now injection EM as _ <-. }
    rewrite EC. unfold fsteps in EW. rewrite (idle_steps _ _ _ _ _ _ (ltac:(exact HI) : Forall idle (v_cons (w_k (start (f_k f))))) EW). exact HI. }
  do 3 (split; [reflexivity|]). intros p Hp.
  pose proof (C07_copy_conserves _ _ _ _ _ _ _ _ _ _ HR Ht (rf_copy RF)) as (_ & (o & H1 & _) & _).
  destruct (H1 p Hp) as (Ho & HA & Ephi). exists (o p). split; [auto|]. split.
  - exact (alive_before (kernel_of f) k1 (w_k w) nv rep (o p) Ht EI HA).
  - intros c Hc. rewrite (proj2 (run_vol_frac _ _ _ _ _ _ _ _ _ _ _ _ _ _ _ _ RF)) by auto. apply Ephi.
Qed.

Theorem C65_run {G} (ops : rng_ops G) (f : finder G cstate) a t i f' ph d nf rho chis sh sizes x cmin X lmin kappa tol :
  rng_contract ops -> 0 <= m_thr (f_par f) ->
  mixture (kernel_of f) (f_nc f) nf rho chis sh sizes -> any_ensemble (kernel_of f) (f_nc f) x ->
  admissible (f_nc f) nf chis sizes x -> smallest nf chis cmin -> Forall idle (v_cons (f_k f)) ->
  never_attractive_up_to nf chis kappa -> 0 <= kappa ->
  (forall r s, (r < nf)%nat -> (s < nf)%nat -> Rabs (chis r s) <= X) ->
  0 < lmin -> (forall c, (c < f_nc f)%nat -> lmin <= sizes c) ->
  run ops f a t i = (f', Ok ph) -> f_diag f' = Some d ->
  tol <= 1 -> d_incomp d <= tol -> d_omega d <= tol -> d_Js d <= tol ->
  forall p1 p2, (p1 < f_np f)%nat -> (p2 < f_np f)%nat ->
  rsum (f_nc f) (fun c => (frac ph p1 c - frac ph p2 c) ^ 2 / sizes c) <= closeness nf chis cmin sh X lmin kappa * tol.
Proof.
  intros HR Ht HM HE HA Hmin HI HN Hk HX Hl0 Hlm H HD Htol E1 E2 E3 p1 p2 H1 H2.
  destruct (run_columns ops f a t i f' ph d HR Ht H HD) as (k1 & k' & nv & rep & EI & HI1 & D1 & D2 & D3 & HC). apply (fun F => F HI) in HI1.
  destruct (HC p1 H1) as (m & Hm & Lm & Em), (HC p2 H2) as (n & Hn & Ln & En).
  rewrite (rsum_ext _ _ (fun c => (v_phis_comp k' c m - v_phis_comp k' c n) ^ 2 / sizes c)) by (intros; now rewrite Em, En).
  apply (C65_close (kernel_of f) k1 k' nv rep (f_nc f) nf rho chis sh sizes x cmin X lmin kappa tol); auto; lra.
Qed.

(* ------------------------------------------------------------------ *)
(** ** C66 *)

(** the value of [free_energy_density] and of [jacobian] for one composition *)
Definition energy_is (F : fe) (phi : vec) (e : R) : Prop :=
  free_energy_density F (One (listed (fe_nc F) phi)) = Ok (Single (Fin e)).
Definition gradient_is (F : fe) (phi : vec) (g : vec) : Prop :=
  jacobian F (One (listed (fe_nc F) phi)) None = Ok (Single (listed (fe_nc F) (fun i => Fin (g i)))).

Lemma rsum_entries n (g : nat -> R -> R) phi : rsum n (fun i => g i (entries (listed n phi) i)) = rsum n (fun i => g i (phi i)).
Proof. apply rsum_ext. intros i Hi. unfold entries. now rewrite listed_nth. Qed.

Lemma fh_entries n chi l phi : fh n chi l (entries (listed n phi)) = fh n chi l phi.
Proof.
  unfold fh. f_equal; [apply (rsum_entries n (fun i y => y * ln y / l i))|]. f_equal.
  apply rsum_ext. intros i Hi. apply rsum_ext. intros j Hj. unfold entries. now rewrite !listed_nth.
Qed.

Lemma dfh_entries n chi l phi i : (i < n)%nat -> dfh n chi l (entries (listed n phi)) i = dfh n chi l phi i.
Proof.
  intros Hi. unfold dfh. f_equal; [unfold entries; now rewrite listed_nth|].
  apply (rsum_entries n (fun j y => chi i j * y)).
Qed.

Lemma listed_Forall n (P : R -> Prop) f : (forall i, (i < n)%nat -> P (f i)) -> Forall P (listed n f).
Proof. intros H. apply Forall_forall. intros y Hy. unfold listed in Hy. apply in_map_iff in Hy. destruct Hy as (i & <- & Hi). apply in_seq in Hi. apply H. lia. Qed.

Lemma energy_value F phi : wf_fe F -> (forall i, (i < fe_nc F)%nat -> 0 < phi i) ->
  energy_is F phi (fh (fe_nc F) (fe_chis F) (fe_sizes F) phi) /\ gradient_is F phi (dfh (fe_nc F) (fe_chis F) (fe_sizes F) phi).
Proof.
  intros WF HP. assert (HK : check_fractions F (One (listed (fe_nc F) phi)) = Ok tt).
  { apply check_ok; cbn; [apply listed_length|]. constructor; [|constructor]. apply listed_Forall. intros i Hi. left. auto. }
  unfold energy_is, gradient_is, free_energy_density, jacobian. rewrite HK. cbn [bind each].
  assert (HE : forall i, (i < fe_nc F)%nat -> 0 < entries (listed (fe_nc F) phi) i) by (intros; unfold entries; rewrite listed_nth; auto).
  split; do 2 f_equal.
  - rewrite energy_fin by (auto; intros; left; auto). f_equal. apply fh_entries.
  - apply listed_ext. intros i Hi. rewrite jacobian_fin by auto. f_equal. now apply dfh_entries.
Qed.

Lemma energy_is_eq F phi e : wf_fe F -> (forall i, (i < fe_nc F)%nat -> 0 < phi i) -> energy_is F phi e ->
  e = fh (fe_nc F) (fe_chis F) (fe_sizes F) phi.
Proof. intros WF HP H. destruct (energy_value F phi WF HP) as [E _]. unfold energy_is in *. rewrite E in H. now injection H. Qed.

Lemma gradient_is_eq F phi g : wf_fe F -> (forall i, (i < fe_nc F)%nat -> 0 < phi i) -> gradient_is F phi g ->
  forall i, (i < fe_nc F)%nat -> g i = dfh (fe_nc F) (fe_chis F) (fe_sizes F) phi i.
Proof.
  intros WF HP H i Hi. destruct (energy_value F phi WF HP) as [_ E]. unfold gradient_is in *. rewrite E in H. injection H as H.
  apply (f_equal (fun l => nth i l NaN)) in H. rewrite !listed_nth in H by auto. now injection H.
Qed.

(** distance of the energy at [psi] from the plane tangent at [phi] *)
Lemma tangent_identity nc chi l phi psi :
  fh nc chi l psi - fh nc chi l phi - rsum nc (fun i => dfh nc chi l phi i * (psi i - phi i))
  = rsum nc (fun i => psi i * ((legendre nc chi l psi + dfh nc chi l psi i) - (legendre nc chi l phi + dfh nc chi l phi i)))
    - (rsum nc psi - 1) * (legendre nc chi l psi - legendre nc chi l phi).
Proof.
  pose proof (legendre_eq nc chi l phi) as E1. pose proof (legendre_eq nc chi l psi) as E2.
  rewrite (rsum_ext nc (fun i => dfh nc chi l phi i * (psi i - phi i)) (fun i => psi i * dfh nc chi l phi i - phi i * dfh nc chi l phi i))
    by (intros; ring).
  rewrite (rsum_ext nc (fun i => psi i * ((legendre nc chi l psi + dfh nc chi l psi i) - (legendre nc chi l phi + dfh nc chi l phi i)))
    (fun i => psi i * (legendre nc chi l psi - legendre nc chi l phi) + psi i * dfh nc chi l psi i - psi i * dfh nc chi l phi i))
    by (intros; ring).
  rewrite !rsum_minus, rsum_plus, rsum_scal_r. lra.
Qed.

(** Vanishing errors: the plane tangent to the free energy at one phase also
    touches it at every other phase. *)
Theorem C66_tangent {G} q (k k' : kstate G cstate) nv rep nc nf rho chis sh sizes x :
  mixture q nc nf rho chis sh sizes -> any_ensemble q nc x -> admissible nc nf chis sizes x ->
  0 <= q_thr q -> Forall idle (v_cons k) -> iterate q k = Ok (k', nv, rep) ->
  e_incomp rep = 0 -> e_omega rep = 0 -> e_Js rep = 0 ->
  forall m n, (m < q_np q)%nat -> (n < q_np q)%nat -> alive (q_thr q) (v_Js k) m -> alive (q_thr q) (v_Js k) n ->
  let F := fe_of nc rho chis sizes in
  exists e_m e_n g, energy_is F (fun i => v_phis_comp k' i m) e_m /\ energy_is F (fun i => v_phis_comp k' i n) e_n /\
    gradient_is F (fun i => v_phis_comp k' i m) g /\
    e_n = e_m + rsum nc (fun i => g i * (v_phis_comp k' i n - v_phis_comp k' i m)).
Proof.
  intros HM HE HA Ht HI H E1 E2 E3 m n Hm Hnn Lm Ln F.
  destruct (C12_zero_residuals _ _ _ _ _ _ _ _ _ _ _ _ HM HE HA Ht HI H E1 E2 E3) as (mu & P).
  destruct (step_fractions _ _ _ _ _ _ _ _ _ _ _ _ HM HE HA Ht H) as (HR & WF & _ & _ & _ & HF).
  destruct (HF m Hm Lm) as (Pm & Sm), (HF n Hnn Ln) as (Pn & Sn). rewrite E1 in Sn.
  destruct (P m Hm Lm) as (Qm & _). destruct (P n Hnn Ln) as (Qn & _).
  set (phi := fun j => v_phis_comp k' j m) in *. set (psi := fun j => v_phis_comp k' j n) in *.
  destruct (energy_value F phi WF Pm) as [A1 A2]. destruct (energy_value F psi WF Pn) as [B1 _].
  exists (fh nc (fe_chis F) sizes phi), (fh nc (fe_chis F) sizes psi), (dfh nc (fe_chis F) sizes phi).
  split; [exact A1|]. split; [exact B1|]. split; [exact A2|].
  pose proof (tangent_identity nc (fe_chis F) sizes phi psi) as T.
  rewrite (rsum_zero nc (fun i => psi i * ((legendre nc (fe_chis F) sizes psi + dfh nc (fe_chis F) sizes psi i)
    - (legendre nc (fe_chis F) sizes phi + dfh nc (fe_chis F) sizes phi i)))) in T.
  - replace (rsum nc psi - 1) with 0 in T by (apply Rabs_le_inv in Sn; change (rsum nc (fun i => v_phis_comp k' i n)) with (rsum nc psi) in Sn; lra).
    change (fun i => dfh nc (fe_chis F) sizes phi i * (v_phis_comp k' i n - v_phis_comp k' i m))
      with (fun i => dfh nc (fe_chis F) sizes phi i * (psi i - phi i)). lra.
  - intros j Hj.
    pose proof (potentials_value F phi mu j WF Pm Qm Hj : mu j = legendre nc (fe_chis F) sizes phi + dfh nc (fe_chis F) sizes phi j) as V1.
    pose proof (potentials_value F psi mu j WF Pn Qn Hj : mu j = legendre nc (fe_chis F) sizes psi + dfh nc (fe_chis F) sizes psi j) as V2.
    rewrite <- V1, <- V2. ring.
Qed.

(** Small errors: the phases returned by [run] lie within a multiple of the
    tolerance of each other's tangent planes. *)
Definition flatness (nf : nat) (chis : mat) (cmin sh X lmin : R) : R :=
  2 * (INR nf + 2 + Rabs (shifted_sum nf chis cmin sh)) + 4 * X + 4 / lmin.

Theorem C66_run {G} (ops : rng_ops G) (f : finder G cstate) a t i f' ph d nf rho chis sh sizes x cmin X lmin tol :
  rng_contract ops -> 0 <= m_thr (f_par f) ->
  mixture (kernel_of f) (f_nc f) nf rho chis sh sizes -> any_ensemble (kernel_of f) (f_nc f) x ->
  admissible (f_nc f) nf chis sizes x -> smallest nf chis cmin -> Forall idle (v_cons (f_k f)) ->
  (forall r s, (r < nf)%nat -> (s < nf)%nat -> Rabs (chis r s) <= X) ->
  0 < lmin -> (forall c, (c < f_nc f)%nat -> lmin <= sizes c) ->
  run ops f a t i = (f', Ok ph) -> f_diag f' = Some d ->
  tol <= 1 -> d_incomp d <= tol -> d_omega d <= tol -> d_Js d <= tol ->
  let F := fe_of (f_nc f) rho chis sizes in
  forall p1 p2, (p1 < f_np f)%nat -> (p2 < f_np f)%nat ->
  exists e1 e2 g, energy_is F (frac ph p1) e1 /\ energy_is F (frac ph p2) e2 /\ gradient_is F (frac ph p1) g /\
    Rabs (e2 - (e1 + rsum (f_nc f) (fun c => g c * (frac ph p2 c - frac ph p1 c)))) <= flatness nf chis cmin sh X lmin * tol.
Proof.
  intros HR Ht HM HE HA Hmin HI HX Hl0 Hlm H HD Htol E1 E2 E3 F p1 p2 H1 H2.
  destruct (run_columns ops f a t i f' ph d HR Ht H HD) as (k1 & k' & nv & rep & EI & HI1 & D1 & D2 & D3 & HC). apply (fun F => F HI) in HI1.
  rewrite <- D1 in E1. rewrite <- D2 in E2. rewrite <- D3 in E3.
  destruct (HC p1 H1) as (m & Hm & Lm & Em), (HC p2 H2) as (n & Hn & Ln & En).
  destruct (C11_step_bound _ _ _ _ _ _ _ _ _ _ _ _ _ HM HE HA Hmin Ht HI1 EI) as (mu & P1 & P2).
  destruct (step_fractions _ _ _ _ _ _ _ _ _ _ _ _ HM HE HA Ht EI) as (HRho & WF & N1 & N2 & N3 & HF).
  destruct (HF m Hm Lm) as (Pm & Sm), (HF n Hn Ln) as (Pn & Sn).
  pose proof (P1 m Hm Lm) as Qm. pose proof (P1 n Hn Ln) as Qn.
  set (nc := f_nc f) in *. set (phi := frac ph p1) in *. set (psi := frac ph p2) in *.
  assert (LE : forall g h : vec, (forall c, (c < nc)%nat -> g c = h c) -> listed nc g = listed nc h) by (intros; now apply listed_ext).
  assert (Pphi : forall c, (c < nc)%nat -> 0 < phi c) by (intros; rewrite Em; auto).
  assert (Ppsi : forall c, (c < nc)%nat -> 0 < psi c) by (intros; rewrite En; auto).
  assert (Qphi : potentials F phi (mu m)) by (unfold potentials in *; cbn [F fe_nc fe_of] in *; now rewrite (LE _ _ Em)).
  assert (Qpsi : potentials F psi (mu n)) by (unfold potentials in *; cbn [F fe_nc fe_of] in *; now rewrite (LE _ _ En)).
  assert (Sphi : Rabs (rsum nc phi - 1) <= tol) by (rewrite (rsum_ext nc phi _ Em); lra).
  assert (Spsi : Rabs (rsum nc psi - 1) <= tol) by (rewrite (rsum_ext nc psi _ En); lra).
  destruct (energy_value F phi WF Pphi) as [A1 A2]. destruct (energy_value F psi WF Ppsi) as [B1 _].
  exists (fh nc (fe_chis F) sizes phi), (fh nc (fe_chis F) sizes psi), (dfh nc (fe_chis F) sizes phi).
  split; [exact A1|]. split; [exact B1|]. split; [exact A2|].
  replace (fh nc (fe_chis F) sizes psi - (fh nc (fe_chis F) sizes phi + rsum nc (fun c => dfh nc (fe_chis F) sizes phi c * (psi c - phi c))))
    with (fh nc (fe_chis F) sizes psi - fh nc (fe_chis F) sizes phi - rsum nc (fun c => dfh nc (fe_chis F) sizes phi c * (psi c - phi c))) by ring.
  rewrite tangent_identity. set (S := Rabs (shifted_sum nf chis cmin sh)) in *.
  assert (S0 : 0 <= S) by apply Rabs_pos. assert (F0 : 0 <= INR nf) by apply pos_INR. assert (T0 : 0 <= tol) by lra.
  assert (X0 : 0 <= X).
  { destruct HA as (Hnf & _). eapply Rle_trans; [apply Rabs_pos|apply (HX 0%nat 0%nat); auto]. }
  assert (Hl : forall j, (j < nc)%nat -> 0 < sizes j) by apply HA.
  set (e := (INR nf + 2 + S) * tol).
  assert (Z1 : Rabs (rsum nc (fun c => psi c * ((legendre nc (fe_chis F) sizes psi + dfh nc (fe_chis F) sizes psi c)
    - (legendre nc (fe_chis F) sizes phi + dfh nc (fe_chis F) sizes phi c)))) <= 2 * e).
  { eapply Rle_trans; [apply rsum_Rabs|]. apply Rle_trans with (rsum nc (fun c => psi c * e)).
    - apply rsum_le. intros c Hc. rewrite Rabs_mult, (Rabs_right (psi c)) by (apply Rle_ge; left; auto).
      apply Rmult_le_compat_l; [left; auto|].
      pose proof (potentials_value F phi (mu m) c WF Pphi Qphi Hc : mu m c = legendre nc (fe_chis F) sizes phi + dfh nc (fe_chis F) sizes phi c) as V1.
      pose proof (potentials_value F psi (mu n) c WF Ppsi Qpsi Hc : mu n c = legendre nc (fe_chis F) sizes psi + dfh nc (fe_chis F) sizes psi c) as V2.
      rewrite <- V1, <- V2. eapply Rle_trans; [apply P2; auto|]. unfold e. fold S. nra.
    - rewrite rsum_scal_r. apply Rmult_le_compat_r; [unfold e; nra|]. apply Rabs_le_inv in Spsi. lra. }
  assert (HCb : forall i j, (i < nc)%nat -> (j < nc)%nat -> Rabs (fe_chis F i j) <= X) by (intros; apply HX; auto).
  assert (Z2 : Rabs (legendre nc (fe_chis F) sizes psi - legendre nc (fe_chis F) sizes phi) <= 4 * X + 4 / lmin).
  { pose proof (legendre_abs nc (fe_chis F) sizes Hl phi tol X lmin Pphi HCb Hl0 Hlm T0 X0 Sphi) as L1.
    pose proof (legendre_abs nc (fe_chis F) sizes Hl psi tol X lmin Ppsi HCb Hl0 Hlm T0 X0 Spsi) as L2.
    assert (I0 : 0 <= 1 / lmin) by (apply Rlt_le, Rdiv_lt_0_compat; lra).
    assert (L3 : X * ((1 + tol) * (1 + tol)) / 2 + (1 + tol) / lmin <= 2 * X + 2 / lmin).
    { assert (X * ((1 + tol) * (1 + tol)) <= X * 4) by (apply Rmult_le_compat_l; nra).
      replace ((1 + tol) / lmin) with ((1 + tol) * (1 / lmin)) by (field; lra).
      replace (2 / lmin) with (2 * (1 / lmin)) by (field; lra). nra. }
    replace (4 / lmin) with (2 * (2 / lmin)) by (field; lra).
    apply Rabs_le_inv in L1, L2. apply Rabs_le. lra. }
  assert (Z3 : Rabs ((rsum nc psi - 1) * (legendre nc (fe_chis F) sizes psi - legendre nc (fe_chis F) sizes phi)) <= tol * (4 * X + 4 / lmin)).
  { rewrite Rabs_mult. apply Rmult_le_compat; auto using Rabs_pos. }
  unfold flatness. fold S. unfold e in Z1. apply Rabs_le_inv in Z1, Z3. apply Rabs_le. lra.
Qed.

(** Mean free energy of a canonical state without residuals: linear in the
    mean composition, with the chemical potentials as coefficients. *)
Theorem C66_mean_energy {G} q (k k' : kstate G cstate) nv rep nc nf rho chis sh sizes pm :
  mixture q nc nf rho chis sh sizes -> q_ensemble q = can_compiled nc pm -> admissible nc nf chis sizes pm ->
  0 <= q_thr q -> Forall idle (v_cons k) -> iterate q k = Ok (k', nv, rep) ->
  e_incomp rep = 0 -> e_omega rep = 0 -> e_Js rep = 0 ->
  let F := fe_of nc rho chis sizes in
  exists mu e, (forall m, (m < q_np q)%nat -> alive (q_thr q) (v_Js k) m ->
      potentials F (fun i => v_phis_comp k' i m) mu /\ energy_is F (fun i => v_phis_comp k' i m) (e m)) /\
    wmean (q_np q) (living (q_thr q) (v_Js k)) e = rsum nc (fun i => pm i * mu i).
Proof.
  intros HM HE HA Ht HI H E1 E2 E3 F.
  destruct (C12_zero_residuals _ _ _ _ _ _ _ _ _ _ _ _ HM (or_introl HE) HA Ht HI H E1 E2 E3) as (mu & P).
  destruct (step_fractions _ _ _ _ _ _ _ _ _ _ _ _ HM (or_introl HE) HA Ht H) as (HR & WF & _ & _ & _ & HF).
  exists mu, (fun m => fh nc (fe_chis F) sizes (fun i => v_phis_comp k' i m)). split.
  - intros m Hm Lm. split; [apply (P m Hm Lm)|]. apply energy_value; [exact WF|]. apply (HF m Hm Lm).
  - assert (W : forall i, (i < nc)%nat -> wmean (q_np q) (living (q_thr q) (v_Js k)) (fun n => v_phis_comp k' i n) = pm i).
    { intros i Hi. clear P HF WF F. destruct HM as [q n chis sh sizes F1 F2 F3|q nf npf chis sh sizes F1 F2 F3 F4].
      - eapply C01_canonical_mean_ideal_gas; eauto.
      - eapply C01_canonical_mean_polydispersed; eauto. }
    rewrite (rsum_ext nc _ (fun i => wmean (q_np q) (living (q_thr q) (v_Js k)) (fun n => v_phis_comp k' i n) * mu i)) by (intros; now rewrite W).
    unfold wmean.
    rewrite (rsum_ext nc _ (fun i => rsum (q_np q) (fun m => living (q_thr q) (v_Js k) m * v_phis_comp k' i m * mu i) / rsum (q_np q) (living (q_thr q) (v_Js k)))).
    + rewrite rsum_div. f_equal. rewrite rsum_swap. apply rsum_ext. intros m Hm.
      unfold living. destruct (Rlt_dec (q_thr q) (v_Js k m)) as [L|L].
      * rewrite (rsum_ext nc _ (fun i => v_Js k m * (v_phis_comp k' i m * mu i))) by (intros; ring). rewrite rsum_scal_l. f_equal.
        destruct (HF m Hm L) as (Pm & Sm). destruct (P m Hm L) as (Qm & _ & S1 & _).
        set (phi := fun j => v_phis_comp k' j m) in *.
        rewrite (rsum_ext nc _ (fun i => phi i * legendre nc (fe_chis F) sizes phi + phi i * dfh nc (fe_chis F) sizes phi i)).
        -- rewrite rsum_plus, rsum_scal_r, S1. pose proof (legendre_eq nc (fe_chis F) sizes phi). lra.
        -- intros i Hi. pose proof (potentials_value F phi mu i WF Pm Qm Hi : mu i = legendre nc (fe_chis F) sizes phi + dfh nc (fe_chis F) sizes phi i) as V.
           change (v_phis_comp k' i m) with (phi i). rewrite V. ring.
      * rewrite Rmult_0_l. symmetry. apply rsum_zero. intros; ring.
    + intros i Hi. rewrite rsum_scal_r. unfold Rdiv. ring.
Qed.
