(** PropertiesRelax.v -- how differences between the fields of two features
    evolve (C90). *)

From Coq Require Import Reals Lra Lia List Bool Arith ZArith FunctionalExtensionality.
From Verif Require Import Base ModelCommon ModelParts ModelKernel ModelPhases ModelFinder ProofsKernel ProofsParts ProofsSteps
  ProofsRun ProofsRun2 ProofsBounds Spec PropertiesKernel PropertiesRun
  PropertiesConstraints ProofsEquilibrium PropertiesEquilibrium.
Import ListNotations.
Open Scope R_scope.

(** The part of the target field of feature [r] in compartment [m] that
    depends on the feature: interaction potential of the fractions of the step
    and the potentials of the constraints. *)
Definition feature_target {G St} (q : kernel) (k k' : kstate G St) (r m : nat) : R :=
  i_potential (q_inter q) (v_phis_feat k') r m +
  lsum (v_cons k) (fun o => k_potential (o_class o) (prepared q k k' o) r m).

(** One step of any interaction, entropy, ensemble and constraints: the
    difference between two fields moves a common fraction of the way to the
    difference of the targets, whatever the incompressibility, the
    interaction coefficient and the volumes of the compartments. *)
Theorem C90_step {G St} (q : kernel) (k k' : kstate G St) nv rep :
  0 < q_ub q -> iterate q k = Ok (k', nv, rep) ->
  exists f, 0 < f <= 1 /\ (f = 1 <-> q_acc_J q * e_Js rep <= q_ub q) /\
    forall m, alive (q_thr q) (v_Js k) m -> forall r s,
      v_omegas k' r m - v_omegas k' s m =
      (1 - f * q_acc_w q) * (v_omegas k r m - v_omegas k s m)
      + f * q_acc_w q * (feature_target q k k' r m - feature_target q k k' s m).
Proof.
  intros Hu H. apply iterate_inv in H. destruct H as (p0 & Q & phis & inc & _ & _ & F).
  exists (t_factor q k phis inc). split; [now apply t_factor_range|]. split.
  { rewrite (if_e_Js F), Rmult_comm. now apply t_factor_one. }
  intros m HA r s. rewrite (if_omegas F). unfold t_omegas.
  unfold t_masks. rewrite mask_alive by exact HA.
  rewrite !diff_alive by exact HA.
  assert (EP : forall r, P_of (t_cs q k phis) r m = lsum (v_cons k) (fun o => k_potential (o_class o) (prepared q k k' o) r m)).
  { intros r0. unfold P_of, t_cs, prepare_all. rewrite lsum_map. apply lsum_ext. intros o Ho. unfold prepared.
    rewrite (if_feat F). replace (living (q_thr q) (v_Js k)) with (t_J q k); [reflexivity|].
    apply functional_extensionality. intros j. apply t_J_living. }
  rewrite !EP. unfold feature_target. rewrite (if_feat F). fold (t_pot q k phis). ring.
Qed.

(* ------------------------------------------------------------------ *)
(** * The mixtures of the package without active constraints *)

Section Relax.
Context {G : Type}.
Implicit Types (q : kernel) (k : kstate G cstate).

Lemma target_idle q k k' nv rep nc nf rho chis sh sizes x r s m :
  mixture q nc nf rho chis sh sizes -> any_ensemble q nc x -> Forall idle (v_cons k) ->
  iterate q k = Ok (k', nv, rep) ->
  feature_target q k k' r m - feature_target q k k' s m =
  rsum nf (fun t => (chis r t - chis s t) * v_phis_feat k' t m).
Proof.
  intros HM HE HI H. destruct (ensemble_kind q k nc rho sizes x HE) as (a & HK).
  destruct (mixture_facts q k k' nv rep nc nf rho chis sh sizes x a HM HK H) as (phis & inc & MF).
  destruct (mf_it _ _ _ _ _ _ _ _ _ _ _ _ _ MF) as [nv' F].
  unfold feature_target. rewrite (if_feat F).
  assert (E0 : forall r, lsum (v_cons k) (fun o => k_potential (o_class o) (prepared q k k' o) r m) = 0).
  { intros r0. apply lsum_zero. intros o Ho. rewrite Forall_forall in HI.
    destruct (HI o Ho) as ((n0 & EC) & E1 & E2). unfold prepared. rewrite EC. cbn. rewrite E1. reflexivity. }
  rewrite !E0. fold (t_pot q k phis). rewrite !(mf_pot _ _ _ _ _ _ _ _ _ _ _ _ _ MF).
  rewrite !Rplus_0_r, <- rsum_minus. apply rsum_ext. intros. ring.
Qed.

Lemma feat_total q k k' nv rep nc nf rho chis sh sizes x m :
  mixture q nc nf rho chis sh sizes -> any_ensemble q nc x -> (forall i, (i < nc)%nat -> 0 < x i) ->
  0 <= q_thr q -> iterate q k = Ok (k', nv, rep) -> (m < q_np q)%nat -> alive (q_thr q) (v_Js k) m ->
  (forall t, (t < nf)%nat -> 0 <= v_phis_feat k' t m) /\ rsum nf (fun t => v_phis_feat k' t m) <= 1 + e_incomp rep.
Proof.
  intros HM HE HX Ht H Hm HA. destruct (ensemble_kind q k nc rho sizes x HE) as (a & HK).
  destruct (mixture_facts q k k' nv rep nc nf rho chis sh sizes x a HM HK H) as (phis & inc & MF).
  destruct (mf_it _ _ _ _ _ _ _ _ _ _ _ _ _ MF) as [nv' F]. rewrite (if_feat F). split.
  - intros t Hl. rewrite (mf_feat _ _ _ _ _ _ _ _ _ _ _ _ _ MF) by auto. unfold fsum. apply rsum_nonneg. intros i Hi.
    pose proof (frac_pos _ _ _ _ _ _ _ _ _ _ _ _ _ MF Ht HX i m Hi HA). destruct (Nat.eqb _ _); lra.
  - pose proof (feat_comp _ _ _ _ _ _ _ _ _ _ _ _ _ MF (fun _ => 1) m) as E.
    rewrite (rsum_ext nf _ (fun r => 1 * t_feat q k phis r m)) by (intros; ring). rewrite E.
    pose proof (incomp_le _ _ _ _ _ _ _ _ _ _ _ _ _ MF m Hm) as HI.
    rewrite (mf_inc _ _ _ _ _ _ _ _ _ _ _ _ _ MF) in HI. rewrite mask_alive in HI by exact HA.
    apply Rabs_le_inv in HI. rewrite (rsum_ext nc _ (fun i => phis i m)) by (intros; ring). lra.
Qed.

(** no revival once no tries are left *)
Lemma no_revival (ops : rng_ops G) q tries c k : (tries <= 0)%Z -> maybe_revive ops q tries c k = (c, k).
Proof. intros H. unfold maybe_revive. destruct (Z.ltb_spec (Z.of_nat c) tries); [lia|reflexivity]. Qed.

Lemma step_inv (ops : rng_ops G) q tries n (w w' : mstate G cstate) : (tries <= 0)%Z -> steps ops q tries (S n) w = Ok w' ->
  exists w1 nv rep, steps ops q tries n w = Ok w1 /\ iterate q (w_k w1) = Ok (w_k w', nv, rep) /\ w_rep w' = Some rep.
Proof.
  intros Ht H. cbn [steps] in H. apply bind_Ok in H. destruct H as (w1 & E1 & H). unfold one_step in H.
  rewrite no_revival in H by auto. apply bind_Ok in H. destruct H as ([[k' nv] rep] & EI & H). injection H as <-.
  exists w1, nv, rep. auto.
Qed.

(** One step bounds the differences by a weighted mean of two bounds. *)
Lemma step_bound q k k' nv rep nc nf rho chis sh sizes x D B E :
  mixture q nc nf rho chis sh sizes -> any_ensemble q nc x -> (forall i, (i < nc)%nat -> 0 < x i) ->
  Forall idle (v_cons k) -> 0 <= q_thr q -> 0 < q_ub q -> 0 <= q_acc_w q <= 1 ->
  (forall r s t, (r < nf)%nat -> (s < nf)%nat -> (t < nf)%nat -> Rabs (chis r t - chis s t) <= D) ->
  0 <= D -> D * (1 + E) <= B -> iterate q k = Ok (k', nv, rep) -> e_incomp rep <= E ->
  (forall m r s, (m < q_np q)%nat -> (r < nf)%nat -> (s < nf)%nat -> alive (q_thr q) (v_Js k) m ->
     Rabs (v_omegas k r m - v_omegas k s m) <= B) ->
  forall m r s, (m < q_np q)%nat -> (r < nf)%nat -> (s < nf)%nat -> Rabs (v_omegas k' r m - v_omegas k' s m) <= B.
Proof.
  intros HM HE HX HI Ht Hu Hw HD D0 HB H He HS m r s Hm Hr Hs.
  destruct (Rlt_le_dec (q_thr q) (v_Js k m)) as [HA|HA].
  - destruct (C90_step q k k' nv rep Hu H) as (f & Hf & _ & EQ). rewrite (EQ m HA).
    rewrite (target_idle q k k' nv rep nc nf rho chis sh sizes x r s m HM HE HI H).
    destruct (feat_total q k k' nv rep nc nf rho chis sh sizes x m HM HE HX Ht H Hm HA) as (P & S).
    assert (U : Rabs (rsum nf (fun t => (chis r t - chis s t) * v_phis_feat k' t m)) <= B).
    { eapply Rle_trans; [apply rsum_Rabs|].
      apply Rle_trans with (rsum nf (fun t => D * v_phis_feat k' t m)).
      - apply rsum_le. intros t Hl. rewrite Rabs_mult, (Rabs_right (v_phis_feat k' t m)) by (apply Rle_ge; auto).
        apply Rmult_le_compat_r; auto.
      - rewrite rsum_scal_l. nra. }
    specialize (HS m r s Hm Hr Hs HA). set (th := f * q_acc_w q).
    assert (0 <= th <= 1) by (unfold th; split; nra).
    eapply Rle_trans; [apply Rabs_triang|]. rewrite !Rabs_mult, (Rabs_right (1 - th)), (Rabs_right th) by lra. nra.
  - destruct (iterate_dead _ _ _ _ _ _ H HA) as (_ & E0). rewrite !E0, Rminus_diag_eq, Rabs_R0 by reflexivity.
    assert (0 <= E). { eapply Rle_trans; [|exact He]. apply iterate_inv in H. destruct H as (p0 & Q & phis & inc & _ & _ & F).
      rewrite (if_e_incomp F). apply vmax_abs_nonneg. }
    nra.
Qed.

(** The differences between the fields of a compartment stay within the
    larger of their starting values and [D * (1 + E)], for any number of
    steps, where [D] bounds the differences within the columns of chi and [E]
    the reported incompressibilities. *)
Theorem C90_bounded (ops : rng_ops G) q tries n k w nc nf rho chis sh sizes x D B E :
  mixture q nc nf rho chis sh sizes -> any_ensemble q nc x -> (forall i, (i < nc)%nat -> 0 < x i) ->
  Forall idle (v_cons k) -> 0 <= q_thr q -> 0 < q_ub q -> 0 <= q_acc_w q <= 1 -> (tries <= 0)%Z ->
  (forall r s t, (r < nf)%nat -> (s < nf)%nat -> (t < nf)%nat -> Rabs (chis r t - chis s t) <= D) ->
  (forall m r s, (m < q_np q)%nat -> (r < nf)%nat -> (s < nf)%nat -> alive (q_thr q) (v_Js k) m ->
     Rabs (v_omegas k r m - v_omegas k s m) <= B) ->
  steps ops q tries n (start k) = Ok w ->
  (forall j wj rep, (j <= n)%nat -> steps ops q tries j (start k) = Ok wj -> w_rep wj = Some rep -> e_incomp rep <= E) ->
  forall m r s, (m < q_np q)%nat -> (r < nf)%nat -> (s < nf)%nat -> alive (q_thr q) (v_Js (w_k w)) m ->
    Rabs (v_omegas (w_k w) r m - v_omegas (w_k w) s m) <= Rmax B (D * (1 + E)).
Proof.
  intros HM HE HX HI Ht Hu Hw Hn HD HB. revert w. induction n as [|n IH]; intros w HS HR m r s Hm Hr Hs HA.
  - injection HS as <-. eapply Rle_trans; [|apply Rmax_l]. now apply HB.
  - pose proof (HR (S n)) as HR1. destruct (step_inv _ _ _ _ _ _ Hn HS) as (w1 & nv & rep & E1 & EI & ER).
    assert (D0 : 0 <= D). { eapply Rle_trans; [apply Rabs_pos|]. apply (HD r r r); auto. }
    eapply (step_bound q (w_k w1) (w_k w) nv rep nc nf rho chis sh sizes x D _ E); eauto.
    + rewrite (idle_steps ops q tries n (start k) w1); auto.
    + apply Rmax_r.
Qed.

(** Nothing distinguishes the features (all rows of chi equal, e.g. chi = 0):
    all differences in all compartments that stay alive are multiplied by one
    number between [(1 - acceptance_omega)^n] and 1. *)
Theorem C90_ideal (ops : rng_ops G) q tries n k w nc nf rho chis sh sizes x :
  mixture q nc nf rho chis sh sizes -> any_ensemble q nc x ->
  Forall idle (v_cons k) -> 0 <= q_thr q -> 0 < q_ub q -> 0 <= q_acc_w q <= 1 -> (tries <= 0)%Z ->
  (forall r s t, (r < nf)%nat -> (s < nf)%nat -> (t < nf)%nat -> chis r t = chis s t) ->
  steps ops q tries n (start k) = Ok w ->
  exists g, (1 - q_acc_w q) ^ n <= g <= 1 /\ (0 < q_acc_w q -> (0 < n)%nat -> g < 1) /\
    forall m r s, (r < nf)%nat -> (s < nf)%nat -> alive (q_thr q) (v_Js (w_k w)) m ->
      v_omegas (w_k w) r m - v_omegas (w_k w) s m = g * (v_omegas k r m - v_omegas k s m).
Proof.
  intros HM HE HI Ht Hu Hw Hn HD. revert w. induction n as [|n IH]; intros w HS.
  - injection HS as <-. exists 1. cbn. split; [lra|]. split; [lia|]. intros. ring.
  - destruct (step_inv _ _ _ _ _ _ Hn HS) as (w1 & nv & rep & E1 & EI & ER).
    destruct (IH w1 E1) as (g & Hg & _ & EQ). destruct (C90_step q (w_k w1) (w_k w) nv rep Hu EI) as (f & Hf & _ & EF).
    assert (P0 : 0 <= (1 - q_acc_w q) ^ n) by (apply pow_le; lra).
    exists ((1 - f * q_acc_w q) * g). assert (T : 1 - q_acc_w q <= 1 - f * q_acc_w q <= 1) by nra.
    split; [|split].
    + cbn [pow]. split; [|nra]. apply Rmult_le_compat; lra.
    + intros W _. assert (1 - f * q_acc_w q < 1) by nra. nra.
    + intros m r s Hr Hs HA. pose proof (alive_before q (w_k w1) (w_k w) nv rep m Ht EI HA) as HA1.
      rewrite (EF m HA1). rewrite (EQ m r s Hr Hs HA1).
      assert (HI1 : Forall idle (v_cons (w_k w1))) by (rewrite (idle_steps ops q tries n (start k) w1); auto).
      rewrite (target_idle q (w_k w1) (w_k w) nv rep nc nf rho chis sh sizes x r s m HM HE HI1 EI).
      rewrite (rsum_ext nf _ (fun _ => 0)). { rewrite rsum_const. ring. }
      intros t Hl. rewrite (HD r s t) by auto. ring.
Qed.

(** ... in particular during [run] once no revivals are left. *)
Theorem C90_ideal_run (ops : rng_ops G) (f : finder G cstate) a t i f' ph d nc nf rho chis sh sizes x :
  mixture (kernel_of f) nc nf rho chis sh sizes -> any_ensemble (kernel_of f) nc x ->
  Forall idle (v_cons (f_k f)) -> 0 <= m_thr (f_par f) -> 0 < m_ub (f_par f) -> 0 <= m_acc_w (f_par f) <= 1 ->
  (f_left f <= 0)%Z ->
  (forall r s t, (r < nf)%nat -> (s < nf)%nat -> (t < nf)%nat -> chis r t = chis s t) ->
  run ops f a t i = (f', Ok ph) -> f_diag f' = Some d ->
  exists g, (1 - m_acc_w (f_par f)) ^ Z.to_nat (d_steps d) <= g <= 1 /\ (0 < m_acc_w (f_par f) -> g < 1) /\
    forall m r s, (r < nf)%nat -> (s < nf)%nat -> alive (m_thr (f_par f)) (v_Js (f_k f')) m ->
      v_omegas (f_k f') r m - v_omegas (f_k f') s m = g * (v_omegas (f_k f) r m - v_omegas (f_k f) s m).
Proof.
  intros HM HE HI Ht Hu Hw Hn HD H Hd. apply run_inv in H.
  destruct H as (tr & inner & j & w & rep & n & J & phi & g0 & RF).
  rewrite (rf_f RF) in *. injection Hd as <-. cbn [d_steps]. rewrite Nat2Z.id.
  pose proof (rf_j RF) as Hj. pose proof (rf_inner RF) as Hi.
  destruct (C90_ideal ops (kernel_of f) (f_left f) (j * inner) (f_k f) w nc nf rho chis sh sizes x) as (g & H1 & H2 & H3);
    auto. { exact (rf_steps RF). }
  exists g. split; [exact H1|]. split; [|exact H3]. intros W. apply H2; [exact W|]. apply Nat.mul_pos_pos; lia.
Qed.

End Relax.
