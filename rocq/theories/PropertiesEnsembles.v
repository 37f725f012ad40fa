(** PropertiesEnsembles.v -- grand canonical ensemble, its relation to the
    canonical one, and the chi shift (C53, C54, C19). *)

From Coquelicot Require Import Coquelicot.
From Coq Require Import Reals Lra Lia List Bool Arith ZArith FunctionalExtensionality.
From Verif Require Import Base ModelCommon ModelParts ModelKernel ModelPhases ModelFinder ProofsKernel ProofsParts ProofsSteps
  ProofsRun ProofsRun2 ModelFreeEnergy ProofsFreeEnergy Spec Examples PropertiesKernel PropertiesRun PropertiesFreeEnergy
  PropertiesConstraints ProofsEquilibrium PropertiesEquilibrium.
Import ListNotations.
Open Scope R_scope.

Section Props.
Context {G : Type}.
Implicit Types (q : kernel).

(* ------------------------------------------------------------------ *)
(** ** C53 *)

(** Fractions of the grand canonical ensemble: activity times Boltzmann
    factor; the volumes only decide which compartments live. *)
Theorem C53_fractions {St} q (k k' : kstate G St) nv rep nc nf rho chis sh sizes act :
  mixture q nc nf rho chis sh sizes -> q_ensemble q = gc_compiled nc act -> iterate q k = Ok (k', nv, rep) ->
  forall i m, (i < nc)%nat ->
    (alive (q_thr q) (v_Js k) m -> v_phis_comp k' i m = act i * exp (- (v_omegas k (rho i) m * sizes i))) /\
    (dead (q_thr q) (v_Js k) m -> v_phis_comp k' i m = 0).
Proof.
  intros HM HE H i m Hi.
  destruct (mixture_facts _ _ _ _ _ _ _ _ _ _ _ _ _ HM (ek_gc _ _ _ _ _ _ HE) H) as (phis & inc & MF).
  destruct (mf_it _ _ _ _ _ _ _ _ _ _ _ _ _ MF) as [nv' I]. rewrite (if_comp I). split; intros HA.
  - rewrite (frac_alive _ _ _ _ _ _ _ _ _ _ _ _ _ MF) by auto. f_equal. f_equal. ring.
  - rewrite (mf_frac _ _ _ _ _ _ _ _ _ _ _ _ _ MF) by auto. rewrite mask_dead by auto. ring.
Qed.

(** the array [exchange_chemical_potentials] returns for one composition *)
Definition exchanges (F : fe) (phi : vec) (z : Z) (ex : vec) : Prop :=
  exchange_chemical_potentials F (One (listed (fe_nc F) phi)) z = Ok (Single (listed (fe_nc F) (fun i => Fin (ex i)))).

Lemma exchanges_dfh F phi z c : wf_fe F -> (forall i, (i < fe_nc F)%nat -> 0 < phi i) -> axis_index (fe_nc F) z = Ok c -> (c < fe_nc F)%nat ->
  exchanges F phi z (fun i => dfh (fe_nc F) (fe_chis F) (fe_sizes F) phi i - dfh (fe_nc F) (fe_chis F) (fe_sizes F) phi c).
Proof.
  intros WF HP Hz Hc. unfold exchanges, exchange_chemical_potentials, jacobian.
  rewrite check_ok.
  - cbn [bind each]. rewrite Hz. cbn [bind omap]. f_equal. f_equal. rewrite listed_map. apply listed_ext. intros i Hi.
    assert (E : forall j, (j < fe_nc F)%nat -> entries (listed (fe_nc F) phi) j = phi j).
    { intros j Hj. unfold entries. now rewrite listed_nth. }
    assert (D : forall j, (j < fe_nc F)%nat -> jacobian_at F (entries (listed (fe_nc F) phi)) j = Fin (dfh (fe_nc F) (fe_chis F) (fe_sizes F) phi j)).
    { intros j Hj. rewrite jacobian_fin; auto.
      - f_equal. unfold dfh. rewrite E by auto. f_equal. apply rsum_ext. intros. now rewrite E.
      - rewrite E by auto. auto. }
    rewrite listed_nth by auto. rewrite !D by auto. cbn. f_equal.
  - cbn. apply listed_length.
  - unfold nonneg. cbn. constructor; [|constructor]. apply Forall_forall. intros y Hy. unfold listed in Hy.
    apply in_map_iff in Hy. destruct Hy as (i & <- & Hi). apply in_seq in Hi. left. apply HP. lia.
Qed.

(** Exchange chemical potentials in every living compartment of a step: the
    requested differences plus the offsets (1 + ln l) / l, up to the errors. *)
Theorem C53_exchange_potentials q (k k' : kstate G cstate) nv rep nc nf rho chis sh cmin sizes mus z c :
  mixture q nc nf rho chis sh sizes -> q_ensemble q = gc_compiled nc (gc_activity_from_mu mus sizes) ->
  admissible nc nf chis sizes (fun _ => 1) -> smallest nf chis cmin -> 0 <= q_thr q -> Forall idle (v_cons k) ->
  iterate q k = Ok (k', nv, rep) -> axis_index nc z = Ok c -> (c < nc)%nat ->
  forall m, (m < q_np q)%nat -> alive (q_thr q) (v_Js k) m ->
  exists ex, exchanges (fe_of nc rho chis sizes) (fun i => v_phis_comp k' i m) z ex /\
    forall i, (i < nc)%nat ->
      Rabs (ex i - ((mus i - mus c) + ((1 + ln (sizes i)) / sizes i - (1 + ln (sizes c)) / sizes c)))
      <= INR nf * e_omega rep + Rabs (shifted_sum nf chis cmin sh) * e_incomp rep.
Proof.
  intros HM HE (Hn & Hsym & Hsz & _) Hmin Ht HI H Hz Hc m Hm Lm.
  destruct (mixture_facts _ _ _ _ _ _ _ _ _ _ _ _ _ HM (ek_gc _ _ _ _ _ _ HE) H) as (phis & inc & MF).
  destruct (mf_it _ _ _ _ _ _ _ _ _ _ _ _ _ MF) as [nv' I]. rewrite (if_comp I).
  assert (Hs0 : forall i, (i < nc)%nat -> sizes i <> 0) by (intros i Hi; specialize (Hsz i Hi); lra).
  assert (Hx : forall i, (i < nc)%nat -> 0 < gc_activity_from_mu mus sizes i).
  { intros i Hi. unfold gc_activity_from_mu. apply Rmult_lt_0_compat; [auto|apply exp_pos]. }
  eexists. split.
  - apply exchanges_dfh with (c := c); [eapply wf_fe_of; eauto| |exact Hz|exact Hc]. intros i Hi. eapply frac_pos; eauto.
  - intros i Hi. cbn [fe_nc fe_of fe_sizes].
    destruct (idle_sums q k phis HI) as [ZP ZV].
    rewrite (jac_identity _ _ _ _ _ _ _ _ _ _ _ _ _ MF Ht Hs0 Hx i m Hi Lm).
    rewrite (jac_identity _ _ _ _ _ _ _ _ _ _ _ _ _ MF Ht Hs0 Hx c m Hc Lm). rewrite !ZP.
    assert (EL : forall j, (j < nc)%nat -> ln (gc_activity_from_mu mus sizes j) / sizes j + 1 / sizes j = mus j + (1 + ln (sizes j)) / sizes j).
    { intros j Hj. unfold gc_activity_from_mu. rewrite ln_mult by (auto using exp_pos). rewrite ln_exp. field. auto. }
    rewrite (EL i), (EL c) by auto.
    rewrite <- (coef_of_mixture _ _ _ _ _ _ _ _ Hn HM Hmin).
    pose proof (mf_rho _ _ _ _ _ _ _ _ _ _ _ _ _ MF i Hi) as Hri.
    pose proof (mf_rho _ _ _ _ _ _ _ _ _ _ _ _ _ MF c Hc) as Hrc.
    pose proof (max_diff_ge _ _ _ _ _ _ _ _ _ _ _ _ _ MF (rho i) m Hri Hm) as A1.
    pose proof (max_diff_ge _ _ _ _ _ _ _ _ _ _ _ _ _ MF (rho c) m Hrc Hm) as A2.
    pose proof (diff_lower _ _ _ _ _ _ _ _ _ _ _ _ _ MF (rho i) m Hri Hm Lm) as B1.
    pose proof (diff_lower _ _ _ _ _ _ _ _ _ _ _ _ _ MF (rho c) m Hrc Hm Lm) as B2.
    cbv zeta in *. apply Rabs_le. lra.
Qed.

(** Equal sizes and zero errors: exactly the requested differences. *)
Theorem C53_equal_sizes q (k k' : kstate G cstate) nv rep nc nf rho chis sh cmin sizes mus z c l :
  mixture q nc nf rho chis sh sizes -> q_ensemble q = gc_compiled nc (gc_activity_from_mu mus sizes) ->
  admissible nc nf chis sizes (fun _ => 1) -> smallest nf chis cmin -> 0 <= q_thr q -> Forall idle (v_cons k) ->
  iterate q k = Ok (k', nv, rep) -> axis_index nc z = Ok c -> (c < nc)%nat ->
  (forall i, (i < nc)%nat -> sizes i = l) -> e_omega rep = 0 -> e_incomp rep = 0 ->
  forall m, (m < q_np q)%nat -> alive (q_thr q) (v_Js k) m ->
  exchanges (fe_of nc rho chis sizes) (fun i => v_phis_comp k' i m) z (fun i => mus i - mus c).
Proof.
  intros HM HE HA Hmin Ht HI H Hz Hc HL E1 E2 m Hm Lm.
  destruct (C53_exchange_potentials _ _ _ _ _ _ _ _ _ _ _ _ _ _ _ HM HE HA Hmin Ht HI H Hz Hc m Hm Lm) as (ex & P & B).
  unfold exchanges in *. rewrite P. f_equal. f_equal. apply listed_ext. intros i Hi. cbn in Hi. f_equal.
  specialize (B i Hi). rewrite E1, E2, !HL in B by auto. apply Rabs_le_inv in B. lra.
Qed.

(* ------------------------------------------------------------------ *)
(** ** C54 *)

Definition with_ensemble q (e : ensemble) : kernel :=
  {| q_inter := q_inter q; q_entropy := q_entropy q; q_ensemble := e; q_nf := q_nf q; q_np := q_np q;
     q_acc_J := q_acc_J q; q_ub := q_ub q; q_acc_w := q_acc_w q; q_thr := q_thr q; q_scaler := q_scaler q |}.

(** Boltzmann average of a component over the living compartments *)
Definition boltzmann_mean {St} q (k : kstate G St) (rho : nat -> nat) (sizes : vec) (i : nat) : R :=
  wmean (q_np q) (living (q_thr q) (v_Js k)) (fun m => exp (- (v_omegas k (rho i) m * sizes i))).

Lemma boltzmann_mean_Qbar {St} q (k : kstate G St) rho sizes i : boltzmann_mean q k rho sizes i = Qbar q k rho sizes i.
Proof.
  unfold boltzmann_mean, wmean, Qbar. f_equal. apply rsum_ext. intros m _. rewrite Rmult_comm. f_equal. f_equal. ring.
Qed.

(** averages computed by either entropy *)
Lemma partition_means {St} q (k : kstate G St) nc nf rho chis sh sizes p0 Q :
  mixture q nc nf rho chis sh sizes ->
  s_partition (q_entropy q) (q_np q) (v_phis_comp k) (v_omegas k) (t_J q k) = Ok (p0, Q) ->
  forall i, (i < nc)%nat -> Q i = Qbar q k rho sizes i.
Proof.
  intros HM HP.
  assert (QE : forall i, ig_Q (q_np q) (v_omegas k (rho i)) (t_J q k) (sizes i) = Qbar q k rho sizes i).
  { intros i. unfold ig_Q, Qbar. f_equal; apply rsum_ext; intros m _; rewrite t_J_living; reflexivity. }
  destruct HM as [q n chis sh sizes E1 E2 E3|q nf npf chis sh sizes E1 E2 E3 E4]; rewrite ?E3, ?E4 in HP; cbn in HP.
  - apply ig_partition_spec in HP. destruct HP as (_ & _ & HQ). intros i Hi. rewrite HQ by auto. apply QE.
  - apply pg_partition_spec in HP. destruct HP as (_ & _ & HQ).
    intros i Hi. destruct (nsum_find _ _ _ Hi) as (r & j & Hr & Hj & ->). rewrite HQ by auto. rewrite <- QE.
    now rewrite feature_of_eq.
Qed.

(** A canonical step is the grand canonical step with activities
    [phi_means / Q]: same result, errors included, from every state. *)
Theorem C54_canonical_as_grandcanonical {St} q (k : kstate G St) nc nf rho chis sh sizes pm r :
  mixture q nc nf rho chis sh sizes -> q_ensemble q = can_compiled nc pm -> iterate q k = Ok r ->
  iterate (with_ensemble q (gc_compiled nc (fun i => pm i / boltzmann_mean q k rho sizes i))) k = Ok r.
Proof.
  intros HM HE H. set (q2 := with_ensemble q _). rewrite iterate_eq in *.
  change (s_partition (q_entropy q2) (q_np q2) (v_phis_comp k) (v_omegas k) (t_J q2 k)) with
    (s_partition (q_entropy q) (q_np q) (v_phis_comp k) (v_omegas k) (t_J q k)).
  destruct (s_partition (q_entropy q) _ _ _ _) as [[p0 Q]|e] eqn:EP; cbn [bind] in *; [|discriminate].
  pose proof (partition_means _ _ _ _ _ _ _ _ _ _ HM EP) as HQ.
  rewrite HE in H. change (q_ensemble q2) with (gc_compiled nc (fun i => pm i / boltzmann_mean q k rho sizes i)). cbn [can_compiled gc_compiled n_normalize] in *.
  assert (EN : forall o, can_normalize nc pm p0 Q (t_masks q k) = Ok o ->
     gc_normalize nc (fun i => pm i / boltzmann_mean q k rho sizes i) p0 Q (t_masks q2 k) = Ok o).
  { intros o. unfold can_normalize, gc_normalize. destruct (negb _); [discriminate|]. intros E. rewrite <- E.
    change (t_masks q2 k) with (t_masks q k).
    rewrite (for_ext nc (fun i '(phis, incomp) => let row := fun m => pm i / boltzmann_mean q k rho sizes i * phis i m * t_masks q k m in (upd_row phis i row, fun m => incomp m + row m))
      (fun i '(phis, incomp) => let factor := pm i / Q i in let row := fun m => factor * phis i m * t_masks q k m in (upd_row phis i row, fun m => incomp m + row m))).
    - reflexivity.
    - intros i [phis inc] Hi. cbv zeta. rewrite HQ by auto. rewrite boltzmann_mean_Qbar. reflexivity. }
  destruct (can_normalize nc pm p0 Q (t_masks q k)) as [[phis inc]|e]; cbn [bind] in H; [|discriminate].
  rewrite (EN _ eq_refl). exact H.
Qed.

(** Conversely a grand canonical step is the canonical step with the mean
    fractions it produces. *)
Theorem C54_grandcanonical_as_canonical {St} q (k : kstate G St) nc nf rho chis sh sizes act r :
  mixture q nc nf rho chis sh sizes -> q_ensemble q = gc_compiled nc act -> 0 <= q_thr q -> iterate q k = Ok r ->
  iterate (with_ensemble q (can_compiled nc (fun i => act i * boltzmann_mean q k rho sizes i))) k = Ok r.
Proof.
  intros HM HE Ht H. set (q2 := with_ensemble q _).
  assert (HP : forall i, 0 < Qbar q k rho sizes i).
  { intros i. destruct r as [[k' nv] rep]. apply iterate_inv in H. destruct H as (p0 & Q & phis & inc & _ & _ & F).
    apply Qbar_pos; auto. apply count_valid_pos. apply (if_nv_pos F). }
  rewrite iterate_eq in *.
  change (s_partition (q_entropy q2) (q_np q2) (v_phis_comp k) (v_omegas k) (t_J q2 k)) with
    (s_partition (q_entropy q) (q_np q) (v_phis_comp k) (v_omegas k) (t_J q k)).
  destruct (s_partition (q_entropy q) _ _ _ _) as [[p0 Q]|e] eqn:EP; cbn [bind] in *; [|discriminate].
  pose proof (partition_means _ _ _ _ _ _ _ _ _ _ HM EP) as HQ.
  rewrite HE in H. change (q_ensemble q2) with (can_compiled nc (fun i => act i * boltzmann_mean q k rho sizes i)). cbn [can_compiled gc_compiled n_normalize] in *.
  assert (EN : gc_normalize nc act p0 Q (t_masks q k) = can_normalize nc (fun i => act i * boltzmann_mean q k rho sizes i) p0 Q (t_masks q2 k)).
  { unfold can_normalize, gc_normalize. change (t_masks q2 k) with (t_masks q k).
    assert (E0 : ncount nc (fun i => Reqb (Q i) 0) = 0%nat).
    { apply ncount_none. intros i Hi. apply Reqb_false. rewrite HQ by auto. specialize (HP i). lra. }
    rewrite E0. cbn [Nat.eqb negb].
    rewrite (for_ext nc (fun i '(phis, incomp) => let row := fun m => act i * phis i m * t_masks q k m in (upd_row phis i row, fun m => incomp m + row m))
      (fun i '(phis, incomp) => let factor := act i * boltzmann_mean q k rho sizes i / Q i in let row := fun m => factor * phis i m * t_masks q k m in (upd_row phis i row, fun m => incomp m + row m))).
    - reflexivity.
    - intros i [phis inc] Hi. cbv zeta. rewrite boltzmann_mean_Qbar. rewrite HQ by auto.
      assert (E : act i * Qbar q k rho sizes i / Qbar q k rho sizes i = act i) by (field; specialize (HP i); lra). now rewrite E. }
  rewrite EN in H. exact H.
Qed.

(* ------------------------------------------------------------------ *)
(** ** C19 *)

Definition with_shift q (nf : nat) (chis : mat) (sh : R) : kernel :=
  {| q_inter := fh_compile nf chis sh; q_entropy := q_entropy q; q_ensemble := q_ensemble q; q_nf := q_nf q; q_np := q_np q;
     q_acc_J := q_acc_J q; q_ub := q_ub q; q_acc_w := q_acc_w q; q_thr := q_thr q; q_scaler := q_scaler q |}.

(** Potentials and volume derivatives do not depend on the shift. *)
Theorem C19_same_parts nf chis sh1 sh2 :
  i_potential (fh_compile nf chis sh1) = i_potential (fh_compile nf chis sh2) /\
  i_vd (fh_compile nf chis sh1) = i_vd (fh_compile nf chis sh2).
Proof. split; reflexivity. Qed.

(** Two steps from the same state with different shifts compute the same
    fractions, and without incompressibility error they are the same step. *)
Theorem C19_shift_irrelevant {St} q (k : kstate G St) nf chis sh1 sh2 k1 nv1 rep1 :
  0 < q_ub q -> iterate (with_shift q nf chis sh1) k = Ok (k1, nv1, rep1) ->
  exists k2 rep2, iterate (with_shift q nf chis sh2) k = Ok (k2, nv1, rep2) /\
    v_phis_comp k2 = v_phis_comp k1 /\ v_phis_feat k2 = v_phis_feat k1 /\ e_incomp rep2 = e_incomp rep1 /\
    (e_incomp rep1 = 0 ->
       rep2 = rep1 /\ v_cons k2 = v_cons k1 /\ v_g k2 = v_g k1 /\
       forall m, (m < q_np q)%nat -> v_Js k2 m = v_Js k1 m /\ forall r, (r < q_nf q)%nat -> v_omegas k2 r m = v_omegas k1 r m).
Proof.
  intros Hu H. set (q1 := with_shift q nf chis sh1) in *. set (q2 := with_shift q nf chis sh2).
  pose proof H as H0. apply iterate_inv in H0. destruct H0 as (p0 & Q & phis & inc & HP & HN & F1).
  destruct (iterate_ok q2 k p0 Q phis inc HP HN (if_nv_pos F1)) as (k2 & nv2 & rep2 & H2).
  { apply Rgt_not_eq. now apply t_change_pos. }
  pose proof H2 as H3. apply iterate_inv in H3. destruct H3 as (p0' & Q' & phis' & inc' & HP' & HN' & F2).
  change (s_partition (q_entropy q2) (q_np q2) (v_phis_comp k) (v_omegas k) (t_J q2 k)) with
    (s_partition (q_entropy q1) (q_np q1) (v_phis_comp k) (v_omegas k) (t_J q1 k)) in HP'.
  rewrite HP in HP'. injection HP' as <- <-.
  change (n_normalize (q_ensemble q2) p0 Q (t_masks q2 k)) with (n_normalize (q_ensemble q1) p0 Q (t_masks q1 k)) in HN'.
  rewrite HN in HN'. injection HN' as <- <-.
  exists k2, rep2. assert (EV : nv2 = nv1) by (rewrite (if_nv F1), (if_nv F2); reflexivity). rewrite EV in *.
  split; [exact H2|]. split; [now rewrite (if_comp F1), (if_comp F2)|]. split; [now rewrite (if_feat F1), (if_feat F2)|].
  split; [now rewrite (if_e_incomp F1), (if_e_incomp F2)|]. intros E0.
  assert (HZ : forall m, (m < q_np q)%nat -> inc m = 0).
  { intros m Hm. rewrite (if_e_incomp F1) in E0.
    pose proof (vmax_ge (q_np q1) (fun m => Rabs (inc m)) m Hm) as L. rewrite E0 in L. cbv beta in L. apply Rabs_le_inv in L. lra. }
  assert (Ex : forall m, (m < q_np q)%nat -> t_xi q2 k phis inc m = t_xi q1 k phis inc m).
  { intros m Hm. unfold t_xi, xi_of. rewrite HZ by auto. rewrite !Rmult_0_r. reflexivity. }
  assert (Eo : forall r m, (m < q_np q)%nat -> t_otemp q2 k phis inc r m = t_otemp q1 k phis inc r m).
  { intros r m Hm. unfold t_otemp, omega_temp_of. rewrite Ex by auto. reflexivity. }
  assert (El : forall m, (m < q_np q)%nat -> t_le q2 k phis inc m = t_le q1 k phis inc m).
  { intros m Hm. unfold t_le, local_energy_of. rewrite Ex by auto.
    rewrite (rsum_ext (q_nf q2) _ (fun r => t_otemp q1 k phis inc r m * t_feat q1 k phis r m)) by (intros; now rewrite Eo).
    reflexivity. }
  assert (Em : t_mean q2 k phis inc = t_mean q1 k phis inc).
  { unfold t_mean. change (q_np q2) with (q_np q). change (q_np q1) with (q_np q).
    rewrite (rsum_ext (q_np q) _ (fun m => t_le q1 k phis inc m * t_J q1 k m)) by (intros; now rewrite El).
    reflexivity. }
  assert (Ej : forall m, (m < q_np q)%nat -> t_Jdiff q2 k phis inc m = t_Jdiff q1 k phis inc m).
  { intros m Hm. unfold t_Jdiff. rewrite Em, El by auto. reflexivity. }
  assert (Ea : t_maxJ q2 k phis inc = t_maxJ q1 k phis inc).
  { unfold t_maxJ. change (q_np q2) with (q_np q). change (q_np q1) with (q_np q). apply vmax_ext. intros. now rewrite Ej. }
  assert (Ef : t_factor q2 k phis inc = t_factor q1 k phis inc).
  { unfold t_factor, t_change. rewrite Ea. reflexivity. }
  assert (Ed : forall r m, (m < q_np q)%nat -> t_diff q2 k phis inc r m = t_diff q1 k phis inc r m).
  { intros r m Hm. unfold t_diff. rewrite Eo by auto. reflexivity. }
  assert (E1 : forall m, (m < q_np q)%nat -> t_J1 q2 k phis inc m = t_J1 q1 k phis inc m).
  { intros m Hm. unfold t_J1. rewrite Ef, Ej by auto. reflexivity. }
  assert (Es : t_shift q2 k phis inc = t_shift q1 k phis inc).
  { unfold t_shift. change (q_np q2) with (q_np q). change (q_np q1) with (q_np q). rewrite (rsum_ext _ _ _ E1). reflexivity. }
  assert (Eev : t_evolve q2 k phis inc = t_evolve q1 k phis inc).
  { unfold t_evolve. rewrite Ef. reflexivity. }
  split; [|split; [|split]].
  - destruct rep1 as [a1 b1 c1 d1], rep2 as [a2 b2 c2 d2].
    pose proof (if_e_incomp F1) as X1. pose proof (if_e_incomp F2) as X2. pose proof (if_e_omega F1) as Y1. pose proof (if_e_omega F2) as Y2.
    pose proof (if_e_Js F1) as Z1. pose proof (if_e_Js F2) as Z2. pose proof (if_e_cons F1) as W1. pose proof (if_e_cons F2) as W2.
    cbn in X1, X2, Y1, Y2, Z1, Z2, W1, W2. f_equal.
    + rewrite X1, X2. reflexivity.
    + rewrite Y1, Y2. unfold max_omega_diff. apply for_ext. intros r acc Hr. f_equal. apply vmax_ext. intros. now apply Ed.
    + rewrite Z1, Z2. exact Ea.
    + rewrite W1, W2, Eev. reflexivity.
  - rewrite (if_cons F1), (if_cons F2), Eev. reflexivity.
  - now rewrite (if_g F1), (if_g F2).
  - intros m Hm. rewrite (if_Js F1), (if_Js F2), (if_omegas F1), (if_omegas F2). split.
    + unfold t_J2. rewrite E1, Es by auto. reflexivity.
    + intros r Hr. unfold t_omegas. rewrite Ef, Ed by auto. reflexivity.
Qed.

(** Hence the same states have zero residuals. *)
Theorem C19_same_zero_states {St} q (k : kstate G St) nf chis sh1 sh2 :
  0 < q_ub q ->
  let zero := fun sh => exists k' nv rep, iterate (with_shift q nf chis sh) k = Ok (k', nv, rep) /\
                e_incomp rep = 0 /\ e_omega rep = 0 /\ e_Js rep = 0 /\ e_cons rep = 0 in
  zero sh1 <-> zero sh2.
Proof.
  intros Hu zero.
  assert (K : forall a b, zero a -> zero b).
  { intros a b (k' & nv & rep & H & E1 & E2 & E3 & E4).
    destruct (C19_shift_irrelevant q k nf chis a b k' nv rep Hu H) as (k2 & rep2 & H2 & _ & _ & _ & HZ).
    destruct (HZ E1) as (-> & _). exists k2, nv, rep. auto. }
  split; apply K.
Qed.
End Props.
