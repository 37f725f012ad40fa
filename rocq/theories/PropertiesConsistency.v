(** PropertiesConsistency.v -- mean fractions that do not add up to one (C71),
    global constraints in the canonical ensemble (C72), tolerances and step
    limits (C73). *)

From Coq Require Import String Reals Lra Lia List Bool Arith ZArith FunctionalExtensionality.
From Verif Require Import Base ModelCommon ModelParts ModelKernel ModelPhases ModelFinder
  ProofsKernel ProofsParts ProofsSteps ProofsBounds ProofsCopy ProofsRun ModelHistory ProofsHistory ProofsRun2 ProofsSim Spec Examples PropertiesKernel PropertiesFinder PropertiesRun
  ProofsEquilibrium PropertiesConstraints.
Import ListNotations.
Open Scope R_scope.

Section Consistency.
Context {G : Type}.

(* ------------------------------------------------------------------ *)
(** ** C71 *)

Section Any.
Context {St : Type}.
Implicit Types (q : kernel) (k : kstate G St) (f : finder G St).

(** Canonical ensemble: one step reports at least the defect of the mean
    fractions as incompressibility. *)
Theorem C71_step q k k' nv rep nc x :
  builtin_entropy (q_entropy q) -> s_comp (q_entropy q) = nc -> q_ensemble q = can_compiled nc x ->
  0 <= q_thr q -> iterate q k = Ok (k', nv, rep) ->
  Rabs (rsum nc x - 1) <= e_incomp rep.
Proof.
  intros HE HC HN Ht H.
  destruct (builtin_fractions q k k' nv rep nc x HE HC (or_introl HN) Ht H) as (c & b & _ & _ & _ & HI & HB).
  specialize (HB HN).
  assert (SJ : 0 < rsum (q_np q) (t_J q k)).
  { apply rsum_pos; [intros; now apply t_J_nonneg|]. apply t_J_some_pos; auto. apply count_valid_pos.
    apply iterate_inv in H. destruct H as (? & ? & ? & ? & _ & _ & F). apply (if_nv_pos F). }
  assert (E : (rsum nc x - 1) * rsum (q_np q) (t_J q k) =
    rsum (q_np q) (fun m => t_J q k m * (rsum nc (fun i => v_phis_comp k' i m) - 1))).
  { rewrite Rmult_minus_distr_r, <- rsum_scal_r, Rmult_1_l.
    rewrite (rsum_ext nc _ (fun i => rsum (q_np q) (fun m => t_J q k m * v_phis_comp k' i m)))
      by (intros; now rewrite HB).
    rewrite rsum_swap, <- rsum_minus. apply rsum_ext. intros m _. rewrite rsum_scal_l. ring. }
  assert (B : Rabs ((rsum nc x - 1) * rsum (q_np q) (t_J q k)) <= e_incomp rep * rsum (q_np q) (t_J q k)).
  { rewrite E. eapply Rle_trans; [apply rsum_Rabs|]. rewrite <- rsum_scal_l. apply rsum_le. intros m Hm.
    rewrite Rabs_mult, (Rabs_right (t_J q k m)) by (apply Rle_ge; now apply t_J_nonneg).
    destruct (Rlt_le_dec (q_thr q) (v_Js k m)) as [L|L].
    - specialize (HI m Hm L). pose proof (t_J_nonneg q k Ht m). nra.
    - unfold t_J, t_masks. rewrite mask_dead by lra. lra. }
  rewrite Rabs_mult, (Rabs_right (rsum _ _)) in B by lra. eapply Rmult_le_reg_r; eauto.
Qed.

(** A run reports at least this defect; unless it is below the tolerance, all
    scheduled steps are performed. *)
Theorem C71_run (ops : rng_ops G) f a t i f' ph x d :
  builtin_entropy (f_entropy f) -> s_comp (f_entropy f) = f_nc f -> f_ensemble f = can_compiled (f_nc f) x ->
  0 <= m_thr (f_par f) -> run ops f a t i = (f', Ok ph) -> f_diag f' = Some d ->
  Rabs (rsum (f_nc f) x - 1) <= d_incomp d /\
  (opt t (m_tolerance (f_par f)) <= Rabs (rsum (f_nc f) x - 1) -> exists tr inner,
     schedule (opt a (m_max_steps (f_par f))) (opt i (m_interval (f_par f))) = Ok (tr, inner) /\
     d_steps d = Z.of_nat (tr * inner)).
Proof.
  intros HE HC HN Ht H D. apply run_inv in H. destruct H as (tr & inner & j & w & rep & n & J & phi & g & R).
  rewrite (rf_f R) in D. injection D as <-. cbn [d_incomp d_steps].
  destruct (run_last _ _ _ _ _ _ _ _ _ _ _ _ _ _ _ _ R) as (w0 & cc & k1 & nv & _ & _ & EI & _).
  pose proof (C71_step (kernel_of f) k1 (w_k w) nv rep (f_nc f) x HE HC HN Ht EI) as B. split; [exact B|].
  intros HT. exists tr, inner. split; [apply (rf_sched R)|]. destruct (rf_conv R) as [->|E]; [reflexivity|].
  apply converged_facts in E. destruct E as (_ & E & _). lra.
Qed.

(* ------------------------------------------------------------------ *)
(** ** C73 *)

Lemma converged_mono tol tol' safe rep : tol <= tol' -> converged tol safe rep = true -> converged tol' safe rep = true.
Proof.
  intros HT H. unfold converged in *. repeat (apply andb_true_iff in H; destruct H as [H ?]).
  repeat match goal with X : Rltb _ _ = true |- _ => apply Rltb_true in X end.
  repeat (apply andb_true_iff; split); auto; apply Rltb_true; lra.
Qed.

(** A stricter tolerance never stops a run earlier. *)
Theorem C73_tolerance (ops : rng_ops G) f a i t1 t2 f1 f2 ph1 ph2 d1 d2 :
  opt t1 (m_tolerance (f_par f)) <= opt t2 (m_tolerance (f_par f)) ->
  run ops f a t1 i = (f1, Ok ph1) -> run ops f a t2 i = (f2, Ok ph2) ->
  f_diag f1 = Some d1 -> f_diag f2 = Some d2 -> (d_steps d2 <= d_steps d1)%Z.
Proof.
  intros HT H1 H2 D1 D2. pose proof H2 as H2'. apply run_inv in H1, H2.
  destruct H1 as (tr1 & in1 & j1 & w1 & rep1 & n1 & J1 & phi1 & g1 & R1).
  destruct H2 as (tr2 & in2 & j2 & w2 & rep2 & n2 & J2 & phi2 & g2 & R2).
  pose proof (rf_sched R1) as S1. pose proof (rf_sched R2) as S2. rewrite S1 in S2. injection S2 as <- <-.
  rewrite (rf_f R1) in D1. rewrite (rf_f R2) in D2. injection D1 as <-. injection D2 as <-. cbn [d_steps].
  pose proof (rf_j R1). pose proof (rf_j R2). cut (j2 <= j1)%nat; [nia|].
  destruct (le_lt_dec j2 j1) as [L|L]; [exact L|exfalso].
  destruct (run_first _ _ _ _ _ _ _ _ _ _ _ _ _ _ _ _ H2' R2 j1 ltac:(lia)) as (w & rep & E1 & E2 & E3).
  rewrite (rf_steps R1) in E1. injection E1 as <-. rewrite (rf_rep R1) in E2. injection E2 as <-.
  destruct (rf_conv R1) as [->|HC]; [lia|]. apply (converged_mono _ _ _ _ HT) in HC. congruence.
Qed.

(** Raising the step limit does not change a run that has converged before
    its limit, as long as convergence is checked after the same steps. *)
Theorem C73_limit (ops : rng_ops G) f a1 a2 t i f1 ph1 d1 f2 ph2 tr1 tr2 inner :
  run ops f a1 t i = (f1, Ok ph1) -> f_diag f1 = Some d1 ->
  schedule (opt a1 (m_max_steps (f_par f))) (opt i (m_interval (f_par f))) = Ok (tr1, inner) ->
  schedule (opt a2 (m_max_steps (f_par f))) (opt i (m_interval (f_par f))) = Ok (tr2, inner) ->
  (tr1 <= tr2)%nat -> d_steps d1 <> Z.of_nat (tr1 * inner) ->
  run ops f a2 t i = (f2, Ok ph2) -> f2 = f1 /\ ph2 = ph1.
Proof.
  intros H1 D1 S1 S2 Htr HD H2. pose proof H1 as H1'. pose proof H2 as H2'. apply run_inv in H1, H2.
  destruct H1 as (tr1' & in1 & j1 & w1 & rep1 & n1 & J1 & phi1 & g1 & R1).
  destruct H2 as (tr2' & in2 & j2 & w2 & rep2 & n2 & J2 & phi2 & g2 & R2).
  pose proof (rf_sched R1) as S1'. rewrite S1 in S1'. injection S1' as <- <-.
  pose proof (rf_sched R2) as S2'. rewrite S2 in S2'. injection S2' as <- <-.
  pose proof (rf_j R1). pose proof (rf_j R2). pose proof D1 as D1'. rewrite (rf_f R1) in D1. injection D1 as <-. cbn [d_steps] in HD.
  destruct (rf_conv R1) as [->|HC1]; [congruence|].
  assert (E : j1 = j2).
  { destruct (lt_eq_lt_dec j1 j2) as [[L|L]|L]; [exfalso|exact L|exfalso].
    - destruct (run_first _ _ _ _ _ _ _ _ _ _ _ _ _ _ _ _ H2' R2 j1 ltac:(lia)) as (w & rep & E1 & E2 & E3).
      rewrite (rf_steps R1) in E1. injection E1 as <-. rewrite (rf_rep R1) in E2. injection E2 as <-. congruence.
    - destruct (run_first _ _ _ _ _ _ _ _ _ _ _ _ _ _ _ _ H1' R1 j2 ltac:(lia)) as (w & rep & E1 & E2 & E3).
      rewrite (rf_steps R2) in E1. injection E1 as <-. rewrite (rf_rep R2) in E2. injection E2 as <-.
      destruct (rf_conv R2) as [->|HC2]; [lia|congruence]. }
  destruct (C16_interval_irrelevant ops f a2 t i a1 t i f2 f1 ph2 ph1 _ _ H2' H1'
    ltac:(rewrite (rf_f R2); reflexivity) D1') as (A & B); [cbn [d_steps]; now rewrite E|]. auto.
Qed.

Lemma schedule_multiple N T : (1 <= N)%Z -> (1 <= T)%Z ->
  schedule (IZR (N * T)) (IZR N) = Ok (Z.to_nat T, Z.to_nat N).
Proof.
  intros HN HT. assert (0 < IZR N) by (apply IZR_lt; lia). unfold schedule.
  rewrite (proj2 (Reqb_false (IZR N) 0)) by lra.
  rewrite (zceil_unique (IZR (N * T) / IZR N) T) by (rewrite mult_IZR; replace (IZR N * IZR T / IZR N) with (IZR T) by (field; lra); lra).
  rewrite (zceil_unique (IZR (N * T)) (N * T)) by lra.
  destruct (Z.eqb_spec T 0); [lia|]. rewrite Z.div_mul by lia. now rewrite Z.max_r by lia.
Qed.

(** In particular for limits that are multiples of the interval. *)
Theorem C73_limit_multiple (ops : rng_ops G) f a1 a2 t i f1 ph1 d1 f2 ph2 N T1 T2 :
  opt i (m_interval (f_par f)) = IZR N -> opt a1 (m_max_steps (f_par f)) = IZR (N * T1) ->
  opt a2 (m_max_steps (f_par f)) = IZR (N * T2) -> (1 <= N)%Z -> (1 <= T1 <= T2)%Z ->
  run ops f a1 t i = (f1, Ok ph1) -> f_diag f1 = Some d1 -> (d_steps d1 < N * T1)%Z ->
  run ops f a2 t i = (f2, Ok ph2) -> f2 = f1 /\ ph2 = ph1.
Proof.
  intros Ei E1 E2 HN HT H1 D1 HD H2.
  apply (C73_limit ops f a1 a2 t i f1 ph1 d1 f2 ph2 (Z.to_nat T1) (Z.to_nat T2) (Z.to_nat N)); auto.
  - rewrite Ei, E1. apply schedule_multiple; lia.
  - rewrite Ei, E2. apply schedule_multiple; lia.
  - lia.
  - nia.
Qed.
End Any.

(* ------------------------------------------------------------------ *)
(** ** C72 *)

Implicit Types (q : kernel) (k : kstate G cstate) (f : finder G cstate).

(** The built-in entropies: component [i] carries feature [rho i]. *)
Inductive carries : entropy -> nat -> nat -> (nat -> nat) -> Prop :=
| carries_plain n sizes : carries (ig_compiled n sizes) n n (fun i => i)
| carries_poly nf npf sizes : (forall r, (r < nf)%nat -> (1 <= npf r)%nat) ->
    carries (pg_compiled (nsum nf npf) nf npf sizes) (nsum nf npf) nf (feature_of nf npf).

Lemma carries_facts s nc nf rho : carries s nc nf rho ->
  builtin_entropy s /\ s_comp s = nc /\
  forall (e c : mat) r m, (r < nf)%nat -> s_comp_to_feat s e c r m = fsum nc rho (fun i => c i m) r.
Proof.
  intros [n sizes|nf' npf sizes H].
  - split; [left; eauto|]. split; [reflexivity|]. intros e c r m Hr. rewrite ig_comp_to_feat by auto. now rewrite fsum_id.
  - split; [right; eauto|]. split; [reflexivity|]. intros e c r m Hr. cbn. rewrite pg_comp_to_feat_spec by auto.
    now rewrite fsum_blocks.
Qed.

(** the mean fractions of the features are those of [phi_means] *)
Lemma feature_balance q k k' nv rep nc nf rho x :
  carries (q_entropy q) nc nf rho -> q_ensemble q = can_compiled nc x -> 0 <= q_thr q ->
  iterate q k = Ok (k', nv, rep) ->
  0 < rsum (q_np q) (t_J q k) /\
  forall r, (r < nf)%nat ->
    rsum (q_np q) (fun m => t_J q k m * v_phis_feat k' r m) = fsum nc rho x r * rsum (q_np q) (t_J q k).
Proof.
  intros HE HN Ht H. destruct (carries_facts _ _ _ _ HE) as (HB & HC & HF).
  destruct (builtin_fractions q k k' nv rep nc x HB HC (or_introl HN) Ht H) as (c & b & _ & _ & _ & _ & HX).
  specialize (HX HN).
  apply iterate_inv in H. destruct H as (p0 & Q & phis & inc & _ & _ & F). split.
  { apply rsum_pos; [intros; now apply t_J_nonneg|]. apply t_J_some_pos; auto. apply count_valid_pos. apply (if_nv_pos F). }
  intros r Hr.
  rewrite (rsum_ext _ _ (fun m => rsum nc (fun i => if Nat.eqb (rho i) r then t_J q k m * v_phis_comp k' i m else 0))).
  - rewrite rsum_swap. unfold fsum. rewrite <- rsum_scal_r. apply rsum_ext. intros i Hi.
    destruct (Nat.eqb (rho i) r); [now apply HX|]. rewrite Rmult_0_l. now apply rsum_zero.
  - intros m _. rewrite (if_feat F). unfold t_feat. rewrite HF by auto. unfold fsum. rewrite <- rsum_scal_l.
    rewrite (if_comp F). apply rsum_ext. intros i _. destruct (Nat.eqb (rho i) r); ring.
Qed.

(** so the residue of a global constraint never moves *)
Lemma global_residue_fixed q k k' nv rep nc nf rho x p a :
  carries (q_entropy q) nc nf rho -> q_ensemble q = can_compiled nc x -> 0 <= q_thr q -> l_feat p = nf ->
  iterate q k = Ok (k', nv, rep) ->
  rsum (q_np q) (fun m => lin_residue p (v_phis_feat k') a m * t_J q k m) =
  violation p (fsum nc rho x) a * rsum (q_np q) (t_J q k).
Proof.
  intros HE HN Ht HL H. destruct (feature_balance q k k' nv rep nc nf rho x HE HN Ht H) as (SJ & HX).
  unfold violation. rewrite HL.
  rewrite (rsum_ext (q_np q) _ (fun m => rsum nf (fun r => l_Cs p a r * (t_J q k m * v_phis_feat k' r m)) - l_Ts p a * t_J q k m)).
  - rewrite rsum_minus, rsum_swap, rsum_scal_l, Rmult_minus_distr_r. f_equal. rewrite <- rsum_scal_r. apply rsum_ext.
    intros r Hr. rewrite rsum_scal_l, HX by auto. ring.
  - intros m _. unfold lin_residue. rewrite HL, Rmult_minus_distr_r, <- rsum_scal_r. f_equal. apply rsum_ext. intros. ring.
Qed.

Lemma iterate_classes q k k' nv rep : iterate q k = Ok (k', nv, rep) -> map o_class (v_cons k') = map o_class (v_cons k).
Proof.
  intros H. apply iterate_inv in H. destruct H as (p0 & Q & phis & inc & _ & _ & F). rewrite (if_cons F).
  unfold t_evolve. rewrite evolve_all_eq. cbn [fst]. unfold t_cs, prepare_all. rewrite !map_map. reflexivity.
Qed.

Lemma revive_classes (ops : rng_ops G) q tries c k : v_cons (snd (maybe_revive ops q tries c k)) = v_cons k.
Proof.
  unfold maybe_revive. destruct (Z.ltb _ _); [|reflexivity]. destruct (Nat.eqb _ _); [reflexivity|].
  destruct (revive_by_random _ _ _ _ _ _ _ _) as [[[c' J] t] g]. reflexivity.
Qed.

Lemma steps_classes (ops : rng_ops G) q tries n (w w' : mstate G cstate) : steps ops q tries n w = Ok w' ->
  map o_class (v_cons (w_k w')) = map o_class (v_cons (w_k w)).
Proof.
  revert w'. induction n as [|n IH]; intros w' H; cbn [steps] in H; [now injection H as <-|].
  apply bind_Ok in H. destruct H as (w1 & E1 & H). unfold one_step in H.
  pose proof (revive_classes ops q tries (w_count w1) (w_k w1)) as ER.
  destruct (maybe_revive _ _ _ _ _) as [c k1]. cbn [snd] in ER.
  apply bind_Ok in H. destruct H as ([[k' nv] rep] & EI & H). injection H as <-. cbn [w_k].
  rewrite (iterate_classes _ _ _ _ _ EI), ER. now apply IH.
Qed.

(** A global constraint that [phi_means] violates is reported with exactly
    that violation after every step. *)
Theorem C72_residue q k k' nv rep nc nf rho x o p a :
  carries (q_entropy q) nc nf rho -> q_ensemble q = can_compiled nc x -> 0 <= q_thr q ->
  In o (v_cons k) -> o_class o = global_class p -> l_feat p = nf -> (a < l_cons p)%nat ->
  iterate q k = Ok (k', nv, rep) ->
  violation p (fun r => wmean (q_np q) (living (q_thr q) (v_Js k)) (v_phis_feat k' r)) a =
    violation p (fsum nc rho x) a /\
  Rabs (violation p (fsum nc rho x) a) <= e_cons rep.
Proof.
  intros HE HN Ht Ho HC HL Ha H. destruct (feature_balance q k k' nv rep nc nf rho x HE HN Ht H) as (SJ & HX).
  assert (E : violation p (fun r => wmean (q_np q) (living (q_thr q) (v_Js k)) (v_phis_feat k' r)) a =
    violation p (fsum nc rho x) a).
  { unfold violation. f_equal. apply rsum_ext. intros r Hr. f_equal. unfold wmean.
    assert (HJ : living (q_thr q) (v_Js k) = t_J q k) by (apply functional_extensionality; intros; now rewrite t_J_living).
    rewrite HJ, HX by (now rewrite <- HL). field. lra. }
  split; [exact E|]. rewrite <- E. now apply (C50_global_residue q k k' nv rep o p Ht H Ho HC).
Qed.

(** Thus a run with such a constraint never converges below the violation. *)
Theorem C72_incompatible (ops : rng_ops G) f a t i f' ph nf rho x d o p b :
  carries (f_entropy f) (f_nc f) nf rho -> f_ensemble f = can_compiled (f_nc f) x -> 0 <= m_thr (f_par f) ->
  In o (v_cons (f_k f)) -> o_class o = global_class p -> l_feat p = nf -> (b < l_cons p)%nat ->
  run ops f a t i = (f', Ok ph) -> f_diag f' = Some d ->
  let v := Rabs (violation p (fsum (f_nc f) rho x) b) in
  v <= d_cons d /\
  (opt t (m_tolerance (f_par f)) <= v -> exists tr inner,
     schedule (opt a (m_max_steps (f_par f))) (opt i (m_interval (f_par f))) = Ok (tr, inner) /\
     d_steps d = Z.of_nat (tr * inner)).
Proof.
  intros HE HN Ht Ho HC HL Hb H D v. apply run_inv in H. destruct H as (tr & inner & j & w & rep & n & J & phi & g & R).
  rewrite (rf_f R) in D. injection D as <-. cbn [d_cons d_steps].
  destruct (run_last _ _ _ _ _ _ _ _ _ _ _ _ _ _ _ _ R) as (w0 & cc & k1 & nv & E0 & EM & EI & _).
  assert (HI : exists o', In o' (v_cons k1) /\ o_class o' = global_class p).
  { pose proof (steps_classes _ _ _ _ _ _ E0) as E. pose proof (revive_classes ops (kernel_of f) (f_left f) (w_count w0) (w_k w0)) as ER.
    rewrite EM in ER. cbn [snd] in ER. rewrite <- ER in E. cbn [start w_k] in E.
    assert (In (global_class p) (map o_class (v_cons k1))) as HI by (rewrite E, <- HC; now apply in_map).
    apply in_map_iff in HI. destruct HI as (o' & HI & HI2). eauto. }
  destruct HI as (o' & HI & HI2).
  destruct (C72_residue (kernel_of f) k1 (w_k w) nv rep (f_nc f) nf rho x o' p b HE HN Ht HI HI2 HL Hb EI) as (_ & B).
  split; [exact B|].
  intros HT. exists tr, inner. split; [apply (rf_sched R)|]. destruct (rf_conv R) as [->|E]; [reflexivity|].
  apply converged_facts in E. unfold v in HT. destruct E as (_ & _ & _ & _ & E). lra.
Qed.

(** A global constraint with zero multipliers, as set by [initialize]. *)
Definition unused (p : lin_par) (o : cons_obj cstate) : Prop :=
  o_class o = global_class p /\ forall a, (a < l_cons p)%nat -> c_mult (o_state o) a 0%nat = 0.

Lemma unused_step p o np feat J ks s : unused p o ->
  (forall a, (a < l_cons p)%nat -> rsum np (fun m => lin_residue p feat a m * J m) = 0) ->
  let o1 := set_state o (k_prepare (o_class o) np feat J ks (o_state o)) in
  pot_of o1 = (fun _ _ => 0) /\ vd_of o1 = (fun _ => 0) /\
  snd (k_evolve (o_class o1) np s ks (o_state o1)) = 0 /\
  unused p (set_state o1 (fst (k_evolve (o_class o1) np s ks (o_state o1)))).
Proof.
  destruct o as [c st]. intros (HC & HM) HR. cbn in HC, HM. subst c. cbv zeta.
  unfold pot_of, vd_of, set_state. cbn. split; [|split; [|split]].
  - apply functional_extensionality. intros r. apply functional_extensionality. intros m.
    rewrite rsum_zero; [ring|]. intros a Ha. rewrite HM, HR by auto. ring.
  - apply functional_extensionality. intros m. rewrite rsum_zero; [ring|]. intros a Ha. rewrite HM, HR by auto. ring.
  - destruct (l_cons p) as [|n] eqn:EN; [reflexivity|]. apply Rle_antisym.
    + apply vmax_le; [lia|]. intros a Ha. rewrite HR by auto. unfold Rdiv. rewrite Rmult_0_l, Rabs_R0. lra.
    + eapply Rle_trans; [|apply (vmax_ge (S n) _ O ltac:(lia))]. cbv beta. apply Rabs_pos.
  - split; [reflexivity|]. cbn. intros a Ha. rewrite HM, HR by auto. unfold Rdiv. ring.
Qed.

(** the same state with one more constraint, which is unused *)
Definition inserted (p : lin_par) (n : nat) (k1 k2 : kstate G cstate) : Prop :=
  exists l1 o l2, length l1 = n /\ v_cons k1 = l1 ++ l2 /\ k2 = with_cons k1 (l1 ++ o :: l2) /\ unused p o.

Lemma inserted_iterate q k1 k2 nc nf rho x p n k1' nv rep :
  carries (q_entropy q) nc nf rho -> q_ensemble q = can_compiled nc x -> 0 <= q_thr q -> l_feat p = nf ->
  (forall a, (a < l_cons p)%nat -> violation p (fsum nc rho x) a = 0) ->
  inserted p n k1 k2 -> iterate q k1 = Ok (k1', nv, rep) ->
  exists k2', iterate q k2 = Ok (k2', nv, rep) /\ inserted p n k1' k2'.
Proof.
  intros HE HN Ht HL HV (l1 & o & l2 & Hn & EL & -> & HU) H.
  destruct (iterate_cons_rel q k1 (l1 ++ l2) (l1 ++ o :: l2) k1' nv rep
    (fun a b => exists m1 o' m2, length m1 = n /\ a = m1 ++ m2 /\ b = m1 ++ o' :: m2 /\ unused p o') EL)
    as (l' & E & m1 & o' & m2 & M1 & M2 & M3 & M4); [|exact H|].
  - intros p0 Q phis inc s EP EN.
    assert (HR : forall a, (a < l_cons p)%nat ->
      rsum (q_np q) (fun m => lin_residue p (t_feat q k1 phis) a m * t_J q k1 m) = 0).
    { intros a Ha. pose proof (global_residue_fixed q k1 k1' nv rep nc nf rho x p a HE HN Ht HL H) as ER.
      apply iterate_inv in H. destruct H as (p0' & Q' & phis' & inc' & EP' & EN' & F).
      rewrite EP in EP'. injection EP' as <- <-. rewrite EN in EN'. injection EN' as <- <-.
      rewrite (if_feat F) in ER. rewrite ER, HV by auto. ring. }
    pose proof (unused_step p o (q_np q) (t_feat q k1 phis) (t_J q k1) (t_masks q k1) s HU HR) as (P1 & P2 & P3 & P4).
    cbv zeta. unfold prepare_all. rewrite !map_app. cbn [map]. split; [|split; [|split]].
    + intros g Hg. rewrite !lsum_app. cbn [lsum]. rewrite P1, Hg. ring.
    + intros m. rewrite !lsum_app. cbn [lsum]. rewrite P2. ring.
    + rewrite !evolve_all_eq. cbn [snd]. rewrite !fold_left_app. cbn [fold_left].
      match goal with |- _ = fold_left _ _ (Rmax ?w ?y) => replace y with 0 end.
      symmetry. apply fold_max_start. apply fold_max_nonneg. lra.
    + rewrite !evolve_all_eq. cbn [fst]. rewrite !map_app. cbn [map].
      eexists _, _, _. split; [|split; [reflexivity|]; split; [reflexivity|exact P4]]. now rewrite !map_length.
  - exists (with_cons k1' l'). split; [exact E|]. exists m1, o', m2. rewrite M3. auto.
Qed.

(** A compatible global constraint, added anywhere in the list of constraints,
    changes nothing. *)
Theorem C72_compatible (ops : rng_ops G) f a t i f' ph nf rho x o p l1 l2 :
  carries (f_entropy f) (f_nc f) nf rho -> f_ensemble f = can_compiled (f_nc f) x -> 0 <= m_thr (f_par f) ->
  l_feat p = nf -> (forall b, (b < l_cons p)%nat -> violation p (fsum (f_nc f) rho x) b = 0) ->
  v_cons (f_k f) = l1 ++ l2 -> unused p o ->
  run ops f a t i = (f', Ok ph) ->
  exists f2, run ops (with_k f (with_cons (f_k f) (l1 ++ o :: l2))) a t i = (f2, Ok ph) /\
    f_diag f2 = f_diag f' /\ f_left f2 = f_left f' /\
    v_omegas (f_k f2) = v_omegas (f_k f') /\ v_Js (f_k f2) = v_Js (f_k f') /\
    v_phis_comp (f_k f2) = v_phis_comp (f_k f') /\ v_g (f_k f2) = v_g (f_k f').
Proof.
  intros HE HN Ht HL HV EL HU H. set (f1 := with_k f _).
  destruct (run_sim ops ops f f1 (inserted p (length l1)) (fun _ _ => True) eq) with (a := a) (t := t) (i := i) (f1' := f') (ph1 := ph)
    as (f2 & ph2 & E & <- & E1 & E2 & (m1 & o' & m2 & _ & _ & E3 & _)); auto.
  - intros tries c k1 k2 (m1 & o' & m2 & M1 & M2 & -> & M4). change (kernel_of f1) with (kernel_of f).
    pose proof (revive_classes ops (kernel_of f) tries c k1) as ER. revert ER.
    unfold maybe_revive. cbn [with_cons v_Js v_omegas v_g v_phis_comp v_phis_feat].
    destruct (Z.ltb _ _); [|intros _; split; [reflexivity|exists m1, o', m2; auto]].
    destruct (Nat.eqb _ _); [intros _; split; [reflexivity|exists m1, o', m2; auto]|].
    destruct (revive_by_random _ _ _ _ _ _ _ _) as [[[c' J] tt] g]. intros _. split; [reflexivity|exists m1, o', m2; auto].
  - intros k1 k2 k1' n r HK HI. change (kernel_of f1) with (kernel_of f).
    destruct (inserted_iterate (kernel_of f) k1 k2 (f_nc f) nf rho x p (length l1) k1' n r HE HN Ht HL HV HK HI) as (k2' & A & B). eauto.
  - intros k1 k2 (m1 & o' & m2 & _ & _ & -> & _). reflexivity.
  - intros k1 k2 n J1 p1 h1 ph1 (m1 & o' & m2 & M1 & M2 & -> & M4) _ E EP. exists J1, p1, h1, ph1.
    split; [exact E|]. split; [exact EP|]. split; [reflexivity|]. exists m1, o', m2. auto.
  - exists l1, o, l2. auto.
  - exists f2. rewrite E3. cbn. repeat split; auto.
Qed.
End Consistency.
