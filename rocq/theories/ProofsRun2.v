(** ProofsRun2.v -- run() stops at the first successful check; run succeeds. *)

From Coq Require Import String Reals Lra Lia List Bool Arith ZArith.
From Verif Require Import Base ModelCommon ModelParts ModelKernel ModelPhases ModelFinder ModelHistory
  ProofsKernel ProofsParts ProofsSteps ProofsCopy ProofsRun ProofsHistory.
Import ListNotations.
Open Scope R_scope.

Section Run.
Context {G St : Type} (ops : rng_ops G).
Implicit Types (f : finder G St) (w : mstate G St).

Lemma run_loop_first tol b n : forall (s s' : rstate G St) out j,
  run_loop ops tol (S b) n s = (s', out) ->
  r_steps s' = (r_steps s + j * S b)%nat ->
  forall j', (0 < j' < j)%nat -> exists w rep,
    fsteps ops (r_f s) (j' * S b) = Ok w /\ w_rep w = Some rep /\
    converged tol (safe_flag (r_f s) w) rep = false.
Proof.
  induction n; intros s s' out j H HS j' Hj.
  - simpl in H. injection H as <- <-. nia.
  - cbn [run_loop] in H.
    destruct (metastep ops (kernel_of (r_f s)) (S b) (f_left (r_f s)) (f_k (r_f s)))
      as [[[[k' rep] c] safe]|e] eqn:EM.
    2: { injection H as <- <-. nia. }
    apply metastep_inv in EM. destruct EM as (w1 & E1 & Hk & Hr & Hc & Hs).
    destruct (String.eqb _ _).
    2: { injection H as <- <-. cbn [r_steps] in HS. nia. }
    destruct (converged tol safe rep) eqn:EV.
    { injection H as <- <-. cbn [r_steps] in HS. nia. }
    set (f' := with_left (with_k (r_f s) k') (f_left (r_f s) - Z.of_nat c)%Z) in *.
    assert (Ef : f' = advance (r_f s) (w_k w1) (w_count w1)) by (rewrite Hk, Hc; reflexivity).
    destruct (Nat.eq_dec j' 1) as [->|N].
    + exists w1, rep. rewrite Nat.mul_1_l. subst safe. auto.
    + destruct j' as [|[|j']]; [lia|lia|].
      destruct j as [|j]; [lia|].
      destruct (IHn _ _ _ j H) with (j' := S j') as (w & rep' & E & ER & EC).
      * cbn [r_steps]. rewrite HS. simpl. lia.
      * lia.
      * cbn [r_f] in *. exists (shift_count (w_count w1) w), rep'.
        pose proof (fsteps_split ops (r_f s) (S b) (b + j' * S b) w1 E1) as EQ.
        replace (S (b + j' * S b)) with (S j' * S b)%nat in EQ by (simpl; lia).
        rewrite <- Ef, E in EQ. simpl res_map in EQ.
        split; [|split; [exact ER|exact EC]].
        replace (S (S j') * S b)%nat with (S b + S j' * S b)%nat by (simpl; lia). exact EQ.
Qed.

(** Steps succeed one by one. *)
Lemma fsteps_prefix f n m w : (m <= n)%nat -> fsteps ops f n = Ok w -> exists w', fsteps ops f m = Ok w'.
Proof.
  intros L E. unfold fsteps in *. replace n with (m + (n - m))%nat in E by lia.
  rewrite steps_add in E. apply bind_Ok in E. destruct E as (w' & E & _). eauto.
Qed.

Lemma run_first f a t i f' ph tr inner j w rep n J phi g :
  run ops f a t i = (f', Ok ph) ->
  run_facts ops f a t i f' ph tr inner j w rep n J phi g ->
  forall j', (0 < j' < j)%nat -> exists w' rep',
    fsteps ops f (j' * inner) = Ok w' /\ w_rep w' = Some rep' /\
    converged (opt t (m_tolerance (f_par f))) (safe_flag f w') rep' = false.
Proof.
  intros H R j' Hj. pose proof (rf_sched R) as ES. pose proof (rf_f R) as EF.
  unfold run in H. fold (opt a (m_max_steps (f_par f))) in H. fold (opt t (m_tolerance (f_par f))) in H.
  fold (opt i (m_interval (f_par f))) in H. rewrite ES in H.
  destruct (schedule_inner _ _ _ _ ES) as [b Eb]. subst inner.
  destruct (run_loop _ _ _ _ _) as [s [u|e]] eqn:EL; [|discriminate].
  assert (HS : r_steps s = (j * S b)%nat).
  { destruct (revive_by_copy _ _ _ _ _ _) as [[[[n0 J0] phi0] g0]|e]; [|discriminate].
    destruct (r_rep s) as [rp|]; [|discriminate]. injection H as H _. rewrite EF in H.
    apply (f_equal f_diag) in H. simpl in H. injection H as H _. lia. }
  apply (run_loop_first _ _ _ _ _ _ j EL HS j' Hj).
Qed.

(** Success of a run. *)
Lemma run_ok f a t i tr inner :
  schedule (opt a (m_max_steps (f_par f))) (opt i (m_interval (f_par f))) = Ok (tr, inner) ->
  (1 <= tr)%nat -> m_criterion (f_par f) = "standard"%string ->
  (forall n, exists w, fsteps ops f n = Ok w) ->
  (forall n w, fsteps ops f n = Ok w -> exists c J phi g,
     revive_by_copy ops (f_np f) (v_Js (w_k w)) (v_phis_comp (w_k w)) (m_thr (f_par f)) (v_g (w_k w))
       = Ok (c, J, phi, g)) ->
  exists f' ph, run ops f a t i = (f', Ok ph).
Proof.
  intros ES Htr HC HS HV. destruct (run ops f a t i) as [f' [ph|e]] eqn:E; [eauto|].
  exfalso. apply run_err in E. destruct E as [(E & _)|(tr' & inner' & j & w & E & Hj & EW & _ & H)].
  - congruence.
  - rewrite ES in E. injection E as <- <-. destruct H as [(H & _)|[(H & _)|[H|H]]].
    + congruence.
    + lia.
    + destruct (HS (j * inner + inner)%nat) as (w' & E'). congruence.
    + destruct (HV _ _ EW) as (c & J & phi & g & E'). congruence.
Qed.

Lemma schedule_ok ms it : 0 < ms -> 0 < it ->
  exists tr inner, schedule ms it = Ok (tr, inner) /\ (1 <= tr)%nat /\
    Z.of_nat tr = zceil (ms / it) /\ Z.of_nat inner = Z.max 1 (zceil ms / zceil (ms / it)).
Proof.
  intros H1 H2. unfold schedule.
  assert (0 < ms / it) by (apply Rdiv_lt_0_compat; auto).
  pose proof (zceil_pos _ H).
  destruct (Reqb it 0) eqn:E; [apply Reqb_true in E; lra|].
  destruct (Z.eqb_spec (zceil (ms / it)) 0); [lia|].
  eexists _, _. split; [reflexivity|]. split; [lia|]. split; lia.
Qed.

(** The last step of a run. *)
Lemma run_last f a t i f' ph tr inner j w rep n J phi g :
  run_facts ops f a t i f' ph tr inner j w rep n J phi g ->
  exists w0 c k1 nv,
    fsteps ops f (j * inner - 1) = Ok w0 /\
    maybe_revive ops (kernel_of f) (f_left f) (w_count w0) (w_k w0) = (c, k1) /\
    iterate (kernel_of f) k1 = Ok (w_k w, nv, rep) /\ w_valid w = nv /\ w_count w = c.
Proof.
  intros R. pose proof (rf_steps R) as EW. pose proof (rf_inner R). pose proof (rf_j R).
  destruct (j * inner)%nat as [|N] eqn:EN; [nia|].
  replace (S N - 1)%nat with N by lia.
  unfold fsteps in EW. simpl steps in EW. apply bind_Ok in EW. destruct EW as (w0 & E0 & E1).
  unfold one_step in E1. destruct (maybe_revive _ _ _ _ _) as [c k1] eqn:EM.
  apply bind_Ok in E1. destruct E1 as ([[k' nv] rp] & EI & E1).
  exists w0, c, k1, nv. pose proof (rf_rep R) as ER. injection E1 as <-. cbn [w_k w_rep w_valid w_count] in *.
  injection ER as <-. auto.
Qed.

(** Fractions computed by a step with built-in entropy and ensemble. *)
Lemma builtin_fractions q (k k' : kstate G St) nv rep nc x :
  builtin_entropy (q_entropy q) -> s_comp (q_entropy q) = nc ->
  (q_ensemble q = can_compiled nc x \/ q_ensemble q = gc_compiled nc x) ->
  0 <= q_thr q -> iterate q k = Ok (k', nv, rep) ->
  exists (c : vec) (b : mat),
    (forall i m, (i < nc)%nat -> v_phis_comp k' i m = x i * c i * b i m * make_masks (v_Js k) (q_thr q) m) /\
    (forall i, (i < nc)%nat -> 0 < c i) /\ (forall i m, (i < nc)%nat -> 0 < b i m) /\
    (forall m, (m < q_np q)%nat -> q_thr q < v_Js k m ->
       Rabs (rsum nc (fun i => v_phis_comp k' i m) - 1) <= e_incomp rep) /\
    (q_ensemble q = can_compiled nc x -> forall i, (i < nc)%nat ->
       rsum (q_np q) (fun m => t_J q k m * v_phis_comp k' i m) = x i * rsum (q_np q) (t_J q k)).
Proof.
  intros HE HC HN Ht H. apply iterate_inv in H. destruct H as (p0 & Q & phis & inc & HP & HNorm & F).
  rewrite (if_comp F).
  assert (HJ : forall m, (m < q_np q)%nat -> 0 <= t_J q k m) by (intros; now apply t_J_nonneg).
  assert (HJP : exists m, (m < q_np q)%nat /\ 0 < t_J q k m).
  { apply t_J_some_pos; auto. apply count_valid_pos. apply (if_nv_pos F). }
  assert (HB : exists b : mat, (forall i m, (i < nc)%nat -> p0 i m = b i m) /\ (forall i m, 0 < b i m) /\
                 forall i, (i < nc)%nat -> Q i = rsum (q_np q) (fun m => b i m * t_J q k m) / rsum (q_np q) (t_J q k)).
  { destruct HE as [(nc' & sizes & HE)|(nf & npf & sizes & HE)]; rewrite HE in HP, HC; simpl in HC; subst nc; simpl in HP.
    - apply ig_partition_spec in HP. destruct HP as (HS & HB & HQ).
      exists (fun i m => boltzmann (v_omegas k i m) (sizes i)). split; [auto|]. split; [intros; apply boltzmann_pos|].
      intros i Hi. rewrite HQ by auto. reflexivity.
    - apply pg_partition_spec in HP. destruct HP as (HS & HB & HQ).
      exists (fun i m => if Nat.ltb i (nsum nf npf) then p0 i m else 1). split; [|split].
      + intros i m Hi. apply Nat.ltb_lt in Hi. now rewrite Hi.
      + intros i m. destruct (Nat.ltb_spec i (nsum nf npf)) as [L|L]; [|lra].
        destruct (nsum_find _ _ _ L) as (r & jj & Hr & Hj & ->). rewrite HB by auto. apply boltzmann_pos.
      + intros i Hi. pose proof Hi as Hi'. apply Nat.ltb_lt in Hi'.
        destruct (nsum_find _ _ _ Hi) as (r & jj & Hr & Hj & Ei). rewrite Ei at 1. rewrite HQ by auto. unfold ig_Q.
        f_equal. apply rsum_ext. intros m _. rewrite Hi', Ei, HB by auto. reflexivity. }
  destruct HB as (b & HB1 & HB2 & HQ).
  assert (SJ : 0 < rsum (q_np q) (t_J q k)) by (apply rsum_pos; auto).
  assert (HQP : forall i, (i < nc)%nat -> 0 < Q i).
  { intros i Hi. rewrite HQ by auto. apply Rdiv_lt_0_compat; auto. apply rsum_pos.
    - intros m Hm. apply Rmult_le_pos; auto. left; apply HB2.
    - destruct HJP as (m & Hm & HJm). exists m. split; auto. apply Rmult_lt_0_compat; auto. }
  assert (INC : (forall m, inc m = row_incomp nc phis (t_masks q k) m) ->
    forall m, (m < q_np q)%nat -> q_thr q < v_Js k m ->
       Rabs (rsum nc (fun i => phis i m) - 1) <= e_incomp rep).
  { intros HI m Hm HA. rewrite (if_e_incomp F).
    replace (rsum nc (fun i => phis i m) - 1) with (inc m).
    - apply (vmax_ge (q_np q) (fun m => Rabs (inc m)) m Hm).
    - rewrite HI. unfold row_incomp, t_masks. rewrite mask_alive by auto. lra. }
  destruct HN as [HN|HN]; rewrite HN in HNorm; simpl in HNorm.
  - apply can_normalize_spec in HNorm. destruct HNorm as (_ & HC' & HI).
    exists (fun i => / Q i), b. split; [|split; [|split; [|split]]].
    + intros i m Hi. rewrite HC', HB1 by auto. reflexivity.
    + intros i Hi. apply Rinv_0_lt_compat. auto.
    + auto.
    + auto.
    + intros _ i Hi.
      rewrite (rsum_ext _ _ (fun m => x i / Q i * (b i m * t_J q k m))).
      2: { intros m _. rewrite HC', HB1 by auto. rewrite <- (t_J_masked q k m) at 2. unfold Rdiv. ring. }
      rewrite rsum_scal_l. pose proof (HQP i Hi). pose proof (HQ i Hi) as EQ.
      assert (EQ' : rsum (q_np q) (fun m => b i m * t_J q k m) = Q i * rsum (q_np q) (t_J q k)).
      { rewrite EQ. field. lra. }
      rewrite EQ'. field. lra.
  - apply gc_normalize_spec in HNorm. destruct HNorm as (HC' & HI).
    exists (fun i => 1), b. split; [|split; [|split; [|split]]].
    + intros i m Hi. rewrite HC', HB1 by auto. unfold t_masks. ring.
    + intros; lra.
    + auto.
    + auto.
    + intros E. rewrite HN in E. intros i Hi. exfalso.
      (* the two classes differ: evaluate both at Q = 0 *)
      assert (EE : n_normalize (gc_compiled nc x) (fun _ _ => 0) (fun _ => 0) (fun _ => 0)
                 = n_normalize (can_compiled nc x) (fun _ _ => 0) (fun _ => 0) (fun _ => 0)) by now rewrite E.
      simpl in EE. destruct (gc_normalize_ok nc x (fun _ _ => 0) (fun _ => 0) (fun _ => 0)) as (p1 & i1 & E1).
      rewrite E1 in EE. symmetry in EE. apply can_normalize_spec in EE. destruct EE as (EE & _).
      apply (EE i Hi). reflexivity.
Qed.

End Run.
