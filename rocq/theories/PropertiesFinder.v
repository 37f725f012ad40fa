(** PropertiesFinder.v -- properties of whole runs and call histories
    (C03, C06, C14, C15, C16, C20). *)

From Coq Require Import String Reals Lra Lia List Bool Arith ZArith.
From Verif Require Import Base ModelCommon ModelParts ModelKernel ModelPhases ModelFinder ModelHistory
  ProofsKernel ProofsParts ProofsSteps ProofsBounds ProofsCopy ProofsRun ProofsHistory ProofsRun2
  Spec Examples PropertiesKernel.
Import ListNotations.
Open Scope R_scope.

(** The least integer not below [x]. *)
Definition is_ceil (x : R) (z : Z) : Prop := IZR z - 1 < x <= IZR z.

Section Props.
Context {G St : Type} (ops : rng_ops G) (no : nat -> cons_obj St).
Implicit Types (f : finder G St) (w : mstate G St).

(* ------------------------------------------------------------------ *)
(** ** C03 *)

(** For every finder reachable by constructor and method calls (with built-in
    parts), every number of steps succeeds and leaves a living compartment. *)
Theorem C03_never_extinct f n :
  history ops no f ->
  0 <= m_thr (f_par f) < 1 -> 0 < m_ub (f_par f) -> (1 <= f_np f)%nat ->
  exists w, fsteps ops f n = Ok w /\
    exists m, (m < f_np f)%nat /\ alive (m_thr (f_par f)) (v_Js (w_k w)) m.
Proof.
  intros HH Ht Hu Hn. destruct (history_wf _ _ _ HH) as [HB HW]; [repeat split; auto; lra|].
  apply wf_steps; auto. repeat split; auto; lra.
Qed.

(** A run with positive [max_steps] and [interval] can only fail because of an
    unknown criterion or because copy revival runs out of donors. *)
Theorem C03_run_failures f a t i f' e :
  rng_contract ops -> history ops no f ->
  0 <= m_thr (f_par f) < 1 -> 0 < m_ub (f_par f) -> (1 <= f_np f)%nat ->
  0 < opt a (m_max_steps (f_par f)) -> 0 < opt i (m_interval (f_par f)) ->
  run ops f a t i = (f', Err e) ->
  (e = ValueError /\ m_criterion (f_par f) <> "standard"%string) \/
  (e = DonorsExhausted /\ 0 < m_thr (f_par f)).
Proof.
  intros HR HH Ht Hu Hn H1 H2 H.
  destruct (schedule_ok _ _ H1 H2) as (tr & inner & ES & Htr & _).
  apply run_err in H. destruct H as [(E & _)|(tr' & inner' & j & w & E & Hj & EW & _ & H)]; [congruence|].
  rewrite ES in E. injection E as <- <-.
  destruct (C03_never_extinct f (j * inner) HH Ht Hu Hn) as (w' & E' & HA).
  rewrite EW in E'. injection E' as <-.
  destruct H as [(H & ->)|[(H & _)|[H|H]]]; [auto|lia| |].
  - destruct (C03_never_extinct f (j * inner + inner) HH Ht Hu Hn) as (w' & E' & _). congruence.
  - right. split; [eapply C08_copy_only_failure; eauto; lra|].
    destruct (Rle_lt_or_eq_dec 0 (m_thr (f_par f))) as [L|E0]; [lra|auto|exfalso].
    rewrite <- E0 in H, HA.
    destruct (C08_copy_succeeds_default ops (f_np f) (v_Js (w_k w)) (v_phis_comp (w_k w)) (v_g (w_k w)) HR HA)
      as (c & J & phi & g & E' & _). congruence.
Qed.

(** With the default threshold and criterion every run succeeds. *)
Theorem C03_run_succeeds f a t i :
  rng_contract ops -> history ops no f ->
  m_thr (f_par f) = 0 -> m_criterion (f_par f) = "standard"%string ->
  0 < m_ub (f_par f) -> (1 <= f_np f)%nat ->
  0 < opt a (m_max_steps (f_par f)) -> 0 < opt i (m_interval (f_par f)) ->
  exists f' ph, run ops f a t i = (f', Ok ph).
Proof.
  intros HR HH Ht HC Hu Hn H1 H2. destruct (run ops f a t i) as [f' [ph|e]] eqn:E; [eauto|].
  apply C03_run_failures in E; auto; [|lra]. destruct E as [(_ & E)|(_ & E)]; [congruence|lra].
Qed.

(* ------------------------------------------------------------------ *)
(** ** C06 *)

(** Number of revivals in the first [n] steps: in every step that starts with
    remaining budget all dead compartments are revived (C05). *)
Fixpoint revivals f (n : nat) : Z :=
  match n with
  | O => 0%Z
  | S n' =>
      (revivals f n' +
       match fsteps ops f n' with
       | Ok w => if Z.ltb 0 (f_left f - revivals f n')
                 then Z.of_nat (num_dead (f_np f) (m_thr (f_par f)) (v_Js (w_k w))) else 0
       | Err _ => 0
       end)%Z
  end.

Lemma one_step_revives q tries w w' :
  one_step ops q tries w = Ok w' ->
  Z.of_nat (w_count w') = (Z.of_nat (w_count w) +
    if Z.ltb 0 (tries - Z.of_nat (w_count w))
    then Z.of_nat (num_dead (q_np q) (q_thr q) (v_Js (w_k w))) else 0)%Z.
Proof.
  unfold one_step. destruct (maybe_revive _ _ _ _ _) as [c k1] eqn:EM.
  intros H. apply bind_Ok in H. destruct H as ([[k' nv] rep] & _ & H). injection H as <-. simpl w_count.
  apply maybe_revive_cases in EM.
  assert (ND : num_dead (q_np q) (q_thr q) (v_Js (w_k w)) = ncount (q_np q) (fun m => Rleb (v_Js (w_k w) m) (q_thr q))).
  { rewrite dead_count. unfold num_dead. now rewrite num_alive_ncount. }
  destruct EM as [(-> & _ & [L|A])|(L & c0 & J & t & g & ER & _ & _ & -> & _)].
  - destruct (Z.ltb_spec 0 (tries - Z.of_nat (w_count w))); lia.
  - assert (ncount (q_np q) (fun m => Rleb (v_Js (w_k w) m) (q_thr q)) = O).
    { apply ncount_none. intros m Hm. apply Rleb_false. now apply A. }
    rewrite ND, H. destruct (Z.ltb _ _); simpl; lia.
  - apply revive_by_random_spec in ER. destruct ER as (-> & _). rewrite ND.
    destruct (Z.ltb_spec 0 (tries - Z.of_nat (w_count w))); lia.
Qed.

(** The reported remaining budget is the initial one minus the revivals. *)
Theorem C06_budget_counts_revivals f a t i f' ph :
  run ops f a t i = (f', Ok ph) ->
  exists d, f_diag f' = Some d /\ d_left d = f_left f' /\
            f_left f' = (f_left f - revivals f (Z.to_nat (d_steps d)))%Z.
Proof.
  intros H. apply run_inv in H. destruct H as (tr & inner & j & w & rep & n & J & phi & g & R).
  rewrite (rf_f R). eexists. split; [reflexivity|]. split; [reflexivity|].
  simpl f_left. simpl d_steps. rewrite Nat2Z.id.
  cut (Z.of_nat (w_count w) = revivals f (j * inner)); [lia|].
  generalize (rf_steps R). clear R. generalize (j * inner)%nat. intros N. revert w.
  induction N; intros w E.
  - injection E as <-. reflexivity.
  - simpl revivals. unfold fsteps in *. simpl steps in E. apply bind_Ok in E. destruct E as (w1 & E1 & E2).
    rewrite E1. rewrite <- (IHN _ E1). apply one_step_revives in E2. rewrite E2. reflexivity.
Qed.

(** Over any sequence of calls that does not refill the budget the total number
    of revivals exceeds the budget by at most [num_part - 1]; nothing is
    revived once the remaining budget is not positive. *)
Theorem C06_budget_bound f (l : list (call St)) :
  forallb no_reset l = true ->
  let f' := exec_all ops no f l in
  (0 <= f_left f - f_left f')%Z /\
  (f_left f - f_left f' <= Z.max 0 (f_left f + Z.of_nat (f_np f) - 1))%Z /\
  ((f_left f <= 0)%Z -> f_left f' = f_left f).
Proof. intros H f'. pose proof (exec_all_left ops no l f H) as E. cbv zeta in E. fold f' in E. lia. Qed.

(* ------------------------------------------------------------------ *)
(** ** C14 *)

(** If fewer steps than the full schedule were done, run() stopped because of
    convergence: the reported errors are below the tolerance, the number of
    living compartments did not change in the last step and every final volume
    is above the threshold or exactly zero. *)
Theorem C14_convergence_sound f a t i f' ph :
  0 <= m_thr (f_par f) ->
  run ops f a t i = (f', Ok ph) ->
  exists d tr inner, f_diag f' = Some d /\
    schedule (opt a (m_max_steps (f_par f))) (opt i (m_interval (f_par f))) = Ok (tr, inner) /\
    (d_steps d <= Z.of_nat (tr * inner))%Z /\
    (d_steps d = Z.of_nat (tr * inner) \/
     let tol := opt t (m_tolerance (f_par f)) in
     d_incomp d < tol /\ d_omega d < tol /\ d_Js d < tol /\ d_cons d < tol /\
     (forall m, (m < f_np f)%nat -> alive (m_thr (f_par f)) (v_Js (f_k f')) m \/ v_Js (f_k f') m = 0) /\
     exists w k, fsteps ops f (Z.to_nat (d_steps d) - 1) = Ok w /\
       k = snd (maybe_revive ops (kernel_of f) (f_left f) (w_count w) (w_k w)) /\
       num_alive (f_np f) (m_thr (f_par f)) (v_Js (f_k f')) =
       num_alive (f_np f) (m_thr (f_par f)) (v_Js k)).
Proof.
  intros Ht H. apply run_inv in H. destruct H as (tr & inner & j & w & rep & n & J & phi & g & R).
  rewrite (rf_f R). eexists _, tr, inner. split; [reflexivity|]. split; [apply (rf_sched R)|].
  simpl d_steps. pose proof (rf_j R) as Hj. pose proof (rf_inner R) as Hi. split; [nia|].
  destruct (rf_conv R) as [->|HC]; [left; reflexivity|]. right. simpl.
  unfold converged in HC. repeat (apply andb_true_iff in HC; destruct HC as [HC ?]).
  repeat match goal with H : Rltb _ _ = true |- _ => apply Rltb_true in H end.
  do 4 (split; [auto; lra|]).
  pose proof (rf_steps R) as EW.
  rewrite Nat2Z.id.
  destruct (j * inner)%nat as [|N] eqn:EN; [nia|].
  unfold fsteps in EW. simpl steps in EW. apply bind_Ok in EW. destruct EW as (w0 & E0 & E1).
  unfold one_step in E1. destruct (maybe_revive _ _ _ _ _) as [c k1] eqn:EM.
  apply bind_Ok in E1. destruct E1 as ([[k' nv] rp] & EI & E1). injection E1 as <-.
  unfold safe_flag in HC. cbn [w_k w_valid] in *. apply Z.eqb_eq in HC.
  pose proof (C02_volumes_normalised _ _ _ _ _ EI) as (Env & _ & _ & HD).
  change (q_np (kernel_of f)) with (f_np f) in *. change (q_thr (kernel_of f)) with (m_thr (f_par f)) in *.
  assert (EQ : num_alive (f_np f) (m_thr (f_par f)) (v_Js k') = num_alive (f_np f) (m_thr (f_par f)) (v_Js k1)).
  { rewrite num_alive_ncount. unfold count_valid in HC. rewrite Env in HC. lia. }
  split.
  - intros m Hm. destruct (Rlt_dec (m_thr (f_par f)) (v_Js k1 m)) as [L|L].
    + left. unfold alive.
      pose proof (ncount_same (f_np f) (fun m => Rltb (m_thr (f_par f)) (v_Js k' m))
                    (fun m => Rltb (m_thr (f_par f)) (v_Js k1 m))) as X.
      rewrite !num_alive_ncount in EQ.
      apply Rltb_true. rewrite X; auto.
      * now apply Rltb_true.
      * intros a0 Ha HT. apply Rltb_true. apply Rltb_true in HT.
        destruct (Rlt_dec (m_thr (f_par f)) (v_Js k1 a0)); auto.
        exfalso. rewrite HD in HT by (unfold dead; lra). lra.
    + right. apply HD. unfold dead; lra.
  - exists w0, k1. replace (S N - 1)%nat with N by lia. split; [exact E0|]. split; [rewrite EM; reflexivity|]. exact EQ.
Qed.

(** run() stops at the first check that meets the criterion: convergence is
    checked every [inner] steps, and at all earlier checks it failed. *)
Theorem C14_first_check f a t i f' ph :
  run ops f a t i = (f', Ok ph) ->
  exists d tr inner j, f_diag f' = Some d /\
    schedule (opt a (m_max_steps (f_par f))) (opt i (m_interval (f_par f))) = Ok (tr, inner) /\
    d_steps d = Z.of_nat (j * inner) /\ (1 <= j <= tr)%nat /\
    forall j', (0 < j' < j)%nat -> exists w rep,
      fsteps ops f (j' * inner) = Ok w /\ w_rep w = Some rep /\
      let tol := opt t (m_tolerance (f_par f)) in
      ~ (w_valid w = Z.of_nat (num_alive (f_np f) (m_thr (f_par f)) (v_Js (w_k w))) /\
         e_incomp rep < tol /\ e_omega rep < tol /\ e_Js rep < tol /\ e_cons rep < tol).
Proof.
  intros H. pose proof H as H0. apply run_inv in H.
  destruct H as (tr & inner & j & w & rep & n & J & phi & g & R).
  eexists _, tr, inner, j. rewrite (rf_f R) at 1. split; [reflexivity|].
  split; [apply (rf_sched R)|]. split; [reflexivity|]. split; [apply (rf_j R)|].
  intros j' Hj. destruct (run_first _ _ _ _ _ _ _ _ _ _ _ _ _ _ _ _ H0 R j' Hj) as (w' & rep' & E & ER & EC).
  exists w', rep'. split; [auto|]. split; [auto|]. intros tol (A & B & C & D & E').
  unfold converged, safe_flag, count_valid in EC. rewrite num_alive_ncount in A.
  rewrite A, Z.eqb_refl in EC. fold tol in EC.
  rewrite (proj2 (Rltb_true _ _) B), (proj2 (Rltb_true _ _) C), (proj2 (Rltb_true _ _) D),
    (proj2 (Rltb_true _ _) E') in EC. discriminate.
Qed.

(** An unknown criterion raises ValueError after the first metastep. *)
Theorem C14_unknown_criterion f a t i :
  m_criterion (f_par f) <> "standard"%string ->
  0 < opt a (m_max_steps (f_par f)) -> 0 < opt i (m_interval (f_par f)) ->
  (forall n, exists w, fsteps ops f n = Ok w) ->
  snd (run ops f a t i) = Err ValueError.
Proof.
  intros HC H1 H2 HS. destruct (schedule_ok _ _ H1 H2) as (tr & inner & ES & Htr & _).
  destruct (run ops f a t i) as [f' [ph|e]] eqn:E; simpl.
  - apply run_inv in E. destruct E as (tr' & inner' & j & w & rep & n & J & phi & g & R).
    exfalso. apply HC. apply (rf_crit R).
  - f_equal. unfold run in E. fold (opt a (m_max_steps (f_par f))) in E. fold (opt t (m_tolerance (f_par f))) in E.
    fold (opt i (m_interval (f_par f))) in E. rewrite ES in E.
    destruct (schedule_inner _ _ _ _ ES) as [b ->]. destruct tr as [|tr]; [lia|].
    cbn [run_loop r_f] in E.
    destruct (metastep _ _ _ _ _) as [[[[k' rp] c] safe]|e'] eqn:EM.
    + destruct (String.eqb_spec (m_criterion (f_par f)) "standard"); [congruence|].
      injection E as _ <-. reflexivity.
    + exfalso. unfold metastep in EM. fold (start (f_k f)) in EM. fold (fsteps ops f (S b)) in EM.
      destruct (HS (S b)) as (w & EW). rewrite EW in EM. cbn [bind] in EM.
      destruct (steps_S_rep _ _ _ _ _ _ EW) as [rp ER]. rewrite ER in EM. discriminate.
Qed.

(* ------------------------------------------------------------------ *)
(** ** C15 *)

(** Integer [interval] N >= 1: at most ceil(max_steps) steps, convergence is
    checked at least every N steps, and without convergence more than
    ceil(max_steps) - ceil(max_steps/N) steps are done. *)
Theorem C15_schedule f a t i f' ph M T N :
  run ops f a t i = (f', Ok ph) ->
  0 < opt a (m_max_steps (f_par f)) -> opt i (m_interval (f_par f)) = IZR N -> (1 <= N)%Z ->
  is_ceil (opt a (m_max_steps (f_par f))) M -> is_ceil (opt a (m_max_steps (f_par f)) / IZR N) T ->
  exists d inner, f_diag f' = Some d /\
    (1 <= Z.of_nat inner <= N)%Z /\ (Z.of_nat inner | d_steps d)%Z /\
    (1 <= d_steps d <= M)%Z /\
    (~ (d_incomp d < opt t (m_tolerance (f_par f)) /\ d_omega d < opt t (m_tolerance (f_par f)) /\
        d_Js d < opt t (m_tolerance (f_par f)) /\ d_cons d < opt t (m_tolerance (f_par f))) ->
     (M - T < d_steps d)%Z).
Proof.
  intros H H1 H2 HN HM HT. apply run_inv in H.
  destruct H as (tr & inner & j & w & rep & n & J & phi & g & R).
  rewrite (rf_f R). eexists _, inner. split; [reflexivity|]. simpl d_steps.
  pose proof (rf_sched R) as ES. rewrite H2 in ES.
  set (ms := opt a (m_max_steps (f_par f))) in *.
  destruct (schedule_ok ms (IZR N)) as (tr' & inner' & ES' & Htr & E1 & E2); [lra| |].
  { apply (IZR_lt 0). lia. }
  rewrite ES in ES'. injection ES' as <- <-.
  rewrite (zceil_unique _ _ HM) in E2. rewrite (zceil_unique _ _ HT) in E1, E2.
  assert (HM1 : (1 <= M)%Z) by (rewrite <- (zceil_unique _ _ HM); now apply zceil_pos).
  assert (HNR : 0 < IZR N) by (apply (IZR_lt 0); lia).
  assert (HTM : (T <= M)%Z).
  { rewrite <- (zceil_unique _ _ HM), <- (zceil_unique _ _ HT). apply zceil_mono.
    apply Rmult_le_reg_r with (IZR N); auto. unfold Rdiv. rewrite Rmult_assoc, Rinv_l by lra.
    assert (1 <= IZR N) by (apply IZR_le; lia). nra. }
  assert (HMN : (M <= N * T)%Z).
  { rewrite <- (zceil_unique _ _ HM). rewrite <- (zceil_unique (IZR (N * T)) (N * T)) by lra.
    apply zceil_mono. rewrite mult_IZR. destruct HT as [_ HT].
    apply Rmult_le_compat_r with (r := IZR N) in HT; [|lra].
    unfold Rdiv in HT. rewrite Rmult_assoc, Rinv_l in HT by lra. lra. }
  assert (HQ : (1 <= M / T)%Z) by (apply Z.div_le_lower_bound; lia).
  assert (E3 : Z.of_nat inner = (M / T)%Z) by lia.
  assert (HQN : (M / T <= N)%Z). { apply Z.div_le_upper_bound; lia. }
  pose proof (Z.mul_div_le M T ltac:(lia)) as HL.
  pose proof (Z.mod_pos_bound M T ltac:(lia)) as HB.
  pose proof (Z.div_mod M T ltac:(lia)) as HDM.
  pose proof (rf_j R) as Hj.
  split; [lia|]. split; [exists (Z.of_nat j); lia|]. split; [nia|].
  intros HNC. destruct (rf_conv R) as [->|HC].
  - rewrite Nat2Z.inj_mul, E1, E3. nia.
  - exfalso. apply HNC. simpl. unfold converged in HC.
    repeat (apply andb_true_iff in HC; destruct HC as [HC ?]).
    repeat match goal with H : Rltb _ _ = true |- _ => apply Rltb_true in H end. auto.
Qed.

Theorem C15_zero_steps f t i : opt i (m_interval (f_par f)) <> 0 ->
  run ops f (Some 0) t i = (f, Err ZeroDivisionError).
Proof.
  intros H. unfold run. fold (opt i (m_interval (f_par f))). unfold schedule.
  rewrite (proj2 (Reqb_false _ _) H).
  rewrite (zceil_unique (0 / opt i (m_interval (f_par f))) 0); [reflexivity|].
  unfold Rdiv. lra.
Qed.

(* ------------------------------------------------------------------ *)
(** ** C16 *)

(** Two runs from the same finder that report the same number of steps leave
    the same finder and return the same phases, whatever the intervals,
    tolerances and step limits. *)
Theorem C16_interval_irrelevant f a1 t1 i1 a2 t2 i2 f1 f2 ph1 ph2 d1 d2 :
  run ops f a1 t1 i1 = (f1, Ok ph1) -> run ops f a2 t2 i2 = (f2, Ok ph2) ->
  f_diag f1 = Some d1 -> f_diag f2 = Some d2 -> d_steps d1 = d_steps d2 ->
  f1 = f2 /\ ph1 = ph2.
Proof.
  intros H1 H2 D1 D2 E. apply run_inv in H1, H2.
  destruct H1 as (tr1 & in1 & j1 & w1 & rep1 & n1 & J1 & phi1 & g1 & R1).
  destruct H2 as (tr2 & in2 & j2 & w2 & rep2 & n2 & J2 & phi2 & g2 & R2).
  rewrite (rf_f R1) in D1. rewrite (rf_f R2) in D2. simpl in D1, D2.
  injection D1 as <-. injection D2 as <-. simpl in E. apply Nat2Z.inj in E.
  pose proof (rf_steps R1) as S1. pose proof (rf_steps R2) as S2. rewrite E in S1.
  rewrite S1 in S2. injection S2 as <-.
  pose proof (rf_copy R1) as C1. pose proof (rf_copy R2) as C2. rewrite C1 in C2. injection C2 as <- <- <- <-.
  pose proof (rf_rep R1) as P1. pose proof (rf_rep R2) as P2. rewrite P1 in P2. injection P2 as <-.
  split.
  - rewrite (rf_f R1), (rf_f R2), E. reflexivity.
  - pose proof (rf_ph R1) as Q1. pose proof (rf_ph R2) as Q2. congruence.
Qed.

(** Splitting into consecutive run() calls: if no compartment is dead at the
    end of the first run, two runs are equivalent to one run with the same
    total number of steps. *)
Theorem C16_split_runs f a1 t1 i1 a2 t2 i2 a3 t3 i3 f1 f2 f3 ph1 ph2 ph3 d1 d2 d3 :
  0 <= m_thr (f_par f) ->
  run ops f a1 t1 i1 = (f1, Ok ph1) -> run ops f1 a2 t2 i2 = (f2, Ok ph2) ->
  run ops f a3 t3 i3 = (f3, Ok ph3) ->
  f_diag f1 = Some d1 -> f_diag f2 = Some d2 -> f_diag f3 = Some d3 ->
  d_steps d3 = (d_steps d1 + d_steps d2)%Z ->
  (forall m, (m < f_np f)%nat -> alive (m_thr (f_par f)) (v_Js (f_k f1)) m) ->
  f_k f2 = f_k f3 /\ f_left f2 = f_left f3 /\ ph2 = ph3 /\
  d_incomp d2 = d_incomp d3 /\ d_omega d2 = d_omega d3 /\ d_Js d2 = d_Js d3 /\ d_cons d2 = d_cons d3 /\
  d_left d2 = d_left d3.
Proof.
  intros Ht H1 H2 H3 D1 D2 D3 E HA. apply run_inv in H1, H2, H3.
  destruct H1 as (tr1 & in1 & j1 & w1 & rep1 & n1 & J1 & phi1 & g1 & R1).
  destruct H2 as (tr2 & in2 & j2 & w2 & rep2 & n2 & J2 & phi2 & g2 & R2).
  destruct H3 as (tr3 & in3 & j3 & w3 & rep3 & n3 & J3 & phi3 & g3 & R3).
  pose proof (rf_f R1) as F1. pose proof (rf_f R2) as F2. pose proof (rf_f R3) as F3.
  rewrite F1 in D1. rewrite F2 in D2. rewrite F3 in D3. simpl in D1, D2, D3.
  injection D1 as <-. injection D2 as <-. injection D3 as <-. simpl in E.
  assert (HA1 : forall m, (m < f_np f)%nat -> alive (m_thr (f_par f)) (v_Js (w_k w1)) m).
  { intros m Hm. specialize (HA m Hm). rewrite F1 in HA. exact HA. }
  pose proof (rf_copy R1) as C1. rewrite revive_by_copy_none in C1 by assumption. injection C1 as _ _ _ <-.
  assert (Ek1 : k_with_g (w_k w1) (v_g (w_k w1)) = w_k w1) by (destruct (w_k w1); reflexivity).
  rewrite Ek1 in F1.
  assert (Ed : forall n0, fsteps ops f1 n0 = fsteps ops (advance f (w_k w1) (w_count w1)) n0).
  { intros n0. rewrite F1. reflexivity. }
  pose proof (rf_steps R2) as S2. rewrite Ed in S2.
  pose proof (rf_steps R1) as S1. pose proof (rf_steps R3) as S3.
  assert (E' : (j3 * in3 = j1 * in1 + j2 * in2)%nat) by lia.
  pose proof (rf_inner R2). pose proof (rf_j R2).
  destruct (j2 * in2)%nat as [|b] eqn:EB; [nia|].
  rewrite E' in S3. rewrite (fsteps_split _ _ _ _ _ S1), S2 in S3. simpl in S3. injection S3 as S3.
  pose proof (rf_copy R2) as C2. pose proof (rf_copy R3) as C3. rewrite F1 in C2. simpl in C2.
  rewrite <- S3 in C3. simpl in C3. rewrite C2 in C3. injection C3 as <- <- <- <-.
  pose proof (rf_rep R2) as P2. pose proof (rf_rep R3) as P3. rewrite <- S3 in P3. simpl in P3.
  rewrite P2 in P3. injection P3 as <-.
  pose proof (rf_ph R2) as Q2. pose proof (rf_ph R3) as Q3. rewrite F1 in Q2. simpl in Q2.
  simpl.
  rewrite F2, F3, F1. simpl. rewrite <- S3. simpl.
  split; [reflexivity|]. split; [lia|]. split; [congruence|]. repeat split; auto. lia.
Qed.

End Props.
