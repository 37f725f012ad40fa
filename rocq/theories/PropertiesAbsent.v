(** PropertiesAbsent.v -- components of which nothing is present (C81). *)

From Coquelicot Require Import Coquelicot.
From Coq Require Import Reals Lra Lia List Bool Arith ZArith FunctionalExtensionality.
From Verif Require Import Base ModelCommon ModelParts ModelKernel ModelPhases ModelFinder ProofsKernel ProofsParts ProofsSteps
  ProofsRun ProofsRun2 ModelFreeEnergy ProofsFreeEnergy Spec Examples PropertiesKernel PropertiesRun PropertiesFreeEnergy
  PropertiesConstraints ProofsEquilibrium PropertiesEquilibrium PropertiesConvex.
Import ListNotations.
Open Scope R_scope.

(* ------------------------------------------------------------------ *)
(** * Vocabulary *)

(** Two kernels for the same solver settings.  [q1] has [S n] components with
    interactions [chis], sizes [sizes] and composition (or activities) [x].
    [q2] describes the mixture that is left when component [z] is struck from
    every one of these arrays.  Shifts and acceptances may differ. *)
Record struck (q1 q2 : kernel) (z n : nat) (chis : mat) (sh1 sh2 : R) (sizes x : vec) : Prop := {
  st_z : (z < S n)%nat;
  st_n : (0 < n)%nat;
  st_np : q_np q2 = q_np q1;
  st_thr : q_thr q2 = q_thr q1;
  st_nf1 : q_nf q1 = S n;
  st_inter1 : q_inter q1 = fh_compile (S n) chis sh1;
  st_ent1 : q_entropy q1 = ig_compiled (S n) sizes;
  st_nf2 : q_nf q2 = n;
  st_inter2 : q_inter q2 = fh_compile n (fun r s => chis (skip z r) (skip z s)) sh2;
  st_ent2 : q_entropy q2 = ig_compiled n (fun i => sizes (skip z i));
  st_ens : (q_ensemble q1 = can_compiled (S n) x /\ q_ensemble q2 = can_compiled n (fun i => x (skip z i))) \/
           (q_ensemble q1 = gc_compiled (S n) x /\ q_ensemble q2 = gc_compiled n (fun i => x (skip z i)))
}.

(** the smaller state keeps the volumes and the fields of the other components *)
Definition kept {G} (q : kernel) (z n : nat) (k1 k2 : kstate G cstate) : Prop :=
  (forall m, (m < q_np q)%nat -> v_Js k2 m = v_Js k1 m) /\
  (forall r m, (r < n)%nat -> (m < q_np q)%nat -> v_omegas k2 r m = v_omegas k1 (skip z r) m).

(** a step that reports no error *)
Definition errorless (rep : report) : Prop := e_incomp rep = 0 /\ e_omega rep = 0 /\ e_Js rep = 0.

(* ------------------------------------------------------------------ *)
(** * Absent components stay absent *)

Lemma prefactor_zero {G} q (k : kstate G cstate) nc rho sizes x a i : ens_kind q k nc rho sizes x a -> x i = 0 -> a i = 0.
Proof. intros [y E|y E] H; rewrite H; auto. unfold Rdiv. ring. Qed.

Theorem C81_step {G} q (k k' : kstate G cstate) nv rep nc nf rho chis sh sizes x c m :
  mixture q nc nf rho chis sh sizes -> any_ensemble q nc x -> iterate q k = Ok (k', nv, rep) ->
  (c < nc)%nat -> x c = 0 -> v_phis_comp k' c m = 0.
Proof.
  intros HM HE H Hc Hx. destruct (ensemble_kind q k nc rho sizes x HE) as [a HA].
  destruct (mixture_facts _ _ _ _ _ _ _ _ _ _ _ _ _ HM HA H) as (phis & inc & MF).
  destruct (mf_it _ _ _ _ _ _ _ _ _ _ _ _ _ MF) as [nv' I]. rewrite (if_comp I).
  rewrite (mf_frac _ _ _ _ _ _ _ _ _ _ _ _ _ MF) by auto. rewrite (prefactor_zero _ _ _ _ _ _ _ _ HA Hx). ring.
Qed.

Theorem C81_run {G} (ops : rng_ops G) (f : finder G cstate) a t i f' ph d nf rho chis sh sizes x c p :
  rng_contract ops -> 0 <= m_thr (f_par f) ->
  mixture (kernel_of f) (f_nc f) nf rho chis sh sizes -> any_ensemble (kernel_of f) (f_nc f) x ->
  run ops f a t i = (f', Ok ph) -> f_diag f' = Some d ->
  (c < f_nc f)%nat -> x c = 0 -> (p < f_np f)%nat -> frac ph p c = 0.
Proof.
  intros HR Ht HM HE H HD Hc Hx Hp.
  destruct (run_columns ops f a t i f' ph d HR Ht H HD) as (k1 & k' & nv & rep & EI & _ & D1 & D2 & D3 & HC).
  destruct (HC p Hp) as (m & Hm & Lm & Em). rewrite Em by auto. eapply C81_step; eauto.
Qed.

(* ------------------------------------------------------------------ *)
(** * One step of both mixtures *)

Lemma zero_intro {G} q (k k' : kstate G cstate) rep nc nf rho chis sizes x a phis inc :
  mix_facts q k k' rep nc nf rho chis sizes x a phis inc -> (0 < q_np q)%nat ->
  (forall m, (m < q_np q)%nat -> alive (q_thr q) (v_Js k) m ->
     inc m = 0 /\ (forall r, (r < nf)%nat -> t_diff q k phis inc r m = 0) /\ t_le q k phis inc m = t_mean q k phis inc) ->
  errorless rep.
Proof.
  intros MF Hnp Z. destruct (mf_it _ _ _ _ _ _ _ _ _ _ _ _ _ MF) as [nv I].
  assert (HD : forall m r, (m < q_np q)%nat -> (r < nf)%nat -> t_diff q k phis inc r m = 0).
  { intros m r Hm Hr. destruct (Rlt_dec (q_thr q) (v_Js k m)) as [L|L].
    - destruct (Z m Hm L) as (_ & ZD & _). auto.
    - unfold t_diff, t_masks. rewrite mask_dead by lra. ring. }
  split; [|split].
  - rewrite (if_e_incomp I). apply Rle_antisym; [|apply vmax_abs_nonneg]. apply vmax_le; [lia|]. intros m Hm.
    destruct (Rlt_dec (q_thr q) (v_Js k m)) as [L|L].
    + destruct (Z m Hm L) as (-> & _). rewrite Rabs_R0. lra.
    + rewrite (mf_inc _ _ _ _ _ _ _ _ _ _ _ _ _ MF). rewrite mask_dead by lra. rewrite Rmult_0_r, Rabs_R0. lra.
  - rewrite (if_e_omega I). rewrite (mf_nf _ _ _ _ _ _ _ _ _ _ _ _ _ MF). unfold max_omega_diff. clear - HD Hnp.
    assert (K : forall n, (n <= nf)%nat -> for_ n (fun r acc => Rmax acc (vmax (q_np q) (t_diff q k phis inc r))) 0 = 0).
    { induction n as [|n IH]; intros Hn; [reflexivity|]. rewrite for_S, IH by lia.
      rewrite (vmax_ext _ _ (fun _ => 0)) by (intros; apply HD; auto; lia).
      destruct (vmax_in (q_np q) (fun _ => 0)) as (y & _ & ->); [lia|]. apply Rmax_left. lra. }
    apply K. lia.
  - rewrite (if_e_Js I). unfold t_maxJ. apply Rle_antisym; [|apply vmax_abs_nonneg].
    apply vmax_le; [lia|]. intros m Hm. unfold t_Jdiff. destruct (Rlt_dec (q_thr q) (v_Js k m)) as [L|L].
    + destruct (Z m Hm L) as (_ & _ & ->). rewrite Rminus_diag_eq by reflexivity. rewrite Rmult_0_l, Rabs_R0. lra.
    + unfold t_masks. rewrite mask_dead by lra. rewrite Rmult_0_r, Rabs_R0. lra.
Qed.

Section Both.
Context {G : Type} (q1 q2 : kernel) (z n : nat) (chis : mat) (sh1 sh2 : R) (sizes x : vec).
Context (k1 k2 k1' k2' : kstate G cstate) (nv1 nv2 : Z) (rep1 rep2 : report).
Hypothesis (HS : struck q1 q2 z n chis sh1 sh2 sizes x) (Hz : x z = 0) (HK : kept q1 z n k1 k2).
Hypothesis (I1 : Forall idle (v_cons k1)) (I2 : Forall idle (v_cons k2)).
Hypothesis (H1 : iterate q1 k1 = Ok (k1', nv1, rep1)) (H2 : iterate q2 k2 = Ok (k2', nv2, rep2)).

Let c' : mat := fun r s => chis (skip z r) (skip z s).
Let s' : vec := fun i => sizes (skip z i).
Let x' : vec := fun i => x (skip z i).
Let id' := fun i : nat => i.

Lemma skip_S i : (i < n)%nat -> (skip z i < S n)%nat.
Proof using. intros H. apply skip_lt. lia. Qed.

Lemma sum_S f : rsum (S n) f = f z + rsum n (fun i => f (skip z i)).
Proof using HS. rewrite (rsum_skip (S n) z f (st_z _ _ _ _ _ _ _ _ _ HS)). replace (S n - 1)%nat with n by lia. reflexivity. Qed.

Lemma same_Qbar i : (i < n)%nat -> Qbar q2 k2 id' s' i = Qbar q1 k1 id' sizes (skip z i).
Proof using HS HK.
  intros Hi. destruct HK as [KJ KW]. unfold Qbar. rewrite (st_np _ _ _ _ _ _ _ _ _ HS), (st_thr _ _ _ _ _ _ _ _ _ HS).
  apply f_equal2; apply rsum_ext; intros m Hm; unfold living; rewrite KJ by auto; [|reflexivity].
  unfold id'. rewrite KW by auto. reflexivity.
Qed.

Record both (p1 p2 : mat) (j1 j2 : vec) (a1 a2 : vec) : Prop := {
  bo_1 : mix_facts q1 k1 k1' rep1 (S n) (S n) id' chis sizes x a1 p1 j1;
  bo_2 : mix_facts q2 k2 k2' rep2 n n id' c' s' x' a2 p2 j2;
  bo_z : forall m, p1 z m = 0;
  bo_p : forall i m, (i < n)%nat -> (m < q_np q1)%nat -> p2 i m = p1 (skip z i) m;
  bo_j : forall m, (m < q_np q1)%nat -> j2 m = j1 m;
  bo_pot : forall r m, (r < n)%nat -> (m < q_np q1)%nat -> t_pot q2 k2 p2 r m = t_pot q1 k1 p1 (skip z r) m
}.

Lemma both_exist : exists p1 p2 j1 j2 a1 a2, both p1 p2 j1 j2 a1 a2.
Proof using HS Hz HK H1 H2.
  destruct HK as [KJ KW].
  assert (M1 : mixture q1 (S n) (S n) id' chis sh1 sizes) by (destruct HS; now constructor).
  assert (M2 : mixture q2 n n id' c' sh2 s') by (destruct HS; now constructor).
  assert (EA : exists a1 a2, ens_kind q1 k1 (S n) id' sizes x a1 /\ ens_kind q2 k2 n id' s' x' a2 /\
    forall i, (i < n)%nat -> a2 i = a1 (skip z i)).
  { destruct (st_ens _ _ _ _ _ _ _ _ _ HS) as [[E1 E2]|[E1 E2]].
    - do 2 eexists. split; [apply ek_can, E1|]. split; [apply ek_can, E2|]. intros i Hi. cbv beta. now rewrite same_Qbar.
    - do 2 eexists. split; [apply ek_gc, E1|]. split; [apply ek_gc, E2|]. intros i Hi. reflexivity. }
  destruct EA as (a1 & a2 & A1 & A2 & EA).
  destruct (mixture_facts _ _ _ _ _ _ _ _ _ _ _ _ _ M1 A1 H1) as (p1 & j1 & F1).
  destruct (mixture_facts _ _ _ _ _ _ _ _ _ _ _ _ _ M2 A2 H2) as (p2 & j2 & F2).
  exists p1, p2, j1, j2, a1, a2.
  assert (EZ : forall m, p1 z m = 0).
  { intros m. rewrite (mf_frac _ _ _ _ _ _ _ _ _ _ _ _ _ F1) by apply (st_z _ _ _ _ _ _ _ _ _ HS).
    rewrite (prefactor_zero _ _ _ _ _ _ _ _ A1 Hz). ring. }
  assert (EK : forall m, (m < q_np q1)%nat -> make_masks (v_Js k2) (q_thr q2) m = make_masks (v_Js k1) (q_thr q1) m).
  { intros m Hm. unfold make_masks. now rewrite KJ, (st_thr _ _ _ _ _ _ _ _ _ HS). }
  assert (EP : forall i m, (i < n)%nat -> (m < q_np q1)%nat -> p2 i m = p1 (skip z i) m).
  { intros i m Hi Hm. rewrite (mf_frac _ _ _ _ _ _ _ _ _ _ _ _ _ F1) by (now apply skip_S).
    rewrite (mf_frac _ _ _ _ _ _ _ _ _ _ _ _ _ F2) by auto. rewrite EA, EK by auto. unfold id'. rewrite KW by auto. reflexivity. }
  split; auto.
  - intros m Hm. rewrite (mf_inc _ _ _ _ _ _ _ _ _ _ _ _ _ F1), (mf_inc _ _ _ _ _ _ _ _ _ _ _ _ _ F2). rewrite EK by auto.
    rewrite (sum_S (fun i => p1 i m)), EZ. rewrite (rsum_ext n (fun i => p2 i m) (fun i => p1 (skip z i) m)) by auto. ring.
  - intros r m Hr Hm. etransitivity; [exact (pot_comp _ _ _ _ _ _ _ _ _ _ _ _ _ F2 r m Hr)|].
    etransitivity; [|symmetry; exact (pot_comp _ _ _ _ _ _ _ _ _ _ _ _ _ F1 (skip z r) m (skip_S r Hr))].
    rewrite (sum_S (fun j => chis (id' (skip z r)) (id' j) * p1 j m)), EZ. rewrite Rmult_0_r, Rplus_0_l.
    apply rsum_ext. intros s Hs. rewrite EP by auto. reflexivity.
Qed.

Section WithBoth.
Context (p1 p2 : mat) (j1 j2 a1 a2 : vec).
Hypothesis (B : both p1 p2 j1 j2 a1 a2).

(** local energies differ by the difference of the Lagrange multipliers *)
Lemma both_le m : (m < q_np q1)%nat -> alive (q_thr q1) (v_Js k1) m ->
  t_le q2 k2 p2 j2 m + t_xi q2 k2 p2 j2 m = t_le q1 k1 p1 j1 m + t_xi q1 k1 p1 j1 m.
Proof using HS HK I1 I2 B.
  intros Hm L. destruct HK as [KJ KW].
  assert (L2 : alive (q_thr q2) (v_Js k2) m) by (unfold alive in *; now rewrite KJ, (st_thr _ _ _ _ _ _ _ _ _ HS)).
  pose proof (le_identity _ _ _ _ _ _ _ _ _ _ _ _ _ (bo_1 _ _ _ _ _ _ B) m L) as E1.
  pose proof (le_identity _ _ _ _ _ _ _ _ _ _ _ _ _ (bo_2 _ _ _ _ _ _ B) m L2) as E2.
  cbv zeta in E1, E2. destruct (idle_sums q1 k1 p1 I1) as [P1 V1]. destruct (idle_sums q2 k2 p2 I2) as [P2 V2].
  rewrite V1 in E1. rewrite V2 in E2.
  rewrite (rsum_zero (S n) (fun i => P_of (t_cs q1 k1 p1) (id' i) m * p1 i m)) in E1 by (intros; rewrite P1; ring).
  rewrite (rsum_zero n (fun i => P_of (t_cs q2 k2 p2) (id' i) m * p2 i m)) in E2 by (intros; rewrite P2; ring).
  rewrite (sum_S (fun i => t_pot q1 k1 p1 (id' i) m * p1 i m)), (sum_S (fun i => p1 i m / sizes i)), !(bo_z _ _ _ _ _ _ B) in E1.
  rewrite (rsum_ext n (fun i => t_pot q2 k2 p2 (id' i) m * p2 i m) (fun i => t_pot q1 k1 p1 (id' (skip z i)) m * p1 (skip z i) m)) in E2
    by (intros i Hi; unfold id'; rewrite (bo_pot _ _ _ _ _ _ B), (bo_p _ _ _ _ _ _ B) by auto; reflexivity).
  rewrite (rsum_ext n (fun i => p2 i m / s' i) (fun i => p1 (skip z i) m / sizes (skip z i))) in E2
    by (intros i Hi; rewrite (bo_p _ _ _ _ _ _ B) by auto; reflexivity).
  rewrite E1, E2. unfold Rdiv. ring.
Qed.

Lemma both_alive m : (m < q_np q1)%nat -> (alive (q_thr q2) (v_Js k2) m <-> alive (q_thr q1) (v_Js k1) m).
Proof using HS HK. intros Hm. destruct HK as [KJ KW]. unfold alive. now rewrite KJ, (st_thr _ _ _ _ _ _ _ _ _ HS). Qed.

(** without residuals the multiplier is the common offset of the fields *)
Lemma xi_offset q (k : kstate G cstate) phis inc m c : Forall idle (v_cons k) -> alive (q_thr q) (v_Js k) m -> inc m = 0 -> (0 < q_nf q)%nat ->
  (forall r, (r < q_nf q)%nat -> v_omegas k r m = t_pot q k phis r m + c) -> t_xi q k phis inc m = c.
Proof using.
  intros HI L Hj Hn HW. unfold t_xi, xi_of, t_masks. rewrite mask_alive by auto. rewrite Hj.
  destruct (idle_sums q k phis HI) as [P V].
  rewrite <- (lsum_rsum (q_nf q) (t_cs q k phis) (fun o r => pot_of o r m)). rewrite (rsum_zero (q_nf q) (fun r => lsum _ _)) by (intros; apply P).
  rewrite (rsum_ext (q_nf q) _ (fun _ => c)) by (intros r Hr; rewrite HW by auto; ring).
  rewrite rsum_const. field. now apply INR_neq0.
Qed.

Lemma both_mean : (forall m, (m < q_np q1)%nat -> alive (q_thr q1) (v_Js k1) m -> t_le q2 k2 p2 j2 m = t_le q1 k1 p1 j1 m) ->
  t_mean q2 k2 p2 j2 = t_mean q1 k1 p1 j1.
Proof using HS HK.
  intros E. destruct HK as [KJ KW]. unfold t_mean. rewrite (st_np _ _ _ _ _ _ _ _ _ HS). apply f_equal2.
  - apply rsum_ext. intros m Hm. rewrite !t_J_living. rewrite (st_thr _ _ _ _ _ _ _ _ _ HS). unfold living. rewrite KJ by auto.
    destruct (Rlt_dec (q_thr q1) (v_Js k1 m)) as [L|L]; [rewrite E by auto; reflexivity|ring].
  - unfold t_n. rewrite (st_np _ _ _ _ _ _ _ _ _ HS). apply f_equal. apply f_equal. apply rsum_ext. intros m Hm.
    unfold t_masks, make_masks. now rewrite KJ, (st_thr _ _ _ _ _ _ _ _ _ HS).
Qed.

Lemma field_offset q (k : kstate G cstate) phis inc r m : Forall idle (v_cons k) -> alive (q_thr q) (v_Js k) m ->
  t_diff q k phis inc r m = t_pot q k phis r m + t_xi q k phis inc m - v_omegas k r m.
Proof using.
  intros HI L. destruct (idle_sums q k phis HI) as [P V]. rewrite (diff_alive q k phis inc r m L). cbv zeta. rewrite P. ring.
Qed.

Lemma restricted : errorless rep1 -> errorless rep2.
Proof using HS HK I1 I2 B.
  intros (E1 & E2 & E3). pose proof (zero_residuals _ _ _ _ _ _ _ _ _ _ _ _ _ (bo_1 _ _ _ _ _ _ B) E1 E2 E3) as Z.
  destruct (living_exists _ _ _ _ _ _ _ _ _ _ _ _ _ (bo_1 _ _ _ _ _ _ B)) as (m0 & Hm0 & _).
  assert (X : forall m, (m < q_np q1)%nat -> alive (q_thr q1) (v_Js k1) m -> t_xi q2 k2 p2 j2 m = t_xi q1 k1 p1 j1 m).
  { intros m Hm L. destruct (Z m Hm L) as (ZI & ZD & _). apply xi_offset; auto.
    - now apply both_alive.
    - now rewrite (bo_j _ _ _ _ _ _ B).
    - rewrite (st_nf2 _ _ _ _ _ _ _ _ _ HS). apply (st_n _ _ _ _ _ _ _ _ _ HS).
    - rewrite (st_nf2 _ _ _ _ _ _ _ _ _ HS). intros r Hr. destruct HK as [_ KW]. rewrite KW, (bo_pot _ _ _ _ _ _ B) by auto.
      pose proof (ZD (skip z r) (skip_S r Hr)) as D. rewrite field_offset in D by auto. lra. }
  assert (LE : forall m, (m < q_np q1)%nat -> alive (q_thr q1) (v_Js k1) m -> t_le q2 k2 p2 j2 m = t_le q1 k1 p1 j1 m).
  { intros m Hm L. pose proof (both_le m Hm L). rewrite X in H by auto. lra. }
  apply (zero_intro _ _ _ _ _ _ _ _ _ _ _ _ _ (bo_2 _ _ _ _ _ _ B)); rewrite (st_np _ _ _ _ _ _ _ _ _ HS); [lia|].
  intros m Hm L2. assert (L : alive (q_thr q1) (v_Js k1) m) by now apply both_alive.
  destruct (Z m Hm L) as (ZI & ZD & ZL). split; [now rewrite (bo_j _ _ _ _ _ _ B)|]. split.
  - intros r Hr. rewrite field_offset by auto. rewrite X, (bo_pot _ _ _ _ _ _ B) by auto. destruct HK as [_ KW]. rewrite KW by auto.
    rewrite <- field_offset by auto. apply ZD. now apply skip_S.
  - rewrite LE, both_mean by auto. exact ZL.
Qed.

(** the field a component feels in the phases of the smaller mixture *)
Definition felt (m : nat) : R :=
  rsum n (fun s => chis z (skip z s) * v_phis_comp k2' s m) +
  (v_omegas k2 0%nat m - rsum n (fun s => chis (skip z 0) (skip z s) * v_phis_comp k2' s m)).

Lemma extended : (forall m, (m < q_np q1)%nat -> alive (q_thr q1) (v_Js k1) m -> v_omegas k1 z m = felt m) ->
  errorless rep2 -> errorless rep1.
Proof using HS HK I1 I2 B.
  intros HF (E1 & E2 & E3). pose proof (zero_residuals _ _ _ _ _ _ _ _ _ _ _ _ _ (bo_2 _ _ _ _ _ _ B) E1 E2 E3) as Z.
  rewrite (st_np _ _ _ _ _ _ _ _ _ HS) in Z.
  destruct (living_exists _ _ _ _ _ _ _ _ _ _ _ _ _ (bo_1 _ _ _ _ _ _ B)) as (m0 & Hm0 & _).
  assert (EC : v_phis_comp k2' = p2) by (destruct (mf_it _ _ _ _ _ _ _ _ _ _ _ _ _ (bo_2 _ _ _ _ _ _ B)) as [nv' I]; apply (if_comp I)).
  pose proof (st_n _ _ _ _ _ _ _ _ _ HS) as Hn. pose proof (st_z _ _ _ _ _ _ _ _ _ HS) as Hz'.
  assert (W : forall m r, (m < q_np q1)%nat -> alive (q_thr q1) (v_Js k1) m -> (r < S n)%nat ->
    v_omegas k1 r m = t_pot q1 k1 p1 r m + t_xi q2 k2 p2 j2 m).
  { intros m r Hm L Hr. assert (L2 : alive (q_thr q2) (v_Js k2) m) by now apply both_alive.
    destruct (Z m Hm L2) as (ZI & ZD & _).
    assert (K : forall s, (s < n)%nat -> v_omegas k1 (skip z s) m = t_pot q1 k1 p1 (skip z s) m + t_xi q2 k2 p2 j2 m).
    { intros s Hs. pose proof (ZD s Hs) as D. rewrite field_offset in D by auto. destruct HK as [_ KW].
      rewrite KW, (bo_pot _ _ _ _ _ _ B) in D by auto. lra. }
    assert (PC : forall s, (s < S n)%nat -> t_pot q1 k1 p1 s m = rsum n (fun u => chis s (skip z u) * p2 u m)).
    { intros s Hs. etransitivity; [exact (pot_comp _ _ _ _ _ _ _ _ _ _ _ _ _ (bo_1 _ _ _ _ _ _ B) s m Hs)|].
      rewrite (sum_S (fun u => chis (id' s) (id' u) * p1 u m)), (bo_z _ _ _ _ _ _ B), Rmult_0_r, Rplus_0_l.
      apply rsum_ext. intros u Hu. rewrite (bo_p _ _ _ _ _ _ B) by auto. reflexivity. }
    destruct (Nat.eq_dec r z) as [->|Hne].
    - rewrite HF by auto. unfold felt. rewrite EC. destruct HK as [_ KW]. rewrite KW by auto. rewrite K by auto.
      rewrite !PC by (auto using skip_S). ring.
    - assert (exists s, (s < n)%nat /\ r = skip z s) as (s & Hs & ->).
      { unfold skip. destruct (Nat.lt_ge_cases r z).
        - exists r. split; [lia|]. destruct (Nat.ltb_spec r z); lia.
        - exists (r - 1)%nat. split; [lia|]. destruct (Nat.ltb_spec (r - 1) z); lia. }
      now apply K. }
  assert (X : forall m, (m < q_np q1)%nat -> alive (q_thr q1) (v_Js k1) m -> t_xi q1 k1 p1 j1 m = t_xi q2 k2 p2 j2 m).
  { intros m Hm L. assert (L2 : alive (q_thr q2) (v_Js k2) m) by now apply both_alive.
    destruct (Z m Hm L2) as (ZI & _). apply xi_offset; auto.
    - now rewrite <- (bo_j _ _ _ _ _ _ B).
    - rewrite (st_nf1 _ _ _ _ _ _ _ _ _ HS). lia.
    - rewrite (st_nf1 _ _ _ _ _ _ _ _ _ HS). intros r Hr. now apply W. }
  assert (LE : forall m, (m < q_np q1)%nat -> alive (q_thr q1) (v_Js k1) m -> t_le q2 k2 p2 j2 m = t_le q1 k1 p1 j1 m).
  { intros m Hm L. pose proof (both_le m Hm L). rewrite X in H by auto. lra. }
  apply (zero_intro _ _ _ _ _ _ _ _ _ _ _ _ _ (bo_1 _ _ _ _ _ _ B)); [lia|].
  intros m Hm L. assert (L2 : alive (q_thr q2) (v_Js k2) m) by now apply both_alive.
  destruct (Z m Hm L2) as (ZI & ZD & ZL). split; [now rewrite <- (bo_j _ _ _ _ _ _ B)|]. split.
  - intros r Hr. rewrite field_offset by auto. rewrite X by auto. rewrite (W m r) by auto. ring.
  - rewrite <- LE, <- both_mean by auto. exact ZL.
Qed.
End WithBoth.
End Both.

(* ------------------------------------------------------------------ *)
(** * Converged states *)

(** a step of one mixture succeeds when a step of the other one does *)
Lemma total_of {G} q (k : kstate G cstate) nc sizes x : q_entropy q = ig_compiled nc sizes -> any_ensemble q nc x ->
  0 <= q_thr q -> 0 < q_ub q -> (exists m, (m < q_np q)%nat /\ alive (q_thr q) (v_Js k) m) ->
  exists k' nv rep, iterate q k = Ok (k', nv, rep).
Proof.
  intros E1 [E2|E2] Ht Hu HL; apply iterate_total; auto; [eapply builtin_total_ig_can|eapply builtin_total_ig_gc]; eauto.
Qed.

(** The field of an absent component is not free: when no error is reported it
    lies above its interaction energy by the same amount as all other fields. *)
Theorem C81_field {G} q1 q2 z n chis sh1 sh2 sizes x (k1 k1' : kstate G cstate) nv1 rep1 :
  struck q1 q2 z n chis sh1 sh2 sizes x -> Forall idle (v_cons k1) ->
  iterate q1 k1 = Ok (k1', nv1, rep1) -> errorless rep1 ->
  forall m r, (m < q_np q1)%nat -> alive (q_thr q1) (v_Js k1) m -> (r < S n)%nat ->
  v_omegas k1 z m - rsum (S n) (fun s => chis z s * v_phis_comp k1' s m) =
  v_omegas k1 r m - rsum (S n) (fun s => chis r s * v_phis_comp k1' s m).
Proof.
  intros HS I1 H1 (E1 & E2 & E3) m r Hm L Hr.
  assert (M1 : mixture q1 (S n) (S n) (fun i => i) chis sh1 sizes) by (destruct HS; now constructor).
  assert (HE : any_ensemble q1 (S n) x) by (destruct (st_ens _ _ _ _ _ _ _ _ _ HS) as [[E _]|[E _]]; [left|right]; exact E).
  destruct (ensemble_kind q1 k1 (S n) (fun i => i) sizes x HE) as [a HA].
  destruct (mixture_facts _ _ _ _ _ _ _ _ _ _ _ _ _ M1 HA H1) as (phis & inc & MF).
  destruct (mf_it _ _ _ _ _ _ _ _ _ _ _ _ _ MF) as [nv' F]. rewrite (if_comp F).
  destruct (zero_residuals _ _ _ _ _ _ _ _ _ _ _ _ _ MF E1 E2 E3 m Hm L) as (_ & ZD & _).
  assert (K : forall s, (s < S n)%nat -> v_omegas k1 s m - rsum (S n) (fun u => chis s u * phis u m) = t_xi q1 k1 phis inc m).
  { intros s Hs. pose proof (ZD s Hs) as D. rewrite field_offset in D by auto.
    assert (E : t_pot q1 k1 phis s m = rsum (S n) (fun u => chis s u * phis u m))
      by exact (pot_comp _ _ _ _ _ _ _ _ _ _ _ _ _ MF s m Hs). lra. }
  rewrite !K by (auto; apply (st_z _ _ _ _ _ _ _ _ _ HS)). reflexivity.
Qed.

(** Striking an absent component from a converged mixture leaves a converged
    mixture with the same fractions. *)
Theorem C81_restrict {G} q1 q2 z n chis sh1 sh2 sizes x (k1 k2 k1' : kstate G cstate) nv1 rep1 :
  struck q1 q2 z n chis sh1 sh2 sizes x -> x z = 0 -> kept q1 z n k1 k2 ->
  Forall idle (v_cons k1) -> Forall idle (v_cons k2) -> 0 <= q_thr q1 -> 0 < q_ub q2 ->
  iterate q1 k1 = Ok (k1', nv1, rep1) -> errorless rep1 ->
  exists k2' nv2 rep2, iterate q2 k2 = Ok (k2', nv2, rep2) /\ errorless rep2 /\
    forall m, (m < q_np q1)%nat -> v_phis_comp k1' z m = 0 /\
      forall i, (i < n)%nat -> v_phis_comp k2' i m = v_phis_comp k1' (skip z i) m.
Proof.
  intros HS Hz HK I1 I2 Ht Hu H1 HE.
  assert (HL : exists m, (m < q_np q2)%nat /\ alive (q_thr q2) (v_Js k2) m).
  { pose proof H1 as H. apply iterate_inv in H. destruct H as (p0 & Q & phis & inc & _ & _ & F).
    destruct (proj1 (count_valid_pos _ _ _) (if_nv_pos F)) as (m & Hm & L). exists m. destruct HK as [KJ KW].
    unfold alive in *. rewrite (st_np _ _ _ _ _ _ _ _ _ HS), (st_thr _ _ _ _ _ _ _ _ _ HS), KJ by auto. auto. }
  destruct (total_of q2 k2 n (fun i => sizes (skip z i)) (fun i => x (skip z i))) as (k2' & nv2 & rep2 & H2); auto.
  { apply (st_ent2 _ _ _ _ _ _ _ _ _ HS). }
  { destruct (st_ens _ _ _ _ _ _ _ _ _ HS) as [[_ E]|[_ E]]; [left|right]; exact E. }
  { now rewrite (st_thr _ _ _ _ _ _ _ _ _ HS). }
  exists k2', nv2, rep2. split; [exact H2|].
  destruct (both_exist q1 q2 z n chis sh1 sh2 sizes x k1 k2 k1' k2' nv1 nv2 rep1 rep2 HS Hz HK H1 H2) as (p1 & p2 & j1 & j2 & a1 & a2 & B).
  split; [eapply restricted; eauto|]. intros m Hm.
  destruct (mf_it _ _ _ _ _ _ _ _ _ _ _ _ _ (bo_1 _ _ _ _ _ _ _ _ _ _ _ _ _ _ _ _ _ _ _ B)) as [nv' F1].
  destruct (mf_it _ _ _ _ _ _ _ _ _ _ _ _ _ (bo_2 _ _ _ _ _ _ _ _ _ _ _ _ _ _ _ _ _ _ _ B)) as [nv'' F2].
  rewrite (if_comp F1), (if_comp F2). split; [eapply bo_z; eauto|]. intros i Hi. eapply bo_p; eauto.
Qed.

(** Conversely a component of which nothing is present can be added to a
    converged mixture: there is a field for it with which the larger mixture is
    converged with the same fractions. *)
Theorem C81_extend {G} q1 q2 z n chis sh1 sh2 sizes x (k2 k2' : kstate G cstate) nv2 rep2 :
  struck q1 q2 z n chis sh1 sh2 sizes x -> x z = 0 ->
  Forall idle (v_cons k2) -> 0 <= q_thr q1 -> 0 < q_ub q1 ->
  iterate q2 k2 = Ok (k2', nv2, rep2) -> errorless rep2 ->
  exists w : vec, forall k1 : kstate G cstate, Forall idle (v_cons k1) -> kept q1 z n k1 k2 ->
    (forall m, (m < q_np q1)%nat -> v_omegas k1 z m = w m) ->
    exists k1' nv1 rep1, iterate q1 k1 = Ok (k1', nv1, rep1) /\ errorless rep1 /\
      forall m, (m < q_np q1)%nat -> v_phis_comp k1' z m = 0 /\
        forall i, (i < n)%nat -> v_phis_comp k1' (skip z i) m = v_phis_comp k2' i m.
Proof.
  intros HS Hz I2 Ht Hu H2 HE. exists (felt z n chis k2 k2'). intros k1 I1 HK HW.
  assert (HL : exists m, (m < q_np q1)%nat /\ alive (q_thr q1) (v_Js k1) m).
  { pose proof H2 as H. apply iterate_inv in H. destruct H as (p0 & Q & phis & inc & _ & _ & F).
    destruct (proj1 (count_valid_pos _ _ _) (if_nv_pos F)) as (m & Hm & L). exists m. destruct HK as [KJ KW].
    unfold alive in *. rewrite (st_np _ _ _ _ _ _ _ _ _ HS) in Hm. rewrite (st_thr _ _ _ _ _ _ _ _ _ HS), KJ in L by auto. auto. }
  destruct (total_of q1 k1 (S n) sizes x) as (k1' & nv1 & rep1 & H1); auto.
  { apply (st_ent1 _ _ _ _ _ _ _ _ _ HS). }
  { destruct (st_ens _ _ _ _ _ _ _ _ _ HS) as [[E _]|[E _]]; [left|right]; exact E. }
  exists k1', nv1, rep1. split; [exact H1|].
  destruct (both_exist q1 q2 z n chis sh1 sh2 sizes x k1 k2 k1' k2' nv1 nv2 rep1 rep2 HS Hz HK H1 H2) as (p1 & p2 & j1 & j2 & a1 & a2 & B).
  split; [eapply extended; eauto|]. intros m Hm.
  destruct (mf_it _ _ _ _ _ _ _ _ _ _ _ _ _ (bo_1 _ _ _ _ _ _ _ _ _ _ _ _ _ _ _ _ _ _ _ B)) as [nv' F1].
  destruct (mf_it _ _ _ _ _ _ _ _ _ _ _ _ _ (bo_2 _ _ _ _ _ _ _ _ _ _ _ _ _ _ _ _ _ _ _ B)) as [nv'' F2].
  rewrite (if_comp F1), (if_comp F2). split; [eapply bo_z; eauto|]. intros i Hi. symmetry. eapply bo_p; eauto.
Qed.
