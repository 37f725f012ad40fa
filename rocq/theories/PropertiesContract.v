(** PropertiesContract.v -- the iteration converges for weakly interacting
    mixtures (C95). *)

From Coquelicot Require Import Coquelicot.
From Coq Require Import Reals Lra Lia String List Bool Arith ZArith Classical.
From Verif Require Import Base ModelCommon ModelParts ModelKernel ModelPhases ModelFinder ProofsKernel ProofsParts ProofsSteps ProofsBounds ProofsCopy
  ProofsHistory ProofsRun ProofsRun2 Spec ModelFreeEnergy ProofsFreeEnergy PropertiesKernel PropertiesRun PropertiesConstraints ProofsEquilibrium
  PropertiesEquilibrium PropertiesFeatures PropertiesBinary PropertiesRelax PropertiesFinder PropertiesAccuracy ProofsContract.
Import ListNotations.
Open Scope R_scope.

(* ------------------------------------------------------------------ *)
(** * The sequence of states *)

Section Sequence.
Context {G : Type} (ops : rng_ops G).
Variables (q : kernel) (tries : Z) (k : kstate G cstate).
Variables (nc nf : nat) (rho : nat -> nat) (chis : mat) (sh : R) (sizes pm : vec).
Hypothesis HM : mixture q nc nf rho chis sh sizes.
Hypothesis HE : q_ensemble q = can_compiled nc pm.
Hypothesis HAd : admissible nc nf chis sizes pm.
Hypothesis PS : rsum nc pm = 1.
Hypothesis HI : Forall idle (v_cons k).
Hypothesis Ht : 0 <= q_thr q < 1.
Hypothesis Hu : 0 < q_ub q.
Hypothesis HJ : 0 <= q_acc_J q.
Hypothesis Hw : 0 < q_acc_w q <= 1.
Hypothesis Htr : (tries <= 0)%Z.
Hypothesis HAl : some_alive q (v_Js k).

Definition state_after (n : nat) : kstate G cstate :=
  match steps ops q tries n (start k) with Ok w => w_k w | Err _ => k end.

Lemma steps_ok n : exists w, steps ops q tries n (start k) = Ok w.
Proof using HM HE Ht Hu HAl.
  destruct (steps_total ops q tries n (start k)) as (w & E & _); eauto.
  eapply mixture_total; eauto. left. exact HE.
Qed.

Lemma state_step n : exists w nv rep, steps ops q tries (S n) (start k) = Ok w /\ w_k w = state_after (S n) /\
  iterate q (state_after n) = Ok (state_after (S n), nv, rep) /\ w_rep w = Some rep /\ w_valid w = nv.
Proof using HM HE Ht Hu HAl Htr.
  destruct (steps_ok (S n)) as (w & E). pose proof E as E'. cbn [steps] in E'. apply bind_Ok in E'. destruct E' as (w1 & E1 & H).
  unfold one_step in H. rewrite no_revival in H by auto. apply bind_Ok in H. destruct H as ([[k' nv] rep] & EI & H). injection H as EW.
  exists w, nv, rep. unfold state_after. rewrite E, E1. rewrite <- EW at 2 3 4. cbn. rewrite <- EW. cbn. auto.
Qed.

Lemma state_idle n : Forall idle (v_cons (state_after n)).
Proof using HM HE Ht Hu HAl HI.
  destruct (steps_ok n) as (w & E). unfold state_after. rewrite E. rewrite (idle_steps ops q tries n (start k) w HI E). exact HI.
Qed.

Lemma state_facts n : exists w nv rep phis inc, steps ops q tries (S n) (start k) = Ok w /\ w_k w = state_after (S n) /\
  iterate q (state_after n) = Ok (state_after (S n), nv, rep) /\ w_rep w = Some rep /\ w_valid w = nv /\
  mix_facts q (state_after n) (state_after (S n)) rep nc nf rho chis sizes pm (fun i => pm i / Qbar q (state_after n) rho sizes i) phis inc.
Proof using HM HE Ht Hu HAl Htr.
  destruct (state_step n) as (w & nv & rep & E1 & E2 & E3 & E4 & E5).
  destruct (mixture_facts q (state_after n) (state_after (S n)) nv rep nc nf rho chis sh sizes pm _ HM (ek_can _ _ _ _ _ pm HE) E3) as (phis & inc & MF).
  exists w, nv, rep, phis, inc. auto 10.
Qed.

(** ** the living compartments do not change forever *)

Lemma dead_after n d m : dead (q_thr q) (v_Js (state_after n)) m -> dead (q_thr q) (v_Js (state_after (n + d))) m.
Proof using HM HE Ht Hu HAl Htr.
  intros H. induction d as [|d IH]; [now rewrite Nat.add_0_r|]. rewrite Nat.add_succ_r.
  destruct (state_step (n + d)) as (w & nv & rep & _ & _ & E3 & _). unfold dead in *.
  destruct (iterate_dead _ _ _ _ _ _ E3 IH) as (-> & _). lra.
Qed.

Lemma settles : exists N, forall m, (m < q_np q)%nat ->
  (forall n, (N <= n)%nat -> alive (q_thr q) (v_Js (state_after n)) m) \/ (forall n, (N <= n)%nat -> dead (q_thr q) (v_Js (state_after n)) m).
Proof using HM HE Ht Hu HAl Htr.
  assert (GEN : forall p, exists N, forall m, (m < p)%nat ->
    (forall n, (N <= n)%nat -> alive (q_thr q) (v_Js (state_after n)) m) \/ (forall n, (N <= n)%nat -> dead (q_thr q) (v_Js (state_after n)) m)).
  { induction p as [|p (N & IH)]; [exists 0%nat; intros; lia|].
    destruct (classic (exists n, dead (q_thr q) (v_Js (state_after n)) p)) as [(n0 & Hd)|Hno].
    - exists (Nat.max N n0). intros m Hm. destruct (Nat.eq_dec m p) as [->|Hne].
      + right. intros n Hn. replace n with (n0 + (n - n0))%nat by lia. now apply dead_after.
      + destruct (IH m ltac:(lia)) as [H|H]; [left|right]; intros n Hn; apply H; lia.
    - exists N. intros m Hm. destruct (Nat.eq_dec m p) as [->|Hne].
      + left. intros n _. apply NNPP. intros HN. apply Hno. exists n. unfold dead, alive in *. lra.
      + apply IH. lia. }
  apply GEN.
Qed.

Definition settled_from (N : nat) : Prop := forall m, (m < q_np q)%nat ->
  (forall n, (N <= n)%nat -> alive (q_thr q) (v_Js (state_after n)) m) \/ (forall n, (N <= n)%nat -> dead (q_thr q) (v_Js (state_after n)) m).

Lemma same_alive N n : settled_from N -> (N <= n)%nat ->
  num_alive (q_np q) (q_thr q) (v_Js (state_after (S n))) = num_alive (q_np q) (q_thr q) (v_Js (state_after n)).
Proof using Type.
  intros HS Hn. rewrite !num_alive_ncount. apply ncount_ext. intros m Hm. destruct (HS m Hm) as [H|H].
  - pose proof (H n Hn) as A. pose proof (H (S n) ltac:(lia)) as A'. unfold alive in A, A'.
    rewrite (proj2 (Rltb_true _ _) A), (proj2 (Rltb_true _ _) A'). reflexivity.
  - pose proof (H n Hn) as A. pose proof (H (S n) ltac:(lia)) as A'. unfold dead in A, A'.
    rewrite (proj2 (Rltb_false _ _) A), (proj2 (Rltb_false _ _) A'). reflexivity.
Qed.

Lemma normalised N n : settled_from N -> (N <= n)%nat ->
  rsum (q_np q) (living (q_thr q) (v_Js (state_after (S n)))) = t_n q (state_after (S n)).
Proof using HM HE Ht Hu HAl Htr.
  intros HS Hn. rewrite t_n_eq. unfold t_nv, count_valid. rewrite <- num_alive_ncount, (same_alive N n HS Hn).
  destruct (state_step n) as (w & nv & rep & _ & _ & E3 & _). destruct (C02_volumes_normalised q _ _ _ _ E3) as (_ & _ & E & Z).
  rewrite <- E. apply rsum_ext. intros m Hm. unfold living. destruct (Rlt_dec _ _) as [|HD]; auto. destruct (HS m Hm) as [H|H].
  - exfalso. apply HD. apply H. lia.
  - symmetry. apply Z. apply H. lia.
Qed.

(** ** the distance shrinks *)

Variables (B D X M W kap : R).
Hypothesis HC : close q k nc rho chis pm B.
Hypothesis HBD : 3 / 2 * B <= D.
Hypothesis HX : forall r s t, (r < nf)%nat -> (s < nf)%nat -> (t < nf)%nat -> Rabs (chis r t - chis s t) <= X.
Hypothesis HMx : forall r s, (r < nf)%nat -> (s < nf)%nat -> Rabs (chis r s) <= M.
Hypothesis HW : forall i, (i < nc)%nat -> 1 / sizes i <= W.
Let TH := upper_size nc sizes pm D.
Let TL := lower_size nc sizes pm D.
Let c0 := coef_of q / INR nf.
Hypothesis Hc0 : 0 <= c0.
Hypothesis Hcap : q_acc_w q * c0 * TH <= 1.
Hypothesis K0 : 0 <= kap.
Hypothesis K1 : kap <= c0 * TL / 2.
Hypothesis K2 : kap <= 1 - 6 * X * TH.

Lemma close_mono (k1 : kstate G cstate) b b' : close q k1 nc rho chis pm b -> b <= b' -> close q k1 nc rho chis pm b'.
Proof using Type. intros (C1 & C2) Hb. split; intros; eapply Rle_trans; eauto; lra. Qed.

Lemma B0 : 0 <= B.
Proof using HAl HC.
  destruct HAl as (m & Hm & HA). destruct HC as (H & _). eapply Rle_trans; [apply Rabs_pos|]. apply (H m m); split; auto.
Qed.

Lemma kap_le_1 : kap <= 1.
Proof using HAd HX K2.
  destruct HAd as (NF & _ & HS & HP). assert (0 <= X) by (eapply Rle_trans; [apply Rabs_pos|apply (HX 0%nat 0%nat 0%nat); auto]).
  assert (0 <= TH) by (apply (TH_nonneg nc nf chis sizes pm HAd D)). assert (0 <= X * TH) by (apply Rmult_le_pos; auto). nra.
Qed.

Lemma close_all n : close q (state_after n) nc rho chis pm B.
Proof using All.
  induction n as [|n IH]; [exact HC|]. destruct (state_facts n) as (w & nv & rep & phis & inc & _ & _ & _ & _ & _ & MF).
  destruct (close_next q (state_after n) (state_after (S n)) rep nc nf rho chis sizes pm HAd (state_idle n) ltac:(lra) Hu phis inc MF
     B D X IH HBD HX kap Hw Hc0 Hcap K0 K1 K2) as (Hf & H).
  eapply close_mono; [exact H|]. pose proof B0. pose proof kap_le_1. set (f := t_factor _ _ _ _) in *.
  clearbody f. assert (0 <= f * q_acc_w q * kap) by (apply Rmult_le_pos; [apply Rmult_le_pos|]; lra).
  rewrite <- (Rmult_1_r B) at 2. apply Rmult_le_compat_l; lra.
Qed.

Let CL := le_const q nc nf sizes pm D M W.
Let fl := q_ub q / (CL * B * q_acc_J q + q_ub q).
Definition rate : R := 1 - fl * q_acc_w q * kap.

Lemma CL1 : 1 <= CL.
Proof using All.
  destruct (state_facts 0) as (w & nv & rep & phis & inc & _ & _ & _ & _ & _ & MF).
  apply (le_const_pos q (state_after 0) (state_after 1) rep nc nf rho chis sizes pm HAd ltac:(lra) phis inc MF B D (close_all 0) HBD M W HMx HW PS Hc0).
Qed.

Lemma fl_range : 0 < fl <= 1.
Proof using All.
  pose proof CL1. pose proof B0. assert (0 <= CL * B * q_acc_J q) by (apply Rmult_le_pos; [apply Rmult_le_pos|]; lra). unfold fl. split.
  - apply Rdiv_lt_0_compat; lra.
  - apply (Rmult_le_reg_r (CL * B * q_acc_J q + q_ub q)); [lra|]. unfold Rdiv. rewrite Rmult_assoc, Rinv_l by lra. lra.
Qed.

Lemma rate_range : 0 <= rate <= 1.
Proof using All.
  pose proof fl_range. pose proof kap_le_1. unfold rate. assert (0 <= fl * q_acc_w q) by (apply Rmult_le_pos; lra).
  assert (fl * q_acc_w q <= 1) by nra. assert (0 <= fl * q_acc_w q * kap) by (apply Rmult_le_pos; lra).
  assert (fl * q_acc_w q * kap <= 1 * 1) by (apply Rmult_le_compat; lra). lra.
Qed.

Lemma close_decay N n : settled_from N -> close q (state_after (S N + n)) nc rho chis pm (B * rate ^ n).
Proof using All.
  intros HS. pose proof B0 as HB0. pose proof rate_range as HR. pose proof fl_range as HF. pose proof CL1 as HCL.
  induction n as [|n IH]; [rewrite Nat.add_0_r, pow_O, Rmult_1_r; apply close_all|]. rewrite Nat.add_succ_r.
  assert (HP : 0 <= rate ^ n <= 1).
  { split; [apply pow_le; lra|]. rewrite <- (pow1 n). apply pow_incr. lra. }
  assert (HB : 0 <= B * rate ^ n <= B) by nra.
  destruct (state_facts (S N + n)) as (w & nv & rep & phis & inc & _ & _ & _ & _ & _ & MF).
  assert (HBD' : 3 / 2 * (B * rate ^ n) <= D) by lra.
  destruct (close_next q _ _ rep nc nf rho chis sizes pm HAd (state_idle (S N + n)) ltac:(lra) Hu phis inc MF
     _ D X IH HBD' HX kap Hw Hc0 Hcap K0 K1 K2) as (Hf & H).
  eapply close_mono; [exact H|]. set (f := t_factor _ _ _ _) in *.
  assert (FB : fl <= f).
  { pose proof (factor_bound q _ _ rep nc nf rho chis sizes pm HAd (state_idle (S N + n)) ltac:(lra) Hu phis inc MF
       B D (close_all (S N + n)) HBD M W HMx HW PS Hc0 HJ) as FB.
    apply FB. change (S N + n)%nat with (S (N + n))%nat. apply (normalised N); auto. lia. }
  cbn [pow]. rewrite (Rmult_comm rate), <- Rmult_assoc. apply Rmult_le_compat_l; [lra|]. unfold rate.
  assert (fl * q_acc_w q * kap <= f * q_acc_w q * kap); [|lra]. apply Rmult_le_compat_r; auto. apply Rmult_le_compat_r; lra.
Qed.

(** the errors and the compositions, [n] steps after the last death *)
Lemma errors_decay N n : settled_from N -> exists C, C = TH * (3 / 2) * (1 + c0 + X) + 1 + CL /\
  exists w rep, steps ops q tries (S (S N + n)) (start k) = Ok w /\ w_rep w = Some rep /\
  w_valid w = Z.of_nat (num_alive (q_np q) (q_thr q) (v_Js (w_k w))) /\
  e_incomp rep <= C * (B * rate ^ n) /\ e_omega rep <= C * (B * rate ^ n) /\ e_Js rep <= C * (B * rate ^ n) /\ e_cons rep = 0 /\
  (forall m i, lives q (w_k w) m -> (i < nc)%nat -> Rabs (v_phis_comp (w_k w) i m - pm i) <= C * (B * rate ^ n)).
Proof using All.
  intros HS. eexists. split; [reflexivity|]. set (C := TH * (3 / 2) * (1 + c0 + X) + 1 + CL).
  pose proof B0 as HB0. pose proof rate_range as HR. pose proof fl_range as HF. pose proof CL1 as HCL.
  assert (HP : 0 <= rate ^ n <= 1).
  { split; [apply pow_le; lra|]. rewrite <- (pow1 n). apply pow_incr. lra. }
  assert (HB : 0 <= B * rate ^ n <= B) by nra. set (b := B * rate ^ n) in *.
  pose proof (close_decay N n HS) as HCn. fold b in HCn. assert (HBD' : 3 / 2 * b <= D) by lra.
  destruct (state_facts (S N + n)) as (w & nv & rep & phis & inc & E1 & E2 & E3 & E4 & E5 & MF).
  assert (T0 : 0 <= TH) by (apply (TH_nonneg nc nf chis sizes pm HAd D)).
  assert (X0 : 0 <= X) by (destruct HAd as (NF & _); eapply Rle_trans; [apply Rabs_pos|apply (HX 0%nat 0%nat 0%nat); auto]).
  assert (P1 : 0 <= TH * c0) by (apply Rmult_le_pos; auto). assert (P2 : 0 <= TH * X) by (apply Rmult_le_pos; auto).
  assert (CB1 : TH * (3 / 2 * b) <= C * b) by (unfold C; assert (0 <= (TH * (3 / 2) * (c0 + X) + 1 + CL) * b) by (apply Rmult_le_pos; nra); nra).
  exists w, rep. split; [exact E1|]. split; [exact E4|]. split; [|split; [|split; [|split; [|split]]]].
  - rewrite E5, E2. destruct (C02_volumes_normalised q _ _ _ _ E3) as (-> & _). f_equal. symmetry. apply (same_alive N); auto. lia.
  - pose proof (inc_bound q _ _ rep nc nf rho chis sizes pm HAd ltac:(lra) phis inc MF b D HCn HBD' PS) as H. fold TH in H. lra.
  - pose proof (omega_bound q _ _ rep nc nf rho chis sizes pm HAd (state_idle (S N + n)) ltac:(lra) phis inc MF b D X HCn HBD' HX PS Hc0) as H.
    fold TH c0 in H. unfold C. assert (0 <= (TH * (3 / 2) + 3 / 4 + CL) * b) by (apply Rmult_le_pos; lra). lra.
  - pose proof (Js_bound q _ _ rep nc nf rho chis sizes pm HAd (state_idle (S N + n)) ltac:(lra) phis inc MF
       b D HCn HBD' M W HMx HW PS Hc0) as H. fold TH c0 CL in H. eapply Rle_trans; [apply H|].
    + change (S N + n)%nat with (S (N + n))%nat. apply (normalised N); auto. lia.
    + unfold C. assert (0 <= (TH * (3 / 2) * (1 + c0 + X) + 1) * b) by (apply Rmult_le_pos; nra). lra.
  - apply (idle_residue q _ _ rep nc nf rho chis sizes pm (state_idle (S N + n)) phis inc MF).
  - intros m i Hm Hi. rewrite E2 in *. destruct (mf_it _ _ _ _ _ _ _ _ _ _ _ _ _ MF) as [nv' I]. rewrite (if_comp I).
    assert (Hm' : lives q (state_after (S N + n)) m) by (apply (survivor q _ _ rep nc nf rho chis sizes pm ltac:(lra) phis inc MF m Hm)).
    pose proof (total_near q _ _ rep nc nf rho chis sizes pm HAd ltac:(lra) phis inc MF b D HCn HBD' m Hm') as H. fold TH in H.
    eapply Rle_trans; [|eapply Rle_trans; [exact H|exact CB1]].
    rewrite (rsum_remove nc _ i Hi). assert (0 <= rsum nc (fun j => if Nat.eqb j i then 0 else Rabs (phis j m - pm j))); [|lra].
    apply rsum_nonneg. intros j _. destruct (Nat.eqb j i); [lra|apply Rabs_pos].
Qed.

Lemma converges : 0 < kap -> forall eps, 0 < eps -> exists n0, forall n, (n0 <= n)%nat -> exists w rep,
  steps ops q tries n (start k) = Ok w /\ w_rep w = Some rep /\
  w_valid w = Z.of_nat (num_alive (q_np q) (q_thr q) (v_Js (w_k w))) /\
  e_incomp rep < eps /\ e_omega rep < eps /\ e_Js rep < eps /\ e_cons rep < eps /\
  (forall m i, lives q (w_k w) m -> (i < nc)%nat -> Rabs (v_phis_comp (w_k w) i m - pm i) < eps).
Proof using All.
  intros KP eps He. destruct settles as (N & HS). pose proof B0 as HB0. pose proof rate_range as HR. pose proof fl_range as HF. pose proof CL1 as HCL.
  set (C := TH * (3 / 2) * (1 + c0 + X) + 1 + CL).
  assert (T0 : 0 <= TH) by (apply (TH_nonneg nc nf chis sizes pm HAd D)).
  assert (X0 : 0 <= X) by (destruct HAd as (NF & _); eapply Rle_trans; [apply Rabs_pos|apply (HX 0%nat 0%nat 0%nat); auto]).
  assert (C0 : 1 <= C) by (unfold C; assert (0 <= TH * (3 / 2) * (1 + c0 + X)) by (apply Rmult_le_pos; [apply Rmult_le_pos|]; lra); lra).
  assert (R1 : rate < 1) by (unfold rate; assert (0 < fl * q_acc_w q * kap) by (apply Rmult_lt_0_compat; [apply Rmult_lt_0_compat|]; lra); lra).
  assert (CBp : 0 < C * B + 1) by nra.
  destruct (pow_lt_1_zero rate ltac:(rewrite Rabs_right; lra) (eps / (C * B + 1)) ltac:(apply Rdiv_lt_0_compat; lra)) as (n1 & Hn1).
  exists (S (S N + n1)). intros n Hn. destruct (errors_decay N (n - (S (S N))) HS) as (C' & EC & w & rep & E1 & E2 & E3 & E4 & E5 & E6 & E7 & E8).
  fold C in EC. subst C'. replace (S (S N + (n - (S (S N)))))%nat with n in E1 by lia.
  assert (HL : C * (B * rate ^ (n - S (S N))) < eps).
  { specialize (Hn1 (n - S (S N))%nat ltac:(lia)). rewrite Rabs_right in Hn1 by (apply Rle_ge, pow_le; lra).
    set (p := rate ^ (n - S (S N))) in *. assert (0 <= p) by (apply pow_le; lra).
    apply Rle_lt_trans with ((C * B + 1) * p); [nra|]. apply (Rmult_lt_compat_l (C * B + 1)) in Hn1; auto.
    replace ((C * B + 1) * (eps / (C * B + 1))) with eps in Hn1 by (field; lra). exact Hn1. }
  exists w, rep. do 3 (split; [auto|]). split; [lra|]. split; [lra|]. split; [lra|]. split; [lra|].
  intros m i Hm Hi. eapply Rle_lt_trans; [apply E8; auto|exact HL].
Qed.

End Sequence.

(* ------------------------------------------------------------------ *)
(** * Nothing dies when volumes are exchanged slowly *)

Section Survive.
Context {G : Type} (ops : rng_ops G).
Variables (q : kernel) (tries : Z) (k : kstate G cstate).
Variables (nc nf : nat) (rho : nat -> nat) (chis : mat) (sh : R) (sizes pm : vec).
Hypothesis HM : mixture q nc nf rho chis sh sizes.
Hypothesis HE : q_ensemble q = can_compiled nc pm.
Hypothesis HAd : admissible nc nf chis sizes pm.
Hypothesis PS : rsum nc pm = 1.
Hypothesis HI : Forall idle (v_cons k).
Hypothesis Ht : 0 <= q_thr q < 1.
Hypothesis Hu : 0 < q_ub q.
Hypothesis HJ : 0 <= q_acc_J q.
Hypothesis Hw : 0 < q_acc_w q <= 1.
Hypothesis Hnp : (0 < q_np q)%nat.
Hypothesis H1 : forall m, (m < q_np q)%nat -> v_Js k m = 1.
Variables (B D X M W kap : R).
Hypothesis HC : close q k nc rho chis pm B.
Hypothesis HBD : 3 / 2 * B <= D.
Hypothesis HX : forall r s t, (r < nf)%nat -> (s < nf)%nat -> (t < nf)%nat -> Rabs (chis r t - chis s t) <= X.
Hypothesis HMx : forall r s, (r < nf)%nat -> (s < nf)%nat -> Rabs (chis r s) <= M.
Hypothesis HW : forall i, (i < nc)%nat -> 1 / sizes i <= W.
Let TH := upper_size nc sizes pm D.
Let TL := lower_size nc sizes pm D.
Let c0 := coef_of q / INR nf.
Hypothesis Hc0 : 0 <= c0.
Hypothesis Hcap : q_acc_w q * c0 * TH <= 1.
Hypothesis K0 : 0 < kap.
Hypothesis K1 : kap <= c0 * TL / 2.
Hypothesis K2 : kap <= 1 - 6 * X * TH.
Let CL := le_const q nc nf sizes pm D M W.
Hypothesis CL1' : 1 <= CL.
Hypothesis Hslow : 2 * q_acc_J q * CL * B < q_acc_w q * kap * (1 - q_thr q).
Let fl := q_ub q / (CL * B * q_acc_J q + q_ub q).
Let gam := 1 - fl * q_acc_w q * kap.
Let L := 2 * q_acc_J q * CL / (q_acc_w q * kap).

(** alive, normalised and [b] close *)
Definition good (b : R) (w : mstate G cstate) : Prop :=
  w_count w = 0%nat /\ Forall idle (v_cons (w_k w)) /\ close q (w_k w) nc rho chis pm b /\
  rsum (q_np q) (v_Js (w_k w)) = INR (q_np q) /\ forall m, (m < q_np q)%nat -> 1 - L * (B - b) <= v_Js (w_k w) m.

Lemma s_B0 : 0 <= B.
Proof using HC Hnp H1 Ht.
  destruct HC as (H & _). eapply Rle_trans; [apply Rabs_pos|]. apply (H 0%nat 0%nat); split; auto; unfold alive; rewrite H1 by auto; lra.
Qed.

Lemma L_ok : 0 <= L /\ L * B < 1 - q_thr q.
Proof using HJ Hw K0 CL1' Hslow.
  assert (P : 0 < q_acc_w q * kap) by (apply Rmult_lt_0_compat; lra). split.
  - unfold L. apply Rmult_le_pos; [apply Rmult_le_pos; lra|left; now apply Rinv_0_lt_compat].
  - apply (Rmult_lt_reg_r (q_acc_w q * kap)); auto. replace (L * B * (q_acc_w q * kap)) with (2 * q_acc_J q * CL * B) by (unfold L; field; lra). lra.
Qed.

Lemma good_alive b w m : 0 <= b <= B -> good b w -> (m < q_np q)%nat -> alive (q_thr q) (v_Js (w_k w)) m.
Proof using HJ Hw K0 CL1' Hslow.
  intros Hb (_ & _ & _ & _ & H) Hm. destruct L_ok as (L0 & LB). specialize (H m Hm). unfold alive. assert (L * (B - b) <= L * B) by nra. lra.
Qed.

Lemma good_count b w : 0 <= b <= B -> good b w -> count_valid (q_np q) (v_Js (w_k w)) (q_thr q) = q_np q.
Proof using HJ Hw K0 CL1' Hslow.
  intros Hb HG. unfold count_valid. apply ncount_all. intros m Hm. apply Rltb_true. now apply (good_alive b).
Qed.

Lemma good_step b w : 0 <= b <= B -> good b w ->
  exists w' rep b', one_step ops q tries w = Ok w' /\ w_rep w' = Some rep /\ w_valid w' = Z.of_nat (q_np q) /\
    good b' w' /\ 0 <= b' <= b * gam /\
    e_incomp rep <= TH * (3 / 2 * b) /\ e_omega rep <= (c0 + X) * (TH * (3 / 2 * b)) + b / 4 /\ e_Js rep <= CL * b /\ e_cons rep = 0 /\
    (forall m i, (m < q_np q)%nat -> (i < nc)%nat -> Rabs (v_phis_comp (w_k w') i m - pm i) <= TH * (3 / 2 * b)).
Proof using All.
  intros Hb HG. pose proof s_B0 as B0'. pose proof (good_count b w Hb HG) as CV. assert (AL := fun m => good_alive b w m Hb HG).
  destruct HG as (G1 & G2 & G3 & G4 & G5). destruct L_ok as (L0 & LB).
  assert (MR : maybe_revive ops q tries (w_count w) (w_k w) = (w_count w, w_k w)).
  { unfold maybe_revive. destruct (Z.ltb _ _); [|reflexivity]. rewrite CV, Nat.eqb_refl. reflexivity. }
  assert (TOT : parts_total q) by (eapply mixture_total; eauto; left; exact HE).
  destruct (one_step_total ops q tries w TOT Ht Hu) as (w' & E & _); [exists 0%nat; split; [exact Hnp|now apply AL]|].
  pose proof E as E'. unfold one_step in E'. rewrite MR in E'. apply bind_Ok in E'. destruct E' as ([[k' nv] rep] & EI & H). injection H as EW.
  destruct (mixture_facts q (w_k w) k' nv rep nc nf rho chis sh sizes pm _ HM (ek_can _ _ _ _ _ pm HE) EI) as (phis & inc & MF).
  assert (HBD' : 3 / 2 * b <= D) by lra. assert (HCB : close q (w_k w) nc rho chis pm B) by (eapply close_mono; eauto; lra).
  assert (NORM : rsum (q_np q) (living (q_thr q) (v_Js (w_k w))) = t_n q (w_k w)).
  { rewrite t_n_eq. unfold t_nv. rewrite CV, <- G4. apply rsum_ext. intros m Hm. unfold living. destruct (Rlt_dec _ _) as [|N]; auto.
    exfalso. apply N. now apply AL. }
  assert (HT0 : 0 <= q_thr q) by lra. assert (HK0 : 0 <= kap) by lra.
  destruct (close_next q (w_k w) k' rep nc nf rho chis sizes pm HAd G2 HT0 Hu phis inc MF b D X G3 HBD' HX kap Hw Hc0 Hcap HK0 K1 K2) as (Hf & HCn).
  pose proof (factor_bound q (w_k w) k' rep nc nf rho chis sizes pm HAd G2 HT0 Hu phis inc MF B D HCB HBD M W HMx HW PS Hc0 HJ NORM) as FB.
  fold CL in FB. fold fl in FB. assert (VN := fun m => volume_next q (w_k w) k' rep nc nf rho chis sizes pm HAd G2 HT0 Hu phis inc MF b D G3 HBD' M W HMx HW PS m Hc0 HJ NORM).
  fold CL in VN. set (f := t_factor q (w_k w) phis inc) in *. clearbody f.
  assert (KL : kap <= 1).
  { destruct HAd as (NF & _). assert (0 <= X) by (eapply Rle_trans; [apply Rabs_pos|apply (HX 0%nat 0%nat 0%nat); auto]).
    assert (0 <= TH) by (apply (TH_nonneg nc nf chis sizes pm HAd D)). assert (0 <= X * TH) by (apply Rmult_le_pos; auto). lra. }
  assert (FK : 0 <= f * q_acc_w q * kap <= 1).
  { assert (0 <= f * q_acc_w q) by (apply Rmult_le_pos; lra). split; [apply Rmult_le_pos; lra|].
    assert (f * q_acc_w q <= 1 * 1) by (apply Rmult_le_compat; lra). assert (f * q_acc_w q * kap <= 1 * 1) by (apply Rmult_le_compat; lra). lra. }
  exists w', rep, (b * (1 - f * q_acc_w q * kap)). split; [exact E|]. rewrite <- EW. cbn [w_rep w_valid w_k].
  split; [reflexivity|]. destruct (C02_volumes_normalised q _ _ _ _ EI) as (EN & _ & ES & _). rewrite num_alive_ncount in EN, ES. fold (count_valid (q_np q) (v_Js (w_k w)) (q_thr q)) in EN, ES.
  rewrite CV in EN, ES. split; [exact EN|]. split; [|split; [|split; [|split; [|split; [|split]]]]].
  - unfold good. cbn [w_count w_k]. split; [exact G1|]. split; [rewrite (idle_step q (w_k w) k' nv rep G2 EI); exact G2|]. split; [exact HCn|]. split; [exact ES|].
    intros m Hm. specialize (VN m (conj Hm (AL m Hm))). specialize (G5 m Hm). apply Rabs_le_between in VN.
    assert (EQ : L * (f * q_acc_w q * kap * b) = 2 * (f * q_acc_J q * (CL * b))) by (unfold L; field; lra). lra.
  - split; [apply Rmult_le_pos; lra|]. apply Rmult_le_compat_l; [lra|]. unfold gam.
    assert (fl * q_acc_w q * kap <= f * q_acc_w q * kap); [|lra]. apply Rmult_le_compat_r; [lra|]. apply Rmult_le_compat_r; lra.
  - apply (inc_bound q (w_k w) k' rep nc nf rho chis sizes pm HAd HT0 phis inc MF b D G3 HBD' PS).
  - apply (omega_bound q (w_k w) k' rep nc nf rho chis sizes pm HAd G2 HT0 phis inc MF b D X G3 HBD' HX PS Hc0).
  - apply (Js_bound q (w_k w) k' rep nc nf rho chis sizes pm HAd G2 HT0 phis inc MF b D G3 HBD' M W HMx HW PS Hc0 NORM).
  - apply (idle_residue q (w_k w) k' rep nc nf rho chis sizes pm G2 phis inc MF).
  - intros m i Hm Hi. destruct (mf_it _ _ _ _ _ _ _ _ _ _ _ _ _ MF) as [nv' I]. rewrite (if_comp I).
    eapply Rle_trans; [|apply (total_near q (w_k w) k' rep nc nf rho chis sizes pm HAd HT0 phis inc MF b D G3 HBD' m (conj Hm (AL m Hm)))].
    rewrite (rsum_remove nc _ i Hi). assert (0 <= rsum nc (fun j => if Nat.eqb j i then 0 else Rabs (phis j m - pm j))); [|lra].
    apply rsum_nonneg. intros j _. destruct (Nat.eqb j i); [lra|apply Rabs_pos].
Qed.

Lemma s_fl : 0 < fl <= 1.
Proof using HC Hnp H1 Ht CL1' HJ Hu.
  pose proof s_B0. assert (0 <= CL * B * q_acc_J q) by (apply Rmult_le_pos; [apply Rmult_le_pos|]; lra). unfold fl. split.
  - apply Rdiv_lt_0_compat; lra.
  - apply (Rmult_le_reg_r (CL * B * q_acc_J q + q_ub q)); [lra|]. unfold Rdiv. rewrite Rmult_assoc, Rinv_l by lra. lra.
Qed.

Lemma s_gam : 0 <= gam < 1.
Proof using All.
  pose proof s_fl. assert (KL : kap <= 1).
  { destruct HAd as (NF & _). assert (0 <= X) by (eapply Rle_trans; [apply Rabs_pos|apply (HX 0%nat 0%nat 0%nat); auto]).
    assert (0 <= TH) by (apply (TH_nonneg nc nf chis sizes pm HAd D)). assert (0 <= X * TH) by (apply Rmult_le_pos; auto). lra. }
  unfold gam. assert (0 < fl * q_acc_w q) by (apply Rmult_lt_0_compat; lra). assert (0 < fl * q_acc_w q * kap) by (apply Rmult_lt_0_compat; lra).
  assert (fl * q_acc_w q <= 1 * 1) by (apply Rmult_le_compat; lra). assert (fl * q_acc_w q * kap <= 1 * 1) by (apply Rmult_le_compat; lra). lra.
Qed.

Lemma survive n : exists w b, steps ops q tries n (start k) = Ok w /\ good b w /\ 0 <= b <= B * gam ^ n.
Proof using All.
  pose proof s_B0 as B0'. pose proof s_gam as HG. induction n as [|n (w & b & E & Gd & Hb)].
  - exists (start k), B. split; [reflexivity|]. split; [|cbn; lra]. unfold good. cbn [start w_count w_k]. split; [reflexivity|]. split; [exact HI|]. split; [exact HC|].
    split; [rewrite (rsum_ext _ _ (fun _ => 1)) by (intros; now apply H1); rewrite rsum_const; ring|]. intros m Hm. rewrite H1 by auto. lra.
  - assert (HP : 0 <= gam ^ n <= 1). { split; [apply pow_le; lra|]. rewrite <- (pow1 n). apply pow_incr. lra. }
    assert (HB : 0 <= b <= B) by nra. destruct (good_step b w HB Gd) as (w' & rep & b' & E' & _ & _ & Gd' & Hb' & _).
    exists w', b'. split; [cbn [steps]; rewrite E; exact E'|]. split; [exact Gd'|]. split; [lra|]. cbn [pow]. destruct Hb' as (_ & Hb'). eapply Rle_trans; [exact Hb'|].
    rewrite (Rmult_comm gam), <- Rmult_assoc. apply Rmult_le_compat_r; lra.
Qed.

Lemma survive_errors n : let C := TH * (3 / 2) * (1 + c0 + X) + 1 + CL in exists w rep,
  steps ops q tries (S n) (start k) = Ok w /\ w_rep w = Some rep /\ w_count w = 0%nat /\ w_valid w = Z.of_nat (q_np q) /\
  (forall m, (m < q_np q)%nat -> alive (q_thr q) (v_Js (w_k w)) m) /\
  e_incomp rep <= C * (B * gam ^ n) /\ e_omega rep <= C * (B * gam ^ n) /\ e_Js rep <= C * (B * gam ^ n) /\ e_cons rep = 0 /\
  (forall m i, (m < q_np q)%nat -> (i < nc)%nat -> Rabs (v_phis_comp (w_k w) i m - pm i) <= C * (B * gam ^ n)).
Proof using All.
  intros C. pose proof s_B0 as B0'. pose proof s_gam as HG. destruct (survive n) as (w & b & E & Gd & Hb).
  assert (HP : 0 <= gam ^ n <= 1). { split; [apply pow_le; lra|]. rewrite <- (pow1 n). apply pow_incr. lra. }
  assert (HB : 0 <= b <= B) by nra. destruct (good_step b w HB Gd) as (w' & rep & b' & E' & ER & EV & Gd' & Hb' & E1 & E2 & E3 & E4 & E5).
  assert (T0 : 0 <= TH) by (apply (TH_nonneg nc nf chis sizes pm HAd D)).
  assert (X0 : 0 <= X) by (destruct HAd as (NF & _); eapply Rle_trans; [apply Rabs_pos|apply (HX 0%nat 0%nat 0%nat); auto]).
  assert (P1 : 0 <= TH * c0) by (apply Rmult_le_pos; auto). assert (P2 : 0 <= TH * X) by (apply Rmult_le_pos; auto).
  assert (CP : 0 <= C) by (unfold C; lra).
  assert (CB : C * b <= C * (B * gam ^ n)) by (apply Rmult_le_compat_l; lra).
  assert (CB1 : TH * (3 / 2 * b) <= C * b).
  { unfold C. assert (0 <= (TH * (3 / 2) * (c0 + X) + 1 + CL) * b) by (apply Rmult_le_pos; lra). lra. }
  assert (CB2 : (c0 + X) * (TH * (3 / 2 * b)) + b / 4 <= C * b).
  { unfold C. assert (0 <= (TH * (3 / 2) + 3 / 4 + CL) * b) by (apply Rmult_le_pos; lra). lra. }
  assert (CB3 : CL * b <= C * b).
  { unfold C. assert (0 <= (TH * (3 / 2) * (1 + c0 + X) + 1) * b) by (apply Rmult_le_pos; lra). lra. }
  assert (GB : b * gam <= b) by nra. assert (HB' : 0 <= b' <= B) by lra. exists w', rep. split; [cbn [steps]; rewrite E; exact E'|]. split; [exact ER|]. split; [apply Gd'|]. split; [exact EV|].
  split; [intros m Hm; apply (good_alive b'); auto|]. do 4 (split; [lra|]). intros m i Hm Hi. specialize (E5 m i Hm Hi). lra.
Qed.

End Survive.

(* ------------------------------------------------------------------ *)
(** * From bounds on the fields *)

Lemma finite_bound n (g : nat -> R) : exists b, 0 <= b /\ forall i, (i < n)%nat -> g i <= b.
Proof.
  induction n as [|n (b & B0 & H)]; [exists 0; split; [lra|intros; lia]|].
  exists (Rmax b (g n)). pose proof (Rmax_l b (g n)). split; [lra|]. intros i Hi. destruct (Nat.eq_dec i n) as [->|N]; [apply Rmax_r|].
  apply Rle_trans with b; auto. apply H. lia.
Qed.

Lemma finite_bound2 n (g : nat -> nat -> R) : exists b, 0 <= b /\ forall i j, (i < n)%nat -> (j < n)%nat -> g i j <= b.
Proof.
  assert (GEN : forall p, exists b, 0 <= b /\ forall i j, (i < p)%nat -> (j < n)%nat -> g i j <= b).
  { induction p as [|p (b & B0 & H)]; [exists 0; split; [lra|intros; lia]|]. destruct (finite_bound n (g p)) as (c & C0 & Hc).
    exists (b + c). split; [lra|]. intros i j Hi Hj. destruct (Nat.eq_dec i p) as [->|N]; [specialize (Hc j Hj); lra|].
    specialize (H i j ltac:(lia) Hj). lra. }
  apply GEN.
Qed.

Lemma shifted_pos nf chis cmin sh : (0 < nf)%nat -> smallest nf chis cmin -> 0 < sh -> 0 < shifted_sum nf chis cmin sh.
Proof.
  intros Hn (_ & HL) Hs. unfold shifted_sum. apply rsum_pos.
  - intros r Hr. apply rsum_nonneg. intros s Hs'. specialize (HL r s Hr Hs'). lra.
  - exists 0%nat. split; auto. apply rsum_pos.
    + intros s Hs'. specialize (HL 0%nat s Hn Hs'). lra.
    + exists 0%nat. split; auto. specialize (HL 0%nat 0%nat Hn Hn). lra.
Qed.

Lemma mean_range n (g : nat -> R) b : (0 < n)%nat -> (forall r, (r < n)%nat -> Rabs (g r) <= b) -> Rabs (rsum n g / INR n) <= b.
Proof.
  intros Hn H. assert (0 < INR n) by now apply lt_0_INR. unfold Rdiv. rewrite Rabs_mult, (Rabs_right (/ INR n)) by (apply Rle_ge; left; now apply Rinv_0_lt_compat).
  apply (Rmult_le_reg_r (INR n)); auto. rewrite Rmult_assoc, Rinv_l, Rmult_1_r by lra. rewrite (Rmult_comm b), <- rsum_const. now apply rsum_Rabs_le.
Qed.

(** fields bounded by [V] are close *)
Lemma bounded_close {G} (q : kernel) (k : kstate G cstate) nc nf rho chis sh sizes pm V X :
  mixture q nc nf rho chis sh sizes -> admissible nc nf chis sizes pm -> rsum nc pm = 1 ->
  (forall m r, lives q k m -> (r < nf)%nat -> Rabs (v_omegas k r m) <= V) ->
  (forall r s t, (r < nf)%nat -> (s < nf)%nat -> (t < nf)%nat -> Rabs (chis r t - chis s t) <= X) -> 0 <= V ->
  close q k nc rho chis pm (8 * V + 4 * X).
Proof.
  intros HM HAd PS HV HX V0. assert (NF : q_nf q = nf) by (destruct HM; auto). destruct HAd as (Hn & _ & _ & HP).
  assert (X0 : 0 <= X) by (eapply Rle_trans; [apply Rabs_pos|apply (HX 0%nat 0%nat 0%nat); auto]). assert (NP : 0 < INR nf) by now apply lt_0_INR.
  assert (FM : forall m, lives q k m -> Rabs (field_mean q k m) <= V).
  { intros m Hm. unfold field_mean. rewrite NF. apply mean_range; auto. }
  split.
  - intros m n Hm Hn'. pose proof (FM m Hm) as H1. pose proof (FM n Hn') as H2. apply Rabs_le_between in H1. apply Rabs_le_between in H2.
    apply Rabs_le_between. lra.
  - intros m r Hm Hr. rewrite NF in *. pose proof (FM m Hm) as H1. pose proof (HV m r Hm Hr) as H2.
    set (pp := mean_potential nc rho chis pm) in *.
    assert (H3 : Rabs (pp r - rsum nf pp / INR nf) <= X).
    { replace (pp r - rsum nf pp / INR nf) with (rsum nf (fun s => pp r - pp s) / INR nf) by (rewrite rsum_minus, rsum_const; change (rsum nf (fun i => pp i)) with (rsum nf pp); field; lra).
      apply mean_range; auto. intros s Hs. unfold pp, mean_potential. rewrite <- rsum_minus. rewrite <- (Rmult_1_r X), <- PS, <- rsum_scal_l.
      apply rsum_Rabs_le. intros j Hj. replace (_ - _) with ((chis r (rho j) - chis s (rho j)) * pm j) by ring.
      rewrite Rabs_mult, (Rabs_right (pm j)) by (apply Rle_ge; left; auto). apply Rmult_le_compat_r; [left; auto|]. apply HX; auto.
      destruct HM as [? n ? ? ? ? ? ?|? ? npf ? ? ? ? ? HPF ?]; [auto|]. now apply feature_of_lt. }
    apply Rabs_le_between in H1. apply Rabs_le_between in H2. apply Rabs_le_between in H3. apply Rabs_le_between. lra.
Qed.

Lemma lower_size_pos nc nf chis sizes pm D : admissible nc nf chis sizes pm -> rsum nc pm = 1 -> 0 < lower_size nc sizes pm D.
Proof.
  intros (_ & _ & HS & HP) PS. unfold lower_size.
  assert (Hn : (0 < nc)%nat) by (destruct nc; [simpl in PS; lra|lia]).
  assert (T : forall i, (i < nc)%nat -> 0 < pm i * exp (- (sizes i * D)) * sizes i).
  { intros i Hi. apply Rmult_lt_0_compat; auto. apply Rmult_lt_0_compat; auto. apply exp_pos. }
  apply rsum_pos; [intros; left; auto|]. exists 0%nat. auto.
Qed.

(** Whatever the volumes, the number of compartments and the speed at which
    volumes are exchanged: if the fields of the living compartments are at
    most [V] in absolute value, the interactions are weak compared to the
    sizes and the fields are updated slowly enough, all errors tend to zero
    and every compartment that lives on approaches the mean composition. *)
Theorem C95_converges {G} (ops : rng_ops G) (q : kernel) (tries : Z) (k : kstate G cstate) nc nf rho chis sh sizes pm V X cmin :
  mixture q nc nf rho chis sh sizes -> q_ensemble q = can_compiled nc pm -> admissible nc nf chis sizes pm -> rsum nc pm = 1 ->
  Forall idle (v_cons k) -> 0 <= q_thr q < 1 -> 0 < q_ub q -> 0 <= q_acc_J q -> 0 < q_acc_w q <= 1 -> (tries <= 0)%Z -> some_alive q (v_Js k) ->
  (forall m r, (m < q_np q)%nat -> alive (q_thr q) (v_Js k) m -> (r < nf)%nat -> Rabs (v_omegas k r m) <= V) ->
  (forall r s t, (r < nf)%nat -> (s < nf)%nat -> (t < nf)%nat -> Rabs (chis r t - chis s t) <= X) ->
  smallest nf chis cmin -> 0 < sh -> let c := shifted_sum nf chis cmin sh in
  let T := rsum nc (fun i => pm i * exp (sizes i * (12 * V + 6 * X)) * sizes i) in
  q_acc_w q * (c / INR nf) * T <= 1 -> 6 * X * T < 1 ->
  forall eps, 0 < eps -> exists n0, forall n, (n0 <= n)%nat -> exists w rep,
    steps ops q tries n (start k) = Ok w /\ w_rep w = Some rep /\
    w_valid w = Z.of_nat (num_alive (q_np q) (q_thr q) (v_Js (w_k w))) /\
    e_incomp rep < eps /\ e_omega rep < eps /\ e_Js rep < eps /\ e_cons rep < eps /\
    (forall m i, (m < q_np q)%nat -> alive (q_thr q) (v_Js (w_k w)) m -> (i < nc)%nat -> Rabs (v_phis_comp (w_k w) i m - pm i) < eps).
Proof.
  intros HM HE HAd PS HI Ht Hu HJ Hw Htr HAl HV HX SM Hsh c T Hcap H6 eps He.
  assert (Hc : 0 < c) by (apply shifted_pos; auto; apply HAd).
  assert (NP : 0 < INR nf) by (apply lt_0_INR, HAd).
  assert (V0 : 0 <= V). { destruct HAl as (m & Hm & HA). eapply Rle_trans; [apply Rabs_pos|]. apply (HV m 0%nat Hm HA). apply HAd. }
  destruct (finite_bound2 nf (fun r s => Rabs (chis r s))) as (M & M0 & HMx). destruct (finite_bound nc (fun i => 1 / sizes i)) as (W & W0 & HW).
  pose proof (bounded_close q k nc nf rho chis sh sizes pm V X HM HAd PS ltac:(intros m r (Hm & HA) Hr; auto) HX V0) as HC.
  set (D := 12 * V + 6 * X) in *. pose proof (lower_size_pos nc nf chis sizes pm D HAd PS) as TLP.
  assert (EC : coef_of q = c) by (eapply coef_of_mixture; eauto; apply HAd).
  assert (c0P : 0 < c / INR nf) by (apply Rdiv_lt_0_compat; auto).
  edestruct (fun a1 a2 a3 a4 a5 a6 => converges ops q tries k nc nf rho chis sh sizes pm HM HE HAd PS HI Ht Hu HJ Hw Htr HAl (8 * V + 4 * X) D X M W
     (Rmin (coef_of q / INR nf * lower_size nc sizes pm D / 2) (1 - 6 * X * upper_size nc sizes pm D)) HC ltac:(unfold D; lra) HX HMx HW a1 a2 a3 a4 a5 a6 eps He) as (n0 & H).
  - rewrite EC. lra.
  - rewrite EC. exact Hcap.
  - rewrite EC. assert (0 < c / INR nf * lower_size nc sizes pm D) by (apply Rmult_lt_0_compat; auto). apply Rmin_glb; [lra|]. change (upper_size nc sizes pm D) with T. lra.
  - apply Rmin_l.
  - apply Rmin_r.
  - rewrite EC. assert (0 < c / INR nf * lower_size nc sizes pm D) by (apply Rmult_lt_0_compat; auto). apply Rmin_glb_lt; [lra|]. change (upper_size nc sizes pm D) with T. lra.
  - exists n0. intros n Hn. destruct (H n Hn) as (w & rep & E1 & E2 & E3 & E4 & E5 & E6 & E7 & E8).
    exists w, rep. do 7 (split; [auto|]). intros m i Hm HA Hi. apply E8; auto. split; auto.
Qed.

(** Without interactions there is nothing to fear but large steps: whatever
    bounds the fields there is an acceptance below which all this holds. *)
Theorem C95_ideal {G} (ops : rng_ops G) nc nf rho sh sizes pm V :
  admissible nc nf (fun _ _ => 0) sizes pm -> rsum nc pm = 1 -> 0 < sh -> 0 <= V ->
  exists a, 0 < a <= 1 /\ forall (q : kernel) (tries : Z) (k : kstate G cstate),
    mixture q nc nf rho (fun _ _ => 0) sh sizes -> q_ensemble q = can_compiled nc pm ->
    Forall idle (v_cons k) -> 0 <= q_thr q < 1 -> 0 < q_ub q -> 0 <= q_acc_J q -> 0 < q_acc_w q <= a -> (tries <= 0)%Z -> some_alive q (v_Js k) ->
    (forall m r, (m < q_np q)%nat -> alive (q_thr q) (v_Js k) m -> (r < nf)%nat -> Rabs (v_omegas k r m) <= V) ->
    forall eps, 0 < eps -> exists n0, forall n, (n0 <= n)%nat -> exists w rep,
      steps ops q tries n (start k) = Ok w /\ w_rep w = Some rep /\
      w_valid w = Z.of_nat (num_alive (q_np q) (q_thr q) (v_Js (w_k w))) /\
      e_incomp rep < eps /\ e_omega rep < eps /\ e_Js rep < eps /\ e_cons rep < eps /\
      (forall m i, (m < q_np q)%nat -> alive (q_thr q) (v_Js (w_k w)) m -> (i < nc)%nat -> Rabs (v_phis_comp (w_k w) i m - pm i) < eps).
Proof.
  intros HAd PS Hsh V0. assert (NP : 0 < INR nf) by (apply lt_0_INR, HAd).
  set (c := sh * INR nf * INR nf / INR nf). set (T := rsum nc (fun i => pm i * exp (sizes i * (12 * V + 6 * 0)) * sizes i)).
  assert (C0 : 0 < c). { unfold c. apply Rdiv_lt_0_compat; auto. repeat apply Rmult_lt_0_compat; auto. }
  assert (T0 : 0 <= T) by (apply (TH_nonneg nc nf _ sizes pm HAd)).
  assert (P : 0 <= c * T) by (apply Rmult_le_pos; lra).
  assert (IP : 0 < 1 / (c * T + 1) <= 1).
  { split; [apply Rdiv_lt_0_compat; lra|]. apply (Rmult_le_reg_r (c * T + 1)); [lra|]. unfold Rdiv. rewrite Rmult_assoc, Rinv_l by lra. lra. }
  exists (1 / (c * T + 1)). split; [exact IP|]. intros q tries k HM HE HI Ht Hu HJ Hw Htr HAl HV eps He.
  assert (SM : smallest nf (fun _ _ => 0) 0) by (split; [exists 0%nat, 0%nat; repeat split; apply HAd|intros; lra]).
  assert (Z : shifted_sum nf (fun _ _ => 0) 0 sh / INR nf = c).
  { unfold shifted_sum, c. rewrite (rsum_ext nf _ (fun _ => INR nf * (0 + (sh - 0)))) by (intros; now rewrite rsum_const).
    rewrite rsum_const. field. lra. }
  apply (C95_converges ops q tries k nc nf rho (fun _ _ => 0) sh sizes pm V 0 0); auto.
  - lra.
  - intros. rewrite Rminus_0_r, Rabs_R0. lra.
  - rewrite Z. fold T. rewrite Rmult_assoc. apply Rle_trans with (1 / (c * T + 1) * (c * T)); [apply Rmult_le_compat_r; lra|].
    apply (Rmult_le_reg_r (c * T + 1)); [lra|]. replace (1 / (c * T + 1) * (c * T) * (c * T + 1)) with (c * T) by (field; lra). lra.
  - lra.
Qed.

Lemma run_from_steps {G} (ops : rng_ops G) (f : finder G cstate) nc pm eps n0 :
  rng_contract ops -> f_nc f = nc -> m_thr (f_par f) = 0 -> m_criterion (f_par f) = "standard"%string ->
  (forall n, exists w, fsteps ops f n = Ok w /\ some_alive (kernel_of f) (v_Js (w_k w))) ->
  (forall n, (n0 <= n)%nat -> exists w rep, steps ops (kernel_of f) (f_left f) n (start (f_k f)) = Ok w /\ w_rep w = Some rep /\
    w_valid w = Z.of_nat (num_alive (q_np (kernel_of f)) (q_thr (kernel_of f)) (v_Js (w_k w))) /\
    e_incomp rep < eps /\ e_omega rep < eps /\ e_Js rep < eps /\ e_cons rep < eps /\
    (forall m i, (m < q_np (kernel_of f))%nat -> alive (q_thr (kernel_of f)) (v_Js (w_k w)) m -> (i < nc)%nat -> Rabs (v_phis_comp (w_k w) i m - pm i) < eps)) ->
  exists n1, forall a t i tr inner,
    schedule (opt a (m_max_steps (f_par f))) (opt i (m_interval (f_par f))) = Ok (tr, inner) -> (1 <= tr)%nat ->
    let tol := opt t (m_tolerance (f_par f)) in
    exists f' ph d, run ops f a t i = (f', Ok ph) /\ f_diag f' = Some d /\
      (eps <= tol -> (n1 <= tr * inner)%nat ->
         d_incomp d < tol /\ d_omega d < tol /\ d_Js d < tol /\ d_cons d < tol /\ (d_steps d <= Z.of_nat (n1 + inner))%Z) /\
      ((Z.of_nat n1 <= d_steps d)%Z -> d_incomp d < eps /\ d_omega d < eps /\ d_Js d < eps /\ d_cons d < eps /\
         forall p c, (p < f_np f)%nat -> (c < nc)%nat -> Rabs (frac ph p c - pm c) < eps).
Proof.
  intros RC NC Ht CR ALL H. set (q := kernel_of f) in *. assert (QT : q_thr q = 0) by exact Ht.
  exists (S n0). intros a t i tr inner SC TR tol.
  destruct (run_ok ops f a t i tr inner SC TR CR) as (f' & ph & E).
  - intros n. destruct (ALL n) as (w & X1 & _). eauto.
  - intros n w X1. destruct (ALL n) as (w' & X' & m & Hm & HP). rewrite X1 in X'. injection X' as <-. rewrite Ht. rewrite QT in HP.
    destruct (C08_copy_succeeds_default ops (f_np f) (v_Js (w_k w)) (v_phis_comp (w_k w)) (v_g (w_k w)) RC) as (n' & J' & t' & g' & EE & _).
    + exists m. auto.
    + eauto.
  - pose proof E as E0. apply run_inv in E. destruct E as (tr' & inner' & j & w & rep & n & J & phi & g & RF).
    pose proof (rf_sched RF) as SC'. rewrite SC in SC'. injection SC' as <- <-. pose proof (rf_j RF) as J1. pose proof (rf_inner RF) as I1.
    eexists f', ph, _. split; [exact E0|]. split; [rewrite (rf_f RF); reflexivity|]. cbn [d_incomp d_omega d_Js d_cons d_steps].
    assert (LATE : (S n0 <= j * inner)%nat -> e_incomp rep < eps /\ e_omega rep < eps /\ e_Js rep < eps /\ e_cons rep < eps /\
       (forall m i0, (m < q_np q)%nat -> alive (q_thr q) (v_Js (w_k w)) m -> (i0 < nc)%nat -> Rabs (v_phis_comp (w_k w) i0 m - pm i0) < eps)).
    { intros L. destruct (H (j * inner)%nat ltac:(lia)) as (w' & rep' & E1 & E2 & E3 & E4 & E5 & E6 & E7 & E8).
      pose proof (rf_steps RF) as EW. unfold fsteps in EW. fold q in EW. rewrite EW in E1. injection E1 as <-.
      rewrite (rf_rep RF) in E2. injection E2 as <-. auto 10. }
    split.
    + intros Het Hn. assert (ERR : e_incomp rep < tol /\ e_omega rep < tol /\ e_Js rep < tol /\ e_cons rep < tol).
      { destruct (rf_conv RF) as [Ej|HC].
        - rewrite Ej in LATE. destruct (LATE Hn) as (L1 & L2 & L3 & L4 & _). lra.
        - unfold converged in HC. repeat (apply andb_true_iff in HC; destruct HC as [HC ?]).
          repeat match goal with H : Rltb _ _ = true |- _ => apply Rltb_true in H end. auto. }
      destruct ERR as (R1 & R2 & R3 & R4). do 4 (split; [auto|]). apply inj_le.
      destruct (Nat.le_gt_cases (j * inner) (S n0 + inner)) as [L|L]; [exact L|exfalso].
      destruct j as [|j]; [lia|]. destruct (run_first ops f a t i f' ph tr inner (S j) w rep n J phi g E0 RF j) as (w' & rep' & F1 & F2 & F3); [nia|].
      destruct (H (j * inner)%nat ltac:(nia)) as (w2 & rep2 & E1 & E2 & E3 & E4 & E5 & E6 & E7 & _).
      unfold fsteps in F1. fold q in F1. rewrite F1 in E1. injection E1 as <-. rewrite F2 in E2. injection E2 as <-.
      unfold converged, safe_flag, count_valid in F3. rewrite num_alive_ncount in E3. change (q_np q) with (f_np f) in E3. change (q_thr q) with (m_thr (f_par f)) in E3.
      rewrite E3, Z.eqb_refl in F3. fold tol in F3.
      rewrite (proj2 (Rltb_true _ tol)), (proj2 (Rltb_true _ tol)), (proj2 (Rltb_true _ tol)), (proj2 (Rltb_true _ tol)) in F3 by lra. discriminate.
    + intros Hn. apply Nat2Z.inj_le in Hn. destruct (LATE Hn) as (L1 & L2 & L3 & L4 & L5). do 4 (split; [auto|]).
      intros p i0 Hp Hi0. assert (Ht0 : 0 <= m_thr (f_par f)) by lra.
      destruct (revive_by_copy_spec ops RC _ _ _ _ _ _ _ _ _ Ht0 (rf_copy RF)) as (_ & o & O1 & O2 & O3 & _).
      destruct (result_phases_ok _ _ _ _ _ (rf_ph RF)) as (_ & RF1 & _).
      assert (FP : frac ph p i0 = phi i0 p).
      { unfold frac. rewrite RF1, (nth_indep _ _ (map (fun c => phi c 0%nat) (seq 0 (f_nc f)))) by (rewrite map_length, seq_length; lia).
        rewrite (map_nth (fun p => map (fun c => phi c p) (seq 0 (f_nc f)))), seq_nth by lia. cbn [Nat.add].
        rewrite (nth_indep _ _ (phi 0%nat p)) by (rewrite map_length, seq_length; lia).
        rewrite (map_nth (fun c => phi c p)), seq_nth by lia. reflexivity. }
      rewrite FP, O3 by auto. destruct (O2 p Hp) as (B1 & B2). apply L5; auto.
Qed.

(** The run: it ends with all errors below the tolerance if the largest
    number of steps is large enough, at the first check that allows it, and
    the phases of a long run have the mean composition. *)
Theorem C95_run {G} (ops : rng_ops G) (f : finder G cstate) nc nf rho chis sh sizes pm V X cmin :
  rng_contract ops -> f_nc f = nc -> mixture (kernel_of f) nc nf rho chis sh sizes -> q_ensemble (kernel_of f) = can_compiled nc pm ->
  admissible nc nf chis sizes pm -> rsum nc pm = 1 -> Forall idle (v_cons (f_k f)) -> m_thr (f_par f) = 0 -> 0 < m_ub (f_par f) ->
  0 <= m_acc_J (f_par f) -> 0 < m_acc_w (f_par f) <= 1 -> (f_left f <= 0)%Z -> m_criterion (f_par f) = "standard"%string ->
  (exists m, (m < f_np f)%nat /\ 0 < v_Js (f_k f) m) ->
  (forall m r, (m < f_np f)%nat -> 0 < v_Js (f_k f) m -> (r < nf)%nat -> Rabs (v_omegas (f_k f) r m) <= V) ->
  (forall r s t, (r < nf)%nat -> (s < nf)%nat -> (t < nf)%nat -> Rabs (chis r t - chis s t) <= X) ->
  smallest nf chis cmin -> 0 < sh -> let c := shifted_sum nf chis cmin sh in
  let T := rsum nc (fun i => pm i * exp (sizes i * (12 * V + 6 * X)) * sizes i) in
  m_acc_w (f_par f) * (c / INR nf) * T <= 1 -> 6 * X * T < 1 ->
  forall eps, 0 < eps -> exists n0, forall a t i tr inner,
    schedule (opt a (m_max_steps (f_par f))) (opt i (m_interval (f_par f))) = Ok (tr, inner) -> (1 <= tr)%nat ->
    let tol := opt t (m_tolerance (f_par f)) in
    exists f' ph d, run ops f a t i = (f', Ok ph) /\ f_diag f' = Some d /\
      (eps <= tol -> (n0 <= tr * inner)%nat ->
         d_incomp d < tol /\ d_omega d < tol /\ d_Js d < tol /\ d_cons d < tol /\ (d_steps d <= Z.of_nat (n0 + inner))%Z) /\
      ((Z.of_nat n0 <= d_steps d)%Z -> d_incomp d < eps /\ d_omega d < eps /\ d_Js d < eps /\ d_cons d < eps /\
         forall p c, (p < f_np f)%nat -> (c < nc)%nat -> Rabs (frac ph p c - pm c) < eps).
Proof.
  intros RC NC HM HE HAd PS HI Ht Hu HJ Hw Htr CR HAl HV HX SM Hsh c T Hcap H6 eps He.
  set (q := kernel_of f) in *. assert (QT : q_thr q = 0) by exact Ht.
  assert (SA : some_alive q (v_Js (f_k f))) by (destruct HAl as (m & Hm & HP); exists m; split; [exact Hm|now rewrite QT]).
  destruct (C95_converges ops q (f_left f) (f_k f) nc nf rho chis sh sizes pm V X cmin HM HE HAd PS HI ltac:(rewrite QT; lra) Hu HJ Hw Htr SA
    ltac:(intros m r Hm HA Hr; apply HV; auto; unfold alive in HA; now rewrite QT in HA) HX SM Hsh Hcap H6 eps He) as (n0 & H).
  apply (run_from_steps ops f nc pm eps n0); auto.
  intros n. unfold fsteps. fold q. apply steps_total; auto; [eapply mixture_total; eauto; left; exact HE|rewrite QT; lra].
Qed.

(** If moreover volumes are exchanged slowly compared to the fields, no
    compartment ever dies when all start with the same volume, so that no
    revival is attempted however many are allowed, and the errors decay
    geometrically from the first step. *)
Theorem C95_survive {G} (ops : rng_ops G) nc nf rho chis sh sizes pm V X cmin :
  admissible nc nf chis sizes pm -> rsum nc pm = 1 -> smallest nf chis cmin -> 0 < sh -> 0 <= V ->
  (forall r s t, (r < nf)%nat -> (s < nf)%nat -> (t < nf)%nat -> Rabs (chis r t - chis s t) <= X) ->
  let c := shifted_sum nf chis cmin sh in
  let T := rsum nc (fun i => pm i * exp (sizes i * (12 * V + 6 * X)) * sizes i) in
  6 * X * T < 1 ->
  exists b C, 0 < b /\ 0 < C /\ forall (q : kernel) (tries : Z) (k : kstate G cstate),
    mixture q nc nf rho chis sh sizes -> q_ensemble q = can_compiled nc pm -> Forall idle (v_cons k) ->
    0 <= q_thr q < 1 -> 0 < q_ub q -> (0 < q_np q)%nat -> 0 < q_acc_w q <= 1 -> q_acc_w q * (c / INR nf) * T <= 1 ->
    0 <= q_acc_J q <= b * q_acc_w q * (1 - q_thr q) ->
    (forall m, (m < q_np q)%nat -> v_Js k m = 1) ->
    (forall m r, (m < q_np q)%nat -> (r < nf)%nat -> Rabs (v_omegas k r m) <= V) ->
    exists gam, 0 <= gam < 1 /\ forall n, exists w rep,
      steps ops q tries (S n) (start k) = Ok w /\ w_rep w = Some rep /\ w_count w = 0%nat /\ w_valid w = Z.of_nat (q_np q) /\
      (forall m, (m < q_np q)%nat -> alive (q_thr q) (v_Js (w_k w)) m) /\
      e_incomp rep <= C * gam ^ n /\ e_omega rep <= C * gam ^ n /\ e_Js rep <= C * gam ^ n /\ e_cons rep = 0 /\
      (forall m i, (m < q_np q)%nat -> (i < nc)%nat -> Rabs (v_phis_comp (w_k w) i m - pm i) <= C * gam ^ n).
Proof.
  intros HAd PS SM Hsh V0 HX c T H6. assert (Hc : 0 < c) by (apply shifted_pos; auto; apply HAd).
  assert (NP : 0 < INR nf) by (apply lt_0_INR, HAd).
  destruct (finite_bound2 nf (fun r s => Rabs (chis r s))) as (M & M0 & HMx). destruct (finite_bound nc (fun i => 1 / sizes i)) as (W & W0 & HW).
  assert (X0 : 0 <= X) by (destruct HAd as (NF & _); eapply Rle_trans; [apply Rabs_pos|apply (HX 0%nat 0%nat 0%nat); auto]).
  set (B := 8 * V + 4 * X). set (D := 12 * V + 6 * X) in *. pose proof (lower_size_pos nc nf chis sizes pm D HAd PS) as TLP.
  assert (c0P : 0 < c / INR nf) by (apply Rdiv_lt_0_compat; auto). set (c0 := c / INR nf) in *.
  assert (T0 : 0 <= T) by (apply (TH_nonneg nc nf chis sizes pm HAd D)).
  set (kap := Rmin (c0 * lower_size nc sizes pm D / 2) (1 - 6 * X * T)).
  assert (KP : 0 < kap). { assert (0 < c0 * lower_size nc sizes pm D) by (apply Rmult_lt_0_compat; auto). apply Rmin_glb_lt; lra. }
  set (CL := T * (3 / 2) * (M * (1 + T * D) + W + c0 + M) + 1).
  assert (D0 : 0 <= D) by (unfold D; lra). assert (B0' : 0 <= B) by (unfold B; lra).
  assert (TD : 0 <= T * D) by (apply Rmult_le_pos; auto). assert (MT : 0 <= M * (1 + T * D)) by (apply Rmult_le_pos; lra).
  assert (CL1 : 1 <= CL). { unfold CL. assert (0 <= T * (3 / 2) * (M * (1 + T * D) + W + c0 + M)) by (apply Rmult_le_pos; lra). lra. }
  set (C := T * (3 / 2) * (1 + c0 + X) + 1 + CL).
  assert (CP : 1 <= C). { unfold C. assert (0 <= T * (3 / 2) * (1 + c0 + X)) by (apply Rmult_le_pos; lra). lra. }
  set (b := kap / (2 * CL * (B + 1))).
  assert (BP : 0 < 2 * CL * (B + 1)) by (apply Rmult_lt_0_compat; lra). assert (bP : 0 < b) by (apply Rdiv_lt_0_compat; auto).
  exists b, (C * (B + 1)). split; [exact bP|]. split; [apply Rmult_lt_0_compat; lra|].
  intros q tries k HM HE HI Ht Hu Hnp Hw Hcap HJ H1 HV.
  assert (EC : coef_of q = c) by (eapply coef_of_mixture; eauto; apply HAd).
  assert (ECL : le_const q nc nf sizes pm D M W = CL) by (unfold le_const, CL; rewrite EC; reflexivity).
  pose proof (bounded_close q k nc nf rho chis sh sizes pm V X HM HAd PS ltac:(intros m r (Hm & HA) Hr; auto) HX V0) as HC. fold B in HC.
  assert (HCL : 1 <= le_const q nc nf sizes pm D M W) by (rewrite ECL; exact CL1).
  assert (Hslow : 2 * q_acc_J q * le_const q nc nf sizes pm D M W * B < q_acc_w q * kap * (1 - q_thr q)).
  { rewrite ECL. set (y := q_acc_w q * (1 - q_thr q)). assert (YP : 0 < y) by (apply Rmult_lt_0_compat; lra).
    assert (HJ' : q_acc_J q <= b * y) by (unfold y; lra).
    apply Rle_lt_trans with (2 * (b * y) * CL * B).
    - apply Rmult_le_compat_r; auto. apply Rmult_le_compat_r; lra.
    - assert (EB : b * (2 * CL * (B + 1)) = kap) by (unfold b; field; lra). replace (q_acc_w q * kap * (1 - q_thr q)) with (y * kap) by (unfold y; ring).
      rewrite <- EB. assert (0 < b * y * (2 * CL)) by (apply Rmult_lt_0_compat; [apply Rmult_lt_0_compat|]; lra).
      replace (2 * (b * y) * CL * B) with (b * y * (2 * CL) * B) by ring. replace (y * (b * (2 * CL * (B + 1)))) with (b * y * (2 * CL) * (B + 1)) by ring.
      apply Rmult_lt_compat_l; lra. }
  assert (A1 : 0 <= coef_of q / INR nf) by (rewrite EC; fold c0; lra).
  assert (A2 : q_acc_w q * (coef_of q / INR nf) * upper_size nc sizes pm D <= 1) by (rewrite EC; exact Hcap).
  assert (A3 : kap <= coef_of q / INR nf * lower_size nc sizes pm D / 2) by (rewrite EC; apply Rmin_l).
  assert (A4 : kap <= 1 - 6 * X * upper_size nc sizes pm D) by apply Rmin_r.
  assert (A5 : 3 / 2 * B <= D) by (unfold B, D; lra).
  pose proof (s_gam ops q tries k nc nf rho chis sh sizes pm HM HE HAd PS HI Ht Hu (proj1 HJ) Hw Hnp H1 B D X M W kap HC A5 HX HMx HW A1 A2 KP A3 A4 HCL Hslow) as HG.
  set (gam := 1 - q_ub q / (le_const q nc nf sizes pm D M W * B * q_acc_J q + q_ub q) * q_acc_w q * kap) in HG.
  exists gam. split; [exact HG|]. intros n.
  destruct (survive_errors ops q tries k nc nf rho chis sh sizes pm HM HE HAd PS HI Ht Hu (proj1 HJ) Hw Hnp H1 B D X M W kap HC A5 HX HMx HW A1 A2 KP A3 A4 HCL Hslow n)
    as (w & rep & E1 & E2 & E3 & E4 & E5 & E6 & E7 & E8 & E9 & E10).
  fold gam in E6, E7, E8, E10. rewrite ECL, EC in E6, E7, E8, E10. change (upper_size nc sizes pm D) with T in *. fold c0 in E6, E7, E8, E10. fold C in E6, E7, E8, E10.
  assert (GN : 0 <= gam ^ n) by (apply pow_le; lra).
  assert (LE : C * (B * gam ^ n) <= C * (B + 1) * gam ^ n). { assert (0 <= C * gam ^ n) by (apply Rmult_le_pos; lra). lra. }
  exists w, rep. do 5 (split; [auto|]). do 3 (split; [lra|]). split; [auto|]. intros m i Hm Hi. specialize (E10 m i Hm Hi). lra.
Qed.

(** the run of a finder as it is after its construction, with any number of
    revivals allowed *)
Theorem C95_survive_run {G} (ops : rng_ops G) nc nf rho chis sh sizes pm V X cmin :
  rng_contract ops ->
  admissible nc nf chis sizes pm -> rsum nc pm = 1 -> smallest nf chis cmin -> 0 < sh -> 0 <= V ->
  (forall r s t, (r < nf)%nat -> (s < nf)%nat -> (t < nf)%nat -> Rabs (chis r t - chis s t) <= X) ->
  let c := shifted_sum nf chis cmin sh in
  let T := rsum nc (fun i => pm i * exp (sizes i * (12 * V + 6 * X)) * sizes i) in
  6 * X * T < 1 ->
  exists b, 0 < b /\ forall (f : finder G cstate),
    f_nc f = nc -> mixture (kernel_of f) nc nf rho chis sh sizes -> q_ensemble (kernel_of f) = can_compiled nc pm -> Forall idle (v_cons (f_k f)) ->
    m_thr (f_par f) = 0 -> 0 < m_ub (f_par f) -> (0 < f_np f)%nat -> 0 < m_acc_w (f_par f) <= 1 -> m_acc_w (f_par f) * (c / INR nf) * T <= 1 ->
    0 <= m_acc_J (f_par f) <= b * m_acc_w (f_par f) -> m_criterion (f_par f) = "standard"%string ->
    (forall m, (m < f_np f)%nat -> v_Js (f_k f) m = 1) ->
    (forall m r, (m < f_np f)%nat -> (r < nf)%nat -> Rabs (v_omegas (f_k f) r m) <= V) ->
    forall eps, 0 < eps -> exists n0, forall a t i tr inner,
      schedule (opt a (m_max_steps (f_par f))) (opt i (m_interval (f_par f))) = Ok (tr, inner) -> (1 <= tr)%nat ->
      let tol := opt t (m_tolerance (f_par f)) in
      exists f' ph d, run ops f a t i = (f', Ok ph) /\ f_diag f' = Some d /\
        (eps <= tol -> (n0 <= tr * inner)%nat ->
           d_incomp d < tol /\ d_omega d < tol /\ d_Js d < tol /\ d_cons d < tol /\ (d_steps d <= Z.of_nat (n0 + inner))%Z) /\
        ((Z.of_nat n0 <= d_steps d)%Z -> d_incomp d < eps /\ d_omega d < eps /\ d_Js d < eps /\ d_cons d < eps /\
           forall p c, (p < f_np f)%nat -> (c < nc)%nat -> Rabs (frac ph p c - pm c) < eps).
Proof.
  intros RC HAd PS SM Hsh V0 HX c T H6. destruct (C95_survive ops nc nf rho chis sh sizes pm V X cmin HAd PS SM Hsh V0 HX H6) as (b & C & bP & CP & H).
  exists b. split; [exact bP|]. intros f NC HM HE HI Ht Hu Hnp Hw Hcap HJ CR H1 HV eps He. set (q := kernel_of f) in *. assert (QT : q_thr q = 0) by exact Ht.
  destruct (H q (f_left f) (f_k f) HM HE HI) as (gam & HG & HS); auto.
  { rewrite QT. lra. }
  { rewrite QT, Rminus_0_r, Rmult_1_r. exact HJ. }
  destruct (pow_lt_1_zero gam ltac:(rewrite Rabs_right; lra) (eps / C) ltac:(apply Rdiv_lt_0_compat; lra)) as (n1 & Hn1).
  apply (run_from_steps ops f nc pm eps (S n1)); auto.
  - intros n. unfold fsteps. fold q. apply steps_total; auto.
    + eapply mixture_total; eauto. left. exact HE.
    + rewrite QT. lra.
    + exists 0%nat. split; [exact Hnp|]. cbn [start w_k]. rewrite H1 by auto. rewrite QT. lra.
  - fold q. intros n Hn. destruct n as [|n]; [lia|]. destruct (HS n) as (w & rep & E1 & E2 & E3 & E4 & E5 & E6 & E7 & E8 & E9 & E10).
    assert (LT : C * gam ^ n < eps).
    { specialize (Hn1 n ltac:(lia)). rewrite Rabs_right in Hn1 by (apply Rle_ge, pow_le; lra). apply (Rmult_lt_compat_l C) in Hn1; auto.
      replace (C * (eps / C)) with eps in Hn1 by (field; lra). exact Hn1. }
    exists w, rep. split; [exact E1|]. split; [exact E2|]. split.
    + rewrite E4. f_equal. symmetry. rewrite num_alive_ncount. apply ncount_all. intros m Hm. apply Rltb_true. now apply E5.
    + do 3 (split; [lra|]). split; [lra|]. intros m i Hm _ Hi. specialize (E10 m i Hm Hi). lra.
Qed.
