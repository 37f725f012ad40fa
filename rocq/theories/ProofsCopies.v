(** ProofsCopies.v -- a step commutes with replacing every compartment by the
    same number of copies. *)

From Coq Require Import String Reals Lra Lia List Bool Arith ZArith.
From Verif Require Import Base ModelCommon ModelParts ModelKernel ModelPhases ModelFinder
  ProofsKernel ProofsParts ProofsSteps ProofsRun ProofsRelabel Spec PropertiesRelabel.
Import ListNotations.
Open Scope R_scope.

(** [sg] maps [np2] compartments to [np1] compartments; each of the latter is the
    image of exactly [d]. *)
Record copies (np1 np2 d : nat) (sg : nat -> nat) : Prop := {
  co_d : (1 <= d)%nat;
  co_in : forall m, (m < np2)%nat -> (sg m < np1)%nat;
  co_fibre : forall j, (j < np1)%nat -> ncount np2 (fun m => Nat.eqb (sg m) j) = d
}.

Section Sums.
Context (np1 np2 d : nat) (sg : nat -> nat).
Hypothesis HS : copies np1 np2 d sg.

Lemma copies_surj j : (j < np1)%nat -> exists m, (m < np2)%nat /\ sg m = j.
Proof using HS.
  intros Hj. pose proof (co_fibre _ _ _ _ HS j Hj) as E. pose proof (co_d _ _ _ _ HS).
  destruct (proj1 (ncount_pos np2 (fun m => Nat.eqb (sg m) j))) as (m & Hm & Em); [lia|].
  exists m. split; auto. now apply Nat.eqb_eq.
Qed.

Lemma copies_np1 : (0 < np2)%nat -> (0 < np1)%nat.
Proof using HS. intros H. pose proof (co_in _ _ _ _ HS 0%nat H). lia. Qed.

Lemma copies_np2 : (0 < np1)%nat -> (0 < np2)%nat.
Proof using HS. intros H. destruct (copies_surj 0%nat H) as (m & Hm & _). lia. Qed.

Lemma copies_sum f g : (forall m, (m < np2)%nat -> f (sg m) = g m) -> rsum np2 g = INR d * rsum np1 f.
Proof using HS.
  intros E. rewrite (rsum_ext np2 g (fun m => rsum np1 (fun j => if Nat.eqb (sg m) j then f j else 0))).
  - rewrite rsum_swap. rewrite <- rsum_scal_l. apply rsum_ext. intros j Hj.
    rewrite (rsum_ext np2 _ (fun m => f j * (if Nat.eqb (sg m) j then 1 else 0))) by (intros m Hm; destruct (Nat.eqb (sg m) j); ring).
    rewrite rsum_scal_l. rewrite <- (ncount_rsum np2 (fun m => Nat.eqb (sg m) j)), (co_fibre _ _ _ _ HS j Hj). ring.
  - intros m Hm. rewrite (rsum_single np1 _ (sg m) (co_in _ _ _ _ HS m Hm)).
    + rewrite Nat.eqb_refl. symmetry. auto.
    + intros j Hj Hne. destruct (Nat.eqb_spec (sg m) j); [congruence|reflexivity].
Qed.

Lemma copies_max f g : (forall m, (m < np2)%nat -> f (sg m) = g m) -> vmax np1 f = vmax np2 g.
Proof using HS.
  intros E. destruct np1 as [|n1] eqn:E1.
  - destruct np2 as [|n2] eqn:E2; [reflexivity|]. pose proof (co_in _ _ _ _ HS 0%nat ltac:(lia)). lia.
  - rewrite <- E1 in *. pose proof (copies_np2 ltac:(lia)).
    apply (is_max_unique np1 f); [apply vmax_is_max; lia|].
    destruct (vmax_is_max np2 g ltac:(lia)) as [(i & Hi & Ei) HM]. split.
    + exists (sg i). split; [now apply (co_in _ _ _ _ HS)|]. now rewrite E.
    + intros j Hj. destruct (copies_surj j Hj) as (m & Hm & <-). rewrite E by auto. now apply HM.
Qed.

Lemma copies_count p p' : (forall m, (m < np2)%nat -> p (sg m) = p' m) -> ncount np2 p' = (d * ncount np1 p)%nat.
Proof using HS.
  intros E. apply INR_eq. rewrite mult_INR, !ncount_rsum. apply copies_sum. intros m Hm. now rewrite E.
Qed.

Lemma INR_d : INR d <> 0.
Proof using HS. apply not_0_INR. pose proof (co_d _ _ _ _ HS). lia. Qed.
End Sums.

(* ------------------------------------------------------------------ *)
Section Copies.
Context (nc nf np1 np2 d : nat) (sg : nat -> nat).
Hypothesis HS : copies np1 np2 d sg.

(** first argument: original, second: with copies *)
Definition cvec (a b : vec) : Prop := forall m, (m < np2)%nat -> a (sg m) = b m.
Definition cmat (n : nat) (A B : mat) : Prop := forall r m, (r < n)%nat -> (m < np2)%nat -> A r (sg m) = B r m.

(** The same constraint.  The elastic term of a global constraint acts on the
    residue summed over the compartments, so its constant is divided by the
    number of copies. *)
Record same_lin (s : R) (p1 p2 : lin_par) : Prop := {
  sl_cons : l_cons p1 = l_cons p2;
  sl_feat1 : l_feat p1 = nf; sl_feat2 : l_feat p2 = nf;
  sl_Cs : l_Cs p1 = l_Cs p2;
  sl_Ts : l_Ts p1 = l_Ts p2;
  sl_ratio : l_ratio p1 = l_ratio p2;
  sl_elast : l_elast p1 = s * l_elast p2
}.

Inductive crep : cons_obj cstate -> cons_obj cstate -> Prop :=
| crep_local p1 p2 s1 s2 : same_lin 1 p1 p2 ->
    (forall a m, (a < l_cons p2)%nat -> (m < np2)%nat -> c_mult s1 a (sg m) = c_mult s2 a m) ->
    crep {| o_class := local_class p1; o_state := s1 |} {| o_class := local_class p2; o_state := s2 |}
| crep_global p1 p2 s1 s2 : same_lin (INR d) p1 p2 ->
    (forall a, (a < l_cons p2)%nat -> c_mult s1 a 0%nat = c_mult s2 a 0%nat) ->
    crep {| o_class := global_class p1; o_state := s1 |} {| o_class := global_class p2; o_state := s2 |}
| crep_no n1 n2 s1 s2 : cmat nf (c_pot s1) (c_pot s2) -> cvec (c_vold s1) (c_vold s2) ->
    crep {| o_class := no_class n1; o_state := s1 |} {| o_class := no_class n2; o_state := s2 |}.

(** after [prepare] *)
Inductive crep1 : cons_obj cstate -> cons_obj cstate -> Prop :=
| crep1_local p1 p2 s1 s2 : same_lin 1 p1 p2 ->
    (forall a m, (a < l_cons p2)%nat -> (m < np2)%nat -> c_mult s1 a (sg m) = c_mult s2 a m) ->
    (forall a m, (a < l_cons p2)%nat -> (m < np2)%nat -> c_res s1 a (sg m) = c_res s2 a m) ->
    cmat nf (c_pot s1) (c_pot s2) -> cvec (c_vold s1) (c_vold s2) ->
    crep1 {| o_class := local_class p1; o_state := s1 |} {| o_class := local_class p2; o_state := s2 |}
| crep1_global p1 p2 s1 s2 : same_lin (INR d) p1 p2 ->
    (forall a, (a < l_cons p2)%nat -> c_mult s1 a 0%nat = c_mult s2 a 0%nat) ->
    (forall a, (a < l_cons p2)%nat -> c_res s1 a 0%nat = c_res s2 a 0%nat) ->
    cmat nf (c_pot s1) (c_pot s2) -> cvec (c_vold s1) (c_vold s2) ->
    crep1 {| o_class := global_class p1; o_state := s1 |} {| o_class := global_class p2; o_state := s2 |}
| crep1_no n1 n2 s1 s2 : cmat nf (c_pot s1) (c_pot s2) -> cvec (c_vold s1) (c_vold s2) ->
    crep1 {| o_class := no_class n1; o_state := s1 |} {| o_class := no_class n2; o_state := s2 |}.

Lemma residue_copy s p1 p2 A B a m : same_lin s p1 p2 -> cmat nf A B ->
  (a < l_cons p2)%nat -> (m < np2)%nat -> lin_residue p1 A a (sg m) = lin_residue p2 B a m.
Proof using.
  intros L H Ha Hm. unfold lin_residue. rewrite (sl_Ts _ _ _ L). f_equal.
  rewrite (sl_feat1 _ _ _ L), (sl_feat2 _ _ _ L). apply rsum_ext. intros r Hr. now rewrite (sl_Cs _ _ _ L), H by auto.
Qed.

Lemma prepare_copy o1 o2 A B J1 J2 k1 k2 : crep o1 o2 -> cmat nf A B -> cvec J1 J2 -> cvec k1 k2 ->
  crep1 (set_state o1 (k_prepare (o_class o1) np1 A J1 k1 (o_state o1)))
        (set_state o2 (k_prepare (o_class o2) np2 B J2 k2 (o_state o2))).
Proof using HS.
  intros H HA HJ HM.
  destruct H as [p1 p2 s1 s2 L H|p1 p2 s1 s2 L H|n1 n2 s1 s2 H1 H2]; unfold set_state; simpl.
  - apply crep1_local; auto; simpl.
    + intros a m Ha Hm. now rewrite (residue_copy _ p1 p2 A B a m L), (HM m) by auto.
    + intros r m Hr Hm. rewrite (HM m Hm). f_equal. rewrite (sl_cons _ _ _ L), (sl_elast _ _ _ L), Rmult_1_l.
      apply rsum_ext. intros a Ha. now rewrite (sl_Cs _ _ _ L), H, (residue_copy _ p1 p2 A B a m L) by auto.
    + intros m Hm. simpl. rewrite (HM m Hm). f_equal. rewrite (sl_cons _ _ _ L), (sl_elast _ _ _ L), Rmult_1_l.
      apply rsum_ext. intros a Ha. now rewrite H, (residue_copy _ p1 p2 A B a m L) by auto.
  - assert (RR : forall a, (a < l_cons p2)%nat ->
      rsum np2 (fun m => lin_residue p2 B a m * J2 m) = INR d * rsum np1 (fun m => lin_residue p1 A a m * J1 m)).
    { intros a Ha. apply (copies_sum _ _ _ _ HS). intros m Hm. now rewrite (residue_copy _ p1 p2 A B a m L), (HJ m) by auto. }
    apply crep1_global; auto; simpl.
    + intros a Ha. rewrite RR by auto. rewrite (copies_sum _ _ _ _ HS J1 J2 HJ).
      unfold Rdiv. pose proof (INR_d _ _ _ _ HS). destruct (Req_dec (rsum np1 J1) 0) as [E|E].
      * rewrite E, Rmult_0_r, Rinv_0. ring.
      * field. auto.
    + intros r m Hr Hm. rewrite (HM m Hm). f_equal. rewrite (sl_cons _ _ _ L), (sl_elast _ _ _ L).
      apply rsum_ext. intros a Ha. rewrite (sl_Cs _ _ _ L), H, RR by auto. ring.
    + intros m Hm. simpl. rewrite (HM m Hm). f_equal. rewrite (sl_cons _ _ _ L), (sl_elast _ _ _ L).
      apply rsum_ext. intros a Ha. rewrite H, RR, (residue_copy _ p1 p2 A B a m L) by auto. ring.
  - now apply crep1_no.
Qed.

Lemma pot_copy o1 o2 : crep1 o1 o2 -> cmat nf (pot_of o1) (pot_of o2).
Proof using. intros H. destruct H; simpl; auto. Qed.

Lemma vd_copy o1 o2 : crep1 o1 o2 -> cvec (vd_of o1) (vd_of o2).
Proof using. intros H. destruct H; simpl; auto. Qed.

Lemma evolve_copy o1 o2 step k1 k2 : crep1 o1 o2 -> cvec k1 k2 ->
  crep (set_state o1 (fst (k_evolve (o_class o1) np1 step k1 (o_state o1))))
       (set_state o2 (fst (k_evolve (o_class o2) np2 step k2 (o_state o2)))) /\
  snd (k_evolve (o_class o1) np1 step k1 (o_state o1)) = snd (k_evolve (o_class o2) np2 step k2 (o_state o2)).
Proof using HS.
  intros H HM. destruct H as [p1 p2 s1 s2 L H HR HP HV|p1 p2 s1 s2 L H HR HP HV|n1 n2 s1 s2 H1 H2]; unfold set_state; simpl.
  - split.
    + apply crep_local; auto. intros a m Ha Hm. simpl. now rewrite H, HR, (HM m), (sl_ratio _ _ _ L) by auto.
    + rewrite (sl_cons _ _ _ L). apply (vmax_rel _ (fun a => a)); [apply perm_id|]. intros a Ha.
      apply (copies_max _ _ _ _ HS). intros m Hm. now rewrite HR.
  - split.
    + apply crep_global; auto. intros a Ha. simpl. now rewrite H, HR, (sl_ratio _ _ _ L) by auto.
    + rewrite (sl_cons _ _ _ L). apply (vmax_rel _ (fun a => a)); [apply perm_id|]. intros a Ha. now rewrite HR.
  - split; [now apply crep_no|reflexivity].
Qed.

(** kernels that differ in the number of compartments only *)
Context (q1 q2 : kernel).
Hypothesis HC : classic nc q1.
Record recopied : Prop := {
  rc_np1 : q_np q1 = np1; rc_np2 : q_np q2 = np2; rc_nf1 : q_nf q1 = nf; rc_nf2 : q_nf q2 = nf;
  rc_acc_J : q_acc_J q1 = q_acc_J q2; rc_ub : q_ub q1 = q_ub q2; rc_acc_w : q_acc_w q1 = q_acc_w q2;
  rc_thr : q_thr q1 = q_thr q2;
  rc_inter : q_inter q1 = q_inter q2; rc_entropy : q_entropy q1 = q_entropy q2; rc_ensemble : q_ensemble q1 = q_ensemble q2
}.
Hypothesis HQ : recopied.

Lemma inter_copy : exists chis s, q_inter q1 = fh_compiled nf chis s /\ q_inter q2 = fh_compiled nf chis s.
Proof using HC HQ.
  destruct HC as ((chis & s & HI) & _). exists chis, s. rewrite <- (rc_inter HQ), HI, (rc_nf1 HQ). auto.
Qed.

Lemma Q_copy w1 w2 J1 J2 s : cvec w1 w2 -> cvec J1 J2 -> ig_Q np1 w1 J1 s = ig_Q np2 w2 J2 s.
Proof using HS.
  intros HW HJ. unfold ig_Q.
  rewrite (copies_sum _ _ _ _ HS (fun m => boltzmann (w1 m) s * J1 m) (fun m => boltzmann (w2 m) s * J2 m))
    by (intros m Hm; now rewrite (HW m Hm), (HJ m Hm)).
  rewrite (copies_sum _ _ _ _ HS J1 J2 HJ). pose proof (INR_d _ _ _ _ HS). unfold Rdiv.
  destruct (Req_dec (rsum np1 J1) 0) as [E|E]; [rewrite E, Rmult_0_r, Rinv_0; ring|field; auto].
Qed.

Lemma partition_copy b1 b2 w1 w2 J1 J2 : cmat nf w1 w2 -> cvec J1 J2 ->
  rres (fun '(p1, Q1) '(p2, Q2) => cmat nc p1 p2 /\ forall i, (i < nc)%nat -> Q1 i = Q2 i)
       (s_partition (q_entropy q1) np1 b1 w1 J1) (s_partition (q_entropy q2) np2 b2 w2 J2).
Proof using HC HQ HS.
  intros HW HJ. rewrite <- (rc_entropy HQ). destruct HC as (_ & HE & _). rewrite (rc_nf1 HQ) in HE.
  assert (ET : rsum np2 J2 = INR d * rsum np1 J1) by now apply (copies_sum _ _ _ _ HS).
  pose proof (INR_d _ _ _ _ HS) as Hd.
  destruct HE as [(HF & sizes & HE)|(npf & sizes & HN & HP & HE)]; rewrite HE; cbn [s_partition ig_compiled pg_compiled].
  - destruct (Req_dec (rsum np1 J1) 0) as [E|E].
    { unfold ig_partition. rewrite ET, E, Rmult_0_r. replace (Reqb 0 0) with true by (symmetry; now apply Reqb_true). reflexivity. }
    destruct (ig_partition_ok nc sizes np1 b1 w1 J1 E) as (p1 & Q1 & E1).
    destruct (ig_partition_ok nc sizes np2 b2 w2 J2) as (p2 & Q2 & E2).
    { rewrite ET. now apply Rmult_integral_contrapositive_currified. }
    rewrite E1, E2. simpl. apply ig_partition_spec in E1. apply ig_partition_spec in E2.
    destruct E1 as (_ & A1 & B1), E2 as (_ & A2 & B2). split.
    + intros i m Hi Hm. rewrite A1, A2 by auto. rewrite HW by (auto; lia). reflexivity.
    + intros i Hi. rewrite B1, B2 by auto. apply Q_copy; auto. intros m Hm. apply HW; auto. lia.
  - destruct (Req_dec (rsum np1 J1) 0) as [E|E].
    { unfold pg_partition. rewrite ET, E, Rmult_0_r. replace (Reqb 0 0) with true by (symmetry; now apply Reqb_true). reflexivity. }
    destruct (pg_partition_ok nf npf sizes np1 b1 w1 J1 E) as (p1 & Q1 & E1).
    destruct (pg_partition_ok nf npf sizes np2 b2 w2 J2) as (p2 & Q2 & E2).
    { rewrite ET. now apply Rmult_integral_contrapositive_currified. }
    rewrite E1, E2. simpl. apply pg_partition_spec in E1. apply pg_partition_spec in E2.
    destruct E1 as (_ & A1 & B1), E2 as (_ & A2 & B2). split.
    + intros i m Hi Hm. rewrite HN in Hi. destruct (nsum_find nf npf i Hi) as (r & j & Hr & Hj & ->).
      rewrite A1, A2 by auto. rewrite HW by auto. reflexivity.
    + intros i Hi. rewrite HN in Hi. destruct (nsum_find nf npf i Hi) as (r & j & Hr & Hj & ->).
      rewrite B1, B2 by auto. apply Q_copy; auto. intros m Hm. now apply HW.
Qed.

Lemma feat_copy b1 b2 A B : cmat nc A B -> cmat nf (s_comp_to_feat (q_entropy q1) b1 A) (s_comp_to_feat (q_entropy q2) b2 B).
Proof using HC HQ.
  intros H r m Hr Hm. rewrite <- (rc_entropy HQ). destruct HC as (_ & HE & _). rewrite (rc_nf1 HQ) in HE.
  destruct HE as [(HF & sizes & HE)|(npf & sizes & HN & HP & HE)]; rewrite HE.
  - rewrite !ig_comp_to_feat by lia. apply H; auto. lia.
  - simpl. rewrite !pg_comp_to_feat_spec by auto. apply rsum_ext. intros j Hj. apply H; auto.
    rewrite HN. now apply nsum_block_lt.
Qed.

Lemma svd_copy A B : cmat nc A B -> cvec (s_vd (q_entropy q1) A) (s_vd (q_entropy q2) B).
Proof using HC HQ.
  intros H m Hm. rewrite <- (rc_entropy HQ). destruct HC as (_ & HE & _).
  destruct HE as [(HF & sizes & HE)|(npf & sizes & HN & HP & HE)]; rewrite HE; cbn [s_vd ig_compiled pg_compiled];
    rewrite !ig_vd_eq; f_equal; apply rsum_ext; intros i Hi; now rewrite H.
Qed.

Lemma incomp_copy A B k1 k2 : cmat nc A B -> cvec k1 k2 -> cvec (row_incomp nc A k1) (row_incomp nc B k2).
Proof using.
  intros H HM m Hm. unfold row_incomp. rewrite (HM m Hm). f_equal. f_equal. apply rsum_ext. intros i Hi. now apply H.
Qed.

Lemma normalize_copy p1 p2 Q1 Q2 k1 k2 : cmat nc p1 p2 -> (forall i, (i < nc)%nat -> Q1 i = Q2 i) -> cvec k1 k2 ->
  rres (fun '(p1, x1) '(p2, x2) => cmat nc p1 p2 /\ cvec x1 x2)
       (n_normalize (q_ensemble q1) p1 Q1 k1) (n_normalize (q_ensemble q2) p2 Q2 k2).
Proof using HC HQ.
  intros H HQQ HM. rewrite <- (rc_ensemble HQ). destruct HC as (_ & _ & (x & [HE|HE])); rewrite HE.
  - cbn [n_normalize can_compiled].
    assert (EN : ncount nc (fun i => Reqb (Q1 i) 0) = ncount nc (fun i => Reqb (Q2 i) 0))
      by (apply ncount_ext; intros i Hi; now rewrite HQQ).
    destruct (Nat.eqb (ncount nc (fun i => Reqb (Q2 i) 0)) 0) eqn:E2.
    + apply Nat.eqb_eq in E2. rewrite E2 in EN. rewrite ncount_none in E2. rewrite ncount_none in EN.
      destruct (can_normalize_ok nc x p1 Q1 k1) as (a1 & y1 & N1); [intros; apply Reqb_false; auto|].
      destruct (can_normalize_ok nc x p2 Q2 k2) as (a2 & y2 & N2); [intros; apply Reqb_false; auto|].
      rewrite N1, N2. simpl. apply can_normalize_spec in N1. apply can_normalize_spec in N2.
      destruct N1 as (_ & A1 & B1), N2 as (_ & A2 & B2).
      assert (HCm : cmat nc a1 a2).
      { intros i m Hi Hm. rewrite A1, A2 by auto. now rewrite HQQ, H, (HM m) by auto. }
      split; [exact HCm|]. intros m Hm. rewrite B1, B2. now apply incomp_copy.
    + unfold can_normalize. rewrite EN, E2. reflexivity.
  - cbn [n_normalize gc_compiled].
    destruct (gc_normalize_ok nc x p1 Q1 k1) as (b1 & y1 & N1).
    destruct (gc_normalize_ok nc x p2 Q2 k2) as (b2 & y2 & N2).
    rewrite N1, N2. simpl. apply gc_normalize_spec in N1. apply gc_normalize_spec in N2.
    destruct N1 as (A1 & B1), N2 as (A2 & B2).
    assert (HCm : cmat nc b1 b2).
    { intros i m Hi Hm. rewrite A1, A2 by auto. now rewrite H, (HM m) by auto. }
    split; [exact HCm|]. intros m Hm. rewrite B1, B2. now apply incomp_copy.
Qed.

Context {G1 G2 : Type}.
Definition krep (k1 : kstate G1 cstate) (k2 : kstate G2 cstate) : Prop :=
  cmat nf (v_omegas k1) (v_omegas k2) /\ cvec (v_Js k1) (v_Js k2) /\ Forall2 crep (v_cons k1) (v_cons k2).

Section Step.
Variables (k1 : kstate G1 cstate) (k2 : kstate G2 cstate).
Hypothesis HK : krep k1 k2.

Lemma cp_masks : cvec (t_masks q1 k1) (t_masks q2 k2).
Proof using HK HQ. intros m Hm. unfold t_masks, make_masks. rewrite (rc_thr HQ). destruct HK as (_ & HJ & _). now rewrite (HJ m Hm). Qed.

Lemma cp_J : cvec (t_J q1 k1) (t_J q2 k2).
Proof using HK HQ. intros m Hm. unfold t_J. rewrite (cp_masks m Hm). destruct HK as (_ & HJ & _). now rewrite (HJ m Hm). Qed.

Lemma cp_nv : t_nv q2 k2 = (d * t_nv q1 k1)%nat.
Proof using HK HQ HS.
  unfold t_nv, count_valid. rewrite (rc_np1 HQ), (rc_np2 HQ), (rc_thr HQ). apply (copies_count _ _ _ _ HS).
  intros m Hm. destruct HK as (_ & HJ & _). now rewrite (HJ m Hm).
Qed.

Lemma cp_n : t_n q2 k2 = INR d * t_n q1 k1.
Proof using HK HQ HS. rewrite !t_n_eq, cp_nv. apply mult_INR. Qed.

Section Phi.
Variables (p1 p2 : mat) (x1 x2 : vec).
Hypotheses (HP : cmat nc p1 p2) (HX : cvec x1 x2) (Hnv : t_nv q1 k1 <> 0%nat).

Lemma cp_feat : cmat nf (t_feat q1 k1 p1) (t_feat q2 k2 p2).
Proof using HC HP HQ. now apply feat_copy. Qed.

Lemma cp_cs : Forall2 crep1 (t_cs q1 k1 p1) (t_cs q2 k2 p2).
Proof using HS HC HK HP HQ.
  unfold t_cs, prepare_all. rewrite (rc_np1 HQ), (rc_np2 HQ). destruct HK as (_ & _ & HF).
  induction HF; simpl; constructor; auto. apply prepare_copy; auto using cp_feat, cp_J, cp_masks.
Qed.

Lemma cp_pot : cmat nf (t_pot q1 k1 p1) (t_pot q2 k2 p2).
Proof using HC HP HQ.
  intros r m Hr Hm. unfold t_pot. destruct inter_copy as (chis & s & -> & ->). simpl. apply rsum_ext. intros t Ht. now rewrite cp_feat.
Qed.

Lemma cp_coef : cvec (i_coef (q_inter q1) (t_feat q1 k1 p1)) (i_coef (q_inter q2) (t_feat q2 k2 p2)).
Proof using HC HQ. intros m Hm. destruct inter_copy as (chis & s & -> & ->). reflexivity. Qed.

Lemma cp_ivd : cvec (i_vd (q_inter q1) (t_pot q1 k1 p1) (t_feat q1 k1 p1)) (i_vd (q_inter q2) (t_pot q2 k2 p2) (t_feat q2 k2 p2)).
Proof using HC HP HQ.
  intros m Hm. pose proof cp_pot as A. pose proof cp_feat as B. destruct inter_copy as (chis & s & -> & ->). simpl. f_equal.
  apply rsum_ext. intros r Hr. now rewrite A, B by auto.
Qed.

Lemma cp_lsum f g : (forall a b, crep1 a b -> f a = g b) -> lsum (t_cs q1 k1 p1) f = lsum (t_cs q2 k2 p2) g.
Proof using HS HC HK HP HQ. intros H. apply (lsum_rel crep1); auto using cp_cs. Qed.

Lemma cp_xi : cvec (t_xi q1 k1 p1 x1) (t_xi q2 k2 p2 x2).
Proof using HS HC HK HP HQ HX.
  intros m Hm. unfold t_xi, xi_of. rewrite (rc_nf1 HQ), (rc_nf2 HQ). rewrite (cp_coef m Hm), (HX m Hm), (cp_masks m Hm).
  rewrite (rsum_ext nf (fun r => v_omegas k1 r (sg m) - t_pot q1 k1 p1 r (sg m)) (fun r => v_omegas k2 r m - t_pot q2 k2 p2 r m))
    by (intros r Hr; destruct HK as (HW & _); rewrite (HW r m), (cp_pot r m) by auto; reflexivity).
  rewrite (cp_lsum (fun o => rsum nf (fun r => pot_of o r (sg m))) (fun o => rsum nf (fun r => pot_of o r m))); [reflexivity|].
  intros a b H. apply rsum_ext. intros r Hr. now apply pot_copy.
Qed.

Lemma cp_otemp : cmat nf (t_otemp q1 k1 p1 x1) (t_otemp q2 k2 p2 x2).
Proof using HS HC HK HP HQ HX.
  intros r m Hr Hm. unfold t_otemp, omega_temp_of. rewrite (cp_pot r m), (cp_xi m) by auto.
  rewrite (cp_lsum (fun o => pot_of o r (sg m)) (fun o => pot_of o r m)); [reflexivity|].
  intros a b H. now apply pot_copy.
Qed.

Lemma cp_le : cvec (t_le q1 k1 p1 x1) (t_le q2 k2 p2 x2).
Proof using HS HC HK HP HQ HX.
  intros m Hm. unfold t_le, local_energy_of. rewrite (rc_nf1 HQ), (rc_nf2 HQ).
  rewrite (cp_ivd m Hm), (svd_copy _ _ HP m Hm), (cp_xi m Hm), (HX m Hm).
  rewrite (cp_lsum (fun o => vd_of o (sg m)) (fun o => vd_of o m)) by (intros a b H; now apply vd_copy).
  rewrite (rsum_ext nf (fun r => t_otemp q1 k1 p1 x1 r (sg m) * t_feat q1 k1 p1 r (sg m))
            (fun r => t_otemp q2 k2 p2 x2 r m * t_feat q2 k2 p2 r m)); [reflexivity|].
  intros r Hr. now rewrite (cp_otemp r m), (cp_feat r m) by auto.
Qed.

Lemma cp_mean : t_mean q1 k1 p1 x1 = t_mean q2 k2 p2 x2.
Proof using HS HC HK HP HQ HX Hnv.
  unfold t_mean. rewrite cp_n, (rc_np1 HQ), (rc_np2 HQ).
  rewrite (copies_sum _ _ _ _ HS (fun m => t_le q1 k1 p1 x1 m * t_J q1 k1 m) (fun m => t_le q2 k2 p2 x2 m * t_J q2 k2 m))
    by (intros m Hm; now rewrite (cp_le m Hm), (cp_J m Hm)).
  pose proof (INR_d _ _ _ _ HS). field. split; auto. rewrite t_n_eq. now apply not_0_INR.
Qed.

Lemma cp_Jdiff : cvec (t_Jdiff q1 k1 p1 x1) (t_Jdiff q2 k2 p2 x2).
Proof using HS HC HK HP HQ HX Hnv. intros m Hm. unfold t_Jdiff. now rewrite cp_mean, (cp_le m Hm), (cp_masks m Hm). Qed.

Lemma cp_maxJ : t_maxJ q1 k1 p1 x1 = t_maxJ q2 k2 p2 x2.
Proof using HS HC HK HP HQ HX Hnv.
  unfold t_maxJ. rewrite (rc_np1 HQ), (rc_np2 HQ). apply (copies_max _ _ _ _ HS). intros m Hm. now rewrite (cp_Jdiff m Hm).
Qed.

Lemma cp_change : t_change q1 k1 p1 x1 = t_change q2 k2 p2 x2.
Proof using HS HC HK HP HQ HX Hnv. unfold t_change. now rewrite cp_maxJ, (rc_acc_J HQ), (rc_ub HQ). Qed.

Lemma cp_factor : t_factor q1 k1 p1 x1 = t_factor q2 k2 p2 x2.
Proof using HS HC HK HP HQ HX Hnv. unfold t_factor. now rewrite cp_change, (rc_ub HQ). Qed.

Lemma cp_J1 : cvec (t_J1 q1 k1 p1 x1) (t_J1 q2 k2 p2 x2).
Proof using HS HC HK HP HQ HX Hnv.
  intros m Hm. unfold t_J1. now rewrite (cp_J m Hm), cp_factor, (rc_acc_J HQ), (cp_Jdiff m Hm), (cp_masks m Hm).
Qed.

Lemma cp_shift : t_shift q1 k1 p1 x1 = t_shift q2 k2 p2 x2.
Proof using HS HC HK HP HQ HX Hnv.
  unfold t_shift. rewrite cp_n, (rc_np1 HQ), (rc_np2 HQ). rewrite (copies_sum _ _ _ _ HS _ _ cp_J1).
  pose proof (INR_d _ _ _ _ HS). field. split; auto. rewrite t_n_eq. now apply not_0_INR.
Qed.

Lemma cp_J2 : cvec (t_J2 q1 k1 p1 x1) (t_J2 q2 k2 p2 x2).
Proof using HS HC HK HP HQ HX Hnv. intros m Hm. unfold t_J2. now rewrite (cp_J1 m Hm), cp_shift, (cp_masks m Hm). Qed.

Lemma cp_diff : cmat nf (t_diff q1 k1 p1 x1) (t_diff q2 k2 p2 x2).
Proof using HS HC HK HP HQ HX.
  intros r m Hr Hm. unfold t_diff. destruct HK as (HW & _). now rewrite (cp_otemp r m), (HW r m), (cp_masks m) by auto.
Qed.

Lemma cp_omegas : cmat nf (t_omegas q1 k1 p1 x1) (t_omegas q2 k2 p2 x2).
Proof using HS HC HK HP HQ HX Hnv.
  intros r m Hr Hm. unfold t_omegas. destruct HK as (HW & _).
  now rewrite (cp_diff r m), (HW r m), (cp_masks m), cp_factor, (rc_acc_w HQ) by auto.
Qed.

Lemma cp_maxw : max_omega_diff (q_nf q1) (q_np q1) (t_diff q1 k1 p1 x1) = max_omega_diff (q_nf q2) (q_np q2) (t_diff q2 k2 p2 x2).
Proof using HS HC HK HP HQ HX.
  unfold max_omega_diff. rewrite (rc_np1 HQ), (rc_np2 HQ), (rc_nf1 HQ), (rc_nf2 HQ).
  apply (for_max_ext nf (fun r => vmax np1 (t_diff q1 k1 p1 x1 r)) (fun r => vmax np2 (t_diff q2 k2 p2 x2 r))).
  intros r Hr. apply (copies_max _ _ _ _ HS). intros m Hm. now apply cp_diff.
Qed.

Lemma cp_evolve_all step ks1 ks2 l1 l2 : cvec ks1 ks2 -> Forall2 crep1 l1 l2 -> forall x,
  Forall2 crep (fst (evolve_all np1 step ks1 x l1)) (fst (evolve_all np2 step ks2 x l2)) /\
  snd (evolve_all np1 step ks1 x l1) = snd (evolve_all np2 step ks2 x l2).
Proof using HS.
  intros HM HF. induction HF as [|o1 o2 l1 l2 HO HF IH]; intros x; simpl; [auto|].
  destruct (evolve_copy o1 o2 step ks1 ks2 HO HM) as (E1 & E2).
  destruct (k_evolve (o_class o1) _ _ _ _) as [s1 y1]. destruct (k_evolve (o_class o2) _ _ _ _) as [s2 y2].
  simpl in E1, E2. subst y2. specialize (IH (Rmax x y1)).
  destruct (evolve_all np1 step ks1 _ l1) as [a1 b1]. destruct (evolve_all np2 step ks2 _ l2) as [a2 b2].
  simpl in *. destruct IH. split; auto.
Qed.

Lemma cp_evolve : Forall2 crep (fst (t_evolve q1 k1 p1 x1)) (fst (t_evolve q2 k2 p2 x2)) /\
  snd (t_evolve q1 k1 p1 x1) = snd (t_evolve q2 k2 p2 x2).
Proof using HS HC HK HP HQ HX Hnv.
  unfold t_evolve. rewrite (rc_np1 HQ), (rc_np2 HQ), cp_factor, (rc_acc_w HQ).
  apply cp_evolve_all; [apply cp_masks|apply cp_cs].
Qed.
End Phi.

Theorem iterate_copy :
  match iterate q1 k1, iterate q2 k2 with
  | Ok (k1', nv1, rep1), Ok (k2', nv2, rep2) =>
      krep k1' k2' /\ cmat nc (v_phis_comp k1') (v_phis_comp k2') /\
      nv2 = (Z.of_nat d * nv1)%Z /\ rep1 = rep2 /\ v_g k1' = v_g k1 /\ v_g k2' = v_g k2
  | Err e1, Err e2 => e1 = e2
  | _, _ => False
  end.
Proof using HS HC HK HQ.
  rewrite !iterate_eq. destruct HK as (HW & _ & _).
  pose proof (partition_copy (v_phis_comp k1) (v_phis_comp k2) _ _ _ _ HW cp_J) as P.
  pose proof (rc_np1 HQ) as N1. pose proof (rc_np2 HQ) as N2. rewrite N1, N2 in *.
  destruct (s_partition (q_entropy q1) _ _ _ _) as [[a1 Q1]|e1], (s_partition (q_entropy q2) _ _ _ _) as [[a2 Q2]|e2];
    simpl in P; try contradiction; [|exact P]. destruct P as (PC & PQ). cbn [bind].
  pose proof (normalize_copy a1 a2 Q1 Q2 _ _ PC PQ cp_masks) as N.
  destruct (n_normalize (q_ensemble q1) _ _ _) as [[p1 x1]|e1], (n_normalize (q_ensemble q2) _ _ _) as [[p2 x2]|e2];
    simpl in N; try contradiction; [|exact N]. destruct N as (HP & HX). cbn [bind].
  pose proof (n_valid_count np1 (v_Js k1) (q_thr q1)) as C1. pose proof (n_valid_count np2 (v_Js k2) (q_thr q2)) as C2.
  fold (t_masks q1 k1) in C1. fold (t_masks q2 k2) in C2. rewrite C1, C2.
  pose proof cp_nv as CN. unfold t_nv in CN. rewrite N1, N2 in CN. rewrite CN.
  pose proof (co_d _ _ _ _ HS) as Hd.
  destruct (Z.eqb_spec (Z.of_nat (count_valid np1 (v_Js k1) (q_thr q1))) 0) as [E|E].
  { replace (Z.of_nat (d * count_valid np1 (v_Js k1) (q_thr q1))) with 0%Z by lia. reflexivity. }
  destruct (Z.eqb_spec (Z.of_nat (d * count_valid np1 (v_Js k1) (q_thr q1))) 0) as [E'|_]; [nia|].
  assert (Hnv : t_nv q1 k1 <> 0%nat) by (unfold t_nv; rewrite N1; lia).
  rewrite (cp_change p1 p2 x1 x2 HP HX Hnv). destruct (Reqb _ 0); [reflexivity|].
  pose proof (cp_evolve p1 p2 x1 x2 HP HX Hnv) as (E1 & E2).
  destruct (t_evolve q1 k1 p1 x1) as [c1 r1], (t_evolve q2 k2 p2 x2) as [c2 r2]. simpl in E1, E2. subst r2.
  cbn [v_omegas v_Js v_cons v_phis_comp v_phis_feat v_g].
  split; [split; [now apply cp_omegas|split; [now apply cp_J2|exact E1]]|].
  split; [exact HP|]. split; [lia|]. split; [|auto]. f_equal.
  - apply (copies_max _ _ _ _ HS). intros m Hm. now rewrite (HX m Hm).
  - pose proof (cp_maxw p1 p2 x1 x2 HP HX) as M. rewrite N1, N2 in M. exact M.
  - now apply cp_maxJ.
Qed.
End Step.

(* ------------------------------------------------------------------ *)
(** * Many steps without revivals *)

Definition mrep (w1 : mstate G1 cstate) (w2 : mstate G2 cstate) : Prop :=
  krep (w_k w1) (w_k w2) /\ w_count w1 = w_count w2 /\ w_valid w2 = (Z.of_nat d * w_valid w1)%Z /\ w_rep w1 = w_rep w2 /\
  (w_rep w1 <> None -> cmat nc (v_phis_comp (w_k w1)) (v_phis_comp (w_k w2))).

Lemma krep_count k1 k2 : krep k1 k2 ->
  count_valid (q_np q2) (v_Js k2) (q_thr q2) = (d * count_valid (q_np q1) (v_Js k1) (q_thr q1))%nat.
Proof using HS HQ. intros H. exact (cp_nv k1 k2 H). Qed.

Lemma copies_np : np2 = (d * np1)%nat.
Proof using HS.
  pose proof (copies_count _ _ _ _ HS (fun _ => true) (fun _ => true) (fun _ _ => eq_refl)) as E.
  rewrite (proj2 (ncount_all np2 (fun _ => true)) (fun _ _ => eq_refl)), (proj2 (ncount_all np1 (fun _ => true)) (fun _ _ => eq_refl)) in E. exact E.
Qed.

(** no revival possible, or none needed *)
Definition quiet (tries1 tries2 : Z) (k1 : kstate G1 cstate) : Prop :=
  (tries1 <= 0)%Z /\ (tries2 <= 0)%Z \/ forall m, (m < np1)%nat -> q_thr q1 < v_Js k1 m.

Lemma quiet_revive (ops1 : rng_ops G1) (ops2 : rng_ops G2) tries1 tries2 c k1 k2 : krep k1 k2 -> quiet tries1 tries2 k1 ->
  maybe_revive ops1 q1 tries1 c k1 = (c, k1) /\ maybe_revive ops2 q2 tries2 c k2 = (c, k2).
Proof using HS HQ.
  intros HK [(H1 & H2)|H]; unfold maybe_revive.
  - destruct (Z.ltb_spec (Z.of_nat c) tries1); [lia|]. destruct (Z.ltb_spec (Z.of_nat c) tries2); [lia|]. auto.
  - assert (E : count_valid (q_np q1) (v_Js k1) (q_thr q1) = np1).
    { rewrite (rc_np1 HQ). apply ncount_all. intros m Hm. apply Rltb_true. auto. }
    rewrite (krep_count k1 k2 HK), E, (rc_np1 HQ), (rc_np2 HQ), <- copies_np, !Nat.eqb_refl.
    split; destruct (Z.ltb _ _); reflexivity.
Qed.

Theorem steps_copy (ops1 : rng_ops G1) (ops2 : rng_ops G2) tries1 tries2 n w1 w2 : mrep w1 w2 ->
  (forall j w, (j < n)%nat -> steps ops1 q1 tries1 j w1 = Ok w -> quiet tries1 tries2 (w_k w)) ->
  match steps ops1 q1 tries1 n w1, steps ops2 q2 tries2 n w2 with
  | Ok w1', Ok w2' => mrep w1' w2'
  | Err e1, Err e2 => e1 = e2
  | _, _ => False
  end.
Proof using HS HC HQ.
  intros H HT. induction n as [|n IH]; cbn [steps]; [exact H|].
  assert (IH' := IH ltac:(intros j w Hj; apply HT; lia)). clear IH.
  destruct (steps ops1 q1 tries1 n w1) as [a1|e1] eqn:E1, (steps ops2 q2 tries2 n w2) as [a2|e2]; try contradiction; cbn [bind]; [|exact IH'].
  destruct IH' as (K & C & V & R & P). unfold one_step.
  destruct (quiet_revive ops1 ops2 tries1 tries2 (w_count a1) (w_k a1) (w_k a2) K (HT n a1 ltac:(lia) E1)) as (X1 & X2).
  rewrite <- C, X1, X2.
  pose proof (iterate_copy (w_k a1) (w_k a2) K) as I.
  destruct (iterate q1 (w_k a1)) as [[[b1 n1] r1]|e1], (iterate q2 (w_k a2)) as [[[b2 n2] r2]|e2]; try contradiction;
    cbn [bind]; [|exact I].
  destruct I as (K' & P' & N' & R' & _). repeat split; cbn; auto; try apply K'. congruence.
Qed.
End Copies.
