(** ProofsRelabel.v -- a step commutes with relabelling compartments, features
    and components; with the identity relabelling: a step depends on the
    in-range entries of the state only. *)

From Coq Require Import Reals Lra Lia List Bool Arith ZArith.
From Verif Require Import Base ModelParts ModelKernel ProofsKernel ProofsParts Spec.
Import ListNotations.
Open Scope R_scope.

(** [s] permutes the indices below [n]. *)
Definition perm_on (n : nat) (s : nat -> nat) : Prop :=
  (forall i, (i < n)%nat -> (s i < n)%nat) /\
  (forall i j, (i < n)%nat -> (j < n)%nat -> s i = s j -> i = j).

Lemma perm_id n : perm_on n (fun i => i).
Proof. split; auto. Qed.

Lemma perm_surj n s j : perm_on n s -> (j < n)%nat -> exists i, (i < n)%nat /\ s i = j.
Proof.
  intros [Hb Hi] Hj.
  destruct (rsum_pos_inv n (fun i => if Nat.eqb (s i) j then 1 else 0)) as (i & Hlt & Hp).
  - rewrite (rsum_perm n s (fun k => if Nat.eqb k j then 1 else 0)) by auto.
    rewrite rsum_indicator by auto. lra.
  - exists i. split; auto. destruct (Nat.eqb_spec (s i) j); [auto|lra].
Qed.

Lemma rsum_rel n s f g : perm_on n s -> (forall i, (i < n)%nat -> f (s i) = g i) -> rsum n f = rsum n g.
Proof. intros [Hb Hi] H. rewrite <- (rsum_perm n s f) by auto. now apply rsum_ext. Qed.

Lemma vmax_rel n s f g : perm_on n s -> (forall i, (i < n)%nat -> f (s i) = g i) -> vmax n f = vmax n g.
Proof.
  intros HP H. destruct n as [|n]; [reflexivity|].
  apply (is_max_unique (S n) f); [apply vmax_is_max; lia|].
  destruct (vmax_is_max (S n) g ltac:(lia)) as [(i & Hi & E) HM]. split.
  - exists (s i). split; [now apply HP|]. now rewrite H.
  - intros j Hj. destruct (perm_surj _ _ j HP Hj) as (i0 & Hi0 & <-). rewrite H by auto. now apply HM.
Qed.

Lemma vmin_rel n s f g : perm_on n s -> (forall i, (i < n)%nat -> f (s i) = g i) -> vmin n f = vmin n g.
Proof.
  intros HP H. destruct n as [|n]; [reflexivity|].
  apply (is_min_unique (S n) f); [apply vmin_is_min; lia|].
  destruct (vmin_is_min (S n) g ltac:(lia)) as [(i & Hi & E) HM]. split.
  - exists (s i). split; [now apply HP|]. now rewrite H.
  - intros j Hj. destruct (perm_surj _ _ j HP Hj) as (i0 & Hi0 & <-). rewrite H by auto. now apply HM.
Qed.

Lemma for_max_ext n f g acc : (forall i, (i < n)%nat -> f i = g i) ->
  for_ n (fun r a => Rmax a (f r)) acc = for_ n (fun r a => Rmax a (g r)) acc.
Proof.
  induction n; intros H; auto. rewrite !for_S, IHn, (H n) by (try lia; intros; apply H; lia). reflexivity.
Qed.

(** the running maximum starting at 0 *)
Lemma for_max_spec n f :
  (forall i, (i < n)%nat -> f i <= for_ n (fun r a => Rmax a (f r)) 0) /\
  0 <= for_ n (fun r a => Rmax a (f r)) 0 /\
  forall x, 0 <= x -> (forall i, (i < n)%nat -> f i <= x) -> for_ n (fun r a => Rmax a (f r)) 0 <= x.
Proof.
  induction n; [simpl; repeat split; intros; try lia; lra|].
  rewrite for_S. destruct IHn as (I1 & I2 & I3). set (M := for_ n _ 0) in *.
  pose proof (Rmax_l M (f n)). pose proof (Rmax_r M (f n)). split; [|split].
  - intros i Hi. destruct (Nat.eq_dec i n) as [->|]; [auto|]. specialize (I1 i ltac:(lia)). lra.
  - lra.
  - intros x Hx Hf. apply Rmax_lub; [apply I3; auto|auto].
Qed.

Lemma for_max_rel n s f g : perm_on n s -> (forall i, (i < n)%nat -> f (s i) = g i) ->
  for_ n (fun r a => Rmax a (f r)) 0 = for_ n (fun r a => Rmax a (g r)) 0.
Proof.
  intros HP H. destruct (for_max_spec n f) as (F1 & F2 & F3). destruct (for_max_spec n g) as (G1 & G2 & G3).
  apply Rle_antisym.
  - apply F3; auto. intros j Hj. destruct (perm_surj _ _ j HP Hj) as (i & Hi & <-). rewrite H by auto. auto.
  - apply G3; auto. intros i Hi. rewrite <- H by auto. apply F1. now apply HP.
Qed.

(* ------------------------------------------------------------------ *)
Section Relabel.
Variables (nc nf np : nat) (sg rh ta : nat -> nat).
Hypotheses (Hsg : perm_on np sg) (Hrh : perm_on nf rh).

(** First argument: original; second: relabelled (by compartments [sg],
    features [rh], components [ta]). *)
Definition fr (A B : mat) : Prop := forall r m, (r < nf)%nat -> (m < np)%nat -> A (rh r) (sg m) = B r m.
Definition cr (A B : mat) : Prop := forall i m, (i < nc)%nat -> (m < np)%nat -> A (ta i) (sg m) = B i m.
Definition vr (a b : vec) : Prop := forall m, (m < np)%nat -> a (sg m) = b m.

(** Related results: equal exceptions or related values. *)
Definition rres {A} (R : A -> A -> Prop) (x y : res A) : Prop :=
  match x, y with Ok a, Ok b => R a b | Err e, Err e' => e = e' | _, _ => False end.

Record inter_rel (i1 i2 : interaction) : Prop := {
  ir_pot : forall A B, fr A B -> fr (i_potential i1 A) (i_potential i2 B);
  ir_coef : forall A B, fr A B -> vr (i_coef i1 A) (i_coef i2 B);
  ir_vd : forall P P' A B, fr P P' -> fr A B -> vr (i_vd i1 P A) (i_vd i2 P' B)
}.

Record entropy_rel (s1 s2 : entropy) : Prop := {
  er_partition : forall b1 b2 w1 w2 J1 J2, fr w1 w2 -> vr J1 J2 ->
    rres (fun '(p1, Q1) '(p2, Q2) => cr p1 p2 /\ forall i, (i < nc)%nat -> Q1 (ta i) = Q2 i)
         (s_partition s1 np b1 w1 J1) (s_partition s2 np b2 w2 J2);
  er_feat : forall b1 b2 A B, cr A B -> fr (s_comp_to_feat s1 b1 A) (s_comp_to_feat s2 b2 B);
  er_vd : forall A B, cr A B -> vr (s_vd s1 A) (s_vd s2 B)
}.

Record ensemble_rel (n1 n2 : ensemble) : Prop := {
  nr_normalize : forall p1 p2 Q1 Q2 k1 k2, cr p1 p2 -> (forall i, (i < nc)%nat -> Q1 (ta i) = Q2 i) -> vr k1 k2 ->
    rres (fun '(p1, x1) '(p2, x2) => cr p1 p2 /\ vr x1 x2)
         (n_normalize n1 p1 Q1 k1) (n_normalize n2 p2 Q2 k2)
}.

Context {St : Type} (C0 C1 : cons_obj St -> cons_obj St -> Prop).

(** [C0]: related before [prepare], [C1]: after it. *)
Record cons_rel : Prop := {
  kr_prepare : forall o1 o2 A B J1 J2 k1 k2, C0 o1 o2 -> fr A B -> vr J1 J2 -> vr k1 k2 ->
    C1 (set_state o1 (k_prepare (o_class o1) np A J1 k1 (o_state o1)))
       (set_state o2 (k_prepare (o_class o2) np B J2 k2 (o_state o2)));
  kr_pot : forall o1 o2, C1 o1 o2 -> fr (pot_of o1) (pot_of o2);
  kr_vd : forall o1 o2, C1 o1 o2 -> vr (vd_of o1) (vd_of o2);
  kr_evolve : forall o1 o2 step k1 k2, C1 o1 o2 -> vr k1 k2 ->
    C0 (set_state o1 (fst (k_evolve (o_class o1) np step k1 (o_state o1))))
       (set_state o2 (fst (k_evolve (o_class o2) np step k2 (o_state o2)))) /\
    snd (k_evolve (o_class o1) np step k1 (o_state o1)) = snd (k_evolve (o_class o2) np step k2 (o_state o2))
}.
Hypothesis HC : cons_rel.

Variables (q1 q2 : kernel).
Record kernel_rel : Prop := {
  qr_np1 : q_np q1 = np; qr_np2 : q_np q2 = np; qr_nf1 : q_nf q1 = nf; qr_nf2 : q_nf q2 = nf;
  qr_acc_J : q_acc_J q1 = q_acc_J q2; qr_ub : q_ub q1 = q_ub q2; qr_acc_w : q_acc_w q1 = q_acc_w q2;
  qr_thr : q_thr q1 = q_thr q2;
  qr_inter : inter_rel (q_inter q1) (q_inter q2);
  qr_entropy : entropy_rel (q_entropy q1) (q_entropy q2);
  qr_ensemble : ensemble_rel (q_ensemble q1) (q_ensemble q2)
}.
Hypothesis HQ : kernel_rel.

Context {G1 G2 : Type}.
Definition krel (k1 : kstate G1 St) (k2 : kstate G2 St) : Prop :=
  fr (v_omegas k1) (v_omegas k2) /\ vr (v_Js k1) (v_Js k2) /\ Forall2 C0 (v_cons k1) (v_cons k2).

Lemma lsum_rel (R : cons_obj St -> cons_obj St -> Prop) f g l1 l2 :
  Forall2 R l1 l2 -> (forall a b, R a b -> f a = g b) -> lsum l1 f = lsum l2 g.
Proof. induction 1; intros HR; simpl; auto. rewrite (HR _ _ H), IHForall2; auto. Qed.

Section Step.
Variables (k1 : kstate G1 St) (k2 : kstate G2 St).
Hypothesis HK : krel k1 k2.

Lemma rel_masks : vr (t_masks q1 k1) (t_masks q2 k2).
Proof.
  intros m Hm. unfold t_masks, make_masks. rewrite (qr_thr HQ). destruct HK as (_ & HJ & _).
  now rewrite (HJ m Hm).
Qed.

Lemma rel_J : vr (t_J q1 k1) (t_J q2 k2).
Proof.
  intros m Hm. unfold t_J. rewrite (rel_masks m Hm). destruct HK as (_ & HJ & _). now rewrite (HJ m Hm).
Qed.

Lemma rel_nsum : rsum (q_np q1) (t_masks q1 k1) = rsum (q_np q2) (t_masks q2 k2).
Proof. rewrite (qr_np1 HQ), (qr_np2 HQ). apply (rsum_rel np sg); auto. apply rel_masks. Qed.

Lemma rel_n : t_n q1 k1 = t_n q2 k2.
Proof. unfold t_n. now rewrite rel_nsum. Qed.

Section Phi.
Variables (p1 p2 : mat) (x1 x2 : vec).
Hypotheses (HP : cr p1 p2) (HX : vr x1 x2).

Lemma rel_feat : fr (t_feat q1 k1 p1) (t_feat q2 k2 p2).
Proof. apply (er_feat _ _ (qr_entropy HQ)). exact HP. Qed.

Lemma rel_cs : Forall2 C1 (t_cs q1 k1 p1) (t_cs q2 k2 p2).
Proof.
  unfold t_cs, prepare_all. rewrite (qr_np1 HQ), (qr_np2 HQ).
  destruct HK as (_ & _ & HF). induction HF; simpl; constructor; auto.
  apply (kr_prepare HC); auto using rel_feat, rel_J, rel_masks.
Qed.

Lemma rel_pot : fr (t_pot q1 k1 p1) (t_pot q2 k2 p2).
Proof. apply (ir_pot _ _ (qr_inter HQ)). apply rel_feat. Qed.

Lemma rel_xi : vr (t_xi q1 k1 p1 x1) (t_xi q2 k2 p2 x2).
Proof.
  intros m Hm. unfold t_xi, xi_of. rewrite (qr_nf1 HQ), (qr_nf2 HQ).
  rewrite (ir_coef _ _ (qr_inter HQ) _ _ rel_feat m Hm), (HX m Hm), (rel_masks m Hm).
  rewrite (rsum_rel nf rh (fun r => v_omegas k1 r (sg m) - t_pot q1 k1 p1 r (sg m))
            (fun r => v_omegas k2 r m - t_pot q2 k2 p2 r m)); auto.
  2: { intros r Hr. destruct HK as (HW & _). rewrite (HW r m), (rel_pot r m) by auto. reflexivity. }
  rewrite (lsum_rel C1 (fun o => rsum nf (fun r => pot_of o r (sg m))) (fun o => rsum nf (fun r => pot_of o r m))
    _ _ rel_cs); [reflexivity|].
  intros o1 o2 HO. apply (rsum_rel nf rh); auto. intros r Hr. now apply (kr_pot HC).
Qed.

Lemma rel_otemp : fr (t_otemp q1 k1 p1 x1) (t_otemp q2 k2 p2 x2).
Proof.
  intros r m Hr Hm. unfold t_otemp, omega_temp_of. rewrite (rel_pot r m), (rel_xi m) by auto.
  rewrite (lsum_rel C1 (fun o => pot_of o (rh r) (sg m)) (fun o => pot_of o r m) _ _ rel_cs); [reflexivity|].
  intros o1 o2 HO. now apply (kr_pot HC).
Qed.

Lemma rel_le : vr (t_le q1 k1 p1 x1) (t_le q2 k2 p2 x2).
Proof.
  intros m Hm. unfold t_le, local_energy_of. rewrite (qr_nf1 HQ), (qr_nf2 HQ).
  rewrite (ir_vd _ _ (qr_inter HQ) _ _ _ _ rel_pot rel_feat m Hm).
  rewrite (er_vd _ _ (qr_entropy HQ) _ _ HP m Hm), (rel_xi m Hm), (HX m Hm).
  rewrite (lsum_rel C1 (fun o => vd_of o (sg m)) (fun o => vd_of o m) _ _ rel_cs).
  2: { intros o1 o2 HO. now apply (kr_vd HC). }
  rewrite (rsum_rel nf rh (fun r => t_otemp q1 k1 p1 x1 r (sg m) * t_feat q1 k1 p1 r (sg m))
            (fun r => t_otemp q2 k2 p2 x2 r m * t_feat q2 k2 p2 r m)); auto.
  intros r Hr. now rewrite (rel_otemp r m), (rel_feat r m) by auto.
Qed.

Lemma rel_mean : t_mean q1 k1 p1 x1 = t_mean q2 k2 p2 x2.
Proof.
  unfold t_mean. rewrite rel_n, (qr_np1 HQ), (qr_np2 HQ). f_equal.
  apply (rsum_rel np sg); auto. intros m Hm. now rewrite (rel_le m Hm), (rel_J m Hm).
Qed.

Lemma rel_Jdiff : vr (t_Jdiff q1 k1 p1 x1) (t_Jdiff q2 k2 p2 x2).
Proof. intros m Hm. unfold t_Jdiff. now rewrite rel_mean, (rel_le m Hm), (rel_masks m Hm). Qed.

Lemma rel_maxJ : t_maxJ q1 k1 p1 x1 = t_maxJ q2 k2 p2 x2.
Proof.
  unfold t_maxJ. rewrite (qr_np1 HQ), (qr_np2 HQ). apply (vmax_rel np sg); auto.
  intros m Hm. now rewrite (rel_Jdiff m Hm).
Qed.

Lemma rel_change : t_change q1 k1 p1 x1 = t_change q2 k2 p2 x2.
Proof. unfold t_change. now rewrite rel_maxJ, (qr_acc_J HQ), (qr_ub HQ). Qed.

Lemma rel_factor : t_factor q1 k1 p1 x1 = t_factor q2 k2 p2 x2.
Proof. unfold t_factor. now rewrite rel_change, (qr_ub HQ). Qed.

Lemma rel_J1 : vr (t_J1 q1 k1 p1 x1) (t_J1 q2 k2 p2 x2).
Proof.
  intros m Hm. unfold t_J1.
  now rewrite (rel_J m Hm), rel_factor, (qr_acc_J HQ), (rel_Jdiff m Hm), (rel_masks m Hm).
Qed.

Lemma rel_shift : t_shift q1 k1 p1 x1 = t_shift q2 k2 p2 x2.
Proof.
  unfold t_shift. rewrite rel_n, (qr_np1 HQ), (qr_np2 HQ).
  now rewrite (rsum_rel np sg (t_J1 q1 k1 p1 x1) (t_J1 q2 k2 p2 x2)) by (auto; apply rel_J1).
Qed.

Lemma rel_J2 : vr (t_J2 q1 k1 p1 x1) (t_J2 q2 k2 p2 x2).
Proof. intros m Hm. unfold t_J2. now rewrite (rel_J1 m Hm), rel_shift, (rel_masks m Hm). Qed.

Lemma rel_diff : fr (t_diff q1 k1 p1 x1) (t_diff q2 k2 p2 x2).
Proof.
  intros r m Hr Hm. unfold t_diff. destruct HK as (HW & _).
  now rewrite (rel_otemp r m), (HW r m), (rel_masks m) by auto.
Qed.

Lemma rel_omegas : fr (t_omegas q1 k1 p1 x1) (t_omegas q2 k2 p2 x2).
Proof.
  intros r m Hr Hm. unfold t_omegas. destruct HK as (HW & _).
  now rewrite (rel_diff r m), (HW r m), (rel_masks m), rel_factor, (qr_acc_w HQ) by auto.
Qed.

Lemma rel_maxw : max_omega_diff (q_nf q1) (q_np q1) (t_diff q1 k1 p1 x1) =
                 max_omega_diff (q_nf q2) (q_np q2) (t_diff q2 k2 p2 x2).
Proof.
  unfold max_omega_diff. rewrite (qr_np1 HQ), (qr_np2 HQ), (qr_nf1 HQ), (qr_nf2 HQ).
  apply (for_max_rel nf rh (fun r => vmax np (t_diff q1 k1 p1 x1 r)) (fun r => vmax np (t_diff q2 k2 p2 x2 r))); auto.
  intros r Hr. apply (vmax_rel np sg); auto. intros m Hm. now apply rel_diff.
Qed.

Lemma rel_evolve_all step ks1 ks2 l1 l2 : vr ks1 ks2 -> Forall2 C1 l1 l2 -> forall x,
  Forall2 C0 (fst (evolve_all np step ks1 x l1)) (fst (evolve_all np step ks2 x l2)) /\
  snd (evolve_all np step ks1 x l1) = snd (evolve_all np step ks2 x l2).
Proof.
  intros HM HF. induction HF as [|o1 o2 l1 l2 HO HF IH]; intros x; simpl; [auto|].
  destruct (kr_evolve HC o1 o2 step ks1 ks2 HO HM) as (E1 & E2).
  destruct (k_evolve (o_class o1) _ _ _ _) as [s1 y1]. destruct (k_evolve (o_class o2) _ _ _ _) as [s2 y2].
  simpl in E1, E2. subst y2. specialize (IH (Rmax x y1)).
  destruct (evolve_all np step ks1 _ l1) as [a1 b1]. destruct (evolve_all np step ks2 _ l2) as [a2 b2].
  simpl in *. destruct IH. split; auto.
Qed.

Lemma rel_evolve :
  Forall2 C0 (fst (t_evolve q1 k1 p1 x1)) (fst (t_evolve q2 k2 p2 x2)) /\
  snd (t_evolve q1 k1 p1 x1) = snd (t_evolve q2 k2 p2 x2).
Proof.
  unfold t_evolve. rewrite (qr_np1 HQ), (qr_np2 HQ), rel_factor, (qr_acc_w HQ).
  apply rel_evolve_all; [apply rel_masks|apply rel_cs].
Qed.
End Phi.

Theorem iterate_rel :
  match iterate q1 k1, iterate q2 k2 with
  | Ok (k1', nv1, rep1), Ok (k2', nv2, rep2) =>
          krel k1' k2' /\ cr (v_phis_comp k1') (v_phis_comp k2') /\ fr (v_phis_feat k1') (v_phis_feat k2') /\
          nv1 = nv2 /\ rep1 = rep2 /\ v_g k1' = v_g k1 /\ v_g k2' = v_g k2
  | Err e1, Err e2 => e1 = e2
  | _, _ => False
  end.
Proof.
  rewrite !iterate_eq.
  destruct HK as (HW & _ & _).
  pose proof (er_partition _ _ (qr_entropy HQ) (v_phis_comp k1) (v_phis_comp k2) _ _ _ _ HW rel_J) as P.
  rewrite (qr_np1 HQ), (qr_np2 HQ) in *.
  destruct (s_partition (q_entropy q1) _ _ _ _) as [[a1 Q1]|e1], (s_partition (q_entropy q2) _ _ _ _) as [[a2 Q2]|e2];
    simpl in P; try contradiction; [|exact P]. destruct P as (PC & PQ). cbn [bind].
  pose proof (nr_normalize _ _ (qr_ensemble HQ) a1 a2 Q1 Q2 _ _ PC PQ rel_masks) as N.
  destruct (n_normalize (q_ensemble q1) _ _ _) as [[p1 x1]|e1], (n_normalize (q_ensemble q2) _ _ _) as [[p2 x2]|e2];
    simpl in N; try contradiction; [|exact N]. destruct N as (HP & HX). cbn [bind].
  pose proof rel_nsum as RN. rewrite (qr_np1 HQ), (qr_np2 HQ) in RN. rewrite RN.
  destruct (Z.eqb _ 0); [reflexivity|]. rewrite (rel_change p1 p2 x1 x2 HP HX).
  destruct (Reqb _ 0); [reflexivity|].
  pose proof (rel_evolve p1 p2 x1 x2 HP HX) as (E1 & E2).
  destruct (t_evolve q1 k1 p1 x1) as [c1 r1], (t_evolve q2 k2 p2 x2) as [c2 r2]. simpl in E1, E2. subst r2.
  cbn [v_omegas v_Js v_cons v_phis_comp v_phis_feat v_g].
  split; [split; [now apply rel_omegas|split; [now apply rel_J2|exact E1]]|].
  split; [exact HP|]. split; [now apply rel_feat|]. split; [reflexivity|].
  split; [|auto]. f_equal.
  - apply (vmax_rel np sg); auto. intros m Hm. now rewrite (HX m Hm).
  - pose proof (rel_maxw p1 p2 x1 x2 HP HX) as M. rewrite (qr_np1 HQ), (qr_np2 HQ) in M. exact M.
  - now apply rel_maxJ.
Qed.
End Step.
End Relabel.

(* ------------------------------------------------------------------ *)
(** * The built-in parts commute with relabelling *)
Section Builtin.
Variables (nc nf np : nat) (sg rh ta : nat -> nat).
Hypotheses (Hsg : perm_on np sg) (Hrh : perm_on nf rh) (Hta : perm_on nc ta).
Let fr := fr nf np sg rh.
Let cr := cr nc np sg ta.
Let vr := vr np sg.

Lemma fh_rel chis1 chis2 s :
  (forall r t, (r < nf)%nat -> (t < nf)%nat -> chis1 (rh r) (rh t) = chis2 r t) ->
  inter_rel nf np sg rh (fh_compiled nf chis1 s) (fh_compiled nf chis2 s).
Proof using Hrh.
  intros HX. split.
  - intros A B H r m Hr Hm. simpl. apply (rsum_rel nf rh); auto. intros t Ht.
    now rewrite HX, H by auto.
  - intros A B _ m Hm. simpl. f_equal. unfold mat_sum. apply (rsum_rel nf rh); auto. intros r Hr.
    apply (rsum_rel nf rh); auto.
  - intros P P' A B HP H m Hm. simpl. f_equal. apply (rsum_rel nf rh); auto. intros r Hr.
    now rewrite HP, H by auto.
Qed.

Lemma mat_min_rel chis1 chis2 :
  (forall r t, (r < nf)%nat -> (t < nf)%nat -> chis1 (rh r) (rh t) = chis2 r t) ->
  mat_min nf chis1 = mat_min nf chis2.
Proof using Hrh.
  intros HX. unfold mat_min. apply (vmin_rel nf rh); auto. intros r Hr. apply (vmin_rel nf rh); auto.
Qed.

Lemma fh_compile_rel chis1 chis2 s :
  (forall r t, (r < nf)%nat -> (t < nf)%nat -> chis1 (rh r) (rh t) = chis2 r t) ->
  inter_rel nf np sg rh (fh_compile nf chis1 s) (fh_compile nf chis2 s).
Proof using Hrh. intros HX. unfold fh_compile. rewrite (mat_min_rel _ _ HX). now apply fh_rel. Qed.

Lemma ig_Q_rel w1 w2 J1 J2 s : vr w1 w2 -> vr J1 J2 -> ig_Q np w1 J1 s = ig_Q np w2 J2 s.
Proof using Hsg.
  intros HW HJ. unfold ig_Q. f_equal.
  - apply (rsum_rel np sg); auto. intros m Hm. now rewrite (HW m Hm), (HJ m Hm).
  - now apply (rsum_rel np sg).
Qed.

Lemma ig_vd_rel sizes1 sizes2 A B :
  (forall i, (i < nc)%nat -> sizes1 (ta i) = sizes2 i) -> cr A B -> vr (ig_vd nc sizes1 A) (ig_vd nc sizes2 B).
Proof using Hta.
  intros HS H m Hm. rewrite !ig_vd_eq. f_equal. apply (rsum_rel nc ta); auto. intros i Hi.
  now rewrite H, HS by auto.
Qed.

(** the polydispersed gas: [ta] maps block [r] onto block [rh r] *)
Lemma pg_rel npf1 npf2 sizes1 sizes2 :
  nc = nsum nf npf2 ->
  (forall r, (r < nf)%nat -> (1 <= npf1 r)%nat) ->
  (forall r, (r < nf)%nat -> npf1 (rh r) = npf2 r) ->
  (forall r j, (r < nf)%nat -> (j < npf2 r)%nat -> ta (nsum r npf2 + j)%nat = (nsum (rh r) npf1 + j)%nat) ->
  (forall i, (i < nc)%nat -> sizes1 (ta i) = sizes2 i) ->
  entropy_rel nc nf np sg rh ta (pg_compiled nc nf npf1 sizes1) (pg_compiled nc nf npf2 sizes2).
Proof using Hsg Hrh Hta.
  intros HNC Hpos HN HT HS.
  assert (Hpos2 : forall r, (r < nf)%nat -> (1 <= npf2 r)%nat).
  { intros r Hr. rewrite <- HN by auto. apply Hpos. now apply Hrh. }
  split.
  - intros b1 b2 w1 w2 J1 J2 HW HJ. simpl.
    assert (ET : rsum np J1 = rsum np J2) by (apply (rsum_rel np sg); auto).
    destruct (Req_dec (rsum np J2) 0) as [E|E].
    { unfold pg_partition. rewrite ET, E. replace (Reqb 0 0) with true by (symmetry; now apply Reqb_true). reflexivity. }
    destruct (pg_partition_ok nf npf1 sizes1 np b1 w1 J1) as (p1 & Q1 & E1); [congruence|].
    destruct (pg_partition_ok nf npf2 sizes2 np b2 w2 J2 E) as (p2 & Q2 & E2).
    rewrite E1, E2. simpl.
    apply pg_partition_spec in E1. apply pg_partition_spec in E2.
    destruct E1 as (_ & A1 & B1), E2 as (_ & A2 & B2). split.
    + intros i m Hi Hm. rewrite HNC in Hi; destruct (nsum_find nf npf2 i Hi) as (r & j & Hr & Hj & ->).
      rewrite HT, A1, A2 by (auto; try (now apply Hrh); rewrite HN; auto).
      rewrite HW by auto. rewrite <- HT, HS by (auto; rewrite HNC; auto). reflexivity.
    + intros i Hi. rewrite HNC in Hi; destruct (nsum_find nf npf2 i Hi) as (r & j & Hr & Hj & ->).
      rewrite HT, B1, B2 by (auto; try (now apply Hrh); rewrite HN; auto).
      rewrite <- HT, HS by (auto; rewrite HNC; auto). apply ig_Q_rel; auto. intros m Hm. now apply HW.
  - intros b1 b2 A B H r m Hr Hm. simpl. rewrite !pg_comp_to_feat_spec by (auto; now apply Hrh).
    rewrite HN by auto. apply rsum_ext. intros j Hj. rewrite <- HT by auto. apply H; auto.
    rewrite HNC; now apply nsum_block_lt.
  - intros A B H. simpl. now apply ig_vd_rel.
Qed.
End Builtin.

Section Builtin2.
Variables (nc np : nat) (sg ta : nat -> nat).
Hypotheses (Hsg : perm_on np sg) (Hta : perm_on nc ta).

(** the ideal gas: components are features *)
Lemma ig_rel sizes1 sizes2 :
  (forall i, (i < nc)%nat -> sizes1 (ta i) = sizes2 i) ->
  entropy_rel nc nc np sg ta ta (ig_compiled nc sizes1) (ig_compiled nc sizes2).
Proof using Hsg Hta.
  intros HS. split.
  - intros b1 b2 w1 w2 J1 J2 HW HJ. cbn [s_partition ig_compiled].
    assert (ET : rsum np J1 = rsum np J2) by (apply (rsum_rel np sg); auto).
    destruct (Req_dec (rsum np J2) 0) as [E|E].
    { unfold ig_partition. rewrite ET, E. replace (Reqb 0 0) with true by (symmetry; now apply Reqb_true). reflexivity. }
    destruct (ig_partition_ok nc sizes1 np b1 w1 J1) as (p1 & Q1 & E1); [congruence|].
    destruct (ig_partition_ok nc sizes2 np b2 w2 J2 E) as (p2 & Q2 & E2).
    rewrite E1, E2. simpl.
    apply ig_partition_spec in E1. apply ig_partition_spec in E2.
    destruct E1 as (_ & A1 & B1), E2 as (_ & A2 & B2). split.
    + intros i m Hi Hm. rewrite A1, A2 by (auto; now apply Hta). now rewrite HS, HW by auto.
    + intros i Hi. rewrite B1, B2 by (auto; now apply Hta). rewrite HS by auto.
      apply (ig_Q_rel np sg); auto. intros m Hm. now apply HW.
  - intros b1 b2 A B H r m Hr Hm. rewrite !ig_comp_to_feat by (auto; now apply Hta). now apply H.
  - intros A B H. cbn [s_vd ig_compiled]. apply (ig_vd_rel nc np sg ta); auto.
Qed.

Lemma row_incomp_rel A B k1 k2 : cr nc np sg ta A B -> vr np sg k1 k2 ->
  vr np sg (row_incomp nc A k1) (row_incomp nc B k2).
Proof using Hta.
  intros H HM m Hm. unfold row_incomp. rewrite (HM m Hm). f_equal. f_equal.
  apply (rsum_rel nc ta); auto.
Qed.

Lemma can_rel pm1 pm2 :
  (forall i, (i < nc)%nat -> pm1 (ta i) = pm2 i) ->
  ensemble_rel nc np sg ta (can_compiled nc pm1) (can_compiled nc pm2).
Proof using Hta.
  intros HP. split. intros p1 p2 Q1 Q2 k1 k2 H HQ HM. cbn [n_normalize can_compiled].
  destruct (Nat.eqb (ncount nc (fun i => Reqb (Q2 i) 0)) 0) eqn:E2.
  - apply Nat.eqb_eq in E2. rewrite ncount_none in E2.
    assert (E1 : forall i, (i < nc)%nat -> Q1 i <> 0).
    { intros j Hj. destruct (perm_surj _ _ j Hta Hj) as (i & Hi & <-). rewrite HQ by auto.
      apply Reqb_false. now apply E2. }
    destruct (can_normalize_ok nc pm1 p1 Q1 k1 E1) as (a1 & x1 & N1).
    destruct (can_normalize_ok nc pm2 p2 Q2 k2) as (a2 & x2 & N2); [intros; apply Reqb_false; auto|].
    rewrite N1, N2. simpl. apply can_normalize_spec in N1. apply can_normalize_spec in N2.
    destruct N1 as (_ & A1 & B1), N2 as (_ & A2 & B2).
    assert (HC : cr nc np sg ta a1 a2).
    { intros i m Hi Hm. rewrite A1, A2 by (auto; now apply Hta). now rewrite HP, HQ, H, (HM m) by auto. }
    split; [exact HC|]. intros m Hm. rewrite B1, B2. now apply row_incomp_rel.
  - assert (E1 : Nat.eqb (ncount nc (fun i => Reqb (Q1 i) 0)) 0 = false).
    { destruct (Nat.eqb_spec (ncount nc (fun i => Reqb (Q1 i) 0)) 0) as [E1|]; [|reflexivity]. exfalso.
      rewrite ncount_none in E1. apply Nat.eqb_neq in E2. apply E2. apply ncount_none.
      intros i Hi. rewrite <- HQ by auto. apply E1. now apply Hta. }
    unfold can_normalize. rewrite E1, E2. reflexivity.
Qed.

Lemma gc_rel a1 a2 :
  (forall i, (i < nc)%nat -> a1 (ta i) = a2 i) ->
  ensemble_rel nc np sg ta (gc_compiled nc a1) (gc_compiled nc a2).
Proof using Hta.
  intros HP. split. intros p1 p2 Q1 Q2 k1 k2 H HQ HM. cbn [n_normalize gc_compiled].
  destruct (gc_normalize_ok nc a1 p1 Q1 k1) as (b1 & x1 & N1).
  destruct (gc_normalize_ok nc a2 p2 Q2 k2) as (b2 & x2 & N2).
  rewrite N1, N2. simpl. apply gc_normalize_spec in N1. apply gc_normalize_spec in N2.
  destruct N1 as (A1 & B1), N2 as (A2 & B2).
  assert (HC : cr nc np sg ta b1 b2).
  { intros i m Hi Hm. rewrite A1, A2 by (auto; now apply Hta). now rewrite HP, H, (HM m) by auto. }
  split; [exact HC|]. intros m Hm. rewrite B1, B2. now apply row_incomp_rel.
Qed.
End Builtin2.

(* ------------------------------------------------------------------ *)
(** * Built-in constraints *)
Section BuiltinCons.
Variables (nf np : nat) (sg rh : nat -> nat).
Hypotheses (Hsg : perm_on np sg) (Hrh : perm_on nf rh).

(** the same constraint for relabelled features *)
Record lin_rel (p1 p2 : lin_par) : Prop := {
  lr_cons : l_cons p1 = l_cons p2;
  lr_feat1 : l_feat p1 = nf; lr_feat2 : l_feat p2 = nf;
  lr_Cs : forall a r, (a < l_cons p2)%nat -> (r < nf)%nat -> l_Cs p1 a (rh r) = l_Cs p2 a r;
  lr_Ts : forall a, (a < l_cons p2)%nat -> l_Ts p1 a = l_Ts p2 a;
  lr_ratio : l_ratio p1 = l_ratio p2;
  lr_elast : l_elast p1 = l_elast p2
}.

(** multipliers are related; the neutral constraint keeps its arrays *)
Inductive crel0 : cons_obj cstate -> cons_obj cstate -> Prop :=
| cr0_local p1 p2 s1 s2 : lin_rel p1 p2 ->
    (forall a m, (a < l_cons p2)%nat -> (m < np)%nat -> c_mult s1 a (sg m) = c_mult s2 a m) ->
    crel0 {| o_class := local_class p1; o_state := s1 |} {| o_class := local_class p2; o_state := s2 |}
| cr0_global p1 p2 s1 s2 : lin_rel p1 p2 ->
    (forall a, (a < l_cons p2)%nat -> c_mult s1 a 0%nat = c_mult s2 a 0%nat) ->
    crel0 {| o_class := global_class p1; o_state := s1 |} {| o_class := global_class p2; o_state := s2 |}
| cr0_no n1 n2 s1 s2 : fr nf np sg rh (c_pot s1) (c_pot s2) -> vr np sg (c_vold s1) (c_vold s2) ->
    crel0 {| o_class := no_class n1; o_state := s1 |} {| o_class := no_class n2; o_state := s2 |}.

Inductive crel1 : cons_obj cstate -> cons_obj cstate -> Prop :=
| cr1_local p1 p2 s1 s2 : lin_rel p1 p2 ->
    (forall a m, (a < l_cons p2)%nat -> (m < np)%nat -> c_mult s1 a (sg m) = c_mult s2 a m) ->
    (forall a m, (a < l_cons p2)%nat -> (m < np)%nat -> c_res s1 a (sg m) = c_res s2 a m) ->
    fr nf np sg rh (c_pot s1) (c_pot s2) -> vr np sg (c_vold s1) (c_vold s2) ->
    crel1 {| o_class := local_class p1; o_state := s1 |} {| o_class := local_class p2; o_state := s2 |}
| cr1_global p1 p2 s1 s2 : lin_rel p1 p2 ->
    (forall a, (a < l_cons p2)%nat -> c_mult s1 a 0%nat = c_mult s2 a 0%nat) ->
    (forall a, (a < l_cons p2)%nat -> c_res s1 a 0%nat = c_res s2 a 0%nat) ->
    fr nf np sg rh (c_pot s1) (c_pot s2) -> vr np sg (c_vold s1) (c_vold s2) ->
    crel1 {| o_class := global_class p1; o_state := s1 |} {| o_class := global_class p2; o_state := s2 |}
| cr1_no n1 n2 s1 s2 : fr nf np sg rh (c_pot s1) (c_pot s2) -> vr np sg (c_vold s1) (c_vold s2) ->
    crel1 {| o_class := no_class n1; o_state := s1 |} {| o_class := no_class n2; o_state := s2 |}.

Lemma lin_residue_rel p1 p2 A B a m : lin_rel p1 p2 -> fr nf np sg rh A B ->
  (a < l_cons p2)%nat -> (m < np)%nat -> lin_residue p1 A a (sg m) = lin_residue p2 B a m.
Proof using Hrh.
  intros L H Ha Hm. unfold lin_residue. rewrite (lr_Ts _ _ L) by auto. f_equal.
  rewrite (lr_feat1 _ _ L), (lr_feat2 _ _ L). apply (rsum_rel nf rh); auto. intros r Hr.
  now rewrite (lr_Cs _ _ L), H by auto.
Qed.

Lemma crel_cons_rel : cons_rel nf np sg rh crel0 crel1.
Proof using Hsg Hrh.
  split.
  - intros o1 o2 A B J1 J2 k1 k2 H HA HJ HM.
    destruct H as [p1 p2 s1 s2 L H|p1 p2 s1 s2 L H|n1 n2 s1 s2 H1 H2]; unfold set_state; simpl.
    + apply cr1_local; auto; simpl.
      * intros a m Ha Hm. now rewrite (lin_residue_rel p1 p2 A B), (HM m) by auto.
      * intros r m Hr Hm. rewrite (HM m Hm). f_equal. rewrite (lr_cons _ _ L), (lr_elast _ _ L).
        apply rsum_ext. intros a Ha. now rewrite (lr_Cs _ _ L), H, (lin_residue_rel p1 p2 A B) by auto.
      * intros m Hm. simpl. rewrite (HM m Hm). f_equal. rewrite (lr_cons _ _ L), (lr_elast _ _ L).
        apply rsum_ext. intros a Ha. now rewrite H, (lin_residue_rel p1 p2 A B) by auto.
    + assert (RR : forall a, (a < l_cons p2)%nat ->
        rsum np (fun m => lin_residue p1 A a m * J1 m) = rsum np (fun m => lin_residue p2 B a m * J2 m)).
      { intros a Ha. apply (rsum_rel np sg); auto. intros m Hm.
        now rewrite (lin_residue_rel p1 p2 A B), (HJ m) by auto. }
      apply cr1_global; auto; simpl.
      * intros a Ha. rewrite RR by auto. f_equal. now apply (rsum_rel np sg).
      * intros r m Hr Hm. rewrite (HM m Hm). f_equal. rewrite (lr_cons _ _ L), (lr_elast _ _ L).
        apply rsum_ext. intros a Ha. now rewrite (lr_Cs _ _ L), H, RR by auto.
      * intros m Hm. simpl. rewrite (HM m Hm). f_equal. rewrite (lr_cons _ _ L), (lr_elast _ _ L).
        apply rsum_ext. intros a Ha. now rewrite H, RR, (lin_residue_rel p1 p2 A B) by auto.
    + now apply cr1_no.
  - intros o1 o2 H. destruct H; simpl; auto.
  - intros o1 o2 H. destruct H; simpl; auto.
  - intros o1 o2 step k1 k2 H HM. destruct H as [p1 p2 s1 s2 L H HR HP HV|p1 p2 s1 s2 L H HR HP HV|n1 n2 s1 s2 H1 H2];
      unfold set_state; simpl.
    + split.
      * apply cr0_local; auto. intros a m Ha Hm. simpl. now rewrite H, HR, (HM m), (lr_ratio _ _ L) by auto.
      * rewrite (lr_cons _ _ L). apply (vmax_rel _ (fun a => a)); [apply perm_id|]. intros a Ha.
        apply (vmax_rel np sg); auto. intros m Hm. now rewrite HR.
    + split.
      * apply cr0_global; auto. intros a Ha. simpl. now rewrite H, HR, (lr_ratio _ _ L) by auto.
      * rewrite (lr_cons _ _ L). apply (vmax_rel _ (fun a => a)); [apply perm_id|]. intros a Ha.
        now rewrite HR.
    + split; [now apply cr0_no|reflexivity].
Qed.
End BuiltinCons.
