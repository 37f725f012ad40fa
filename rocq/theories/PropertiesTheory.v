(** PropertiesTheory.v -- the documented extended free energy and the quantities
    computed in a step (C59). *)

From Coquelicot Require Import Coquelicot.
From Coq Require Import Reals Lra Lia List Bool Arith ZArith FunctionalExtensionality.
From Verif Require Import Base ModelCommon ModelParts ModelKernel ProofsKernel ProofsParts ProofsSteps
  ModelFreeEnergy ProofsFreeEnergy ModelFinder ProofsRun Spec Examples PropertiesKernel PropertiesConstraints
  ProofsEquilibrium PropertiesEquilibrium.
Import ListNotations.
Open Scope R_scope.

(* ------------------------------------------------------------------ *)
(** * The extended free energy of docs/source/theory.rst (lines 60-75, 105-125)

    [v] relative volumes of the compartments, [feat] fractions of the features,
    [w] conjugate fields, [xi] and [eta] the Lagrange multipliers, [g] the
    energies of the ensemble as functions of the partition functions.  *)

Definition partition (np : nat) (rho : nat -> nat) (sizes v : vec) (w : mat) (i : nat) : R :=
  rsum np (fun m => v m * exp (- w (rho i) m * sizes i)).

Definition extended (np nc nf : nat) (rho : nat -> nat) (chis : mat) (sizes : vec) (g : nat -> R -> R)
    (v : vec) (feat w : mat) (xi : vec) (eta : R) : R :=
  rsum np (fun m => v m *
    (1 / 2 * rsum nf (fun r => rsum nf (fun s => chis r s * feat r m * feat s m))
     - rsum nf (fun r => feat r m * w r m)
     + xi m * (rsum nf (fun r => feat r m) - 1)))
  + rsum nc (fun i => g i (partition np rho sizes v w i))
  + eta * (rsum np v - 1).

(** energies of the two ensembles: fixed mean fractions, or fixed activities *)
Inductive ensemble_energy (q : kernel) (nc : nat) (sizes x : vec) : (nat -> R -> R) -> Prop :=
| ee_can : q_ensemble q = can_compiled nc x -> ensemble_energy q nc sizes x (fun i Q => - (x i / sizes i) * ln Q)
| ee_gc : q_ensemble q = gc_compiled nc x -> ensemble_energy q nc sizes x (fun i Q => - (x i / sizes i) * Q).

(* ------------------------------------------------------------------ *)
(** * Its partial derivatives *)

Section Calculus.
Context (np nc nf : nat) (rho : nat -> nat) (chis : mat) (sizes : vec) (g : nat -> R -> R) (dg : vec).
Context (v : vec) (feat w : mat) (xi : vec) (eta : R).
Hypothesis Hdg : forall i, (i < nc)%nat -> is_derive (g i) (partition np rho sizes v w i) (dg i).
Hypothesis Hsym : forall r s, (r < nf)%nat -> (s < nf)%nat -> chis r s = chis s r.
Hypothesis Hrho : forall i, (i < nc)%nat -> (rho i < nf)%nat.

Let E := extended np nc nf rho chis sizes g.

Lemma derive_plus (f h : R -> R) (x a b : R) : is_derive f x a -> is_derive h x b -> is_derive (fun t => f t + h t) x (a + b).
Proof. intros. now apply (@is_derive_plus R_AbsRing R_NormedModule). Qed.
Lemma derive_const (c x : R) : is_derive (fun _ : R => c) x 0.
Proof. apply @is_derive_const. Qed.
Lemma derive_scal (f : R -> R) (c x a : R) : is_derive f x a -> is_derive (fun t => c * f t) x (c * a).
Proof. intros. now apply is_derive_scal. Qed.
Lemma derive_id (x : R) : is_derive (fun t : R => t) x 1.
Proof. apply @is_derive_id. Qed.
Lemma derive_comp (f h : R -> R) (x a b : R) : is_derive f (h x) a -> is_derive h x b -> is_derive (fun t => f (h t)) x (a * b).
Proof. intros H1 H2. eapply is_derive_eq; [exact (@is_derive_comp R_AbsRing R_NormedModule f h x a b H1 H2)|]. cbv. ring. Qed.

Lemma derive_boltz (l x : R) : is_derive (fun t => exp (- t * l)) x (- l * exp (- x * l)).
Proof. auto_derive; [trivial|ring]. Qed.

Lemma partition_dw i r m : (i < nc)%nat -> (m < np)%nat ->
  is_derive (fun t => partition np rho sizes v (upd2 w r m t) i) (w r m)
    (if Nat.eqb (rho i) r then v m * (- sizes i * exp (- w r m * sizes i)) else 0).
Proof using.
  intros Hi Hm. unfold partition. eapply is_derive_eq.
  - apply is_derive_rsum with (d := fun m' => if Nat.eqb m' m then
       (if Nat.eqb (rho i) r then v m * (- sizes i * exp (- w r m * sizes i)) else 0) else 0).
    intros m' Hm'. destruct (Nat.eqb_spec m' m) as [->|Hne].
    + destruct (Nat.eqb_spec (rho i) r) as [Er|Hr].
      * apply is_derive_fun with (f := fun t => v m * exp (- t * sizes i)); [|intros; now rewrite Er, upd2_eq].
        apply derive_scal, derive_boltz.
      * eapply is_derive_id_const. intros t. rewrite upd2_neq by auto. reflexivity.
    + eapply is_derive_id_const. intros t. rewrite upd2_neq by auto. reflexivity.
  - now rewrite rsum_indicator.
Qed.

Lemma upd2_self (A : mat) r m : upd2 A r m (A r m) = A.
Proof. apply functional_extensionality; intros i. apply functional_extensionality; intros j. unfold upd2.
  destruct (Nat.eqb_spec i r), (Nat.eqb_spec j m); subst; reflexivity. Qed.
Lemma upd_self (a : vec) m : upd a m (a m) = a.
Proof. apply functional_extensionality; intros i. unfold upd. destruct (Nat.eqb_spec i m); subst; reflexivity. Qed.

Lemma ext_dw r m : (r < nf)%nat -> (m < np)%nat ->
  is_derive (fun t => E v feat (upd2 w r m t) xi eta) (w r m)
    (v m * (fsum nc rho (fun i => - dg i * sizes i * exp (- w (rho i) m * sizes i)) r - feat r m)).
Proof using Hdg.
  intros Hr Hm. unfold E, extended. eapply is_derive_eq.
  - apply derive_plus; [apply derive_plus|apply derive_const].
    + apply is_derive_rsum with (d := fun m' => if Nat.eqb m' m then v m * (- feat r m) else 0).
      intros m' Hm'. destruct (Nat.eqb_spec m' m) as [->|Hne].
      * apply derive_scal.
        set (A := 1 / 2 * rsum nf (fun r0 => rsum nf (fun s => chis r0 s * feat r0 m * feat s m))).
        set (B := xi m * (rsum nf (fun r0 => feat r0 m) - 1)).
        apply is_derive_fun with (f := fun t => A + B - rsum nf (fun r0 => feat r0 m * w r0 m) - feat r m * (t - w r m)).
        -- auto_derive; [trivial|ring].
        -- intros t. rewrite (rsum_ext nf (fun r0 => feat r0 m * upd2 w r m t r0 m)
               (fun r0 => feat r0 m * w r0 m + if Nat.eqb r0 r then feat r m * (t - w r m) else 0)).
           ++ rewrite rsum_plus, rsum_indicator by auto. ring.
           ++ intros r0 _. destruct (Nat.eqb_spec r0 r) as [->|]; [rewrite upd2_eq; ring|rewrite upd2_neq by auto; ring].
      * eapply is_derive_id_const. intros t.
        rewrite (rsum_ext nf (fun r0 => feat r0 m' * upd2 w r m t r0 m') (fun r0 => feat r0 m' * w r0 m')) by (intros; now rewrite upd2_neq by auto). reflexivity.
    + apply is_derive_rsum with (d := fun i => dg i *
         (if Nat.eqb (rho i) r then v m * (- sizes i * exp (- w r m * sizes i)) else 0)).
      intros i Hi. apply (derive_comp (g i) (fun t => partition np rho sizes v (upd2 w r m t) i)).
      * rewrite upd2_self. now apply Hdg.
      * now apply partition_dw.
  - rewrite rsum_indicator by auto. unfold fsum.
    rewrite (rsum_ext nc _ (fun i => v m * (if Nat.eqb (rho i) r then - dg i * sizes i * exp (- w (rho i) m * sizes i) else 0))).
    + rewrite rsum_scal_l. ring.
    + intros i _. destruct (Nat.eqb_spec (rho i) r) as [->|]; ring.
Qed.

Lemma quad_move r m t : (r < nf)%nat ->
  let q := fun A : mat => rsum nf (fun r => rsum nf (fun s => chis r s * A r m * A s m)) in
  q (upd2 feat r m t) = q feat + 2 * (t - feat r m) * rsum nf (fun s => chis r s * feat s m) + chis r r * (t - feat r m) ^ 2.
Proof using Hsym.
  intros Hr q. unfold q. set (h := t - feat r m).
  assert (U : forall s, upd2 feat r m t s m = feat s m + if Nat.eqb s r then h else 0).
  { intros s. destruct (Nat.eqb_spec s r) as [->|]; [rewrite upd2_eq; unfold h; ring|rewrite upd2_neq by auto; ring]. }
  rewrite (rsum_ext nf _ (fun s => rsum nf (fun u => chis s u * feat s m * feat u m) + chis s r * feat s m * h
     + (if Nat.eqb s r then h * rsum nf (fun u => chis r u * feat u m) + chis r r * h ^ 2 else 0))).
  - rewrite !rsum_plus, rsum_indicator by auto. rewrite rsum_scal_r.
    rewrite (rsum_ext nf (fun s => chis s r * feat s m) (fun s => chis r s * feat s m)) by (intros s Hs; now rewrite Hsym).
    ring.
  - intros s Hs. rewrite (rsum_ext nf _ (fun u => (chis s u * feat s m * feat u m + if Nat.eqb u r then chis s r * feat s m * h else 0)
      + (if Nat.eqb s r then h else 0) * (chis s u * feat u m + if Nat.eqb u r then chis s r * h else 0))).
    + rewrite rsum_plus, rsum_scal_l, !rsum_plus, !rsum_indicator by auto.
      destruct (Nat.eqb_spec s r) as [->|]; ring.
    + intros u Hu. rewrite !U. destruct (Nat.eqb_spec u r) as [->|]; ring.
Qed.

Lemma ext_dfeat r m : (r < nf)%nat -> (m < np)%nat ->
  is_derive (fun t => E v (upd2 feat r m t) w xi eta) (feat r m)
    (v m * (rsum nf (fun s => chis r s * feat s m) - w r m + xi m)).
Proof using Hsym.
  intros Hr Hm. unfold E, extended. eapply is_derive_eq.
  - apply derive_plus; [apply derive_plus|apply derive_const]; [|apply derive_const].
    apply is_derive_rsum with (d := fun m' => if Nat.eqb m' m then v m * (rsum nf (fun s => chis r s * feat s m) - w r m + xi m) else 0).
    intros m' Hm'. destruct (Nat.eqb_spec m' m) as [->|Hne].
    + apply derive_scal.
      set (S := rsum nf (fun s => chis r s * feat s m)).
      set (Q0 := rsum nf (fun r => rsum nf (fun s => chis r s * feat r m * feat s m))).
      set (W := rsum nf (fun r0 => feat r0 m * w r0 m)). set (T := rsum nf (fun r0 => feat r0 m)).
      apply is_derive_fun with (f := fun t => 1 / 2 * (Q0 + 2 * (t - feat r m) * S + chis r r * (t - feat r m) ^ 2)
         - (W + (t - feat r m) * w r m) + xi m * (T + (t - feat r m) - 1)).
      * auto_derive; [trivial|field].
      * intros t. pose proof (quad_move r m t Hr) as EQ. cbv zeta in EQ. rewrite EQ. fold S Q0.
        rewrite (rsum_ext nf (fun r0 => upd2 feat r m t r0 m * w r0 m)
               (fun r0 => feat r0 m * w r0 m + if Nat.eqb r0 r then (t - feat r m) * w r m else 0)).
        -- rewrite (rsum_ext nf (fun r0 => upd2 feat r m t r0 m) (fun r0 => feat r0 m + if Nat.eqb r0 r then t - feat r m else 0)).
           ++ rewrite !rsum_plus, !rsum_indicator by auto. fold W T. ring.
           ++ intros r0 _. destruct (Nat.eqb_spec r0 r) as [->|]; [rewrite upd2_eq; ring|rewrite upd2_neq by auto; ring].
        -- intros r0 _. destruct (Nat.eqb_spec r0 r) as [->|]; [rewrite upd2_eq; ring|rewrite upd2_neq by auto; ring].
    + eapply is_derive_id_const. intros t.
      assert (U : forall s, upd2 feat r m t s m' = feat s m') by (intros; now rewrite upd2_neq by auto).
      rewrite (rsum_ext nf (fun r0 => rsum nf (fun s => chis r0 s * upd2 feat r m t r0 m' * upd2 feat r m t s m'))
        (fun r0 => rsum nf (fun s => chis r0 s * feat r0 m' * feat s m'))) by (intros; apply rsum_ext; intros; now rewrite !U).
      rewrite (rsum_ext nf (fun r0 => upd2 feat r m t r0 m' * w r0 m') (fun r0 => feat r0 m' * w r0 m')) by (intros; now rewrite U).
      rewrite (rsum_ext nf (fun r0 => upd2 feat r m t r0 m') (fun r0 => feat r0 m')) by (intros; now rewrite U).
      reflexivity.
  - rewrite rsum_indicator by auto. ring.
Qed.

Lemma ext_dxi m : (m < np)%nat ->
  is_derive (fun t => E v feat w (upd xi m t) eta) (xi m) (v m * (rsum nf (fun r => feat r m) - 1)).
Proof using.
  intros Hm. unfold E, extended. eapply is_derive_eq.
  - apply derive_plus; [apply derive_plus|apply derive_const]; [|apply derive_const].
    apply is_derive_rsum with (d := fun m' => if Nat.eqb m' m then v m * (rsum nf (fun r => feat r m) - 1) else 0).
    intros m' Hm'. unfold upd. destruct (Nat.eqb_spec m' m) as [->|Hne].
    + apply derive_scal. auto_derive; [trivial|ring].
    + eapply is_derive_id_const. reflexivity.
  - rewrite rsum_indicator by auto. ring.
Qed.

Lemma ext_dv m : (m < np)%nat ->
  is_derive (fun t => E (upd v m t) feat w xi eta) (v m)
    (1 / 2 * rsum nf (fun r => rsum nf (fun s => chis r s * feat r m * feat s m))
     - rsum nf (fun r => feat r m * w r m) + xi m * (rsum nf (fun r => feat r m) - 1)
     + rsum nc (fun i => dg i * exp (- w (rho i) m * sizes i)) + eta).
Proof using Hdg.
  intros Hm. unfold E, extended. eapply is_derive_eq.
  - apply derive_plus; [apply derive_plus|].
    + apply is_derive_rsum with (d := fun m' => if Nat.eqb m' m then
        (1 / 2 * rsum nf (fun r => rsum nf (fun s => chis r s * feat r m * feat s m))
     - rsum nf (fun r => feat r m * w r m) + xi m * (rsum nf (fun r => feat r m) - 1)) else 0).
      intros m' Hm'. unfold upd. destruct (Nat.eqb_spec m' m) as [->|Hne].
      * apply derive_linear.
      * eapply is_derive_id_const. reflexivity.
    + apply is_derive_rsum with (d := fun i => dg i * exp (- w (rho i) m * sizes i)).
      intros i Hi. apply (derive_comp (g i) (fun t => partition np rho sizes (upd v m t) w i)).
      * rewrite upd_self. now apply Hdg.
      * unfold partition. eapply is_derive_eq.
        -- apply is_derive_rsum with (d := fun m' => if Nat.eqb m' m then exp (- w (rho i) m * sizes i) else 0).
           intros m' Hm'. unfold upd. destruct (Nat.eqb_spec m' m) as [->|Hne].
           ++ apply derive_linear.
           ++ eapply is_derive_id_const. reflexivity.
        -- now rewrite rsum_indicator.
    + apply derive_scal. apply is_derive_fun with (f := fun t => rsum np v + t - v m - 1).
      * auto_derive; [trivial|reflexivity].
      * intros t. rewrite rsum_upd by auto. ring.
  - rewrite rsum_indicator by auto. ring.
Qed.

Lemma ext_deta : is_derive (fun t => E v feat w xi t) eta (rsum np v - 1).
Proof using. unfold E, extended. auto_derive; [trivial|ring]. Qed.

End Calculus.

(* ------------------------------------------------------------------ *)
(** * A step computes these derivatives *)

Section Props.
Context {G : Type}.
Implicit Types (q : kernel) (k : kstate G cstate).

(** relative volumes of the compartments that are alive *)
Definition volumes q k : vec := fun m => living (q_thr q) (v_Js k) m / rsum (q_np q) (living (q_thr q) (v_Js k)).

Lemma volumes_sum q k : rsum (q_np q) (living (q_thr q) (v_Js k)) <> 0 -> rsum (q_np q) (volumes q k) = 1.
Proof. intros H. unfold volumes, Rdiv. rewrite rsum_scal_r. now field. Qed.

Lemma partition_Qbar q k rho sizes i :
  partition (q_np q) rho sizes (volumes q k) (v_omegas k) i = Qbar q k rho sizes i.
Proof.
  unfold partition, Qbar, volumes, Rdiv. rewrite <- rsum_scal_r. apply rsum_ext. intros; ring.
Qed.

Lemma ensemble_derivative q k nc rho sizes x g :
  ensemble_energy q nc sizes x g -> 0 <= q_thr q -> (forall i, (i < nc)%nat -> sizes i <> 0) ->
  (exists m, (m < q_np q)%nat /\ alive (q_thr q) (v_Js k) m) ->
  exists a, ens_kind q k nc rho sizes x a /\
    forall i, (i < nc)%nat -> is_derive (g i) (partition (q_np q) rho sizes (volumes q k) (v_omegas k) i) (- (a i / sizes i)).
Proof.
  intros HE Ht Hs HL. destruct HE as [E|E].
  - exists (fun i => x i / Qbar q k rho sizes i). split; [now constructor|]. intros i Hi. rewrite partition_Qbar.
    pose proof (Qbar_pos q k rho sizes i Ht HL) as HQ. auto_derive; [exact HQ|]. field. split; [|auto]. lra.
  - exists x. split; [now constructor|]. intros i Hi. auto_derive; [trivial|ring].
Qed.

Lemma max_diff_spec nf np (d : mat) : (0 < np)%nat ->
  (forall r m, (r < nf)%nat -> (m < np)%nat -> d r m <= max_omega_diff nf np d) /\
  (max_omega_diff nf np d = 0 \/ exists r m, (r < nf)%nat /\ (m < np)%nat /\ d r m = max_omega_diff nf np d).
Proof.
  intros Hp. unfold max_omega_diff. induction nf as [|nf IH]; [split; [intros; lia|now left]|].
  rewrite for_S. set (M := for_ nf _ 0) in *. destruct IH as [I1 I2]. split.
  - intros r m Hr Hm. destruct (Nat.eq_dec r nf) as [->|].
    + eapply Rle_trans; [|apply Rmax_r]. now apply vmax_ge.
    + eapply Rle_trans; [|apply Rmax_l]. apply I1; lia.
  - destruct (Rle_dec M (vmax np (d nf))) as [H|H].
    + rewrite Rmax_right by auto. destruct (vmax_in np (d nf) Hp) as (m & Hm & E). right. exists nf, m. split; [lia|]. auto.
    + rewrite Rmax_left by lra. destruct I2 as [I2|(r & m & Hr & Hm & I2)]; [now left|]. right. exists r, m. auto with arith.
Qed.

(** C59: with the relative volumes of the living compartments, the fractions of
    the step and its multipliers [xi], the extended free energy has
    - vanishing derivative in every field (the fractions solve the third equation),
    - derivative [v m * d r m] in the fractions, where [d] is the change of the
      fields before mixing,
    - derivative [v m * inc m] in the multiplier, [inc] the incompressibility,
    - derivative [le m + sum_r d r m * feat r m] in the volume at fixed total, where
      [le] is the local energy,
    and the step reports and uses exactly [d], [inc] and [le]. *)
Theorem C59_derivatives q k k' nv rep nc nf rho chis sh sizes x g :
  mixture q nc nf rho chis sh sizes -> ensemble_energy q nc sizes x g -> admissible nc nf chis sizes x ->
  0 <= q_thr q -> Forall idle (v_cons k) -> iterate q k = Ok (k', nv, rep) ->
  let E := extended (q_np q) nc nf rho chis sizes g in
  let v := volumes q k in let feat := v_phis_feat k' in let w := v_omegas k in
  exists (xi inc le : vec) (d : mat) (s mean : R),
    (forall m, (m < q_np q)%nat -> alive (q_thr q) (v_Js k) m -> forall eta,
       (forall r, (r < nf)%nat -> is_derive (fun t => E v feat (upd2 w r m t) xi eta) (w r m) 0) /\
       (forall r, (r < nf)%nat -> is_derive (fun t => E v (upd2 feat r m t) w xi eta) (feat r m) (v m * d r m)) /\
       is_derive (fun t => E v feat w (upd xi m t) eta) (xi m) (v m * inc m) /\
       is_derive (fun t => E (upd v m t) feat w xi eta) (v m) (le m + rsum nf (fun r => d r m * feat r m) + eta) /\
       is_derive (fun t => E v feat w xi t) eta 0 /\
       (* the field and volume updates *)
       (forall r, (r < nf)%nat -> v_omegas k' r m = v_omegas k r m + s * q_acc_w q * d r m) /\
       (exists c, forall m', (m' < q_np q)%nat -> alive (q_thr q) (v_Js k) m' ->
          v_Js k' m' = v_Js k m' + s * q_acc_J q * (mean - le m') + c) /\
       (* the multiplier: the documented one when the fractions add up to one *)
       INR nf * xi m = rsum nf (fun r => w r m - rsum nf (fun s => chis r s * feat s m)) + coef_of q * inc m /\
       Rabs (inc m) <= e_incomp rep /\ (forall r, (r < nf)%nat -> d r m <= e_omega rep) /\ Rabs (mean - le m) <= e_Js rep) /\
    (* the reported errors are attained *)
    ((exists m, (m < q_np q)%nat /\ alive (q_thr q) (v_Js k) m /\ Rabs (mean - le m) = e_Js rep) \/ e_Js rep = 0) /\
    ((exists m, (m < q_np q)%nat /\ alive (q_thr q) (v_Js k) m /\ Rabs (inc m) = e_incomp rep) \/ e_incomp rep = 0) /\
    ((exists r m, (r < nf)%nat /\ (m < q_np q)%nat /\ alive (q_thr q) (v_Js k) m /\ d r m = e_omega rep) \/ e_omega rep = 0) /\
    mean = rsum (q_np q) (fun m => le m * living (q_thr q) (v_Js k) m) / INR (num_alive (q_np q) (q_thr q) (v_Js k)) /\
    s * Rmax (e_Js rep * q_acc_J q) (q_ub q) = q_ub q.
Proof.
  intros HM HE (Hn & Hsym & Hsz & Hx) Ht HI H E v feat w.
  assert (Hs0 : forall i, (i < nc)%nat -> sizes i <> 0) by (intros i Hi; specialize (Hsz i Hi); lra).
  assert (HL : exists m, (m < q_np q)%nat /\ alive (q_thr q) (v_Js k) m).
  { apply iterate_inv in H. destruct H as (? & ? & ? & ? & _ & _ & F). apply count_valid_pos. apply (if_nv_pos F). }
  destruct (ensemble_derivative q k nc rho sizes x g HE Ht Hs0 HL) as (a & HA & HD).
  destruct (mixture_facts _ _ _ _ _ _ _ _ _ _ _ _ _ HM HA H) as (phis & inc & MF).
  destruct (mf_it _ _ _ _ _ _ _ _ _ _ _ _ _ MF) as [nv' I].
  pose proof (mf_rho _ _ _ _ _ _ _ _ _ _ _ _ _ MF) as HR.
  pose proof (mf_nf _ _ _ _ _ _ _ _ _ _ _ _ _ MF) as ENF.
  destruct (idle_sums q k phis HI) as [ZP ZV].
  assert (EF : feat = t_feat q k phis) by apply (if_feat I).
  exists (t_xi q k phis inc), inc, (t_le q k phis inc), (t_diff q k phis inc), (t_factor q k phis inc), (t_mean q k phis inc).
  assert (Hnp : (0 < q_np q)%nat) by (destruct HL as (m0 & ? & _); lia).
  assert (HLP : 0 < rsum (q_np q) (living (q_thr q) (v_Js k))).
  { destruct HL as (m0 & Hm0 & HA0). apply rsum_pos.
    - intros m _. unfold living. destruct (Rlt_dec _ _); lra.
    - exists m0. split; auto. unfold living, alive in *. destruct (Rlt_dec _ _); lra. }
  assert (FE : forall r m, (r < nf)%nat -> alive (q_thr q) (v_Js k) m ->
     feat r m = fsum nc rho (fun i => a i * exp (- w (rho i) m * sizes i)) r).
  { intros r m Hr Lm. rewrite EF, (mf_feat _ _ _ _ _ _ _ _ _ _ _ _ _ MF) by auto. unfold fsum. apply rsum_ext. intros i Hi.
    destruct (Nat.eqb _ _); [|reflexivity]. now apply (frac_alive _ _ _ _ _ _ _ _ _ _ _ _ _ MF). }
  assert (SF : forall m, rsum nf (fun r => feat r m) = rsum nc (fun i => phis i m)).
  { intros m. rewrite EF. pose proof (feat_comp _ _ _ _ _ _ _ _ _ _ _ _ _ MF (fun _ => 1) m) as Z.
    rewrite (rsum_ext nf _ (fun r => t_feat q k phis r m)) in Z by (intros; ring).
    rewrite (rsum_ext nc _ (fun r => phis r m)) in Z by (intros; ring). exact Z. }
  split; [|split; [|split; [|split; [|split]]]].
  - intros m Hm Lm eta.
    assert (MM : make_masks (v_Js k) (q_thr q) m = 1) by now apply mask_alive.
    assert (IM : inc m = rsum nf (fun r => feat r m) - 1).
    { rewrite (mf_inc _ _ _ _ _ _ _ _ _ _ _ _ _ MF), MM, SF. ring. }
    assert (PT : forall r, t_pot q k phis r m = rsum nf (fun s => chis r s * feat s m)).
    { intros r. rewrite (mf_pot _ _ _ _ _ _ _ _ _ _ _ _ _ MF), EF. reflexivity. }
    assert (DM : forall r, t_diff q k phis inc r m = rsum nf (fun s => chis r s * feat s m) - w r m + t_xi q k phis inc m).
    { intros r. rewrite (diff_alive q k phis inc r m Lm), ZP, PT. fold w. ring. }
    split; [|split; [|split; [|split; [|split; [|split; [|split; [|split; [|split; [|split]]]]]]]]].
    + intros r Hr. eapply is_derive_eq; [apply (ext_dw (q_np q) nc nf rho chis sizes g (fun i => - (a i / sizes i)) v feat w _ eta); auto|].
      rewrite FE by auto. unfold fsum.
      rewrite (rsum_ext nc (fun i => if Nat.eqb (rho i) r then - - (a i / sizes i) * sizes i * exp (- w (rho i) m * sizes i) else 0)
        (fun i => if Nat.eqb (rho i) r then a i * exp (- w (rho i) m * sizes i) else 0)); [ring|].
      intros i Hi. destruct (Nat.eqb _ _); [|reflexivity]. field. auto.
    + intros r Hr. eapply is_derive_eq; [now apply ext_dfeat|]. now rewrite DM.
    + eapply is_derive_eq; [now apply ext_dxi|]. now rewrite IM.
    + eapply is_derive_eq; [apply (ext_dv (q_np q) nc nf rho chis sizes g (fun i => - (a i / sizes i))); auto|].
      rewrite (le_identity _ _ _ _ _ _ _ _ _ _ _ _ _ MF m Lm), ZV.
      rewrite (rsum_zero nc (fun i => P_of _ _ _ * _)) by (intros; rewrite ZP; ring).
      rewrite <- (feat_comp _ _ _ _ _ _ _ _ _ _ _ _ _ MF (fun r => t_pot q k phis r m) m).
      rewrite (rsum_ext nf (fun r => t_diff q k phis inc r m * feat r m)
        (fun r => t_pot q k phis r m * feat r m - feat r m * w r m + t_xi q k phis inc m * feat r m)) by (intros; rewrite DM, PT; ring).
      rewrite rsum_plus, rsum_minus, rsum_scal_l, EF.
      rewrite (rsum_ext nc (fun i => - (a i / sizes i) * exp (- w (rho i) m * sizes i)) (fun i => - 1 * (phis i m / sizes i))).
      * rewrite rsum_scal_l.
        rewrite (rsum_ext nf (fun r => rsum nf (fun s => chis r s * t_feat q k phis r m * t_feat q k phis s m)) (fun r => t_pot q k phis r m * t_feat q k phis r m)); [field|].
        intros r Hr. rewrite PT, EF, <- rsum_scal_r. apply rsum_ext. intros; ring.
      * intros i Hi. rewrite (frac_alive _ _ _ _ _ _ _ _ _ _ _ _ _ MF) by auto. fold w. unfold Rdiv. ring.
    + eapply is_derive_eq; [apply ext_deta|]. unfold v. rewrite volumes_sum by lra. ring.
    + intros r Hr. rewrite (if_omegas I). unfold t_omegas, t_masks. rewrite MM. ring.
    + exists (t_shift q k phis inc). intros m' Hm' Lm'. rewrite (if_Js I). unfold t_J2, t_J1, t_J, t_Jdiff, t_masks. rewrite mask_alive by auto. ring.
    + unfold t_xi, xi_of, t_masks. rewrite MM, ENF, (mf_coef _ _ _ _ _ _ _ _ _ _ _ _ _ MF).
      rewrite (rsum_ext nf (fun r => v_omegas k r m - t_pot q k phis r m) (fun r => w r m - rsum nf (fun s => chis r s * feat s m)))
        by (intros; now rewrite PT).
      assert (ZC : lsum (t_cs q k phis) (fun o => rsum nf (fun r => pot_of o r m)) = 0).
      { rewrite <- lsum_rsum. apply rsum_zero. intros r _. apply ZP. }
      rewrite ZC. field. apply INR_neq0. auto.
    + now apply (incomp_le _ _ _ _ _ _ _ _ _ _ _ _ _ MF).
    + intros r Hr. now apply (max_diff_ge _ _ _ _ _ _ _ _ _ _ _ _ _ MF).
    + now apply (le_le _ _ _ _ _ _ _ _ _ _ _ _ _ MF).
  - rewrite (if_e_Js I). destruct (vmax_in (q_np q) (fun m => Rabs (t_Jdiff q k phis inc m)) Hnp) as (m & Hm & EM).
    unfold t_maxJ. rewrite EM. unfold t_Jdiff, t_masks. destruct (Rlt_dec (q_thr q) (v_Js k m)) as [Lm|Lm].
    + left. exists m. split; auto. split; [exact Lm|]. rewrite mask_alive by auto. f_equal. ring.
    + right. rewrite mask_dead by lra. rewrite Rmult_0_r. apply Rabs_R0.
  - rewrite (if_e_incomp I). destruct (vmax_in (q_np q) (fun m => Rabs (inc m)) Hnp) as (m & Hm & EM).
    rewrite EM. destruct (Rlt_dec (q_thr q) (v_Js k m)) as [Lm|Lm].
    + left. exists m. auto.
    + right. rewrite (mf_inc _ _ _ _ _ _ _ _ _ _ _ _ _ MF), mask_dead by lra. rewrite Rmult_0_r. apply Rabs_R0.
  - rewrite (if_e_omega I), ENF. destruct (max_diff_spec nf (q_np q) (t_diff q k phis inc) Hnp) as [_ [M|(r & m & Hr & Hm & M)]].
    + now right.
    + destruct (Rlt_dec (q_thr q) (v_Js k m)) as [Lm|Lm].
      * left. exists r, m. auto.
      * right. rewrite <- M. unfold t_diff, t_masks. rewrite mask_dead by lra. ring.
  - unfold t_mean. rewrite t_n_eq. f_equal.
    + apply rsum_ext. intros m _. unfold t_J, t_masks. now rewrite mask_living.
    + unfold t_nv, count_valid. now rewrite num_alive_ncount.
  - unfold t_factor, t_change. rewrite (if_e_Js I). pose proof (if_change I) as HC. unfold t_change in HC. field. exact HC.
Qed.

(** C59: at an incompressible state of the canonical ensemble the extended free
    energy is the mean Flory-Huggins free energy up to a constant fixed by the
    mean fractions. *)
Theorem C59_original_energy q k k' nv rep nc nf rho chis sh sizes pm xi eta :
  mixture q nc nf rho chis sh sizes -> q_ensemble q = can_compiled nc pm -> admissible nc nf chis sizes pm ->
  0 <= q_thr q -> iterate q k = Ok (k', nv, rep) -> e_incomp rep = 0 ->
  extended (q_np q) nc nf rho chis sizes (fun i Q => - (pm i / sizes i) * ln Q) (volumes q k) (v_phis_feat k') (v_omegas k) xi eta
  = rsum (q_np q) (fun m => volumes q k m * fh nc (fun i j => chis (rho i) (rho j)) sizes (fun i => v_phis_comp k' i m))
    - rsum nc (fun i => pm i / sizes i * ln (pm i)).
Proof.
  intros HM HE (Hn & Hsym & Hsz & Hx) Ht H E1.
  assert (Hs0 : forall i, (i < nc)%nat -> sizes i <> 0) by (intros i Hi; specialize (Hsz i Hi); lra).
  assert (HL : exists m, (m < q_np q)%nat /\ alive (q_thr q) (v_Js k) m).
  { apply iterate_inv in H. destruct H as (? & ? & ? & ? & _ & _ & F). apply count_valid_pos. apply (if_nv_pos F). }
  assert (HA : ens_kind q k nc rho sizes pm (fun i => pm i / Qbar q k rho sizes i)) by now constructor.
  destruct (mixture_facts _ _ _ _ _ _ _ _ _ _ _ _ _ HM HA H) as (phis & inc & MF).
  destruct (mf_it _ _ _ _ _ _ _ _ _ _ _ _ _ MF) as [nv' I].
  rewrite (if_feat I), (if_comp I).
  assert (HLP : 0 < rsum (q_np q) (living (q_thr q) (v_Js k))).
  { destruct HL as (m0 & Hm0 & HA0). apply rsum_pos.
    - intros m _. unfold living. destruct (Rlt_dec _ _); lra.
    - exists m0. split; auto. unfold living, alive in *. destruct (Rlt_dec _ _); lra. }
  set (v := volumes q k).
  assert (VD : forall m, ~ alive (q_thr q) (v_Js k) m -> v m = 0).
  { intros m Hd. unfold v, volumes, living, alive in *. destruct (Rlt_dec _ _); [contradiction|]. unfold Rdiv. ring. }
  assert (Q0 : forall i, 0 < Qbar q k rho sizes i) by (intros; now apply Qbar_pos).
  assert (MP : forall i, (i < nc)%nat -> rsum (q_np q) (fun m => v m * phis i m) = pm i).
  { intros i Hi.
    rewrite (rsum_ext (q_np q) _ (fun m => pm i / Qbar q k rho sizes i * (v m * exp (- v_omegas k (rho i) m * sizes i)))).
    - rewrite rsum_scal_l. fold (partition (q_np q) rho sizes v (v_omegas k) i). unfold v. rewrite partition_Qbar. field.
      specialize (Q0 i). lra.
    - intros m Hm. destruct (Rlt_dec (q_thr q) (v_Js k m)) as [Lm|Lm].
      + rewrite (frac_alive _ _ _ _ _ _ _ _ _ _ _ _ _ MF i m Hi Lm). ring.
      + rewrite (VD m Lm). ring. }
  unfold extended. fold v.
  replace (eta * (rsum (q_np q) v - 1)) with 0 by (unfold v; rewrite volumes_sum by lra; ring).
  rewrite (rsum_ext nc (fun i => - (pm i / sizes i) * ln _) (fun i => - (pm i / sizes i * ln (pm i)) + ln (pm i / Qbar q k rho sizes i) / sizes i * pm i)).
  2:{ intros i Hi. unfold v. rewrite partition_Qbar. rewrite ln_div by auto. field. auto. }
  rewrite rsum_plus, rsum_opp.
  rewrite (rsum_ext nc (fun i => ln (pm i / Qbar q k rho sizes i) / sizes i * pm i)
    (fun i => rsum (q_np q) (fun m => v m * (ln (pm i / Qbar q k rho sizes i) / sizes i * phis i m)))).
  2:{ intros i Hi. rewrite (rsum_ext (q_np q) _ (fun m => ln (pm i / Qbar q k rho sizes i) / sizes i * (v m * phis i m))) by (intros; ring).
      now rewrite rsum_scal_l, MP. }
  rewrite rsum_swap.
  match goal with |- ?A + (?B + ?C) + 0 = ?D - ?F => assert (AC : A + C = D); [|lra] end.
  rewrite <- rsum_plus. apply rsum_ext. intros m Hm. rewrite (rsum_scal_l nc (v m)).
  destruct (Rlt_dec (q_thr q) (v_Js k m)) as [Lm|Lm]; [|rewrite (VD m Lm); ring].
  assert (IM : rsum nf (fun r => t_feat q k phis r m) - 1 = 0).
  { pose proof (incomp_le _ _ _ _ _ _ _ _ _ _ _ _ _ MF m Hm) as B. rewrite E1 in B.
    assert (inc m = 0) as Z. { destruct (Req_dec (inc m) 0); auto. pose proof (Rabs_pos_lt _ H0). lra. }
    rewrite (mf_inc _ _ _ _ _ _ _ _ _ _ _ _ _ MF), mask_alive in Z by auto.
    pose proof (feat_comp _ _ _ _ _ _ _ _ _ _ _ _ _ MF (fun _ => 1) m) as Y.
    rewrite (rsum_ext nf _ (fun r => t_feat q k phis r m)) in Y by (intros; ring).
    rewrite (rsum_ext nc _ (fun r => phis r m)) in Y by (intros; ring). lra. }
  rewrite IM, <- Rmult_plus_distr_l. f_equal. unfold fh.
  rewrite (rsum_ext nf (fun r => t_feat q k phis r m * v_omegas k r m) (fun r => v_omegas k r m * t_feat q k phis r m)) by (intros; ring).
  rewrite (feat_comp _ _ _ _ _ _ _ _ _ _ _ _ _ MF (fun r => v_omegas k r m) m).
  rewrite (rsum_ext nc (fun i => phis i m * ln (phis i m) / sizes i)
    (fun i => ln (pm i / Qbar q k rho sizes i) / sizes i * phis i m - v_omegas k (rho i) m * phis i m)).
  2:{ intros i Hi. rewrite (ln_frac _ _ _ _ _ _ _ _ _ _ _ _ _ MF Ht Hx i m Hi Lm). field. auto. }
  rewrite rsum_minus.
  rewrite (rsum_ext nf (fun r => rsum nf (fun s => chis r s * t_feat q k phis r m * t_feat q k phis s m)) (fun r => t_pot q k phis r m * t_feat q k phis r m)).
  2:{ intros r Hr. rewrite (mf_pot _ _ _ _ _ _ _ _ _ _ _ _ _ MF), <- rsum_scal_r. apply rsum_ext. intros; ring. }
  rewrite (feat_comp _ _ _ _ _ _ _ _ _ _ _ _ _ MF (fun r => t_pot q k phis r m) m).
  rewrite (rsum_ext nc (fun i => t_pot q k phis (rho i) m * phis i m) (fun i => rsum nc (fun j => chis (rho i) (rho j) * phis i m * phis j m))).
  2:{ intros i Hi. rewrite (pot_comp _ _ _ _ _ _ _ _ _ _ _ _ _ MF) by auto. rewrite <- rsum_scal_r. apply rsum_ext. intros; ring. }
  ring.
Qed.

(** [xi], [eta] make the extended free energy stationary in all variables of the
    living compartments *)
Definition stationary q k nc nf rho chis sizes g (feat : mat) (xi : vec) (eta : R) : Prop :=
  let E := extended (q_np q) nc nf rho chis sizes g in
  let v := volumes q k in let w := v_omegas k in
  forall m, (m < q_np q)%nat -> alive (q_thr q) (v_Js k) m ->
    (forall r, (r < nf)%nat -> is_derive (fun t => E v feat (upd2 w r m t) xi eta) (w r m) 0) /\
    (forall r, (r < nf)%nat -> is_derive (fun t => E v (upd2 feat r m t) w xi eta) (feat r m) 0) /\
    is_derive (fun t => E v feat w (upd xi m t) eta) (xi m) 0 /\
    is_derive (fun t => E (upd v m t) feat w xi eta) (v m) 0 /\
    is_derive (fun t => E v feat w xi t) eta 0.

Lemma derive_unique (f : R -> R) x a b : is_derive f x a -> is_derive f x b -> a = b.
Proof. intros H1 H2. apply is_derive_unique in H1. apply is_derive_unique in H2. congruence. Qed.

(** C59: the errors of a step vanish exactly at the stationary points of the
    documented free energy. *)
Theorem C59_stationary_points q k k' nv rep nc nf rho chis sh sizes x g :
  mixture q nc nf rho chis sh sizes -> ensemble_energy q nc sizes x g -> admissible nc nf chis sizes x ->
  0 <= q_thr q -> Forall idle (v_cons k) -> iterate q k = Ok (k', nv, rep) ->
  rsum (q_np q) (living (q_thr q) (v_Js k)) = INR (num_alive (q_np q) (q_thr q) (v_Js k)) ->
  (e_incomp rep = 0 /\ e_omega rep = 0 /\ e_Js rep = 0) <->
  (exists xi eta, stationary q k nc nf rho chis sizes g (v_phis_feat k') xi eta).
Proof.
  intros HM HE HAd Ht HI H HN. pose proof HAd as (Hn & Hsym & Hsz & Hx).
  assert (Hs0 : forall i, (i < nc)%nat -> sizes i <> 0) by (intros i Hi; specialize (Hsz i Hi); lra).
  assert (HL : exists m, (m < q_np q)%nat /\ alive (q_thr q) (v_Js k) m).
  { apply iterate_inv in H. destruct H as (? & ? & ? & ? & _ & _ & F). apply count_valid_pos. apply (if_nv_pos F). }
  assert (HLP : 0 < rsum (q_np q) (living (q_thr q) (v_Js k))).
  { destruct HL as (m0 & Hm0 & HA0). apply rsum_pos.
    - intros m _. unfold living. destruct (Rlt_dec _ _); lra.
    - exists m0. split; auto. unfold living, alive in *. destruct (Rlt_dec _ _); lra. }
  assert (VP : forall m, alive (q_thr q) (v_Js k) m -> 0 < volumes q k m).
  { intros m Lm. unfold volumes. apply Rdiv_lt_0_compat; auto. unfold living, alive in *. destruct (Rlt_dec _ _); lra. }
  assert (DZ : exists xi inc le d mean, 
    (forall m, (m < q_np q)%nat -> alive (q_thr q) (v_Js k) m -> forall eta,
       let E := extended (q_np q) nc nf rho chis sizes g in
       let v := volumes q k in let feat := v_phis_feat k' in let w := v_omegas k in
       (forall r, (r < nf)%nat -> is_derive (fun t => E v feat (upd2 w r m t) xi eta) (w r m) 0) /\
       (forall r, (r < nf)%nat -> is_derive (fun t => E v (upd2 feat r m t) w xi eta) (feat r m) (v m * d r m)) /\
       is_derive (fun t => E v feat w (upd xi m t) eta) (xi m) (v m * inc m) /\
       is_derive (fun t => E (upd v m t) feat w xi eta) (v m) (le m + rsum nf (fun r => d r m * feat r m) + eta) /\
       is_derive (fun t => E v feat w xi t) eta 0 /\
       INR nf * xi m = rsum nf (fun r => w r m - rsum nf (fun s => chis r s * feat s m)) + coef_of q * inc m /\
       (e_incomp rep = 0 -> e_omega rep = 0 -> inc m = 0 /\ forall r, (r < nf)%nat -> d r m = 0) /\ Rabs (mean - le m) <= e_Js rep) /\
    ((exists m, (m < q_np q)%nat /\ alive (q_thr q) (v_Js k) m /\ Rabs (mean - le m) = e_Js rep) \/ e_Js rep = 0) /\
    ((exists m, (m < q_np q)%nat /\ alive (q_thr q) (v_Js k) m /\ Rabs (inc m) = e_incomp rep) \/ e_incomp rep = 0) /\
    ((exists r m, (r < nf)%nat /\ (m < q_np q)%nat /\ alive (q_thr q) (v_Js k) m /\ d r m = e_omega rep) \/ e_omega rep = 0) /\
    mean = rsum (q_np q) (fun m => le m * living (q_thr q) (v_Js k) m) / INR (num_alive (q_np q) (q_thr q) (v_Js k))).
  { destruct (C59_derivatives q k k' nv rep nc nf rho chis sh sizes x g HM HE HAd Ht HI H)
      as (xi & inc & le & d & s & mean & HD & A1 & A2 & A3 & A4 & _).
    exists xi, inc, le, d, mean. split; [|auto]. intros m Hm Lm eta. cbv zeta.
    destruct (HD m Hm Lm eta) as (D1 & D2 & D3 & D4 & D5 & _ & _ & D8 & D9 & D10 & D11).
    repeat (split; [assumption|]). split; [|assumption].
    intros E1 E2. rewrite E1 in D9. assert (I0 : inc m = 0).
    { destruct (Req_dec (inc m) 0) as [|Hne]; auto. pose proof (Rabs_pos_lt _ Hne). lra. }
    split; [exact I0|].
    assert (SD : rsum nf (fun r => d r m) = 0).
    { rewrite (rsum_ext nf _ (fun r => rsum nf (fun s => chis r s * v_phis_feat k' s m) - v_omegas k r m + xi m)).
      - rewrite rsum_plus, rsum_const, rsum_minus. rewrite rsum_minus in D8. rewrite D8, I0. ring.
      - intros r Hr. apply (Rmult_eq_reg_l (volumes q k m)); [|specialize (VP m Lm); lra].
        eapply derive_unique; [now apply D2|]. now apply ext_dfeat. }
    intros r Hr. assert (N : forall s, (s < nf)%nat -> d s m <= 0) by (intros s' Hs'; specialize (D10 s' Hs'); lra).
    apply Rle_antisym; [auto|].
    rewrite (rsum_remove nf _ r Hr) in SD.
    assert (rsum nf (fun i => if Nat.eqb i r then 0 else d i m) <= 0); [|lra].
    assert (Z := rsum_le nf (fun i => if Nat.eqb i r then 0 else d i m) (fun _ => 0)). rewrite rsum_const in Z.
    rewrite Rmult_0_r in Z || rewrite Rmult_0_l in Z. apply Z. intros s' Hs'. destruct (Nat.eqb s' r); [lra|auto]. }
  destruct DZ as (xi & inc & le & d & mean & HD & A1 & A2 & A3 & A4). cbv zeta in HD. split.
  - intros (E1 & E2 & E3). exists xi, (- mean). unfold stationary. cbv zeta. intros m Hm Lm.
    destruct (HD m Hm Lm (- mean)) as (D1 & D2 & D3 & D4 & D5 & _ & D7 & D8). destruct (D7 E1 E2) as [I0 Dd].
    split; [exact D1|]. split; [intros r Hr; eapply is_derive_eq; [now apply D2|rewrite Dd by auto; ring]|].
    split; [eapply is_derive_eq; [exact D3|rewrite I0; ring]|].
    split; [|exact D5]. eapply is_derive_eq; [exact D4|].
    rewrite (rsum_zero nf) by (intros r Hr; rewrite Dd by auto; ring).
    rewrite E3 in D8. assert (mean - le m = 0); [|lra].
    destruct (Req_dec (mean - le m) 0) as [|Hne]; auto. pose proof (Rabs_pos_lt _ Hne). lra.
  - intros (xi' & eta & HS). unfold stationary in HS. cbv zeta in HS.
    destruct (ensemble_derivative q k nc rho sizes x g HE Ht Hs0 HL) as (a & _ & HDg).
    assert (K : forall m, (m < q_np q)%nat -> alive (q_thr q) (v_Js k) m ->
      inc m = 0 /\ (forall r, (r < nf)%nat -> d r m = 0) /\ le m = - eta).
    { intros m Hm Lm. destruct (HS m Hm Lm) as (_ & S2 & S3 & S4 & _). specialize (VP m Lm).
      destruct (HD m Hm Lm eta) as (_ & D2 & D3 & D4 & _ & D6 & _).
      pose proof (derive_unique _ _ _ _ D3 (ext_dxi (q_np q) nc nf rho chis sizes g (volumes q k) (v_phis_feat k') (v_omegas k) xi eta m Hm)) as U1.
      pose proof (derive_unique _ _ _ _ S3 (ext_dxi (q_np q) nc nf rho chis sizes g (volumes q k) (v_phis_feat k') (v_omegas k) xi' eta m Hm)) as U2.
      assert (I0 : inc m = 0). { rewrite <- U2 in U1. apply Rmult_integral in U1. destruct U1; lra. }
      assert (X : forall r, (r < nf)%nat -> v_omegas k r m - rsum nf (fun s => chis r s * v_phis_feat k' s m) = xi' m).
      { intros r Hr. pose proof (derive_unique _ _ _ _ (S2 r Hr)
          (ext_dfeat (q_np q) nc nf rho chis sizes g (volumes q k) (v_phis_feat k') (v_omegas k) xi' eta Hsym r m Hr Hm)) as U3.
        symmetry in U3. apply Rmult_integral in U3. destruct U3; lra. }
      assert (XX : xi m = xi' m).
      { rewrite I0, (rsum_ext nf _ (fun _ => xi' m)) in D6 by auto. rewrite rsum_const in D6.
        apply (Rmult_eq_reg_l (INR nf)); [lra|]. apply INR_neq0. auto. }
      assert (Dd : forall r, (r < nf)%nat -> d r m = 0).
      { intros r Hr. pose proof (derive_unique _ _ _ _ (D2 r Hr)
          (ext_dfeat (q_np q) nc nf rho chis sizes g (volumes q k) (v_phis_feat k') (v_omegas k) xi eta Hsym r m Hr Hm)) as U4.
        apply Rmult_eq_reg_l in U4; [|lra]. rewrite U4, XX, <- (X r Hr). ring. }
      split; [exact I0|]. split; [exact Dd|].
      pose proof (derive_unique _ _ _ _ D4 (ext_dv (q_np q) nc nf rho chis sizes g _ (volumes q k) (v_phis_feat k') (v_omegas k) xi eta HDg m Hm)) as U5.
      pose proof (derive_unique _ _ _ _ S4 (ext_dv (q_np q) nc nf rho chis sizes g _ (volumes q k) (v_phis_feat k') (v_omegas k) xi' eta HDg m Hm)) as U6.
      rewrite XX, <- U6 in U5. rewrite (rsum_zero nf) in U5 by (intros r Hr; rewrite Dd by auto; ring). lra. }
    assert (HM2 : mean = - eta).
    { rewrite A4, (rsum_ext (q_np q) _ (fun m => - eta * living (q_thr q) (v_Js k) m)).
      - rewrite rsum_scal_l, <- HN. field. lra.
      - intros m Hm. destruct (Rlt_dec (q_thr q) (v_Js k m)) as [Lm|Lm].
        + destruct (K m Hm Lm) as (_ & _ & ->). reflexivity.
        + unfold living. destruct (Rlt_dec _ _); [contradiction|]. ring. }
    split; [|split].
    + destruct A2 as [(m & Hm & Lm & <-)|]; auto. destruct (K m Hm Lm) as (-> & _). apply Rabs_R0.
    + destruct A3 as [(r & m & Hr & Hm & Lm & <-)|]; auto. destruct (K m Hm Lm) as (_ & Kd & _). auto.
    + destruct A1 as [(m & Hm & Lm & <-)|]; auto. destruct (K m Hm Lm) as (_ & _ & ->). rewrite HM2.
      replace (- eta - - eta) with 0 by ring. apply Rabs_R0.
Qed.
End Props.
