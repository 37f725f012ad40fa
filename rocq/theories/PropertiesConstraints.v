(** PropertiesConstraints.v -- properties of linear constraints (C49, C50, C51). *)

From Coquelicot Require Import Coquelicot.
From Coq Require Import Reals Lra Lia List Bool Arith ZArith FunctionalExtensionality.
From Verif Require Import Base ModelCommon ModelParts ModelKernel ProofsKernel ProofsParts ProofsSteps
  ProofsFreeEnergy ModelFinder ProofsRun Spec Examples PropertiesKernel.
Import ListNotations.
Open Scope R_scope.

(* ------------------------------------------------------------------ *)
(** * The documented Lagrangians *)

(** violation of constraint [a] by a composition of features *)
Definition violation (p : lin_par) (phi : vec) (a : nat) : R :=
  rsum (l_feat p) (fun r => l_Cs p a r * phi r) - l_Ts p a.

(** docstring of LinearLocalConstraintCompiled *)
Definition local_lagrangian (p : lin_par) (np : nat) (xi phi : mat) (J : vec) : R :=
  rsum (l_cons p) (fun a => rsum np (fun m =>
    J m * (xi a m * violation p (fun r => phi r m) a + l_elast p * (violation p (fun r => phi r m) a) ^ 2))).

(** docstring of LinearGlobalConstraintCompiled *)
Definition global_lagrangian (p : lin_par) (np : nat) (xi : vec) (phi : mat) (J : vec) : R :=
  rsum (l_cons p) (fun a => xi a * rsum np (fun m => J m * violation p (fun r => phi r m) a))
  + rsum (l_cons p) (fun a => l_elast p * (rsum np (fun m => J m * violation p (fun r => phi r m) a)) ^ 2).

(* ------------------------------------------------------------------ *)
(** * Helpers *)

Lemma lin_residue_violation p phi a m : lin_residue p phi a m = violation p (fun r => phi r m) a.
Proof. reflexivity. Qed.

Lemma violation_move p phi r m t a m' : (r < l_feat p)%nat ->
  violation p (fun s => upd2 phi r m t s m') a =
  violation p (fun s => phi s m') a + if Nat.eqb m' m then l_Cs p a r * (t - phi r m) else 0.
Proof.
  intros Hr. unfold violation.
  assert (E : rsum (l_feat p) (fun s => l_Cs p a s * upd2 phi r m t s m') =
    rsum (l_feat p) (fun s => l_Cs p a s * phi s m')
    + rsum (l_feat p) (fun s => if Nat.eqb s r then if Nat.eqb m' m then l_Cs p a r * (t - phi r m) else 0 else 0)).
  { rewrite <- rsum_plus. apply rsum_ext. intros s Hs. unfold upd2.
    destruct (Nat.eqb_spec s r), (Nat.eqb_spec m' m); cbn [andb]; subst; ring. }
  rewrite E, rsum_indicator by auto. ring.
Qed.

Lemma is_derive_eq (f : R -> R) (x d d' : R) : is_derive f x d -> d = d' -> is_derive f x d'.
Proof. intros H <-. exact H. Qed.

Lemma is_derive_fun (f g : R -> R) (x d : R) : is_derive f x d -> (forall t, f t = g t) -> is_derive g x d.
Proof. intros H E. apply is_derive_ext with f; auto. Qed.

Lemma is_derive_id_const (f : R -> R) x c : (forall t, f t = c) -> is_derive f x 0.
Proof. intros H. apply is_derive_fun with (f := fun _ => c); auto. apply @is_derive_const. Qed.

Lemma derive_elastic J xi v e c x0 :
  is_derive (fun t => J * (xi * (v + c * (t - x0)) + e * (v + c * (t - x0)) ^ 2)) x0 (J * (c * (xi + 2 * e * v))).
Proof. auto_derive; auto. ring. Qed.

Lemma derive_square e v c x0 : is_derive (fun t => e * (v + c * (t - x0)) ^ 2) x0 (2 * e * v * c).
Proof. auto_derive; auto. ring. Qed.

Lemma derive_affine e v c x0 : is_derive (fun t => e * (v + c * (t - x0))) x0 (e * c).
Proof. auto_derive; auto. ring. Qed.

Lemma derive_linear c x0 : is_derive (fun t => t * c) x0 c.
Proof. auto_derive; auto. ring. Qed.

(** all residues of the constraints together *)
Lemma evolve_all_eq {St} np s ks (l : list (cons_obj St)) : forall w,
  evolve_all np s ks w l =
  (map (fun o => set_state o (fst (k_evolve (o_class o) np s ks (o_state o)))) l,
   fold_left (fun acc o => Rmax acc (snd (k_evolve (o_class o) np s ks (o_state o)))) l w).
Proof.
  induction l as [|o l IH]; intros w; [reflexivity|]. cbn [evolve_all map fold_left].
  destruct (k_evolve _ _ _ _ _) as [s' x]. rewrite IH. reflexivity.
Qed.

Lemma fold_max_ge {A} (f : A -> R) l w : w <= fold_left (fun acc o => Rmax acc (f o)) l w /\
  forall o, In o l -> f o <= fold_left (fun acc o => Rmax acc (f o)) l w.
Proof.
  revert w. induction l as [|o l IH]; intros w; cbn [fold_left].
  - split; [lra|]. contradiction.
  - destruct (IH (Rmax w (f o))) as [H1 H2]. pose proof (Rmax_l w (f o)). pose proof (Rmax_r w (f o)). split; [lra|].
    intros o' [<-|Ho]; [lra|]. now apply H2.
Qed.

(* ------------------------------------------------------------------ *)
(** ** C49 *)

(** In a living compartment (mask 1) the potential is the derivative of the
    documented Lagrangian in the feature fraction per compartment volume, the
    volume derivative is its derivative in the compartment volume and the
    residue its derivative in the multiplier per compartment volume; a dead
    compartment (mask 0) contributes nothing. *)
Theorem C49_local_derivatives p np phi J masks c :
  let k := local_class p in
  let c' := k_prepare k np phi J masks c in
  let L := local_lagrangian p np in
  (forall r m, (r < l_feat p)%nat -> (m < np)%nat -> masks m = 1 ->
     is_derive (fun t => L (c_mult c) (upd2 phi r m t) J) (phi r m) (J m * k_potential k c' r m)) /\
  (forall m, (m < np)%nat -> masks m = 1 ->
     is_derive (fun t => L (c_mult c) phi (upd J m t)) (J m) (k_vd k c' m)) /\
  (forall a m, (a < l_cons p)%nat -> (m < np)%nat -> masks m = 1 ->
     is_derive (fun t => L (upd2 (c_mult c) a m t) phi J) (c_mult c a m) (J m * c_res c' a m)) /\
  (forall r m, masks m = 0 -> k_potential k c' r m = 0 /\ k_vd k c' m = 0).
Proof.
  cbv zeta. cbn [local_class k_prepare k_potential k_vd local_prepare c_pot c_vold c_res]. split; [|split; [|split]].
  - intros r m Hr Hm ->. unfold local_lagrangian.
    eapply is_derive_eq.
    + apply is_derive_rsum. intros a Ha. apply is_derive_rsum. intros m' Hm'.
      apply is_derive_fun with (f := fun t =>
        J m' * (c_mult c a m' * (violation p (fun s => phi s m') a + if Nat.eqb m' m then l_Cs p a r * (t - phi r m) else 0)
          + l_elast p * (violation p (fun s => phi s m') a + if Nat.eqb m' m then l_Cs p a r * (t - phi r m) else 0) ^ 2)).
      2: { intros t. now rewrite violation_move. }
      instantiate (1 := fun m' => if Nat.eqb m' m then
        J m * (l_Cs p a r * (c_mult c a m + 2 * l_elast p * violation p (fun s => phi s m) a)) else 0).
      cbv beta. destruct (Nat.eqb_spec m' m) as [->|]; [apply derive_elastic|]. now eapply is_derive_id_const.
    + rewrite Rmult_1_r, <- rsum_scal_l. apply rsum_ext. intros a Ha. now rewrite rsum_indicator.
  - intros m Hm ->. unfold local_lagrangian. eapply is_derive_eq.
    + apply is_derive_rsum. intros a Ha. apply is_derive_rsum. intros m' Hm'.
      instantiate (1 := fun m' => if Nat.eqb m' m then
        violation p (fun s => phi s m) a * (c_mult c a m + violation p (fun s => phi s m) a * l_elast p) else 0).
      unfold upd. cbv beta. destruct (Nat.eqb_spec m' m) as [->|]; [|now eapply is_derive_id_const].
      eapply is_derive_eq; [apply derive_linear|ring].
    + rewrite Rmult_1_r. apply rsum_ext. intros a Ha. now rewrite rsum_indicator.
  - intros a m Ha Hm ->. unfold local_lagrangian. eapply is_derive_eq.
    + apply is_derive_rsum. intros a' Ha'. apply is_derive_rsum. intros m' Hm'.
      instantiate (1 := fun m' => if Nat.eqb m' m then if Nat.eqb a' a then J m * violation p (fun s => phi s m) a else 0 else 0).
      unfold upd2. cbv beta. destruct (Nat.eqb_spec m' m) as [->|], (Nat.eqb_spec a' a) as [->|]; cbn [andb];
        try now eapply is_derive_id_const.
      eapply is_derive_fun with (f := fun t => J m * (violation p (fun s => phi s m) a * t + l_elast p * violation p (fun s => phi s m) a ^ 2)).
      * auto_derive; auto. ring.
      * intros t. ring.
    + rewrite (rsum_ext _ _ (fun a' => if Nat.eqb a' a then J m * violation p (fun s => phi s m) a else 0))
        by (intros; now rewrite rsum_indicator).
      rewrite rsum_indicator by auto. rewrite lin_residue_violation. ring.
  - intros r m ->. split; ring.
Qed.

Section Step.
Context {G : Type}.
Implicit Types (q : kernel) (k : kstate G cstate).

Lemma in_cons_residue q k k' nv rep o : iterate q k = Ok (k', nv, rep) -> In o (v_cons k) ->
  exists s, snd (k_evolve (o_class o) (q_np q) s (make_masks (v_Js k) (q_thr q))
    (k_prepare (o_class o) (q_np q) (v_phis_feat k') (living (q_thr q) (v_Js k)) (make_masks (v_Js k) (q_thr q)) (o_state o)))
  <= e_cons rep.
Proof.
  intros H Ho. apply iterate_inv in H. destruct H as (p0 & Q & phis & inc & _ & _ & F).
  rewrite (if_e_cons F). unfold t_evolve. rewrite evolve_all_eq. cbn [snd].
  exists (t_factor q k phis inc * q_acc_w q).
  set (f := fun o : cons_obj cstate => snd (k_evolve (o_class o) (q_np q) (t_factor q k phis inc * q_acc_w q) (t_masks q k) (o_state o))).
  assert (HJ : living (q_thr q) (v_Js k) = t_J q k) by (apply functional_extensionality; intros; now rewrite t_J_living).
  rewrite HJ, (if_feat F).
  pose (o' := set_state o (k_prepare (o_class o) (q_np q) (t_feat q k phis) (t_J q k) (t_masks q k) (o_state o))).
  change (f o' <= fold_left (fun acc o => Rmax acc (f o)) (t_cs q k phis) 0).
  apply fold_max_ge. unfold t_cs, prepare_all. apply in_map_iff. exists o. auto.
Qed.

(** The reported constraint error bounds every violation in every living compartment. *)
Theorem C49_local_residue q k k' nv rep o p :
  iterate q k = Ok (k', nv, rep) -> In o (v_cons k) -> o_class o = local_class p ->
  forall a m, (a < l_cons p)%nat -> (m < q_np q)%nat -> alive (q_thr q) (v_Js k) m ->
  Rabs (violation p (fun r => v_phis_feat k' r m) a) <= e_cons rep.
Proof.
  intros H Ho HC a m Ha Hm HA. destruct (in_cons_residue _ _ _ _ _ _ H Ho) as [s HS]. rewrite HC in HS.
  eapply Rle_trans; [|exact HS]. cbn [local_class k_evolve k_prepare local_evolve snd local_prepare c_res].
  eapply Rle_trans; [|apply (vmax_ge _ _ a Ha)]. cbv beta. eapply Rle_trans; [|apply (vmax_ge _ _ m Hm)]. cbv beta.
  rewrite mask_alive by auto. rewrite Rmult_1_r, lin_residue_violation. lra.
Qed.

(* ------------------------------------------------------------------ *)
(** ** C50 *)

(** Same for the global constraint: its multiplier is a number per constraint
    (column 0 of the model's state). *)
Theorem C50_global_derivatives p np phi J masks c :
  let k := global_class p in
  let c' := k_prepare k np phi J masks c in
  let xi := fun a => c_mult c a 0%nat in
  let L := global_lagrangian p np in
  (forall r m, (r < l_feat p)%nat -> (m < np)%nat -> masks m = 1 ->
     is_derive (fun t => L xi (upd2 phi r m t) J) (phi r m) (J m * k_potential k c' r m)) /\
  (forall m, (m < np)%nat -> masks m = 1 ->
     is_derive (fun t => L xi phi (upd J m t)) (J m) (k_vd k c' m)) /\
  (forall a, (a < l_cons p)%nat -> rsum np J <> 0 ->
     is_derive (fun t => L (upd xi a t) phi J) (xi a) (rsum np J * c_res c' a 0%nat)) /\
  (forall r m, masks m = 0 -> k_potential k c' r m = 0 /\ k_vd k c' m = 0).
Proof.
  cbv zeta. cbn [global_class k_prepare k_potential k_vd global_prepare c_pot c_vold c_res].
  assert (RV : forall a, rsum np (fun m => lin_residue p phi a m * J m) = rsum np (fun m => J m * violation p (fun s => phi s m) a)).
  { intros a. apply rsum_ext. intros m _. rewrite lin_residue_violation. ring. }
  set (R := fun a => rsum np (fun m => J m * violation p (fun s => phi s m) a)).
  split; [|split; [|split]].
  - intros r m Hr Hm ->. unfold global_lagrangian.
    assert (E : forall a t, rsum np (fun m' => J m' * violation p (fun s => upd2 phi r m t s m') a) = R a + J m * (l_Cs p a r * (t - phi r m))).
    { intros a t. unfold R. rewrite <- (rsum_indicator np m (J m * (l_Cs p a r * (t - phi r m)))) by auto. rewrite <- rsum_plus.
      apply rsum_ext. intros m' Hm'. rewrite violation_move by auto. destruct (Nat.eqb_spec m' m) as [->|]; ring. }
    eapply is_derive_eq.
    + apply (@is_derive_plus R_AbsRing R_NormedModule).
      * apply is_derive_rsum. intros a Ha.
        apply is_derive_fun with (f := fun t => c_mult c a 0%nat * (R a + J m * (l_Cs p a r * (t - phi r m)))); [|intros; now rewrite E].
        eapply is_derive_fun; [apply derive_affine with (c := J m * l_Cs p a r) (x0 := phi r m)|].
        intros t. cbv beta. instantiate (1 := R a). instantiate (1 := c_mult c a 0%nat). ring.
      * apply is_derive_rsum. intros a Ha.
        apply is_derive_fun with (f := fun t => l_elast p * (R a + J m * (l_Cs p a r * (t - phi r m))) ^ 2); [|intros; now rewrite E].
        instantiate (1 := fun a => 2 * l_elast p * R a * (J m * l_Cs p a r)). auto_derive; auto; ring.
    + unfold plus; cbn. rewrite <- rsum_plus, Rmult_1_r, <- rsum_scal_l. apply rsum_ext. intros a Ha. rewrite RV. fold (R a). ring.
  - intros m Hm ->. unfold global_lagrangian.
    assert (E : forall a t, rsum np (fun m' => upd J m t m' * violation p (fun s => phi s m') a) = R a + (t - J m) * violation p (fun s => phi s m) a).
    { intros a t. unfold R. rewrite <- (rsum_indicator np m ((t - J m) * violation p (fun s => phi s m) a)) by auto. rewrite <- rsum_plus.
      apply rsum_ext. intros m' Hm'. unfold upd. destruct (Nat.eqb_spec m' m) as [->|]; ring. }
    eapply is_derive_eq.
    + apply (@is_derive_plus R_AbsRing R_NormedModule).
      * apply is_derive_rsum. intros a Ha.
        apply is_derive_fun with (f := fun t => c_mult c a 0%nat * (R a + (t - J m) * violation p (fun s => phi s m) a)); [|intros; now rewrite E].
        instantiate (1 := fun a => c_mult c a 0%nat * violation p (fun s => phi s m) a). auto_derive; auto; ring.
      * apply is_derive_rsum. intros a Ha.
        apply is_derive_fun with (f := fun t => l_elast p * (R a + (t - J m) * violation p (fun s => phi s m) a) ^ 2); [|intros; now rewrite E].
        instantiate (1 := fun a => 2 * l_elast p * R a * violation p (fun s => phi s m) a). auto_derive; auto; ring.
    + unfold plus; cbn. rewrite <- rsum_plus, Rmult_1_r. apply rsum_ext. intros a Ha. rewrite RV, lin_residue_violation. fold (R a). ring.
  - intros a Ha HJ. unfold global_lagrangian. fold R. rewrite RV. fold (R a). eapply is_derive_eq.
    + apply (@is_derive_plus R_AbsRing R_NormedModule).
      * apply is_derive_rsum. intros a' Ha'. fold (R a').
        instantiate (1 := fun a' => if Nat.eqb a' a then R a else 0). unfold upd. cbv beta.
        destruct (Nat.eqb_spec a' a) as [->|]; [apply derive_linear|now eapply is_derive_id_const].
      * apply @is_derive_const.
    + unfold plus, zero; cbn. rewrite rsum_indicator by auto. field. auto.
  - intros r m ->. split; ring.
Qed.

(** The reported constraint error bounds every violation of the mean fractions
    of the living compartments. *)
Theorem C50_global_residue q k k' nv rep o p :
  0 <= q_thr q -> iterate q k = Ok (k', nv, rep) -> In o (v_cons k) -> o_class o = global_class p ->
  forall a, (a < l_cons p)%nat ->
  Rabs (violation p (fun r => wmean (q_np q) (living (q_thr q) (v_Js k)) (v_phis_feat k' r)) a) <= e_cons rep.
Proof.
  intros Ht H Ho HC a Ha. destruct (in_cons_residue _ _ _ _ _ _ H Ho) as [s HS]. rewrite HC in HS.
  eapply Rle_trans; [|exact HS]. cbn [global_class k_evolve k_prepare global_evolve snd global_prepare c_res].
  eapply Rle_trans; [|apply (vmax_ge _ _ a Ha)]. cbv beta. right. f_equal.
  set (J := living (q_thr q) (v_Js k)).
  assert (HJ : rsum (q_np q) J <> 0).
  { apply iterate_inv in H. destruct H as (p0 & Q & phis & inc & _ & _ & F).
    apply Rgt_not_eq. apply rsum_pos.
    - intros m _. unfold J, living. destruct (Rlt_dec _ _); lra.
    - destruct (proj1 (count_valid_pos _ _ _) (if_nv_pos F)) as (m & Hm & HA). exists m. split; auto.
      unfold J, living. destruct (Rlt_dec _ _); lra. }
  unfold violation, wmean.
  rewrite (rsum_ext (q_np q) (fun m => lin_residue p (v_phis_feat k') a m * J m)
    (fun m => rsum (l_feat p) (fun r => l_Cs p a r * (J m * v_phis_feat k' r m)) - l_Ts p a * J m)).
  - rewrite rsum_minus, rsum_scal_l, rsum_swap.
    rewrite (rsum_ext (l_feat p) (fun j => rsum (q_np q) (fun i => l_Cs p a j * (J i * v_phis_feat k' j i)))
               (fun r => l_Cs p a r * (rsum (q_np q) (fun m => J m * v_phis_feat k' r m) / rsum (q_np q) J) * rsum (q_np q) J)).
    + rewrite rsum_scal_r. field. auto.
    + intros r Hr. rewrite rsum_scal_l. field. auto.
  - intros m _. unfold lin_residue. rewrite Rmult_minus_distr_r, <- rsum_scal_r. f_equal. apply rsum_ext. intros. ring.
Qed.

(* ------------------------------------------------------------------ *)
(** ** C51 *)

(** the constraint at position [j] after a step *)
Lemma cons_after q k k' nv rep j o : iterate q k = Ok (k', nv, rep) -> nth_error (v_cons k) j = Some o ->
  0 < q_ub q -> 0 < q_acc_w q ->
  exists s, 0 < s /\ nth_error (v_cons k') j = Some (set_state o (fst (k_evolve (o_class o) (q_np q) s (make_masks (v_Js k) (q_thr q))
    (k_prepare (o_class o) (q_np q) (v_phis_feat k') (living (q_thr q) (v_Js k)) (make_masks (v_Js k) (q_thr q)) (o_state o))))).
Proof.
  intros H Ho Hu Hw. apply iterate_inv in H. destruct H as (p0 & Q & phis & inc & _ & _ & F).
  exists (t_factor q k phis inc * q_acc_w q). split.
  - apply Rmult_lt_0_compat; auto. unfold t_factor. apply Rdiv_lt_0_compat; auto. now apply t_change_pos.
  - rewrite (if_cons F). unfold t_evolve. rewrite evolve_all_eq. cbn [fst]. unfold t_cs, prepare_all. rewrite map_map.
    rewrite nth_error_map, Ho. cbn [option_map].
    assert (HJ : living (q_thr q) (v_Js k) = t_J q k) by (apply functional_extensionality; intros; now rewrite t_J_living).
    rewrite HJ, (if_feat F). reflexivity.
Qed.

(** Local constraint: every multiplier of a living compartment moves along its
    violation, by the same positive factor; it stays put exactly when the
    constraint holds there.  Multipliers of dead compartments become zero. *)
Theorem C51_local_multipliers q k k' nv rep j o p :
  iterate q k = Ok (k', nv, rep) -> 0 < q_ub q -> 0 < q_acc_w q -> 0 < l_ratio p ->
  nth_error (v_cons k) j = Some o -> o_class o = local_class p ->
  exists o' s, nth_error (v_cons k') j = Some o' /\ o_class o' = local_class p /\ 0 < s /\
    forall a m,
      (alive (q_thr q) (v_Js k) m ->
         c_mult (o_state o') a m = c_mult (o_state o) a m + s * violation p (fun r => v_phis_feat k' r m) a /\
         (c_mult (o_state o') a m = c_mult (o_state o) a m <-> violation p (fun r => v_phis_feat k' r m) a = 0)) /\
      (dead (q_thr q) (v_Js k) m -> c_mult (o_state o') a m = 0).
Proof.
  intros H Hu Hw Hr Ho HC. destruct (cons_after _ _ _ _ _ _ _ H Ho Hu Hw) as (s & Hs & Ho').
  eexists _, (s * l_ratio p). split; [exact Ho'|]. split; [exact HC|]. split; [now apply Rmult_lt_0_compat|].
  intros a m. cbn [o_state set_state]. rewrite HC.
  cbn [local_class k_evolve k_prepare local_evolve fst local_prepare c_mult c_res]. rewrite lin_residue_violation.
  split; [intros HA; rewrite mask_alive by auto|intros HD; rewrite mask_dead by auto; ring].
  assert (0 < s * l_ratio p) by now apply Rmult_lt_0_compat. set (x := violation _ _ _). split; [ring|].
  split; intros E; [|rewrite E; ring].
  assert (s * l_ratio p * x = 0) as E1 by lra. apply Rmult_integral in E1. destruct E1; [lra|auto].
Qed.

(** Global constraint. *)
Theorem C51_global_multipliers q k k' nv rep j o p :
  0 <= q_thr q -> iterate q k = Ok (k', nv, rep) -> 0 < q_ub q -> 0 < q_acc_w q -> 0 < l_ratio p ->
  nth_error (v_cons k) j = Some o -> o_class o = global_class p ->
  exists o' s, nth_error (v_cons k') j = Some o' /\ o_class o' = global_class p /\ 0 < s /\
    forall a,
      let x := violation p (fun r => wmean (q_np q) (living (q_thr q) (v_Js k)) (v_phis_feat k' r)) a in
      c_mult (o_state o') a 0%nat = c_mult (o_state o) a 0%nat + s * x /\
      (c_mult (o_state o') a 0%nat = c_mult (o_state o) a 0%nat <-> x = 0).
Proof.
  intros Ht H Hu Hw Hr Ho HC. destruct (cons_after _ _ _ _ _ _ _ H Ho Hu Hw) as (s & Hs & Ho').
  eexists _, (s * l_ratio p). split; [exact Ho'|]. split; [exact HC|]. split; [now apply Rmult_lt_0_compat|].
  intros a x. cbn [o_state set_state]. rewrite HC.
  cbn [global_class k_evolve k_prepare global_evolve fst global_prepare c_mult c_res].
  assert (E : rsum (q_np q) (fun m => lin_residue p (v_phis_feat k') a m * living (q_thr q) (v_Js k) m)
    / rsum (q_np q) (living (q_thr q) (v_Js k)) = x).
  { unfold x. set (J := living (q_thr q) (v_Js k)).
    assert (HJ : rsum (q_np q) J <> 0).
    { apply iterate_inv in H. destruct H as (p0 & Q & phis & inc & _ & _ & F).
      apply Rgt_not_eq. apply rsum_pos.
      - intros m _. unfold J, living. destruct (Rlt_dec _ _); lra.
      - destruct (proj1 (count_valid_pos _ _ _) (if_nv_pos F)) as (m & Hm & HA). exists m. split; auto.
        unfold J, living. destruct (Rlt_dec _ _); lra. }
    unfold violation, wmean.
    rewrite (rsum_ext (q_np q) (fun m => lin_residue p (v_phis_feat k') a m * J m)
      (fun m => rsum (l_feat p) (fun r => l_Cs p a r * (J m * v_phis_feat k' r m)) - l_Ts p a * J m)).
    - rewrite rsum_minus, rsum_scal_l, rsum_swap.
      rewrite (rsum_ext (l_feat p) (fun j => rsum (q_np q) (fun i => l_Cs p a j * (J i * v_phis_feat k' j i)))
               (fun r => l_Cs p a r * (rsum (q_np q) (fun m => J m * v_phis_feat k' r m) / rsum (q_np q) J) * rsum (q_np q) J)).
      + rewrite rsum_scal_r. field. auto.
      + intros r Hr'. rewrite rsum_scal_l. field. auto.
    - intros m _. unfold lin_residue. rewrite Rmult_minus_distr_r, <- rsum_scal_r. f_equal. apply rsum_ext. intros. ring. }
  rewrite E. assert (0 < s * l_ratio p) by now apply Rmult_lt_0_compat. split; [ring|].
  split; intros E2; [|rewrite E2; ring].
  assert (s * l_ratio p * x = 0) as E1 by lra. apply Rmult_integral in E1. destruct E1; [lra|auto].
Qed.

(** A [NoConstraint] with the zero potential it gets from [initialize], at any
    position of the constraint list, influences nothing. *)
Definition with_cons k (l : list (cons_obj cstate)) : kstate G cstate :=
  {| v_omegas := v_omegas k; v_Js := v_Js k; v_phis_comp := v_phis_comp k; v_phis_feat := v_phis_feat k;
     v_cons := l; v_g := v_g k |}.
Definition idle (o : cons_obj cstate) : Prop :=
  (exists nf, o_class o = no_class nf) /\ c_pot (o_state o) = (fun _ _ => 0) /\ c_vold (o_state o) = (fun _ => 0).

Lemma iterate_cons_rel q k l1 l2 k1 nv rep (Rl : list (cons_obj cstate) -> list (cons_obj cstate) -> Prop) :
  v_cons k = l1 ->
  (forall p0 Q phis inc s, s_partition (q_entropy q) (q_np q) (v_phis_comp k) (v_omegas k) (t_J q k) = Ok (p0, Q) ->
      n_normalize (q_ensemble q) p0 Q (t_masks q k) = Ok (phis, inc) ->
      let c1 := prepare_all (q_np q) (t_feat q k phis) (t_J q k) (t_masks q k) l1 in
      let c2 := prepare_all (q_np q) (t_feat q k phis) (t_J q k) (t_masks q k) l2 in
      (forall g : mat -> R, g (fun _ _ => 0) = 0 -> lsum c1 (fun o => g (pot_of o)) = lsum c2 (fun o => g (pot_of o))) /\
      (forall m, lsum c1 (fun o => vd_of o m) = lsum c2 (fun o => vd_of o m)) /\
      snd (evolve_all (q_np q) s (t_masks q k) 0 c1) = snd (evolve_all (q_np q) s (t_masks q k) 0 c2) /\
      Rl (fst (evolve_all (q_np q) s (t_masks q k) 0 c1)) (fst (evolve_all (q_np q) s (t_masks q k) 0 c2))) ->
  iterate q k = Ok (k1, nv, rep) ->
  exists l', iterate q (with_cons k l2) = Ok (with_cons k1 l', nv, rep) /\ Rl (v_cons k1) l'.
Proof.
  intros EL HP0 H. rewrite iterate_eq in *.
  change (v_phis_comp (with_cons k l2)) with (v_phis_comp k). change (v_omegas (with_cons k l2)) with (v_omegas k).
  change (t_J q (with_cons k l2)) with (t_J q k). change (t_masks q (with_cons k l2)) with (t_masks q k).
  destruct (s_partition _ _ _ _ _) as [[p0 Q]|e] eqn:EP; cbn [bind] in *; [|discriminate].
  destruct (n_normalize _ _ _ _) as [[phis inc]|e] eqn:EN; cbn [bind] in *; [|discriminate].
  assert (HP := fun s => HP0 p0 Q phis inc s eq_refl EN). clear HP0.
  assert (Ex : t_xi q (with_cons k l2) phis inc = t_xi q k phis inc).
  { apply functional_extensionality. intros m. unfold t_xi, xi_of, t_cs. cbn. rewrite EL.
    destruct (HP 0) as (H1 & _). unfold t_masks, t_feat, t_J in *. cbn.
    rewrite (H1 (fun p => rsum (q_nf q) (fun r => p r m))); [reflexivity|]. now apply rsum_zero. }
  assert (Eo : t_otemp q (with_cons k l2) phis inc = t_otemp q k phis inc).
  { apply functional_extensionality. intros r. apply functional_extensionality. intros m. unfold t_otemp. rewrite Ex.
    unfold omega_temp_of, t_cs. cbn. rewrite EL. destruct (HP 0) as (H1 & _).
    pose proof (H1 (fun p => p r m) eq_refl) as E. unfold t_masks, t_feat, t_J in *. cbn. now rewrite E. }
  assert (El : t_le q (with_cons k l2) phis inc = t_le q k phis inc).
  { apply functional_extensionality. intros m. unfold t_le. rewrite Ex, Eo. unfold local_energy_of, t_cs. cbn. rewrite EL.
    destruct (HP 0) as (_ & H1 & _). pose proof (H1 m) as E. unfold t_masks, t_feat, t_J in *. cbn. now rewrite E. }
  assert (Ed : t_diff q (with_cons k l2) phis inc = t_diff q k phis inc) by (unfold t_diff; now rewrite Eo).
  assert (EJd : t_Jdiff q (with_cons k l2) phis inc = t_Jdiff q k phis inc) by (unfold t_Jdiff, t_mean; now rewrite El).
  assert (Ech : t_change q (with_cons k l2) phis inc = t_change q k phis inc) by (unfold t_change, t_maxJ; now rewrite EJd).
  assert (Ef : t_factor q (with_cons k l2) phis inc = t_factor q k phis inc) by (unfold t_factor; now rewrite Ech).
  rewrite Ech. destruct (Z.eqb _ 0); [discriminate|]. destruct (Reqb _ 0); [discriminate|].
  destruct (HP (t_factor q k phis inc * q_acc_w q)) as (_ & _ & H1 & H2).
  change (t_feat q k phis) with (t_feat q (with_cons k l2) phis) in H1 at 2. 
  assert (ET : t_evolve q (with_cons k l2) phis inc =
     (fst (evolve_all (q_np q) (t_factor q k phis inc * q_acc_w q) (t_masks q k) 0
        (prepare_all (q_np q) (t_feat q k phis) (t_J q k) (t_masks q k) l2)), snd (t_evolve q k phis inc))).
  { unfold t_evolve. rewrite Ef. unfold t_cs at 1. cbn [v_cons with_cons]. 
    change (t_feat q (with_cons k l2) phis) with (t_feat q k phis). change (t_J q (with_cons k l2)) with (t_J q k).
    change (t_masks q (with_cons k l2)) with (t_masks q k). unfold t_cs. rewrite EL.
    change (t_feat q (with_cons k l2) phis) with (t_feat q k phis) in H1.
    rewrite H1. apply surjective_pairing. }
  assert (H3 : fst (t_evolve q k phis inc) = fst (evolve_all (q_np q) (t_factor q k phis inc * q_acc_w q) (t_masks q k) 0
        (prepare_all (q_np q) (t_feat q k phis) (t_J q k) (t_masks q k) l1))) by (unfold t_evolve, t_cs; now rewrite EL).
  rewrite <- H3 in H2.
  rewrite ET. destruct (t_evolve q k phis inc) as [cs w]. cbn [fst snd] in *. injection H as <- <- <-. cbn [v_cons].
  eexists. split; [|exact H2].
  assert (E1 : t_omegas q (with_cons k l2) phis inc = t_omegas q k phis inc) by (unfold t_omegas; now rewrite Ef, Ed).
  assert (E2 : t_J2 q (with_cons k l2) phis inc = t_J2 q k phis inc) by (unfold t_J2, t_shift, t_J1; now rewrite Ef, EJd).
  assert (E3 : t_maxJ q (with_cons k l2) phis inc = t_maxJ q k phis inc) by (unfold t_maxJ; now rewrite EJd).
  rewrite E1, E2, E3, Ed. reflexivity.
Qed.

Lemma iterate_same_cons_sums q k l1 l2 k1 nv rep (f : list (cons_obj cstate) -> list (cons_obj cstate)) :
  v_cons k = l1 ->
  (forall phis s, let c1 := prepare_all (q_np q) (t_feat q k phis) (t_J q k) (t_masks q k) l1 in
      let c2 := prepare_all (q_np q) (t_feat q k phis) (t_J q k) (t_masks q k) l2 in
      (forall g : mat -> R, g (fun _ _ => 0) = 0 -> lsum c1 (fun o => g (pot_of o)) = lsum c2 (fun o => g (pot_of o))) /\
      (forall m, lsum c1 (fun o => vd_of o m) = lsum c2 (fun o => vd_of o m)) /\
      snd (evolve_all (q_np q) s (t_masks q k) 0 c1) = snd (evolve_all (q_np q) s (t_masks q k) 0 c2) /\
      f (fst (evolve_all (q_np q) s (t_masks q k) 0 c1)) = fst (evolve_all (q_np q) s (t_masks q k) 0 c2)) ->
  iterate q k = Ok (k1, nv, rep) -> iterate q (with_cons k l2) = Ok (with_cons k1 (f (v_cons k1)), nv, rep).
Proof.
  intros EL HP H.
  destruct (iterate_cons_rel q k l1 l2 k1 nv rep (fun a b => f a = b) EL
    (fun _ _ phis _ s _ _ => HP phis s) H) as (l' & E & <-). exact E.
Qed.

Lemma prepare_idle np feat J ks o : idle o -> 
  pot_of (set_state o (k_prepare (o_class o) np feat J ks (o_state o))) = (fun _ _ => 0) /\
  vd_of (set_state o (k_prepare (o_class o) np feat J ks (o_state o))) = (fun _ => 0) /\
  set_state o (k_prepare (o_class o) np feat J ks (o_state o)) = o /\
  forall s, k_evolve (o_class o) np s ks (o_state o) = (o_state o, 0).
Proof.
  destruct o as [c s]. intros ((nf & H1) & H2 & H3). cbn in *. subst c. unfold pot_of, vd_of, set_state. cbn. auto.
Qed.

Lemma fold_max_start {A} (f : A -> R) l : forall w, 0 <= w ->
  fold_left (fun acc o => Rmax acc (f o)) l (Rmax w 0) = fold_left (fun acc o => Rmax acc (f o)) l w.
Proof. intros w H. now rewrite Rmax_left. Qed.

Lemma fold_max_nonneg {A} (f : A -> R) l : forall w, 0 <= w -> 0 <= fold_left (fun acc o => Rmax acc (f o)) l w.
Proof. intros w H. destruct (fold_max_ge f l w). lra. Qed.

Theorem C51_no_constraint_idle q k o l1 l2 k' nv rep :
  idle o -> v_cons k = l1 ++ l2 -> iterate q k = Ok (k', nv, rep) ->
  exists l1' l2', v_cons k' = l1' ++ l2' /\
    iterate q (with_cons k (l1 ++ o :: l2)) = Ok (with_cons k' (l1' ++ o :: l2'), nv, rep).
Proof.
  intros HI EL H.
  set (f := fun l : list (cons_obj cstate) => firstn (length l1) l ++ o :: skipn (length l1) l).
  exists (firstn (length l1) (v_cons k')), (skipn (length l1) (v_cons k')). split; [now rewrite firstn_skipn|].
  apply (iterate_same_cons_sums q k (l1 ++ l2) (l1 ++ o :: l2) k' nv rep f); auto.
  intros phis s. destruct (prepare_idle (q_np q) (t_feat q k phis) (t_J q k) (t_masks q k) o HI) as (P1 & P2 & P3 & P4).
  cbv zeta. unfold prepare_all. rewrite !map_app. cbn [map]. split; [|split; [|split]].
  - intros g Hg. rewrite !lsum_app. cbn [lsum]. rewrite P1, Hg. ring.
  - intros m. rewrite !lsum_app. cbn [lsum]. rewrite P2. ring.
  - rewrite !evolve_all_eq. cbn [snd]. rewrite !fold_left_app. cbn [fold_left]. rewrite P3, P4. cbn [snd].
    symmetry. apply fold_max_start. apply fold_max_nonneg. lra.
  - rewrite !evolve_all_eq. cbn [fst]. unfold f. rewrite !map_app. cbn [map]. rewrite P3, P4. cbn [fst].
    match goal with |- firstn _ (?a ++ ?b) ++ _ = _ =>
      assert (La : length a = length l1) by (now rewrite !map_length) end.
    rewrite <- La, firstn_app, skipn_app, Nat.sub_diag, firstn_all, skipn_all. cbn [firstn skipn app].
    rewrite app_nil_r. f_equal. destruct o. reflexivity.
Qed.

(** Whole trajectories, with revivals, agree as well. *)
Theorem C51_no_constraint_trajectory (ops : rng_ops G) q tries o n : idle o ->
  forall w l1 l2 w', v_cons (w_k w) = l1 ++ l2 -> steps ops q tries n w = Ok w' ->
  exists l1' l2', v_cons (w_k w') = l1' ++ l2' /\
    steps ops q tries n {| w_k := with_cons (w_k w) (l1 ++ o :: l2); w_count := w_count w; w_valid := w_valid w; w_rep := w_rep w |}
    = Ok {| w_k := with_cons (w_k w') (l1' ++ o :: l2'); w_count := w_count w'; w_valid := w_valid w'; w_rep := w_rep w' |}.
Proof.
  intros HI w l1 l2. induction n as [|n IH]; intros w' EL H; cbn [steps] in *.
  - injection H as <-. exists l1, l2. split; auto.
  - apply bind_Ok in H. destruct H as (w1 & E1 & H). destruct (IH w1 EL E1) as (a1 & a2 & EA & ES). rewrite ES. cbn [bind].
    unfold one_step in *. cbn [w_k w_count].
    assert (EM : maybe_revive ops q tries (w_count w1) (with_cons (w_k w1) (a1 ++ o :: a2)) =
      (fst (maybe_revive ops q tries (w_count w1) (w_k w1)),
       with_cons (snd (maybe_revive ops q tries (w_count w1) (w_k w1))) (a1 ++ o :: a2))
      /\ v_cons (snd (maybe_revive ops q tries (w_count w1) (w_k w1))) = v_cons (w_k w1)).
    { unfold maybe_revive. cbn [with_cons v_Js v_omegas v_g v_phis_comp v_phis_feat].
      destruct (Z.ltb _ _); [|now split]. destruct (Nat.eqb _ _); [now split|].
      destruct (revive_by_random _ _ _ _ _ _ _ _) as [[[c J] t] g]. now split. }
    destruct EM as [EM EC]. rewrite EM. destruct (maybe_revive ops q tries (w_count w1) (w_k w1)) as [c k1]. cbn [fst snd] in *.
    apply bind_Ok in H. destruct H as ([[k' nv] rep] & EI & H). injection H as <-.
    rewrite EA in EC. destruct (C51_no_constraint_idle q k1 o a1 a2 k' nv rep HI EC EI) as (b1 & b2 & EB & E2).
    rewrite E2. cbn [bind]. exists b1, b2. split; auto.
Qed.
End Step.

(* ------------------------------------------------------------------ *)
(** * Cases *)

(** Two components, two compartments of volumes 1/2 and 3/2; one local and one
    global constraint and a [NoConstraint]. *)
Definition ex_lin : lin_par :=
  {| l_cons := 1; l_feat := 2; l_Cs := fun _ r => if Nat.eqb r 0 then 1 else -1; l_Ts := fun _ => 1 / 4;
     l_ratio := 1; l_elast := 2 |}.
Definition ex_J : vec := fun m => if Nat.eqb m 0 then 1 / 2 else 3 / 2.
Definition ex_kc : kstate nat cstate :=
  with_cons (ex_k 2 ex_J 0) [new_cons (local_class ex_lin); new_cons (global_class ex_lin)].

Example C49_case : exists k' nv rep,
  iterate (kernel_of (ex_finder 2 ex_J (1 / 10) 1)) ex_kc = Ok (k', nv, rep) /\
  (forall m, (m < 2)%nat -> alive (1 / 10) (v_Js ex_kc) m) /\
  In (new_cons (local_class ex_lin)) (v_cons ex_kc) /\ In (new_cons (global_class ex_lin)) (v_cons ex_kc).
Proof.
  destruct (iterate_total (kernel_of (ex_finder 2 ex_J (1 / 10) 1)) ex_kc) as (k' & nv & rep & E).
  - apply ex_total.
  - simpl. lra.
  - simpl. lra.
  - exists O. simpl. split; [lia|]. unfold ex_J. simpl. lra.
  - exists k', nv, rep. split; [exact E|]. split; [|split; [left|right; left]; reflexivity].
    intros m Hm. unfold alive. cbn. unfold ex_J. destruct (Nat.eqb m 0); lra.
Qed.

Example C51_case : idle {| o_class := no_class 2; o_state := k_init (no_class 2) 2 cstate0 |}.
Proof. split; [exists 2%nat; reflexivity|split; reflexivity]. Qed.
