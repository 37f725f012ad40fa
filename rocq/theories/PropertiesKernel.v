(** PropertiesKernel.v -- properties of single steps and of revival
    (C01, C02, C04, C05, C07, C08, C09, C10, C13). *)

From Coq Require Import String Reals Lra Lia List Bool Arith ZArith.
From Verif Require Import Base ModelCommon ModelParts ModelKernel ModelPhases ModelFinder
  ProofsKernel ProofsParts ProofsSteps ProofsBounds ProofsCopy ProofsRun Spec Examples.
Import ListNotations.
Open Scope R_scope.

Section Props.
Context {G St : Type}.
Implicit Types (q : kernel) (k : kstate G St).

Lemma t_J_living q k m : t_J q k m = living (q_thr q) (v_Js k) m.
Proof.
  unfold t_J, t_masks, living. destruct (Rlt_dec (q_thr q) (v_Js k m)) as [H|H].
  - rewrite mask_alive by auto. lra.
  - rewrite mask_dead by lra. lra.
Qed.

Lemma wmean_can np J (b : vec) Q pm thr J0 :
  (forall m, J m = living thr J0 m) -> rsum np J <> 0 ->
  Q = rsum np (fun m => b m * J m) / rsum np J -> Q <> 0 ->
  wmean np (living thr J0) (fun m => pm / Q * b m * make_masks J0 thr m) = pm.
Proof.
  intros HJ HS EQ HQ. unfold wmean.
  rewrite (rsum_ext np (fun m => living thr J0 m * _) (fun m => pm / Q * (b m * J m))).
  2: { intros m _. rewrite HJ. unfold living. destruct (Rlt_dec thr (J0 m)) as [H|H].
       - rewrite mask_alive by auto. lra.
       - lra. }
  rewrite (rsum_ext np (living thr J0) J) by auto.
  rewrite rsum_scal_l. rewrite EQ at 1. field. split; auto.
  intros E. apply HQ. rewrite EQ, E. unfold Rdiv. lra.
Qed.

(* ------------------------------------------------------------------ *)
(** ** C01 *)

(** With the canonical ensemble and the plain ideal-gas entropy, the fractions
    produced by a step, averaged with the volumes of the living compartments
    used in that step, are exactly [phi_means]. *)
Theorem C01_canonical_mean_ideal_gas q nc sizes phi_means k k' nv rep :
  q_entropy q = ig_compiled nc sizes -> q_ensemble q = can_compiled nc phi_means ->
  iterate q k = Ok (k', nv, rep) ->
  forall i, (i < nc)%nat ->
    wmean (q_np q) (living (q_thr q) (v_Js k)) (fun m => v_phis_comp k' i m) = phi_means i.
Proof.
  intros E1 E2 H i Hi. apply iterate_inv in H. destruct H as (p0 & Q & phis & inc & HP & HN & F).
  rewrite E1 in HP. rewrite E2 in HN. simpl in HP, HN.
  apply ig_partition_spec in HP. destruct HP as (HS & HB & HQ).
  apply can_normalize_spec in HN. destruct HN as (HQ0 & HC & _).
  rewrite (if_comp F).
  rewrite <- (wmean_can (q_np q) (t_J q k) (fun m => p0 i m) (Q i) (phi_means i) (q_thr q) (v_Js k)).
  - unfold wmean. f_equal. apply rsum_ext. intros m _. f_equal. now apply HC.
  - apply t_J_living.
  - exact HS.
  - rewrite HQ by auto. unfold ig_Q. f_equal. apply rsum_ext. intros m _. now rewrite HB.
  - now apply HQ0.
Qed.

(** The same for the polydispersed entropy ([nsum nf npf] components in all). *)
Theorem C01_canonical_mean_polydispersed q nf npf sizes phi_means k k' nv rep :
  q_entropy q = pg_compiled (nsum nf npf) nf npf sizes ->
  q_ensemble q = can_compiled (nsum nf npf) phi_means ->
  iterate q k = Ok (k', nv, rep) ->
  forall i, (i < nsum nf npf)%nat ->
    wmean (q_np q) (living (q_thr q) (v_Js k)) (fun m => v_phis_comp k' i m) = phi_means i.
Proof.
  intros E1 E2 H i Hi. apply iterate_inv in H. destruct H as (p0 & Q & phis & inc & HP & HN & F).
  rewrite E1 in HP. rewrite E2 in HN. simpl in HP, HN.
  apply pg_partition_spec in HP. destruct HP as (HS & HB & HQ).
  apply can_normalize_spec in HN. destruct HN as (HQ0 & HC & _).
  rewrite (if_comp F).
  rewrite <- (wmean_can (q_np q) (t_J q k) (fun m => p0 i m) (Q i) (phi_means i) (q_thr q) (v_Js k)).
  - unfold wmean. f_equal. apply rsum_ext. intros m _. f_equal. now apply HC.
  - apply t_J_living.
  - exact HS.
  - destruct (nsum_find _ _ _ Hi) as (r & j & Hr & Hj & ->).
    rewrite HQ by auto. unfold ig_Q. f_equal. apply rsum_ext. intros m _. now rewrite HB.
  - now apply HQ0.
Qed.

(* ------------------------------------------------------------------ *)
(** ** C02 *)

(** After a step the volumes add up to the number of compartments alive in
    that step and dead ones have volume zero, for arbitrary parts. *)
Theorem C02_volumes_normalised q k k' nv rep :
  iterate q k = Ok (k', nv, rep) ->
  nv = Z.of_nat (num_alive (q_np q) (q_thr q) (v_Js k)) /\
  (1 <= num_alive (q_np q) (q_thr q) (v_Js k))%nat /\
  rsum (q_np q) (v_Js k') = INR (num_alive (q_np q) (q_thr q) (v_Js k)) /\
  (forall m, dead (q_thr q) (v_Js k) m -> v_Js k' m = 0).
Proof.
  intros H. apply iterate_inv in H. destruct H as (p0 & Q & phis & inc & _ & _ & F).
  rewrite num_alive_ncount. fold (count_valid (q_np q) (v_Js k) (q_thr q)). fold (t_nv q k).
  split; [apply (if_nv F)|]. split; [apply (if_nv_pos F)|]. rewrite (if_Js F). split.
  - apply t_J2_sum. apply (if_nv_pos F).
  - intros m Hm. now apply t_J2_dead.
Qed.

(* ------------------------------------------------------------------ *)
(** ** C04 *)

(** Without remaining budget a dead compartment is empty after every later
    step: volume, fields and (for the built-in ensembles) fractions are 0. *)
Theorem C04_dead_stays_dead (ops : rng_ops G) q tries n k w' m :
  0 <= q_thr q -> (tries <= 0)%Z -> dead (q_thr q) (v_Js k) m ->
  steps ops q tries (S n) (start k) = Ok w' ->
  v_Js (w_k w') m = 0 /\ (forall r, v_omegas (w_k w') r m = 0) /\
  (forall nc x, q_ensemble q = can_compiled nc x \/ q_ensemble q = gc_compiled nc x ->
     forall i, (i < nc)%nat -> v_phis_comp (w_k w') i m = 0).
Proof.
  intros Ht HB HD H.
  destruct (steps_dead ops q tries n (start k) w' m Ht ltac:(simpl; lia) H HD) as (A & B & C).
  split; auto. split; auto. intros nc x HE i Hi.
  destruct HE as [HE|HE]; apply C; rewrite HE; auto; [apply can_masking|apply gc_masking].
Qed.

(* ------------------------------------------------------------------ *)
(** ** C05 *)

Theorem C05_random_revival (ops : rng_ops G) nf np J t thr g scaler count J' t' g' :
  rng_contract ops -> 0 <= scaler ->
  revive_by_random ops nf np J t thr g scaler = (count, J', t', g') ->
  (* dead compartments get volume one, living ones are untouched *)
  (forall m, (m < np)%nat -> dead thr J m -> J' m = 1) /\
  (forall m, (m < np)%nat -> alive thr J m -> J' m = J m) /\
  (forall i m, (i < nf)%nat -> (m < np)%nat -> alive thr J m -> t' i m = t i m) /\
  (* new fields lie in the scaled range of the old fields *)
  (forall i m lo hi, (i < nf)%nat -> (m < np)%nat -> dead thr J m ->
     is_min np (t i) lo -> is_max np (t i) hi ->
     (lo + hi) / 2 - scaler * ((hi - lo) / 2) <= t' i m <= (lo + hi) / 2 + scaler * ((hi - lo) / 2)) /\
  (forall i m lo hi, (i < nf)%nat -> (m < np)%nat -> dead thr J m -> scaler <= 1 ->
     is_min np (t i) lo -> is_max np (t i) hi -> lo <= t' i m <= hi) /\
  (* the count is the number of dead compartments; nf draws for each *)
  count = num_dead np thr J /\
  g' = times (count * nf) (fun g => snd (g_uniform ops g)) g.
Proof.
  intros HR Hs H. apply revive_by_random_spec in H.
  destruct H as (HC & HG & H1 & H2 & H3 & H4).
  assert (HB : forall i m lo hi, (i < nf)%nat -> (m < np)%nat -> dead thr J m ->
     is_min np (t i) lo -> is_max np (t i) hi ->
     (lo + hi) / 2 - scaler * ((hi - lo) / 2) <= t' i m <= (lo + hi) / 2 + scaler * ((hi - lo) / 2)).
  { intros i m lo hi Hi Hm HD Hlo Hhi. destruct (H4 i m Hi Hm HD) as [gi ->].
    assert (Hp : (0 < np)%nat) by lia.
    rewrite (is_max_unique _ _ _ _ Hhi (vmax_is_max np (t i) Hp)).
    rewrite (is_min_unique _ _ _ _ Hlo (vmin_is_min np (t i) Hp)).
    unfold target_center, target_width.
    pose proof (uniform_range ops HR gi) as [U1 U2].
    pose proof (vmin_le_vmax np (t i) Hp) as HV.
    set (u := fst (g_uniform ops gi)) in *. set (hi' := vmax np (t i)) in *. set (lo' := vmin np (t i)) in *.
    assert (0 <= (hi' - lo') * scaler) by (apply Rmult_le_pos; lra).
    split; nra. }
  split; [intros; apply H1; auto|]. split; [intros; apply H2; auto|].
  split; [intros; apply H3; auto|]. split; [exact HB|]. split.
  - intros i m lo hi Hi Hm HD Hs1 Hlo Hhi. pose proof (HB i m lo hi Hi Hm HD Hlo Hhi).
    assert (lo <= hi). { destruct Hlo as [(j & Hj & <-) _]. destruct Hhi as [_ Hh]. auto. }
    nra.
  - split.
    + rewrite HC, dead_count. unfold num_dead. now rewrite num_alive_ncount.
    + rewrite HG. reflexivity.
Qed.

(* ------------------------------------------------------------------ *)
(** ** C07 *)

(** Every compartment after copy revival originates from a living one ([o] is
    the origin); the volume of every living compartment is split among the
    compartments originating from it; totals over living compartments are
    conserved. *)
Theorem C07_copy_conserves (ops : rng_ops G) np J t thr g n J' t' g' :
  rng_contract ops -> 0 <= thr ->
  revive_by_copy ops np J t thr g = Ok (n, J', t', g') ->
  n = num_dead np thr J /\
  (exists o : nat -> nat,
    (forall m, (m < np)%nat -> (o m < np)%nat /\ alive thr J (o m) /\ forall i, t' i m = t i (o m)) /\
    (forall m, (m < np)%nat -> alive thr J m -> o m = m) /\
    (forall a, (a < np)%nat -> alive thr J a ->
       rsum np (fun m => if Nat.eqb (o m) a then J' m else 0) = J a)) /\
  (forall m, (m < np)%nat -> alive thr J' m) /\
  rsum np J' = rsum np (living thr J) /\
  (forall i, rsum np (fun m => J' m * t' i m) = rsum np (fun m => living thr J m * t i m)).
Proof.
  intros HR Ht H. apply revive_by_copy_spec in H; auto.
  destruct H as (HN & o & HA & HD & HT & HP & HS).
  split; [rewrite HN, dead_count; unfold num_dead; now rewrite num_alive_ncount|].
  split. { exists o. repeat split; auto; try (intros; apply HD; auto). }
  split; [exact HP|]. split.
  - pose proof (origin_total np J J' o thr (fun _ => 1) HD HS) as E.
    rewrite (rsum_ext np J' (fun m => J' m * 1)) by (intros; lra).
    rewrite E. apply rsum_ext. intros m _. unfold Rltb, living. destruct (Rlt_dec _ _); lra.
  - intros i. rewrite (rsum_ext np _ (fun m => J' m * t i (o m))).
    2: { intros m Hm. now rewrite HT. }
    rewrite (origin_total np J J' o thr (t i) HD HS).
    apply rsum_ext. intros m _. unfold Rltb, living. destruct (Rlt_dec _ _); lra.
Qed.

(* ------------------------------------------------------------------ *)
(** ** C08 *)

(** Sufficient condition for success, for every random stream. *)
Theorem C08_copy_succeeds (ops : rng_ops G) np J t thr g :
  rng_contract ops -> 0 <= thr ->
  2 * thr * (INR np - 1) < rsum np (living thr J) ->
  exists n J' t' g', revive_by_copy ops np J t thr g = Ok (n, J', t', g').
Proof.
  intros HR Ht HV. apply revive_by_copy_ok; auto.
  erewrite rsum_ext; [exact HV|]. intros m _. unfold Rltb, living. destruct (Rlt_dec _ _); reflexivity.
Qed.

(** Default threshold: one living compartment suffices; all returned volumes
    are positive. *)
Theorem C08_copy_succeeds_default (ops : rng_ops G) np J t g :
  rng_contract ops -> (exists m, (m < np)%nat /\ 0 < J m) ->
  exists n J' t' g', revive_by_copy ops np J t 0 g = Ok (n, J', t', g') /\
    forall m, (m < np)%nat -> 0 < J' m.
Proof.
  intros HR (m & Hm & HJ).
  destruct (C08_copy_succeeds ops np J t 0 g HR) as (n & J' & t' & g' & E); [lra| |].
  - rewrite Rmult_0_r, Rmult_0_l. apply rsum_pos.
    + intros i _. unfold living. destruct (Rlt_dec 0 (J i)); lra.
    + exists m. split; auto. unfold living. destruct (Rlt_dec 0 (J m)); lra.
  - exists n, J', t', g'. split; auto.
    apply revive_by_copy_spec in E; auto; [|lra].
    destruct E as (_ & o & _ & _ & _ & HP & _). exact HP.
Qed.

(** The only possible failure is that no donor is left: the donor array is
    never read or written out of range. *)
Theorem C08_copy_only_failure (ops : rng_ops G) np J t thr g e :
  rng_contract ops -> 0 <= thr ->
  revive_by_copy ops np J t thr g = Err e -> e = DonorsExhausted.
Proof. intros HR Ht. now apply revive_by_copy_err. Qed.

(* ------------------------------------------------------------------ *)
(** ** C09 *)

(** From normalised volumes, a step changes each living volume by at most
    twice [Js_step_upper_bound]. *)
Theorem C09_volume_change_bounded q k k' nv rep m :
  0 < q_ub q -> 0 < q_acc_J q ->
  iterate q k = Ok (k', nv, rep) ->
  rsum (q_np q) (living (q_thr q) (v_Js k)) = INR (num_alive (q_np q) (q_thr q) (v_Js k)) ->
  (m < q_np q)%nat -> alive (q_thr q) (v_Js k) m ->
  Rabs (v_Js k' m - v_Js k m) <= 2 * q_ub q.
Proof.
  intros Hu Ha H HS Hm HA. apply iterate_inv in H. destruct H as (p0 & Q & phis & inc & _ & _ & F).
  rewrite (if_Js F), t_J2_eq, t_J1_alive by auto.
  assert (HS' : rsum (q_np q) (t_J q k) = INR (t_nv q k)).
  { rewrite (rsum_ext _ _ _ (fun m _ => t_J_living q k m)), HS, num_alive_ncount. reflexivity. }
  pose proof (increment_bound q k phis inc m Hu Ha Hm) as B1.
  pose proof (shift_bound q k phis inc Hu Ha (if_nv_pos F) HS') as B2.
  unfold t_masks. rewrite mask_alive by auto.
  match goal with |- Rabs (?J + ?x + ?y * 1 - ?J) <= _ => replace (J + x + y * 1 - J) with (x + y) by lra end.
  eapply Rle_trans; [apply Rabs_triang|]. lra.
Qed.

(* ------------------------------------------------------------------ *)
(** ** C10 *)

(** The same state iterated with other damping parameters. *)
Definition with_damping q (acc_J ub acc_w : R) : kernel :=
  {| q_inter := q_inter q; q_entropy := q_entropy q; q_ensemble := q_ensemble q;
     q_nf := q_nf q; q_np := q_np q; q_acc_J := acc_J; q_ub := ub; q_acc_w := acc_w;
     q_thr := q_thr q; q_scaler := q_scaler q |}.

(** There are residuals [dJ], [dw] that do not depend on the damping
    parameters, such that for all damping parameters a step changes volumes
    and fields along them with one common factor in (0,1], the ratio of the upper
    bound to the intended volume change if that is larger. *)
Theorem C10_common_damping q k :
  exists (dJ : vec) (dw : mat), forall acc_J ub acc_w k' nv rep,
    0 < ub -> 0 <= acc_J ->
    iterate (with_damping q acc_J ub acc_w) k = Ok (k', nv, rep) ->
    e_Js rep = vmax (q_np q) (fun m => Rabs (dJ m)) /\
    exists factor shift,
      0 < factor <= 1 /\
      (factor = 1 <-> acc_J * e_Js rep <= ub) /\
      factor * Rmax (acc_J * e_Js rep) ub = ub /\
      (forall m, (m < q_np q)%nat -> Rabs (factor * acc_J * dJ m) <= ub) /\
      (forall m, (m < q_np q)%nat -> alive (q_thr q) (v_Js k) m ->
         v_Js k' m = v_Js k m + factor * acc_J * dJ m + shift /\
         forall r, v_omegas k' r m = v_omegas k r m + factor * acc_w * dw r m).
Proof.
  destruct (s_partition (q_entropy q) (q_np q) (v_phis_comp k) (v_omegas k) (t_J q k))
    as [[p0 Q]|e] eqn:EP.
  2: { exists (fun _ => 0), (fun _ _ => 0). intros acc_J ub acc_w k' nv rep Hu Ha H. exfalso.
       rewrite iterate_eq in H. simpl in H. unfold t_J, t_masks in EP, H. simpl in H.
       rewrite EP in H. discriminate. }
  destruct (n_normalize (q_ensemble q) p0 Q (t_masks q k)) as [[phis inc]|e] eqn:EN.
  2: { exists (fun _ => 0), (fun _ _ => 0). intros acc_J ub acc_w k' nv rep Hu Ha H. exfalso.
       rewrite iterate_eq in H. simpl in H. unfold t_J, t_masks in EP, H. simpl in H.
       rewrite EP in H. simpl in H. unfold t_masks in EN. rewrite EN in H. discriminate. }
  exists (t_Jdiff q k phis inc), (t_diff q k phis inc).
  intros acc_J ub acc_w k' nv rep Hu Ha H.
  apply iterate_inv in H. destruct H as (p0' & Q' & phis' & inc' & HP & HN & F).
  simpl in HP. unfold t_J, t_masks in EP, HP. simpl in HP. rewrite EP in HP. injection HP as <- <-.
  simpl in HN. unfold t_masks in EN, HN. simpl in HN. rewrite EN in HN. injection HN as <- <-.
  set (q' := with_damping q acc_J ub acc_w) in *.
  pose proof (if_e_Js F) as EJ.
  assert (EJ' : e_Js rep = t_maxJ q k phis inc) by (rewrite EJ; reflexivity).
  split; [exact EJ'|].
  exists (t_factor q' k phis inc), (t_shift q' k phis inc).
  split; [apply t_factor_range; exact Hu|]. split.
  { rewrite EJ, Rmult_comm. apply (t_factor_one q' k phis inc Hu). }
  split.
  { rewrite EJ, (Rmult_comm acc_J). pose proof (t_change_pos q' k phis inc Hu) as HP. unfold t_factor, t_change in *.
    change (q_acc_J q') with acc_J in *. change (q_ub q') with ub in *. field. lra. }
  split.
  { intros m Hm. destruct (Rle_lt_or_eq_dec 0 acc_J Ha) as [L|E].
    - apply (increment_bound q' k phis inc m Hu L Hm).
    - rewrite <- E. rewrite Rmult_0_r, Rmult_0_l, Rabs_R0. lra. }
  intros m Hm HA. split.
  - rewrite (if_Js F), t_J2_eq. change (q_thr q) with (q_thr q') in HA. rewrite t_J1_alive by exact HA.
    unfold t_masks. rewrite mask_alive by exact HA. change (q_acc_J q') with acc_J.
    change (t_Jdiff q' k phis inc m) with (t_Jdiff q k phis inc m). lra.
  - intros r. rewrite (if_omegas F). unfold t_omegas.
    change (q_thr q) with (q_thr q') in HA.
    unfold t_masks. rewrite mask_alive by exact HA. change (q_acc_w q') with acc_w.
    change (t_diff q' k phis inc r m) with (t_diff q k phis inc r m). lra.
Qed.

(* ------------------------------------------------------------------ *)
(** ** C13 *)

(** The residuals [d] that drive the fields (field change = factor *
    acceptance * d) are bounded above by the reported field error and below by
    minus ((num_feat - 1) * field error + |coef| * incompressibility error). *)
Theorem C13_field_error_bounds q k k' nv rep :
  iterate q k = Ok (k', nv, rep) ->
  exists (d : mat) (factor : R),
    (forall r m, alive (q_thr q) (v_Js k) m ->
       v_omegas k' r m = v_omegas k r m + factor * q_acc_w q * d r m) /\
    (0 < q_ub q -> 0 < factor <= 1) /\
    (forall r m, (r < q_nf q)%nat -> (m < q_np q)%nat -> d r m <= e_omega rep) /\
    (forall r m, (r < q_nf q)%nat -> (m < q_np q)%nat -> alive (q_thr q) (v_Js k) m ->
       Rabs (d r m) <= Rmax (e_omega rep)
         (INR (q_nf q - 1) * e_omega rep
          + Rabs (i_coef (q_inter q) (v_phis_feat k') m) * e_incomp rep)) /\
    (e_omega rep = 0 \/
     exists r m, (r < q_nf q)%nat /\ (m < q_np q)%nat /\ e_omega rep = d r m).
Proof.
  intros H. apply iterate_inv in H. destruct H as (p0 & Q & phis & inc & _ & _ & F).
  exists (t_diff q k phis inc), (t_factor q k phis inc).
  rewrite (if_e_omega F), (if_e_incomp F), (if_feat F). split; [|split; [|split; [|split]]].
  - intros r m HA. rewrite (if_omegas F). unfold t_omegas, t_masks. rewrite mask_alive by auto. lra.
  - apply t_factor_range.
  - intros r m Hr Hm. now apply max_omega_diff_ge.
  - intros r m Hr Hm HA. pose proof (max_omega_diff_ge _ _ (t_diff q k phis inc) r m Hr Hm) as U.
    pose proof (t_diff_lower q k phis inc r m Hr Hm HA) as L.
    unfold Rabs at 1. destruct (Rcase_abs _).
    + eapply Rle_trans; [|apply Rmax_r]. lra.
    + eapply Rle_trans; [|apply Rmax_l]. lra.
  - destruct (lt_dec 0 (q_np q)) as [Hp|Hp].
    + now apply max_omega_diff_in.
    + pose proof (if_nv_pos F) as HV. unfold t_nv, count_valid in HV.
      pose proof (ncount_le (q_np q) (fun m => Rltb (q_thr q) (v_Js k m))). lia.
Qed.

End Props.

(* ------------------------------------------------------------------ *)
(** * Concrete cases meeting the hypotheses *)

(** volumes of the examples: compartment 1 nearly empty, others unequal *)
Definition ex_J : vec := fun m => if Nat.eqb m 1 then 0 else if Nat.eqb m 0 then 3/2 else 1/2.

(** C01, C02, C13: one step of a 2-component, 3-compartment mixture with one
    dead compartment. *)
Example C01_case : exists k' nv rep,
  let q := kernel_of (ex_finder 3 ex_J 0 0) in
  iterate q (ex_k 3 ex_J 0) = Ok (k', nv, rep) /\
  q_entropy q = ig_compiled 2 ex_sizes /\ q_ensemble q = can_compiled 2 ex_means /\
  wmean 3 (living 0 ex_J) (fun m => v_phis_comp k' 1%nat m) = 1/2 /\
  nv = 2%Z /\ rsum 3 (v_Js k') = 2.
Proof.
  destruct (ex_iterate 3 ex_J 0 0) as (k' & nv & rep & E); [lra| |].
  { exists O. unfold ex_J; simpl. split; [lia|lra]. }
  exists k', nv, rep. split; [exact E|]. split; [reflexivity|]. split; [reflexivity|]. split.
  - apply (C01_canonical_mean_ideal_gas (kernel_of (ex_finder 3 ex_J 0 0)) 2 ex_sizes ex_means
      _ _ _ _ eq_refl eq_refl E 1%nat). lia.
  - apply C02_volumes_normalised in E. destruct E as (E1 & _ & E2 & _).
    change (q_np _) with 3%nat in *.
    assert (N : num_alive 3 0 (v_Js (ex_k 3 ex_J 0)) = 2%nat).
    { unfold num_alive, ex_J. simpl. repeat (destruct (Rlt_dec _ _); try lra). reflexivity. }
    change (q_thr _) with 0 in *. rewrite N in *. split; [exact E1|]. rewrite E2. simpl. lra.
Qed.

(** Three components in two features (polydispersed). *)
Definition ex_pg : kernel :=
  {| q_inter := fh_compile 2 ex_chi 0;
     q_entropy := pg_compiled (nsum 2 (fun r => S r)) 2 (fun r => S r) (fun i => INR (S i));
     q_ensemble := can_compiled (nsum 2 (fun r => S r)) (fun _ => 1/3);
     q_nf := 2; q_np := 3; q_acc_J := 1; q_ub := 1; q_acc_w := 1; q_thr := 0; q_scaler := 1 |}.
Example C01_polydispersed_case : exists k' nv rep,
  iterate ex_pg (ex_k 3 ex_J 0) = Ok (k', nv, rep) /\
  wmean 3 (living 0 ex_J) (fun m => v_phis_comp k' 2%nat m) = 1/3.
Proof.
  destruct (iterate_total ex_pg (ex_k 3 ex_J 0)) as (k' & nv & rep & E).
  - eapply builtin_total_pg_can; reflexivity.
  - simpl; lra.
  - simpl; lra.
  - exists O. unfold ex_J; simpl. split; [lia|lra].
  - exists k', nv, rep. split; [exact E|].
    apply (C01_canonical_mean_polydispersed ex_pg 2 (fun r => S r) (fun i => INR (S i)) (fun _ => 1/3)
      _ _ _ _ eq_refl eq_refl E 2%nat). simpl; lia.
Qed.

(** C04: compartment 1 is dead at the start and stays empty for 7 steps. *)
Example C04_case : exists w,
  steps ops0 (kernel_of (ex_finder 3 ex_J 0 0)) 0 7 (start (ex_k 3 ex_J 0)) = Ok w /\
  v_Js (w_k w) 1%nat = 0 /\ v_phis_comp (w_k w) 0%nat 1%nat = 0.
Proof.
  destruct (ex_fsteps 3 ex_J 0 0 7) as (w & E & _); [lra| |].
  { exists O. unfold ex_J; simpl. split; [lia|lra]. }
  exists w. split; [exact E|].
  destruct (C04_dead_stays_dead ops0 (kernel_of (ex_finder 3 ex_J 0 0)) 0 6 (ex_k 3 ex_J 0) w 1%nat)
    as (A & _ & B).
  - simpl; lra.
  - lia.
  - unfold dead, ex_J; simpl; lra.
  - exact E.
  - split; [exact A|]. apply (B 2%nat ex_means); [left; reflexivity|lia].
Qed.

(** C05: one of three compartments is dead and gets volume one. *)
Example C05_case : exists count J' t' g',
  revive_by_random ops0 2 3 ex_J (fun i m => INR m) 0 O 1 = (count, J', t', g') /\
  count = 1%nat /\ J' 1%nat = 1 /\ J' 0%nat = 3/2 /\ g' = 2%nat /\ 0 <= t' 0%nat 1%nat <= 2.
Proof.
  destruct (revive_by_random ops0 2 3 ex_J (fun i m => INR m) 0 O 1) as [[[count J'] t'] g'] eqn:E.
  exists count, J', t', g'. split; [reflexivity|].
  apply C05_random_revival in E; [|apply ops0_contract|lra].
  destruct E as (A & B & _ & _ & C & D & F).
  assert (N : num_dead 3 0 ex_J = 1%nat).
  { unfold num_dead, num_alive, ex_J. simpl. repeat (destruct (Rlt_dec _ _); try lra). reflexivity. }
  rewrite N in D. subst count. split; [auto|]. split; [|split; [|split]].
  - apply A; [lia|]. unfold dead, ex_J; simpl; lra.
  - rewrite B; [unfold ex_J; simpl; reflexivity|lia|]. unfold alive, ex_J; simpl; lra.
  - rewrite F. reflexivity.
  - apply C; try lia; try lra.
    + unfold dead, ex_J; simpl; lra.
    + split; [exists O; split; [lia|reflexivity]|]. intros i _. apply pos_INR.
    + split; [exists 2%nat; split; [lia|simpl; lra]|]. intros i Hi.
      destruct i as [|[|[|i]]]; simpl; lra || lia.
Qed.

(** C07, C08: copy revival with one dead compartment. *)
Example C07_case : exists n J' t' g',
  revive_by_copy ops0 3 ex_J (fun i m => INR m) 0 O = Ok (n, J', t', g') /\
  n = 1%nat /\ rsum 3 J' = 2 /\ 0 < J' 1%nat.
Proof.
  destruct (C08_copy_succeeds_default ops0 3 ex_J (fun i m => INR m) O) as (n & J' & t' & g' & E & P).
  - apply ops0_contract.
  - exists O. split; [lia|]. unfold ex_J; simpl; lra.
  - exists n, J', t', g'. split; [exact E|]. apply C07_copy_conserves in E; [|apply ops0_contract|lra].
    destruct E as (A & _ & _ & B & _). split; [|split].
    + rewrite A. unfold num_dead, num_alive, ex_J. simpl. repeat (destruct (Rlt_dec _ _); try lra). reflexivity.
    + rewrite B. unfold living, ex_J. simpl. repeat (destruct (Rlt_dec _ _); try lra).
    + apply P. lia.
Qed.

(** C08 with positive threshold. *)
Example C08_case : exists n J' t' g',
  revive_by_copy ops0 3 ex_J (fun i m => INR m) (1/5) O = Ok (n, J', t', g').
Proof.
  apply C08_copy_succeeds; [apply ops0_contract|lra|].
  unfold living, ex_J. simpl. repeat (destruct (Rlt_dec _ _); try lra).
Qed.

(** C09, C10: hypotheses hold for normalised volumes 3/2, 1/2. *)
Definition ex_J2 : vec := fun m => if Nat.eqb m 0 then 3/2 else 1/2.
Example C09_case : exists k' nv rep,
  let q := kernel_of (ex_finder 2 ex_J2 0 0) in
  iterate q (ex_k 2 ex_J2 0) = Ok (k', nv, rep) /\
  Rabs (v_Js k' 0%nat - 3/2) <= 2 * (1/1000).
Proof.
  destruct (ex_iterate 2 ex_J2 0 0) as (k' & nv & rep & E); [lra| |].
  { exists O. unfold ex_J2; simpl. split; [lia|lra]. }
  exists k', nv, rep. split; [exact E|].
  apply (C09_volume_change_bounded (kernel_of (ex_finder 2 ex_J2 0 0)) (ex_k 2 ex_J2 0) k' nv rep 0%nat);
    auto; try (simpl; lra); try (simpl; lia).
  - unfold living, num_alive, ex_J2. simpl. repeat (destruct (Rlt_dec _ _); try lra). simpl. lra.
  - unfold alive, ex_J2. simpl. lra.
Qed.

Print Assumptions C01_canonical_mean_ideal_gas.
Print Assumptions C01_canonical_mean_polydispersed.
Print Assumptions C02_volumes_normalised.
Print Assumptions C04_dead_stays_dead.
Print Assumptions C05_random_revival.
Print Assumptions C07_copy_conserves.
Print Assumptions C08_copy_succeeds.
Print Assumptions C08_copy_succeeds_default.
Print Assumptions C08_copy_only_failure.
Print Assumptions C09_volume_change_bounded.
Print Assumptions C10_common_damping.
Print Assumptions C13_field_error_bounds.
