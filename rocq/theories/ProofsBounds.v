(** ProofsBounds.v -- damping, step bounds and the reported field error. *)

From Coq Require Import Reals Lra Lia List Bool Arith ZArith.
From Verif Require Import Base ModelParts ModelKernel ProofsKernel ProofsParts.
Import ListNotations.
Open Scope R_scope.

Section Bounds.
Context {G St : Type}.
Implicit Types (q : kernel) (k : kstate G St) (phis : mat) (inc : vec).

Lemma t_maxJ_nonneg q k phis inc : 0 <= t_maxJ q k phis inc.
Proof. apply vmax_abs_nonneg. Qed.

Lemma t_maxJ_ge q k phis inc m : (m < q_np q)%nat -> Rabs (t_Jdiff q k phis inc m) <= t_maxJ q k phis inc.
Proof.
  intros H. unfold t_maxJ. apply (vmax_ge (q_np q) (fun m => Rabs (t_Jdiff q k phis inc m)) m H).
Qed.

Lemma t_factor_range q k phis inc : 0 < q_ub q -> 0 < t_factor q k phis inc <= 1.
Proof.
  intros Hu. pose proof (t_change_pos q k phis inc Hu) as HC. unfold t_factor.
  assert (q_ub q <= t_change q k phis inc) by apply Rmax_r.
  split.
  - apply Rdiv_lt_0_compat; auto.
  - apply (Rmult_le_reg_r (t_change q k phis inc)); auto.
    unfold Rdiv. rewrite Rmult_assoc, Rinv_l by lra. lra.
Qed.

Lemma t_factor_one q k phis inc : 0 < q_ub q ->
  (t_factor q k phis inc = 1 <-> t_maxJ q k phis inc * q_acc_J q <= q_ub q).
Proof.
  intros Hu. pose proof (t_change_pos q k phis inc Hu) as HC. unfold t_factor. split.
  - intros H. assert (q_ub q = t_change q k phis inc).
    { apply (Rmult_eq_compat_r (t_change q k phis inc)) in H.
      unfold Rdiv in H. rewrite Rmult_assoc, Rinv_l in H by lra. lra. }
    rewrite H0. apply Rmax_l.
  - intros H. unfold t_change in *. rewrite Rmax_right by auto. field. lra.
Qed.

(** the mixing increment *)
Lemma increment_bound q k phis inc m :
  0 < q_ub q -> 0 < q_acc_J q -> (m < q_np q)%nat ->
  Rabs (t_factor q k phis inc * q_acc_J q * t_Jdiff q k phis inc m) <= q_ub q.
Proof.
  intros Hu Ha Hm. pose proof (t_change_pos q k phis inc Hu) as HC.
  pose proof (t_factor_range q k phis inc Hu) as [F0 F1].
  rewrite Rabs_mult, Rabs_pos_eq by nra.
  pose proof (t_maxJ_ge q k phis inc m Hm) as HM.
  assert (t_maxJ q k phis inc * q_acc_J q <= t_change q k phis inc) by apply Rmax_l.
  assert (E : t_factor q k phis inc * t_change q k phis inc = q_ub q).
  { unfold t_factor. field. lra. }
  rewrite <- E. rewrite Rmult_assoc. apply Rmult_le_compat_l; [lra|].
  eapply Rle_trans; [|exact H]. rewrite Rmult_comm. apply Rmult_le_compat_r; lra.
Qed.

Lemma t_J1_alive q k phis inc m : q_thr q < v_Js k m ->
  t_J1 q k phis inc m = v_Js k m + t_factor q k phis inc * q_acc_J q * t_Jdiff q k phis inc m.
Proof. intros H. unfold t_J1, t_J, t_masks. rewrite mask_alive by auto. lra. Qed.

Lemma t_J1_eq q k phis inc m :
  t_J1 q k phis inc m = t_J q k m + t_factor q k phis inc * q_acc_J q * t_Jdiff q k phis inc m.
Proof.
  unfold t_J1. rewrite Rmult_plus_distr_r, t_J_masked. f_equal.
  unfold t_Jdiff. rewrite !Rmult_assoc. unfold t_masks. rewrite mask_idem. reflexivity.
Qed.

(** the renormalisation shift *)
Lemma t_shift_eq q k phis inc :
  (0 < t_nv q k)%nat -> rsum (q_np q) (t_J q k) = INR (t_nv q k) ->
  t_shift q k phis inc =
  - rsum (q_np q) (fun m => t_factor q k phis inc * q_acc_J q * t_Jdiff q k phis inc m) / INR (t_nv q k).
Proof.
  intros Hv HS. unfold t_shift. rewrite (rsum_ext _ _ _ (fun m _ => t_J1_eq q k phis inc m)).
  rewrite rsum_plus, HS, t_n_eq. field. now apply INR_neq0.
Qed.

Lemma shift_bound q k phis inc :
  0 < q_ub q -> 0 < q_acc_J q ->
  (0 < t_nv q k)%nat -> rsum (q_np q) (t_J q k) = INR (t_nv q k) ->
  Rabs (t_shift q k phis inc) <= q_ub q.
Proof.
  intros Hu Ha Hv HS. rewrite t_shift_eq by auto.
  unfold Rdiv. rewrite Rabs_mult, Rabs_Ropp.
  pose proof (INR_pos _ Hv) as Hn.
  rewrite (Rabs_pos_eq (/ INR (t_nv q k))) by (apply Rlt_le, Rinv_0_lt_compat; auto).
  apply (Rmult_le_reg_r (INR (t_nv q k))); auto.
  rewrite Rmult_assoc, Rinv_l by lra. rewrite Rmult_1_r.
  eapply Rle_trans; [apply rsum_Rabs|].
  apply Rle_trans with (rsum (q_np q) (fun m => q_ub q * t_masks q k m)).
  - apply rsum_le. intros m Hm. unfold t_masks.
    pose proof (increment_bound q k phis inc m Hu Ha Hm) as HI.
    destruct (mask_cases (v_Js k) (q_thr q) m) as [[_ EM]|[_ EM]]; rewrite EM; [lra|].
    unfold t_Jdiff, t_masks. rewrite EM, Rmult_0_r, Rmult_0_r, Rabs_R0. lra.
  - rewrite rsum_scal_l. unfold t_masks. rewrite masks_sum. fold (t_nv q k). lra.
Qed.

(* ------------------------------------------------------------------ *)
(** * Field error *)

Lemma max_omega_diff_ge nf np d r m :
  (r < nf)%nat -> (m < np)%nat -> d r m <= max_omega_diff nf np d.
Proof.
  unfold max_omega_diff. induction nf; intros Hr Hm; [lia|]. rewrite for_S.
  destruct (Nat.eq_dec r nf) as [->|N].
  - eapply Rle_trans; [|apply Rmax_r]. now apply vmax_ge.
  - eapply Rle_trans; [|apply Rmax_l]. apply IHnf; lia.
Qed.

Lemma max_omega_diff_nonneg nf np d : 0 <= max_omega_diff nf np d.
Proof.
  unfold max_omega_diff. induction nf; [simpl; lra|]. rewrite for_S.
  eapply Rle_trans; [exact IHnf|apply Rmax_l].
Qed.

Lemma max_omega_diff_in nf np d : (0 < np)%nat ->
  max_omega_diff nf np d = 0 \/
  exists r m, (r < nf)%nat /\ (m < np)%nat /\ max_omega_diff nf np d = d r m.
Proof.
  intros Hn. unfold max_omega_diff. induction nf; [left; reflexivity|]. rewrite for_S.
  destruct (vmax_in np (d nf) Hn) as (m & Hm & E).
  destruct (Rle_dec (for_ nf (fun r acc => Rmax acc (vmax np (d r))) 0) (vmax np (d nf))).
  - rewrite Rmax_right by auto. right. exists nf, m. auto.
  - rewrite Rmax_left by lra. destruct IHnf as [H|(r & m' & Hr & Hm' & E')]; [auto|].
    right. exists r, m'. auto.
Qed.

(** The residuals of a compartment add up to coef * incompressibility. *)
Lemma t_diff_sum q k phis inc m :
  (0 < q_nf q)%nat -> q_thr q < v_Js k m ->
  rsum (q_nf q) (fun r => t_diff q k phis inc r m) =
  i_coef (q_inter q) (t_feat q k phis) m * inc m.
Proof.
  intros Hn HA. unfold t_diff, t_otemp, omega_temp_of.
  assert (EM : t_masks q k m = 1) by (unfold t_masks; now apply mask_alive).
  rewrite (rsum_ext _ _ (fun r => (t_pot q k phis r m - v_omegas k r m)
      + (lsum (t_cs q k phis) (fun o => pot_of o r m) + t_xi q k phis inc m))).
  2: { intros r _. rewrite EM. lra. }
  rewrite rsum_plus, rsum_plus, rsum_const. unfold t_xi at 1, xi_of. rewrite EM.
  rewrite <- lsum_rsum. rewrite !rsum_minus. field. now apply INR_neq0.
Qed.

Lemma t_diff_lower q k phis inc r m :
  (r < q_nf q)%nat -> (m < q_np q)%nat -> q_thr q < v_Js k m ->
  - (INR (q_nf q - 1) * max_omega_diff (q_nf q) (q_np q) (t_diff q k phis inc)
     + Rabs (i_coef (q_inter q) (t_feat q k phis) m) * vmax (q_np q) (fun m => Rabs (inc m)))
  <= t_diff q k phis inc r m.
Proof.
  intros Hr Hm HA. pose proof (t_diff_sum q k phis inc m ltac:(lia) HA) as S.
  rewrite (rsum_remove _ _ r Hr) in S.
  set (E := max_omega_diff (q_nf q) (q_np q) (t_diff q k phis inc)) in *.
  assert (rsum (q_nf q) (fun i => if Nat.eqb i r then 0 else t_diff q k phis inc i m)
          <= INR (q_nf q - 1) * E).
  { apply Rle_trans with (rsum (q_nf q) (fun i => if Nat.eqb i r then 0 else E)).
    - apply rsum_le. intros i Hi. destruct (Nat.eqb i r); [lra|]. now apply max_omega_diff_ge.
    - right. rewrite minus_INR by lia. simpl.
      pose proof (rsum_remove _ (fun _ => E) r Hr) as HR. rewrite rsum_const in HR. lra. }
  assert (- (Rabs (i_coef (q_inter q) (t_feat q k phis) m) * vmax (q_np q) (fun m => Rabs (inc m)))
          <= i_coef (q_inter q) (t_feat q k phis) m * inc m).
  { pose proof (vmax_ge (q_np q) (fun m => Rabs (inc m)) m Hm) as HI. simpl in HI.
    set (c := i_coef (q_inter q) (t_feat q k phis) m) in *.
    assert (Rabs (c * inc m) <= Rabs c * vmax (q_np q) (fun m => Rabs (inc m))).
    { rewrite Rabs_mult. apply Rmult_le_compat_l; [apply Rabs_pos|auto]. }
    revert H0. unfold Rabs at 1. destruct (Rcase_abs _); lra. }
  lra.
Qed.

End Bounds.
