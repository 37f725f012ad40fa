(** WitnessKernel.v -- concrete states refuting documented claims
    (C07, C08, C09, C13). *)

From Coq Require Import String Reals Lra Lia List Bool Arith ZArith.
From Verif Require Import Base ModelCommon ModelParts ModelKernel ModelPhases ModelFinder
  ProofsKernel ProofsParts ProofsSteps ProofsBounds ProofsCopy ProofsRun Spec Examples PropertiesKernel.
Import ListNotations.
Open Scope R_scope.

(** A one-component, interaction-free system: its local energies are
    -phi - omega in every living compartment. *)
Definition q1 (np : nat) (n : ensemble) (acc_J ub acc_w thr : R) : kernel :=
  {| q_inter := fh_compile 1 (fun _ _ => 0) 0; q_entropy := ig_compiled 1 (fun _ => 1);
     q_ensemble := n; q_nf := 1; q_np := np; q_acc_J := acc_J; q_ub := ub; q_acc_w := acc_w;
     q_thr := thr; q_scaler := 1 |}.

Definition k1 {G} (w J : vec) (g : G) : kstate G cstate :=
  {| v_omegas := fun _ m => w m; v_Js := J; v_phis_comp := fun _ _ => 0; v_phis_feat := fun _ _ => 0;
     v_cons := [new_cons (no_class 1)]; v_g := g |}.

Section One.
Context {G : Type}.
Variables (np : nat) (n : ensemble) (acc_J ub acc_w thr : R) (k : kstate G cstate).
Hypothesis Hcons : v_cons k = [new_cons (no_class 1)].
Notation q := (q1 np n acc_J ub acc_w thr).

Lemma one_feat phis m : t_feat q k phis 0%nat m = phis 0%nat m.
Proof. reflexivity. Qed.

Lemma one_pot phis r m : t_pot q k phis r m = 0.
Proof. unfold t_pot. simpl. lra. Qed.

Lemma one_xi phis inc m : t_xi q k phis inc m = v_omegas k 0%nat m * t_masks q k m.
Proof.
  unfold t_xi, xi_of, t_cs. rewrite Hcons. simpl. rewrite one_pot.
  unfold mat_sum, mat_min, pot_of; simpl. field.
Qed.

Lemma one_le phis inc m :
  t_le q k phis inc m = - phis 0%nat m + v_omegas k 0%nat m * t_masks q k m * (inc m - phis 0%nat m).
Proof.
  unfold t_le, local_energy_of, t_otemp, omega_temp_of. rewrite one_xi.
  unfold t_cs. rewrite Hcons. simpl. rewrite !one_pot, one_feat.
  unfold pot_of, vd_of, ig_vd; simpl. field.
Qed.

Lemma one_diff phis inc m : t_diff q k phis inc 0%nat m = 0.
Proof.
  unfold t_diff, t_otemp, omega_temp_of. rewrite one_xi, one_pot. unfold t_cs. rewrite Hcons. simpl.
  unfold pot_of; simpl. unfold t_masks. destruct (mask_cases (v_Js k) (q_thr q) m) as [[_ E]|[_ E]];
  simpl in *; rewrite E; lra.
Qed.
End One.

(** C09 as documented is violated: the volume change exceeds the bound. *)
Definition w9 : vec := fun m => if Nat.eqb m 2 then - ln 9 else 0.
Definition J9 : vec := fun m => if Nat.eqb m 2 then 3/2 else 3/4.
Definition ub9 : R := (ln 9 - 8/5) / 2.

Lemma ln9 : 2 <= ln 9.
Proof.
  replace 9 with (3 * 3) by lra. rewrite ln_mult by lra.
  assert (1 <= ln 3); [|lra].
  destruct (Rle_lt_or_eq_dec _ _ exp_le_3) as [H|H].
  - left. rewrite <- (ln_exp 1). apply ln_increasing; [apply exp_pos|auto].
  - rewrite <- H, ln_exp. lra.
Qed.

Theorem C09_documented_bound_refuted :
  exists (q : kernel) (k k' : kstate nat cstate) nv rep m,
    0 < q_ub q /\ 0 < q_acc_J q /\
    rsum (q_np q) (living (q_thr q) (v_Js k)) = INR (num_alive (q_np q) (q_thr q) (v_Js k)) /\
    iterate q k = Ok (k', nv, rep) /\
    (m < q_np q)%nat /\ alive (q_thr q) (v_Js k) m /\
    q_ub q < Rabs (v_Js k' m - v_Js k m).
Proof.
  pose proof ln9 as L9.
  set (q := q1 3 (can_compiled 1 (fun _ => 1)) 1 ub9 1 0).
  set (k := k1 w9 J9 O).
  assert (HA : forall m, 0 < J9 m) by (intros m; unfold J9; destruct (Nat.eqb m 2); lra).
  destruct (iterate_total q k) as (k' & nv & rep & E).
  { eapply builtin_total_ig_can; reflexivity. }
  { simpl; lra. }
  { simpl. unfold ub9. lra. }
  { exists O. split; [simpl; lia|]. apply HA. }
  exists q, k, k', nv, rep, 2%nat.
  split; [simpl; unfold ub9; lra|]. split; [simpl; lra|].
  assert (HN : num_alive (q_np q) (q_thr q) (v_Js k) = 3%nat).
  { rewrite num_alive_ncount. apply ncount_all. intros m _. apply Rltb_true. apply HA. }
  split. { rewrite HN. simpl. unfold living, J9. simpl. repeat destruct (Rlt_dec _ _); try lra. }
  split; [exact E|]. split; [simpl; lia|]. split; [apply HA|].
  apply iterate_inv in E. destruct E as (p0 & Q & phis & inc & HP & HC & F).
  apply ig_partition_spec in HP. destruct HP as (HS & HB & HQ).
  apply can_normalize_spec in HC. destruct HC as (_ & HC & HI).
  assert (HM : forall m, t_masks q k m = 1) by (intros m; unfold t_masks; apply mask_alive; apply HA).
  assert (HJ : forall m, t_J q k m = J9 m) by (intros m; unfold t_J; rewrite HM; simpl; lra).
  assert (B0 : boltzmann 0 1 = 1) by (unfold boltzmann; replace (-0*1) with 0 by lra; apply exp_0).
  assert (B9 : boltzmann (- ln 9) 1 = 9).
  { unfold boltzmann. replace (- - ln 9 * 1) with (ln 9) by lra. apply exp_ln. lra. }
  assert (Q5 : Q 0%nat = 5).
  { rewrite HQ by lia. unfold ig_Q. simpl. rewrite !HJ. unfold w9, J9. simpl. rewrite B0, B9. lra. }
  assert (P : forall m, phis 0%nat m = if Nat.eqb m 2 then 9/5 else 1/5).
  { intros m. rewrite HC by lia. rewrite HB by lia. rewrite HM, Q5. simpl. unfold w9.
    destruct (Nat.eqb m 2); [rewrite B9|rewrite B0]; lra. }
  assert (LE : forall m, t_le q k phis inc m = if Nat.eqb m 2 then - (9/5) + ln 9 else - (1/5)).
  { intros m. unfold q. rewrite one_le by reflexivity. fold q. rewrite HM, HI. unfold row_incomp. rewrite HM.
    simpl. rewrite P. unfold w9. destruct (Nat.eqb m 2); lra. }
  assert (N3 : t_n q k = 3).
  { rewrite t_n_eq. unfold t_nv, count_valid. rewrite <- num_alive_ncount, HN. simpl. lra. }
  assert (MEAN : t_mean q k phis inc = - (1/5) + ub9).
  { unfold t_mean. rewrite N3. simpl. rewrite !HJ, !LE. unfold J9, ub9. simpl. lra. }
  assert (DJ : forall m, t_Jdiff q k phis inc m = if Nat.eqb m 2 then - ub9 else ub9).
  { intros m. unfold t_Jdiff. rewrite HM, MEAN, LE. unfold ub9. destruct (Nat.eqb m 2); lra. }
  assert (U : 0 < ub9) by (unfold ub9; lra).
  assert (FAC : t_factor q k phis inc = 1).
  { apply t_factor_one; [exact U|]. simpl.
    assert (t_maxJ q k phis inc <= ub9).
    { unfold t_maxJ. apply vmax_le; [simpl; lia|]. intros m _. rewrite DJ.
      destruct (Nat.eqb m 2); [rewrite Rabs_Ropp|]; rewrite Rabs_pos_eq; lra. }
    lra. }
  rewrite (if_Js F). rewrite t_J2_eq, HM, t_J1_alive by apply HA.
  rewrite t_shift_eq; [|apply (if_nv_pos F)|].
  2: { rewrite (rsum_ext _ _ _ (fun m _ => HJ m)). unfold t_nv, count_valid.
       rewrite <- num_alive_ncount, HN. simpl. unfold J9. simpl. lra. }
  rewrite (rsum_ext _ _ (fun m => if Nat.eqb m 2 then - ub9 else ub9)).
  2: { intros m _. rewrite FAC, DJ. simpl. lra. }
  rewrite FAC, DJ. unfold t_nv, count_valid. rewrite <- num_alive_ncount, HN. simpl.
  match goal with |- _ < Rabs ?x => replace x with (- (4/3 * ub9)) by (simpl; lra) end.
  rewrite Rabs_Ropp, Rabs_pos_eq by lra. lra.
Qed.

(* ------------------------------------------------------------------ *)
(** C13 as documented ("max absolute conjugate field error") is violated: the
    field changes by more than acceptance * reported error although the damping
    factor is at most one (C10) and the incompressibility error is zero. *)
Definition q13 : kernel :=
  {| q_inter := fh_compile 3 (fun _ _ => 0) 0; q_entropy := ig_compiled 3 (fun _ => 1);
     q_ensemble := can_compiled 3 (fun _ => 1/3); q_nf := 3; q_np := 1; q_acc_J := 1; q_ub := 1;
     q_acc_w := 1; q_thr := 0; q_scaler := 1 |}.
Definition k13 : kstate nat cstate :=
  {| v_omegas := fun r _ => if Nat.eqb r 2 then 3 else 0; v_Js := fun _ => 1;
     v_phis_comp := fun _ _ => 0; v_phis_feat := fun _ _ => 0;
     v_cons := [new_cons (no_class 3)]; v_g := O |}.

Theorem C13_documented_error_refuted :
  exists (q : kernel) (k k' : kstate nat cstate) nv rep r m,
    0 < q_acc_w q /\ 0 < q_ub q /\ iterate q k = Ok (k', nv, rep) /\
    (r < q_nf q)%nat /\ (m < q_np q)%nat /\ alive (q_thr q) (v_Js k) m /\
    e_incomp rep = 0 /\
    q_acc_w q * e_omega rep < Rabs (v_omegas k' r m - v_omegas k r m).
Proof.
  destruct (iterate_total q13 k13) as (k' & nv & rep & E).
  { eapply builtin_total_ig_can; reflexivity. }
  { simpl; lra. }
  { simpl; lra. }
  { exists O. simpl. split; [lia|lra]. }
  exists q13, k13, k', nv, rep, 2%nat, 0%nat.
  split; [simpl; lra|]. split; [simpl; lra|]. split; [exact E|].
  split; [simpl; lia|]. split; [simpl; lia|]. split; [unfold alive; simpl; lra|].
  apply iterate_inv in E. destruct E as (p0 & Q & phis & inc & HP & HC & F).
  apply ig_partition_spec in HP. destruct HP as (HS & HB & HQ).
  apply can_normalize_spec in HC. destruct HC as (HQ0 & HC & HI).
  assert (HM : forall m, t_masks q13 k13 m = 1) by (intros m; unfold t_masks; apply mask_alive; simpl; lra).
  assert (HJ : forall m, t_J q13 k13 m = 1) by (intros m; unfold t_J; rewrite HM; simpl; lra).
  assert (HQ' : forall i, (i < 3)%nat -> Q i = p0 i 0%nat).
  { intros i Hi. rewrite HQ, HB by auto. unfold ig_Q. simpl. rewrite HJ. lra. }
  assert (P : forall i, (i < 3)%nat -> phis i 0%nat = 1/3).
  { intros i Hi. rewrite HC by auto. rewrite HM, <- HQ' by auto. field. now apply HQ0. }
  assert (INC : inc 0%nat = 0).
  { rewrite HI. unfold row_incomp. simpl. rewrite !P by lia. lra. }
  assert (POT : forall r, t_pot q13 k13 phis r 0%nat = 0) by (intros; unfold t_pot; simpl; lra).
  assert (XI : t_xi q13 k13 phis inc 0%nat = 1).
  { unfold t_xi, xi_of. rewrite HM, INC. simpl. rewrite !POT. unfold pot_of; simpl. lra. }
  assert (D : forall r, t_diff q13 k13 phis inc r 0%nat = if Nat.eqb r 2 then -2 else 1).
  { intros r. unfold t_diff, t_otemp, omega_temp_of. rewrite HM, POT, XI. simpl.
    unfold pot_of; simpl. destruct (Nat.eqb r 2); lra. }
  assert (FAC : t_factor q13 k13 phis inc = 1).
  { apply t_factor_one; [simpl; lra|]. simpl. unfold t_maxJ. simpl. unfold t_Jdiff, t_mean.
    rewrite t_n_eq. replace (t_nv q13 k13) with 1%nat.
    - simpl. rewrite HJ, HM.
      match goal with |- Rabs ?x * 1 <= 1 => replace x with 0 by field end. rewrite Rabs_R0. lra.
    - symmetry. unfold t_nv, count_valid. apply ncount_all. intros. apply Rltb_true. simpl. lra. }
  split.
  - rewrite (if_e_incomp F). simpl. rewrite INC. apply Rabs_R0.
  - rewrite (if_e_omega F), (if_omegas F). unfold t_omegas. rewrite HM, FAC, D.
    unfold max_omega_diff. simpl. rewrite !D. simpl.
    rewrite (Rmax_right 0 1) by lra. rewrite (Rmax_left 1 1) by lra. rewrite Rmax_left by lra.
    match goal with |- _ < Rabs ?x => replace x with (Ropp 2) by lra end.
    rewrite Rabs_Ropp, Rabs_pos_eq; lra.
Qed.

(* ------------------------------------------------------------------ *)
(** C08: for a positive threshold the donors can be exhausted. *)
Theorem C08_donors_can_be_exhausted :
  exists np J t thr, 0 < thr /\ (exists m, (m < np)%nat /\ alive thr J m) /\
    revive_by_copy ops0 np J t thr O = Err DonorsExhausted.
Proof.
  exists 3%nat, (fun m => if Nat.eqb m 0 then 5/2 else 0), (fun _ _ => 0), 1.
  split; [lra|]. split; [exists O; split; [lia|unfold alive; simpl; lra]|].
  unfold revive_by_copy, classify. simpl.
  assert (R1 : Rltb (2 * 1) (5/2) = true) by (apply Rltb_true; lra).
  assert (R2 : Rltb (2 * 1) 0 = false) by (apply Rltb_false; lra).
  assert (R3 : Rleb 0 1 = true) by (apply Rleb_true; lra).
  rewrite R1, R2, R3. simpl. unfold copy_one. simpl. rewrite R1. simpl.
  assert (R4 : Rltb (2 * 1) (1 / 2 * (5 / 2)) = false) by (apply Rltb_false; lra).
  unfold upd. simpl. rewrite R4. reflexivity.
Qed.

(** C07: the total over all compartments (dead ones included) is not conserved,
    against the documentation of the function. *)
Theorem C07_total_including_dead_refuted :
  exists np J t thr n J' t' g', 0 <= thr /\
    revive_by_copy ops0 np J t thr O = Ok (n, J', t', g') /\ rsum np J' <> rsum np J.
Proof.
  exists 2%nat, (fun m => if Nat.eqb m 0 then 1 else 1/10), (fun _ _ => 0), (1/5).
  set (J := fun m => if Nat.eqb m 0 then 1 else 1/10).
  assert (HL : rsum 2 (living (1/5) J) = 1).
  { unfold living, J. simpl. repeat destruct (Rlt_dec _ _); lra. }
  destruct (C08_copy_succeeds ops0 2 J (fun _ _ => 0) (1/5) O ops0_contract) as (n & J' & t' & g' & E).
  { lra. }
  { rewrite HL. simpl. lra. }
  exists n, J', t', g'. split; [lra|]. split; [exact E|].
  apply C07_copy_conserves in E; [|apply ops0_contract|lra].
  destruct E as (_ & _ & _ & E & _). rewrite E, HL. unfold J. simpl. lra.
Qed.
