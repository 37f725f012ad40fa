(** WitnessFeatures.v -- concrete cases for PropertiesFeatures.v. *)

From Coquelicot Require Import Coquelicot.
From Coq Require Import Reals Lra Lia List Bool Arith ZArith.
From Verif Require Import Base ModelCommon ModelParts ModelKernel ModelObjects ProofsKernel ProofsParts ProofsSteps
  ModelFreeEnergy ProofsFreeEnergy Spec PropertiesKernel PropertiesFreeEnergy
  PropertiesConstraints ProofsEquilibrium PropertiesEquilibrium PropertiesFeatures WitnessEquilibrium.
Import ListNotations.
Open Scope R_scope.

(** Two components of feature 0 and one of feature 1. *)
Definition two_one (r : nat) : nat := if Nat.eqb r 0 then 2%nat else 1%nat.
Lemma two_one_pos r : (r < 2)%nat -> (1 <= two_one r)%nat.
Proof. intros _. unfold two_one. destruct (Nat.eqb r 0); lia. Qed.

Example case_C39 : forall old,
  s_comp_to_feat (pg_compiled 3 2 two_one (fun _ => 1)) old (fun i _ => INR i + 1) 0%nat 0%nat = 3 /\
  s_comp_to_feat (pg_compiled 3 2 two_one (fun _ => 1)) old (fun i _ => INR i + 1) 1%nat 0%nat = 3.
Proof.
  intros old. split; rewrite C39_feature_sums by (try apply two_one_pos; lia); cbn; lra.
Qed.

(** A block interaction with chi = 3 between the features. *)
Definition block_chi : nd := {| nd_shape := [2; 2]%nat; nd_at := fun l => if Nat.eqb (nth 0 l O) (nth 1 l O) then 0 else 3 |}.

Lemma block_close : allclose_T 2 (mat_of_nd block_chi) = true.
Proof.
  unfold allclose_T. apply Nat.eqb_eq. apply ncount_none. intros i Hi. apply negb_false_iff. apply Nat.eqb_eq. apply ncount_none. intros j Hj.
  apply negb_false_iff. unfold Rleb. destruct (Rle_dec _ _) as [|N]; [reflexivity|]. exfalso. apply N. clear N.
  unfold mat_of_nd, block_chi. cbn [nd_at nth]. rewrite (Nat.eqb_sym j i). rewrite Rminus_diag_eq by reflexivity. rewrite Rabs_R0.
  pose proof (Rabs_pos (if Nat.eqb i j then 0 else 3)). lra.
Qed.

Example case_C38 s : exists s' o, block_new s 2 block_chi [2; 1]%nat = Ok (s', o) /\
  int_energy 3 (z_at (st_cell s' (bo_chis o))) (fun i => if Nat.eqb i 2 then 1 / 2 else 1 / 4) = Fin (3 / 4).
Proof.
  assert (B : exists b, convert_and_broadcast block_chi [2; 2]%nat = Ok b /\ mat_of_nd b = mat_of_nd block_chi).
  { eexists. split; reflexivity. }
  destruct B as (b & EB & HB).
  assert (E : exists s' o, block_new s 2 block_chi [2; 1]%nat = Ok (s', o) /\
    bo_nc o = 3%nat /\ bo_nf o = 2%nat /\ z_at (st_cell s' (bo_feat o)) = symmetrize (mat_of_nd block_chi)).
  { unfold block_new. cbn [length Nat.eqb negb]. rewrite EB. cbn [bind]. rewrite HB, block_close. cbn [bind alloc].
    do 2 eexists. split; [reflexivity|]. cbn. split; [reflexivity|]. split; [reflexivity|]. unfold upd.
    destruct (Nat.eqb_spec (st_next s) (S (st_next s))); [lia|]. now rewrite Nat.eqb_refl. }
  destruct E as (s' & o & E & E1 & E2 & E3). exists s', o. split; [exact E|].
  destruct (C38_energy_and_jacobian s 2 block_chi [2; 1]%nat s' o 1 (fun i => if Nat.eqb i 2 then 1 / 2 else 1 / 4) E) as [H _].
  rewrite E1, E2, E3 in H. rewrite H. f_equal. cbn. unfold symmetrize, mat_of_nd, block_chi. cbn. field.
Qed.

(* ------------------------------------------------------------------ *)
(** ** C40: the demixed blend with a polydisperse first feature *)

Definition tri_means : vec := fun i => if Nat.eqb i 2 then 1 / 2 else 1 / 4.
Definition tri_phi (i m : nat) : R := if Nat.eqb i 2 then sym_phi 1 m else sym_phi 0 m / 2.
Definition tri_mu : vec := fun i => if Nat.eqb i 2 then sym_mu 0%nat else sym_mu 0%nat - ln 2.
Definition tri_rho := feature_of 2 two_one.
Definition tri_chi : mat := fun i j => sym_chi (tri_rho i) (tri_rho j).

Definition tri_q : kernel :=
  {| q_inter := fh_compile 2 sym_chi (1 / 10); q_entropy := pg_compiled (nsum 2 two_one) 2 two_one sym_sizes; q_ensemble := can_compiled (nsum 2 two_one) tri_means;
     q_nf := 2; q_np := 2; q_acc_J := 1 / 5000; q_ub := 1 / 1000; q_acc_w := 1 / 500; q_thr := 1 / 10; q_scaler := 1 |}.
(** fields per component and per feature *)
Definition tri_full : kstate nat cstate :=
  {| v_omegas := fun i m => tri_mu i - 1 / 1 - ln (tri_phi i m) / 1; v_Js := fun _ => 1;
     v_phis_comp := fun _ _ => 0; v_phis_feat := fun _ _ => 0; v_cons := [new_cons (no_class 3)]; v_g := 0%nat |}.
Definition tri_poly : kstate nat cstate :=
  {| v_omegas := fun r m => v_omegas tri_full (if Nat.eqb r 0 then 0 else 2)%nat m; v_Js := fun _ => 1;
     v_phis_comp := fun _ _ => 0; v_phis_feat := fun _ _ => 0; v_cons := [new_cons (no_class 2)]; v_g := 0%nat |}.

Lemma tri_phi_pos i m : 0 < tri_phi i m.
Proof. unfold tri_phi. destruct (Nat.eqb i 2); pose proof (sym_phi_pos 0 m); pose proof (sym_phi_pos 1 m); lra. Qed.

Lemma tri_wf : wf_fe (fe_of 3 (fun i => i) tri_chi sym_sizes).
Proof. split; cbn; intros; [unfold sym_sizes; lra|]. unfold tri_chi, sym_chi. now rewrite Nat.eqb_sym. Qed.

Lemma tri_potentials m : (m < 2)%nat -> potentials (fe_of 3 (fun i => i) tri_chi sym_sizes) (fun i => tri_phi i m) tri_mu.
Proof.
  intros Hm. eapply potentials_ext; [|apply potentials_mu; [apply tri_wf|intros; apply tri_phi_pos]].
  intros i Hi. cbn in Hi. unfold mu_of, fh, dfh. cbn [fe_nc fe_of fe_chis fe_sizes rsum].
  assert (L4 : ln 4 = 2 * ln 2) by (replace 4 with (2 * 2) by ring; rewrite ln_mult by lra; ring).
  assert (L1 : ln (3 / 4) = ln 3 - 2 * ln 2) by (rewrite ln_div by lra; now rewrite L4).
  assert (L2 : ln (1 / 4) = - (2 * ln 2)) by (rewrite ln_div by lra; rewrite ln_1, L4; ring).
  assert (L3 : ln (3 / 4 / 2) = ln 3 - 3 * ln 2) by (rewrite ln_div by lra; rewrite L1; ring).
  assert (L5 : ln (1 / 4 / 2) = - (3 * ln 2)) by (rewrite ln_div by lra; rewrite L2; ring).
  destruct m as [|[|?]]; [| |lia]; destruct i as [|[|[|?]]]; try lia; cbn; unfold tri_chi, tri_rho, sym_chi, sym_sizes, tri_mu, sym_mu, tri_phi, sym_phi; cbn;
    rewrite ?L1, ?L2, ?L3, ?L5, ?L4; field.
Qed.

Example case_C40 : no_residual (full_system tri_q 3 tri_rho sym_chi 0 sym_sizes) tri_full /\ no_residual tri_q tri_poly.
Proof.
  assert (HF : no_residual (full_system tri_q 3 tri_rho sym_chi 0 sym_sizes) tri_full).
  { destruct (C12_coexistence_stationary (full_system tri_q 3 tri_rho sym_chi 0 sym_sizes) tri_full 3 tri_chi 0 sym_sizes tri_means tri_phi tri_mu)
      as (k' & nv & rep & H & E1 & E2 & E3 & _); try reflexivity.
    - split; [lia|]. split; [intros; unfold tri_chi, sym_chi; now rewrite Nat.eqb_sym|]. split; intros i _; unfold sym_sizes, tri_means; [lra|].
      destruct (Nat.eqb i 2); lra.
    - cbn; lra.
    - cbn; lra.
    - constructor; [|constructor]. split; [exists 3%nat; reflexivity|]. split; reflexivity.
    - exists 0%nat. split; [cbn; lia|]. unfold alive; cbn; lra.
    - intros m Hm _. cbn in Hm. split; [intros; apply tri_phi_pos|]. split; [|split].
      + destruct m as [|[|?]]; [| |lia]; cbn; unfold tri_phi, sym_phi; cbn; lra.
      + now apply tri_potentials.
      + intros i Hi. reflexivity.
    - intros i Hi. unfold wmean, living. cbn. destruct (Rlt_dec (1/10) 1); [|lra].
      destruct i as [|[|[|?]]]; try lia; unfold tri_phi, sym_phi, tri_means; cbn; field.
    - exists k', nv, rep. auto. }
  split; [exact HF|].
  apply (C40_same_zero_states tri_q tri_poly tri_full 2 two_one sym_chi (1/10) 0 sym_sizes tri_means); auto; try reflexivity.
  - apply two_one_pos.
  - now left.
  - cbn; lra.
  - cbn; lra.
  - constructor; [|constructor]. split; [exists 2%nat; reflexivity|]. split; reflexivity.
  - constructor; [|constructor]. split; [exists 3%nat; reflexivity|]. split; reflexivity.
  - split; [reflexivity|]. intros i m Hi. cbn in Hi. destruct i as [|[|[|?]]]; try lia; reflexivity.
Qed.
