(** WitnessGauge.v -- concrete cases for PropertiesGauge.v. *)

From Coquelicot Require Import Coquelicot.
From Coq Require Import Reals Lra Lia List Bool Arith ZArith FunctionalExtensionality.
From Verif Require Import Base ModelCommon ModelParts ModelKernel ModelPhases ModelFinder ProofsKernel ProofsParts ProofsSteps
  ProofsRun ProofsRun2 ModelFreeEnergy ProofsFreeEnergy Spec Examples PropertiesKernel PropertiesRun PropertiesFreeEnergy
  PropertiesConstraints ProofsEquilibrium PropertiesEquilibrium PropertiesFeatures PropertiesGauge WitnessEquilibrium.
Import ListNotations.
Open Scope R_scope.

(** The demixed blend with chi_00 = 2, chi_11 = -4 and chi_01 = 2 ln 3 - 1. *)
Definition tilt : vec := fun i => if Nat.eqb i 0 then 1 else - 2.
Definition tilted_chi : mat := fun i j => sym_chi i j + tilt i + tilt j.
Definition tilted_q : kernel :=
  {| q_inter := fh_compile 2 tilted_chi (1 / 10); q_entropy := ig_compiled 2 sym_sizes; q_ensemble := can_compiled 2 (fun _ => 1 / 2);
     q_nf := 2; q_np := 2; q_acc_J := 1 / 5000; q_ub := 1 / 1000; q_acc_w := 1 / 500; q_thr := 1 / 10; q_scaler := 1 |}.
Definition tilted_k : kstate nat cstate :=
  {| v_omegas := fun i m => v_omegas sym_k i m + tilt i; v_Js := fun _ => 1;
     v_phis_comp := fun _ _ => 0; v_phis_feat := fun _ _ => 0; v_cons := [new_cons (no_class 2)]; v_g := 0%nat |}.

Example case_C67 : exists k' nv rep, iterate tilted_q tilted_k = Ok (k', nv, rep) /\
  e_incomp rep = 0 /\ e_omega rep = 0 /\ e_Js rep = 0 /\ v_phis_comp k' 0%nat 0%nat = 3 / 4 /\ v_phis_comp k' 0%nat 1%nat = 1 / 4.
Proof.
  destruct case_C12_stationary as (k' & nv & rep & H & E1 & E2 & E3 & E4).
  destruct (C67_step (G := nat) (sym_q (1/10)) tilted_q 2 2 (fun i => i) sym_chi tilted_chi (1/10) (1/10) sym_sizes (fun _ => 1/2) (fun _ => 1/2) tilt)
    with (k1 := sym_k) (k2 := tilted_k) (k1' := k') (nv1 := nv) (rep1 := rep) as (k2' & rep2 & A1 & A2 & A3 & A4 & A5 & _);
    auto; try (cbn; lra); try now constructor.
  - apply sym_idle.
  - exists k2', nv, rep2. split; [exact A1|]. split; [exact A2|]. split; [congruence|]. split; [congruence|].
    rewrite !A5, !E4 by lia. split; reflexivity.
Qed.

(** The same blend with sizes 3 and chi divided by 3. *)
Definition small_q : kernel :=
  {| q_inter := fh_compile 2 (fun r s => ex_chi r s / 3) (1 / 10 / 3); q_entropy := ig_compiled 2 (fun i => 3 * ex_sizes i);
     q_ensemble := can_compiled 2 ex_means;
     q_nf := 2; q_np := 4; q_acc_J := 3 * (1 / 5000); q_ub := 1 / 1000; q_acc_w := 1 / 500; q_thr := 1 / 10; q_scaler := 1 |}.
Definition large_q : kernel :=
  {| q_inter := fh_compile 2 ex_chi (1 / 10); q_entropy := ig_compiled 2 ex_sizes; q_ensemble := can_compiled 2 ex_means;
     q_nf := 2; q_np := 4; q_acc_J := 1 / 5000; q_ub := 1 / 1000; q_acc_w := 1 / 500; q_thr := 1 / 10; q_scaler := 1 |}.
Definition large_k : kstate nat cstate := ex_k 4 (fun m => if Nat.eqb m 0 then 0 else 4 / 3) 0.
Definition small_k : kstate nat cstate :=
  {| v_omegas := fun r m => v_omegas large_k r m / 3; v_Js := v_Js large_k;
     v_phis_comp := v_phis_comp large_k; v_phis_feat := v_phis_feat large_k; v_cons := v_cons large_k; v_g := v_g large_k |}.

(** One compartment is dead, so the first step revives. *)
Example case_C68 n : exists w1 w2, steps ops0 large_q 100 n (start large_k) = Ok w1 /\ steps ops0 small_q 100 n (start small_k) = Ok w2 /\
  v_Js (w_k w2) = v_Js (w_k w1) /\ w_count w2 = w_count w1 /\
  ((n > 0)%nat -> forall i m, (i < 2)%nat -> v_phis_comp (w_k w2) i m = v_phis_comp (w_k w1) i m).
Proof.
  destruct (steps_total ops0 large_q 100 n (start large_k)) as (w1 & H1 & _).
  { eapply builtin_total_ig_can; reflexivity. }
  { cbn; lra. }
  { cbn; lra. }
  { exists 1%nat. split; [cbn; lia|]. unfold alive; cbn; lra. }
  destruct (C68_steps (G := nat) large_q small_q 2 2 (fun i => i) ex_chi (fun r s => ex_chi r s / 3) (1/10) (1/10/3) ex_sizes (fun i => 3 * ex_sizes i) ex_means 3)
    with (ops := ops0) (tries := 100%Z) (n := n) (k1 := large_k) (k2 := small_k) (w1 := w1) as (w2 & H2 & (S1 & _) & C2 & _ & S2);
    auto; try (cbn; lra); try now constructor.
  - intros i _. unfold ex_sizes. destruct (Nat.eqb i 0); lra.
  - constructor; [|constructor]. split; [exists 2%nat; reflexivity|]. split; reflexivity.
  - exists w1, w2. repeat (split; [assumption|]). intros Hn. destruct (S2 Hn) as (_ & _ & _ & _ & S3 & _). exact S3.
Qed.
