(** WitnessRelax.v -- concrete cases for PropertiesRelax.v. *)

From Coq Require Import Reals Lra Lia List Bool Arith ZArith.
From Verif Require Import Base ModelCommon ModelParts ModelKernel ModelPhases ModelFinder ProofsKernel ProofsParts ProofsSteps
  ProofsRun ProofsRun2 ProofsBounds Spec Examples PropertiesKernel PropertiesRun
  PropertiesConstraints ProofsEquilibrium PropertiesEquilibrium PropertiesRelax WitnessConsistency.
Import ListNotations.
Open Scope R_scope.

(** The demixing blend with chi = 3 and fields that differ by one. *)
Example case_C90_bounded : exists w E,
  steps ops0 (kernel_of (ex_finder 2 (fun _ => 1) 0 0)) 0 1 (start (ex_k 2 (fun _ => 1) 0)) = Ok w /\
  forall m, (m < 2)%nat -> alive 0 (v_Js (w_k w)) m ->
    Rabs (v_omegas (w_k w) 0%nat m - v_omegas (w_k w) 1%nat m) <= Rmax 1 (3 * (1 + E)).
Proof.
  destruct (ex_iterate 2 (fun _ => 1) 0 0) as (k' & nv & rep & H); [lra|exists 0%nat; split; [lia|lra]|].
  assert (ES : steps ops0 (kernel_of (ex_finder 2 (fun _ => 1) 0 0)) 0 1 (start (ex_k 2 (fun _ => 1) 0)) =
    Ok {| w_k := k'; w_count := 0; w_valid := nv; w_rep := Some rep |}).
  { cbn [steps bind]. unfold one_step. rewrite no_revival by lia. cbn [start w_k w_count]. now rewrite H. }
  eexists. exists (e_incomp rep). split; [exact ES|]. intros m Hm HA.
  eapply (C90_bounded ops0 (kernel_of (ex_finder 2 (fun _ => 1) 0 0)) 0 1 (ex_k 2 (fun _ => 1) 0) _ 2 2 (fun i => i)
    ex_chi 0 ex_sizes ex_means 3 1 (e_incomp rep)); [now constructor|now left| | |cbn; lra|cbn; lra|cbn; lra|lia| | |exact ES| |exact Hm|lia|lia|exact HA].
  - intros; unfold ex_means; lra.
  - constructor; [|constructor]. split; [exists 2%nat; reflexivity|]. split; reflexivity.
  - intros r s t _ _ _. unfold ex_chi. destruct (Nat.eqb r t), (Nat.eqb s t); unfold Rabs; destruct (Rcase_abs _); lra.
  - intros m' r s _ _ _ _. cbn. destruct (Nat.eqb r m'), (Nat.eqb s m'); unfold Rabs; destruct (Rcase_abs _); lra.
  - intros j wj rp Hj Hs Hr. destruct j as [|[|j]]; [|  |lia].
    + injection Hs as <-. discriminate.
    + rewrite ES in Hs. injection Hs as <-. injection Hr as <-. lra.
Qed.

(** An ideal mixture: ten steps of a run, the difference of one shrinks. *)
Definition ideal_finder : finder nat cstate :=
  {| f_inter := fh_compile 2 (fun _ _ => 0) 0; f_entropy := ig_compiled 2 ex_sizes;
     f_ensemble := can_compiled 2 ex_means; f_nc := 2; f_nf := 2; f_np := 2;
     f_par := ex_par 0 0; f_kwargs := [];
     f_k := ex_k 2 (fun _ => 1) 0; f_left := 0; f_diag := None |}.

Lemma ideal_idle : Forall idle (v_cons (f_k ideal_finder)).
Proof. constructor; [|constructor]. split; [exists 2%nat; reflexivity|]. split; reflexivity. Qed.

Example case_C90_ideal n : exists w g,
  steps ops0 (kernel_of ideal_finder) 0 n (start (f_k ideal_finder)) = Ok w /\
  (499 / 500) ^ n <= g <= 1 /\ ((0 < n)%nat -> g < 1) /\
  (exists m, (m < 2)%nat /\ alive 0 (v_Js (w_k w)) m /\ Rabs (v_omegas (w_k w) 0%nat m - v_omegas (w_k w) 1%nat m) = g).
Proof.
  destruct (steps_total ops0 (kernel_of ideal_finder) 0 n (start (f_k ideal_finder))) as (w & ES & m & Hm & HA).
  - eapply builtin_total_ig_can; reflexivity.
  - cbn; lra.
  - cbn; lra.
  - exists 0%nat; cbn; split; [lia|lra].
  - destruct (C90_ideal ops0 (kernel_of ideal_finder) 0 n (f_k ideal_finder) w 2 2 (fun i => i) (fun _ _ => 0) 0 ex_sizes ex_means)
      as (g & H1 & H2 & H3); auto; try (cbn; lra); try lia.
    + now constructor.
    + now left.
    + apply ideal_idle.
    + cbn [q_acc_w kernel_of ideal_finder f_par ex_par m_acc_w] in H1, H2.
      replace (1 - 1 / 500) with (499 / 500) in H1 by field.
      assert (G0 : 0 <= g) by (eapply Rle_trans; [apply pow_le|apply H1]; lra).
      exists w, g. split; [exact ES|]. split; [exact H1|]. split; [intros; apply H2; [lra|assumption]|].
      exists m. split; [exact Hm|]. split; [exact HA|]. rewrite (H3 m 0%nat 1%nat) by (auto; lia).
      cbn in Hm. rewrite Rabs_mult, (Rabs_right g) by lra. destruct m as [|[|m]]; [| |lia]; cbn.
      * rewrite Rminus_0_r, Rabs_R1. ring.
      * replace (0 - 1) with (- (1)) by ring. rewrite Rabs_Ropp, Rabs_R1. ring.
Qed.

(** The same over a whole run. *)
Example case_C90_ideal_run : exists f' ph g,
  run ops0 ideal_finder (Some 6) (Some 0) (Some 2) = (f', Ok ph) /\ g < 1 /\
  forall m, alive 0 (v_Js (f_k f')) m ->
    v_omegas (f_k f') 0%nat m - v_omegas (f_k f') 1%nat m = g * (v_omegas (f_k ideal_finder) 0%nat m - v_omegas (f_k ideal_finder) 1%nat m).
Proof.
  destruct (any_run ideal_finder 6 0 2) as (f' & ph & d & E & Ed); try (cbn; lra); auto.
  - eapply builtin_total_ig_can; reflexivity.
  - exists 0%nat; cbn; split; [lia|lra].
  - destruct (C90_ideal_run ops0 ideal_finder (Some 6) (Some 0) (Some 2) f' ph d 2 2 (fun i => i) (fun _ _ => 0) 0 ex_sizes ex_means)
      as (g & H1 & H2 & H3); auto; try (cbn; lra); try (cbn; lia).
    + now constructor.
    + now left.
    + apply ideal_idle.
    + exists f', ph, g. split; [exact E|]. split; [apply H2; cbn; lra|]. intros m HA. apply H3; [lia|lia|exact HA].
Qed.
