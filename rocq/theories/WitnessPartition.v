(** WitnessPartition.v -- concrete cases for PropertiesPartition.v. *)

From Coquelicot Require Import Coquelicot.
From Coq Require Import String Reals Lra Lia List Bool Arith ZArith.
From Verif Require Import Base ModelCommon ModelParts ModelKernel ModelPhases ModelFinder ProofsKernel ProofsParts ProofsSteps
  ProofsRun ProofsRun2 ModelFreeEnergy ProofsFreeEnergy Spec Examples PropertiesKernel PropertiesRun PropertiesFreeEnergy
  PropertiesConstraints ProofsEquilibrium PropertiesEquilibrium PropertiesHomogeneous PropertiesConvex PropertiesPartition
  WitnessEquilibrium WitnessConvex.
Import ListNotations.
Open Scope R_scope.

Lemma sym_largest : largest 2 sym_chi (2 * ln 3).
Proof.
  split; [exists 0%nat, 1%nat; repeat split; lia|]. intros. unfold sym_chi. destruct (Nat.eqb i j); [|lra].
  pose proof ln3_pos; lra.
Qed.

(** The demixed symmetric blend: the minority component is found with 1/4, not
    less than 1/162 of the volume of a phase. *)
Example case_C88 : exists k' nv rep, iterate (sym_q (1/10)) sym_k = Ok (k', nv, rep) /\
  e_incomp rep = 0 /\ e_omega rep = 0 /\ v_phis_comp k' 1%nat 0%nat = 1 / 4 /\
  forall m i, (m < 2)%nat -> (i < 2)%nat -> 1 / 162 <= v_phis_comp k' i m.
Proof.
  destruct case_C12_stationary as (k' & nv & rep & H & E1 & E2 & E3 & E4).
  exists k', nv, rep. split; [exact H|]. split; [exact E1|]. split; [exact E2|]. split.
  - rewrite E4 by lia. unfold sym_phi. cbn. reflexivity.
  - intros m i Hm Hi.
    pose proof (C88_zero (sym_q (1/10)) sym_k k' nv rep 2 2 (fun i => i) sym_chi (1/10) sym_sizes (fun _ => 1/2) 0 (2 * ln 3)
      ltac:(now constructor) eq_refl ltac:(apply sym_admissible; intros; lra) sym_smallest sym_largest ltac:(cbn; lra) sym_idle H E1 E2
      m i Hm ltac:(unfold alive; cbn; lra) Hi) as B.
    unfold sym_sizes in B.
    assert (E : exp (- (2 * 1 * (2 * ln 3 - 0))) = 1 / 81).
    { replace (- (2 * 1 * (2 * ln 3 - 0))) with (- (ln 3 + ln 3 + ln 3 + ln 3)) by ring.
      rewrite exp_Ropp, !exp_plus, exp_ln by lra. field. }
    rewrite E in B. lra.
Qed.

(** Converged runs of a finder for chi = -1 and sizes 1 and 2: no phase lacks a
    component. *)
Example case_C88_run f' ph d : run ops0 mix_finder None None None = (f', Ok ph) -> f_diag f' = Some d ->
  d_incomp d <= 1 / 100000 -> d_omega d <= 1 / 100000 ->
  forall p, (p < 4)%nat -> 1 / 2 * exp (- 3) <= frac ph p 0.
Proof.
  intros H HD E1 E2 p Hp.
  assert (HI : Forall idle (v_cons (f_k mix_finder))).
  { constructor; [|constructor]. split; [exists 2%nat; reflexivity|]. split; reflexivity. }
  assert (Hlo : smallest 2 mix_chi (- 1)).
  { split; [exists 0%nat, 1%nat; repeat split; lia|]. intros. unfold mix_chi. destruct (Nat.eqb r s); lra. }
  assert (Hhi : largest 2 mix_chi 0).
  { split; [exists 0%nat, 0%nat; repeat split; lia|]. intros. unfold mix_chi. destruct (Nat.eqb i j); lra. }
  assert (HL : forall c, (c < f_nc mix_finder)%nat -> 1 <= ex_sizes c) by (intros c _; unfold ex_sizes; destruct (Nat.eqb c 0); lra).
  pose proof (run_columns ops0 mix_finder None None None f' ph d ops0_contract ltac:(cbn; lra) H HD) as (k1 & k' & nv & rep & EI & _ & D1 & D2 & _).
  destruct (step_fractions (kernel_of mix_finder) k1 k' nv rep 2 2 (fun i => i) mix_chi 0 ex_sizes ex_means
    ltac:(now constructor) ltac:(now left) mix_admissible ltac:(cbn; lra) EI) as (_ & _ & N1 & N2 & _).
  rewrite D1 in N1. rewrite D2 in N2.
  destruct (C88_run ops0 mix_finder None None None f' ph d 2 (fun i => i) mix_chi 0 ex_sizes ex_means (- 1) 0 1
    ops0_contract ltac:(cbn; lra) ltac:(now constructor) ltac:(now left) mix_admissible Hlo Hhi ltac:(lra) HL HI H HD ltac:(lra)) as [_ B].
  destruct (B eq_refl p 0%nat Hp ltac:(cbn; lia)) as [B1 _].
  eapply Rle_trans; [|exact B1]. unfold ex_means. apply Rmult_le_compat_l; [lra|]. apply exp_mono. apply Ropp_le_contravar.
  unfold ex_sizes, leeway. cbn [Nat.eqb].
  assert (S : shifted_sum 2 mix_chi (- 1) 0 = 2) by (unfold shifted_sum, mix_chi; cbn; ring).
  rewrite S, (Rabs_right 2), (Rabs_left (- 1)), Rabs_R0 by lra. cbn [INR].
  set (t := d_incomp d) in *.
  assert (L : ln ((1 + t) / (1 - t)) <= 1 / 10000).
  { assert (Q : 0 < (1 + t) / (1 - t)) by (apply Rdiv_lt_0_compat; lra).
    eapply Rle_trans; [apply ln_le_sub; exact Q|]. replace ((1 + t) / (1 - t) - 1) with (2 * t / (1 - t)) by (field; lra).
    apply (Rmult_le_reg_r (1 - t)); [lra|]. unfold Rdiv at 1. rewrite Rmult_assoc, Rinv_l by lra. nra. }
  replace (ln ((1 + t) / (1 - t)) / 1) with (ln ((1 + t) / (1 - t))) by field. change (IPR 3) with 3. lra.
Qed.
