(** WitnessEquilibrium.v -- concrete cases for PropertiesEquilibrium.v and
    PropertiesEnsembles.v, and the refuted half of C53. *)

From Coquelicot Require Import Coquelicot.
From Coq Require Import Reals Lra Lia List Bool Arith ZArith FunctionalExtensionality.
From Verif Require Import Base ModelCommon ModelParts ModelKernel ModelPhases ModelFinder ProofsKernel ProofsParts ProofsSteps
  ProofsRun ProofsRun2 ModelFreeEnergy ProofsFreeEnergy Spec Examples PropertiesKernel PropertiesRun PropertiesFreeEnergy
  PropertiesConstraints ProofsEquilibrium PropertiesEquilibrium PropertiesEnsembles.
Import ListNotations.
Open Scope R_scope.

(* ------------------------------------------------------------------ *)
(** ** A demixed symmetric blend: chi = 2 ln 3, phases (3/4, 1/4) and (1/4, 3/4) *)

Definition sym_chi : mat := fun i j => if Nat.eqb i j then 0 else 2 * ln 3.
Definition sym_sizes : vec := fun _ => 1.
Definition sym_phi (i m : nat) : R := if Nat.eqb i m then 3 / 4 else 1 / 4.
Definition sym_mu : vec := fun _ => 9 / 8 * ln 3 - ln 4.
Definition sym_k : kstate nat cstate :=
  {| v_omegas := fun i m => sym_mu i - 1 / 1 - ln (sym_phi i m) / 1; v_Js := fun _ => 1;
     v_phis_comp := fun _ _ => 0; v_phis_feat := fun _ _ => 0; v_cons := [new_cons (no_class 2)]; v_g := 0%nat |}.
Definition sym_q (thr : R) : kernel :=
  {| q_inter := fh_compile 2 sym_chi (1 / 10); q_entropy := ig_compiled 2 sym_sizes; q_ensemble := can_compiled 2 (fun _ => 1 / 2);
     q_nf := 2; q_np := 2; q_acc_J := 1 / 5000; q_ub := 1 / 1000; q_acc_w := 1 / 500; q_thr := thr; q_scaler := 1 |}.

Lemma sym_phi_pos i m : 0 < sym_phi i m.
Proof. unfold sym_phi. destruct (Nat.eqb i m); lra. Qed.

Lemma sym_potentials m : (m < 2)%nat -> potentials (fe_of 2 (fun i => i) sym_chi sym_sizes) (fun i => sym_phi i m) sym_mu.
Proof.
  intros Hm. eapply potentials_ext; [|apply potentials_mu].
  - intros i Hi. cbn in Hi. unfold mu_of, fh, dfh. cbn [fe_nc fe_of fe_chis fe_sizes rsum].
    assert (L : ln (3 / 4) = ln 3 - ln 4) by (apply ln_div; lra).
    assert (L' : ln (1 / 4) = - ln 4) by (rewrite ln_div by lra; rewrite ln_1; ring).
    destruct m as [|[|?]]; [| |lia]; destruct i as [|[|?]]; try lia; cbn; unfold sym_chi, sym_sizes, sym_mu, sym_phi; cbn;
      rewrite ?L, ?L'; field.
  - split; cbn; intros; [unfold sym_sizes; lra|]. unfold sym_chi. now rewrite Nat.eqb_sym.
  - intros. apply sym_phi_pos.
Qed.

Lemma ln3_pos : 0 < ln 3.
Proof. rewrite <- ln_1. apply ln_increasing; lra. Qed.

Lemma sym_admissible x : (forall i, (i < 2)%nat -> 0 < x i) -> admissible 2 2 sym_chi sym_sizes x.
Proof.
  intros H. split; [lia|]. split; [intros; unfold sym_chi; now rewrite Nat.eqb_sym|]. split; [|exact H].
  intros; unfold sym_sizes; lra.
Qed.

Lemma sym_idle : Forall idle (v_cons sym_k).
Proof. constructor; [|constructor]. split; [exists 2%nat; reflexivity|]. split; reflexivity. Qed.

Lemma sym_smallest : smallest 2 sym_chi 0.
Proof.
  split; [exists 0%nat, 0%nat; repeat split; lia|]. intros. unfold sym_chi. destruct (Nat.eqb r s); [lra|].
  pose proof ln3_pos; lra.
Qed.

(** C12: coexisting phases have no residual ... *)
Example case_C12_stationary : exists k' nv rep, iterate (sym_q (1/10)) sym_k = Ok (k', nv, rep) /\
  e_incomp rep = 0 /\ e_omega rep = 0 /\ e_Js rep = 0 /\
  forall m i, (m < 2)%nat -> (i < 2)%nat -> v_phis_comp k' i m = sym_phi i m.
Proof.
  destruct (C12_coexistence_stationary (sym_q (1/10)) sym_k 2 sym_chi (1/10) sym_sizes (fun _ => 1 / 2) sym_phi sym_mu)
    as (k' & nv & rep & H & E1 & E2 & E3 & E4); try reflexivity.
  - apply sym_admissible. intros; lra.
  - cbn; lra.
  - cbn; lra.
  - apply sym_idle.
  - exists 0%nat. split; [cbn; lia|]. unfold alive; cbn; lra.
  - intros m Hm _. cbn in Hm. split; [intros; apply sym_phi_pos|]. split; [|split].
    + destruct m as [|[|?]]; [| |lia]; cbn; unfold sym_phi; cbn; lra.
    + now apply sym_potentials.
    + intros i Hi. reflexivity.
  - intros i Hi. unfold wmean, living. cbn. destruct (Rlt_dec (1/10) 1); [|lra].
    destruct i as [|[|?]]; [| |lia]; unfold sym_phi; cbn; field.
  - exists k', nv, rep. split; [exact H|]. split; [exact E1|]. split; [exact E2|]. split; [exact E3|].
    intros m i Hm Hi. apply E4; auto. unfold alive; cbn; lra.
Qed.

(** ... and a step without residual has coexisting phases (here with pressures
    computed for the last component). *)
Example case_C12_zero : exists k' nv rep mu, iterate (sym_q (1/10)) sym_k = Ok (k', nv, rep) /\ e_Js rep = 0 /\
  forall m, (m < 2)%nat -> potentials (fe_of 2 (fun i => i) sym_chi sym_sizes) (fun i => v_phis_comp k' i m) mu /\
    pressure (fe_of 2 (fun i => i) sym_chi sym_sizes) (One (listed 2 (fun i => v_phis_comp k' i m))) (-1) = Ok [Fin (- mu 1%nat)] /\
    v_Js k' m = 1.
Proof.
  destruct case_C12_stationary as (k' & nv & rep & H & E1 & E2 & E3 & E4).
  destruct (C12_zero_residuals (sym_q (1/10)) sym_k k' nv rep 2 2 (fun i => i) sym_chi (1/10) sym_sizes (fun _ => 1/2)) as (mu & HM); auto.
  - now constructor.
  - now left.
  - apply sym_admissible. intros; lra.
  - cbn; lra.
  - apply sym_idle.
  - exists k', nv, rep, mu. split; [exact H|]. split; [exact E3|]. intros m Hm.
    assert (HA : alive (q_thr (sym_q (1/10))) (v_Js sym_k) m) by (unfold alive; cbn; lra).
    destruct (HM m Hm HA) as (P1 & P2 & _ & _ & P5). split; [exact P1|]. split.
    + apply (P2 (-1)%Z 1%nat); [lia|reflexivity].
    + apply P5. unfold num_alive, living. cbn. destruct (Rlt_dec (1/10) 1); [|lra]. cbn. lra.
Qed.

(** C11 from a state that is not at equilibrium. *)
Example case_C11 : exists k' nv rep, iterate (kernel_of (ex_finder 2 (fun _ => 1) 0 1)) (ex_k 2 (fun _ => 1) 0) = Ok (k', nv, rep) /\
  forall tol, e_incomp rep < tol -> e_omega rep < tol -> e_Js rep < tol ->
  exists mu0 mu1, potentials (fe_of 2 (fun i => i) ex_chi ex_sizes) (fun i => v_phis_comp k' i 0%nat) mu0 /\
    potentials (fe_of 2 (fun i => i) ex_chi ex_sizes) (fun i => v_phis_comp k' i 1%nat) mu1 /\
    forall i, (i < 2)%nat -> Rabs (mu0 i - mu1 i) < 10 * tol.
Proof.
  destruct (ex_iterate 2 (fun _ => 1) 0 1) as (k' & nv & rep & H); [lra|exists 0%nat; split; [lia|lra]|].
  exists k', nv, rep. split; [exact H|]. intros tol H1 H2 H3.
  destruct (C11_imbalance (kernel_of (ex_finder 2 (fun _ => 1) 0 1)) (ex_k 2 (fun _ => 1) 0) k' nv rep 2 2 (fun i => i) ex_chi 0 0 ex_sizes ex_means tol)
    with (m := 0%nat) (n := 1%nat) as (mu0 & mu1 & P0 & P1 & HB); auto.
  - now constructor.
  - now left.
  - split; [lia|]. split; [intros; unfold ex_chi; now rewrite Nat.eqb_sym|]. split; intros i _; unfold ex_sizes, ex_means.
    + destruct (Nat.eqb i 0); lra.
    + lra.
  - split; [exists 0%nat, 0%nat; repeat split; lia|]. intros. unfold ex_chi. destruct (Nat.eqb r s); lra.
  - cbn; lra.
  - constructor; [|constructor]. split; [exists 2%nat; reflexivity|]. split; reflexivity.
  - cbn; lia.
  - unfold alive; cbn; lra.
  - unfold alive; cbn; lra.
  - exists mu0, mu1. split; [exact P0|]. split; [exact P1|]. intros i Hi. specialize (HB i Hi).
    assert (E : shifted_sum 2 ex_chi 0 0 = 6) by (unfold shifted_sum, ex_chi; cbn; ring). rewrite E in HB.
    rewrite (Rabs_right 6) in HB by lra. cbn in HB. lra.
Qed.

(* ------------------------------------------------------------------ *)
(** ** C52: the same blend with a global constraint and a multiplier of one *)

Definition half_lin : lin_par :=
  {| l_feat := 2; l_cons := 1; l_Cs := fun a r => if Nat.eqb r 0 then 1 else 0; l_Ts := fun _ => 1 / 2; l_ratio := 1; l_elast := 5 |}.
Definition con_mu : vec := fun i => sym_mu i + (if Nat.eqb i 0 then 1 / 2 else - (1 / 2)).
Definition con_k : kstate nat cstate :=
  {| v_omegas := fun i m => con_mu i - 1 / 1 - ln (sym_phi i m) / 1; v_Js := fun _ => 1;
     v_phis_comp := fun _ _ => 0; v_phis_feat := fun _ _ => 0;
     v_cons := [{| o_class := global_class half_lin;
                   o_state := {| c_mult := fun _ _ => 1; c_res := fun _ _ => 0; c_pot := fun _ _ => 0; c_vold := fun _ => 0 |} |}];
     v_g := 0%nat |}.

Lemma living_one thr m : thr < 1 -> living thr (fun _ => 1) m = 1.
Proof. intros H. unfold living. destruct (Rlt_dec _ _); [reflexivity|lra]. Qed.

Example case_C52 : exists k' nv rep, iterate (sym_q (1/10)) con_k = Ok (k', nv, rep) /\
  e_incomp rep = 0 /\ e_omega rep = 0 /\ e_Js rep = 0 /\ e_cons rep = 0 /\
  (forall m i, (m < 2)%nat -> (i < 2)%nat -> v_phis_comp k' i m = sym_phi i m) /\
  rsum 2 (fun r => l_Cs half_lin 0%nat r * wmean 2 (living (1/10) (fun _ => 1)) (v_phis_feat k' r)) = 1 / 2.
Proof.
  assert (LL : living (1/10) (fun _ => 1) = fun _ => 1) by (apply functional_extensionality; intros; apply living_one; lra).
  assert (HW : forall i, (i < 2)%nat -> wmean 2 (living (1/10) (fun _ => 1)) (sym_phi i) = 1 / 2).
  { intros i Hi. rewrite LL. unfold wmean. cbn. destruct i as [|[|?]]; [| |lia]; unfold sym_phi; cbn; field. }
  destruct (C52_constrained_stationary (sym_q (1/10)) con_k 2 sym_chi (1/10) sym_sizes (fun _ => 1 / 2) sym_phi con_mu)
    as (k' & nv & rep & H & E1 & E2 & E3 & E4 & E5); try reflexivity.
  - apply sym_admissible. intros; lra.
  - cbn; lra.
  - cbn; lra.
  - constructor; [|constructor]. right. exists half_lin. split; [reflexivity|]. right. split; [reflexivity|]. intros a Ha.
    cbn [q_np q_thr sym_q v_Js con_k rsum]. rewrite !HW by lia. cbn. lra.
  - exists 0%nat. split; [cbn; lia|]. unfold alive; cbn; lra.
  - intros m Hm HA. cbn in Hm. split; [intros; apply sym_phi_pos|]. split; [|split].
    + destruct m as [|[|?]]; [| |lia]; cbn; unfold sym_phi; cbn; lra.
    + exists sym_mu. split; [now apply sym_potentials|]. intros i Hi. cbn [q_np q_thr sym_q v_Js v_cons con_k]. rewrite LL.
      assert (MM : make_masks (fun _ : nat => 1) (1/10) m = 1) by (apply mask_alive; unfold alive; lra).
      cbn. rewrite MM. unfold lin_residue. destruct m as [|[|?]]; [| |lia]; destruct i as [|[|?]]; try lia; cbn; unfold con_mu, sym_phi; cbn; field.
    + intros i Hi. reflexivity.
  - intros i Hi. apply HW. auto.
  - exists k', nv, rep. split; [exact H|]. split; [exact E1|]. split; [exact E2|]. split; [exact E3|]. split; [exact E4|]. split.
    + intros m i Hm Hi. apply E5; auto. unfold alive; cbn; lra.
    + apply (proj2 (C52_constraints_hold (sym_q (1/10)) con_k k' nv rep ltac:(cbn; lra) H E4 _ half_lin (or_introl eq_refl))); [reflexivity|cbn; lia].
Qed.

(** ... and the shifted potentials are balanced. *)
Example case_C52_shifted : exists k' nv rep balanced, iterate (sym_q (1/10)) con_k = Ok (k', nv, rep) /\
  forall m, (m < 2)%nat -> exists mu, potentials (fe_of 2 (fun i => i) sym_chi sym_sizes) (fun i => v_phis_comp k' i m) mu /\
  let P := fun r m => lsum (v_cons con_k) (fun o => k_potential (o_class o) (prepared (sym_q (1/10)) con_k k' o) r m) in
  let V := fun m => lsum (v_cons con_k) (fun o => k_vd (o_class o) (prepared (sym_q (1/10)) con_k k' o) m) in
  forall i, (i < 2)%nat -> mu i + P i m - rsum 2 (fun j => P j m * v_phis_comp k' j m) + V m = balanced i.
Proof.
  destruct case_C52 as (k' & nv & rep & H & E1 & E2 & E3 & _).
  destruct (C52_shifted_potentials (sym_q (1/10)) con_k k' nv rep 2 2 (fun i => i) sym_chi (1/10) sym_sizes (fun _ => 1/2)) as (b & HB); auto.
  - now constructor.
  - now left.
  - apply sym_admissible. intros; lra.
  - cbn; lra.
  - exists k', nv, rep, b. split; [exact H|]. intros m Hm. destruct (HB m Hm) as (_ & _ & mu & P1 & P2); [unfold alive; cbn; lra|].
    exists mu. split; auto.
Qed.

(* ------------------------------------------------------------------ *)
(** ** C54, C53: grand canonical cases *)

(** The demixed blend in the grand canonical ensemble: same step. *)
Example case_C54 : exists r,
  iterate (sym_q (1/10)) sym_k = Ok r /\
  iterate (with_ensemble (sym_q (1/10)) (gc_compiled 2 (fun i => 1 / 2 / boltzmann_mean (sym_q (1/10)) sym_k (fun i => i) sym_sizes i))) sym_k = Ok r.
Proof.
  destruct case_C12_stationary as (k' & nv & rep & H & _). exists (k', nv, rep). split; [exact H|].
  apply (C54_canonical_as_grandcanonical (sym_q (1/10)) sym_k 2 2 (fun i => i) sym_chi (1/10) sym_sizes (fun _ => 1/2)); auto. now constructor.
Qed.

(** chemical potentials that request given activities *)
Definition mu_for (act sizes : vec) : vec := fun i => ln (act i / sizes i) / sizes i.

Lemma mu_for_activity act sizes : (forall i, 0 < act i) -> (forall i, 0 < sizes i) -> gc_activity_from_mu (mu_for act sizes) sizes = act.
Proof.
  intros Ha Hs. apply functional_extensionality. intros i. unfold gc_activity_from_mu, mu_for. specialize (Ha i). specialize (Hs i).
  replace (ln (act i / sizes i) / sizes i * sizes i) with (ln (act i / sizes i)) by (field; lra).
  replace (sizes i * (ln (act i / sizes i) / sizes i)) with (ln (act i / sizes i)) by (field; lra).
  rewrite exp_ln by (now apply Rdiv_lt_0_compat). field. lra.
Qed.

Lemma sym_boltzmann_pos q (k : kstate nat cstate) rho sizes i : 0 <= q_thr q -> (exists m, (m < q_np q)%nat /\ alive (q_thr q) (v_Js k) m) ->
  0 < boltzmann_mean q k rho sizes i.
Proof. intros. rewrite boltzmann_mean_Qbar. now apply Qbar_pos. Qed.

(** C53 with equal sizes: the demixed blend has the requested exchange potentials. *)
Example case_C53 : exists mus k' nv rep,
  iterate (with_ensemble (sym_q (1/10)) (gc_compiled 2 (gc_activity_from_mu mus sym_sizes))) sym_k = Ok (k', nv, rep) /\
  forall m, (m < 2)%nat -> v_phis_comp k' 0%nat m = sym_phi 0 m /\
    exchanges (fe_of 2 (fun i => i) sym_chi sym_sizes) (fun i => v_phis_comp k' i m) (-1) (fun i => mus i - mus 1%nat).
Proof.
  set (act := fun i => 1 / 2 / boltzmann_mean (sym_q (1/10)) sym_k (fun i => i) sym_sizes i).
  assert (HA : forall m, alive (1/10) (fun _ => 1) m) by (intros; unfold alive; lra).
  assert (Ha : forall i, 0 < act i).
  { intros i. apply Rdiv_lt_0_compat; [lra|]. apply sym_boltzmann_pos; [cbn; lra|]. exists 0%nat. split; [cbn; lia|apply HA]. }
  assert (EA : gc_activity_from_mu (mu_for act sym_sizes) sym_sizes = act) by (apply mu_for_activity; auto; intros; unfold sym_sizes; lra).
  destruct case_C12_stationary as (k' & nv & rep & H & E1 & E2 & E3 & E4).
  assert (H2 : iterate (with_ensemble (sym_q (1/10)) (gc_compiled 2 act)) sym_k = Ok (k', nv, rep)).
  { apply (C54_canonical_as_grandcanonical (sym_q (1/10)) sym_k 2 2 (fun i => i) sym_chi (1/10) sym_sizes (fun _ => 1/2)); auto. now constructor. }
  exists (mu_for act sym_sizes), k', nv, rep. rewrite EA. split; [exact H2|]. intros m Hm. split; [apply E4; auto; lia|].
  eapply (C53_equal_sizes (with_ensemble (sym_q (1/10)) (gc_compiled 2 act)) sym_k) with (l := 1) (cmin := 0) (sh := 1/10).
  - now constructor.
  - cbn. now rewrite EA.
  - apply sym_admissible. intros; lra.
  - apply sym_smallest.
  - cbn; lra.
  - apply sym_idle.
  - exact H2.
  - reflexivity.
  - lia.
  - reflexivity.
  - exact E2.
  - exact E1.
  - exact Hm.
  - apply HA.
Qed.

(** ** C53 refuted for unequal sizes *)
Definition off_q : kernel :=
  {| q_inter := fh_compile 2 (fun _ _ => 0) 0; q_entropy := ig_compiled 2 ex_sizes; q_ensemble := can_compiled 2 (fun _ => 1 / 2);
     q_nf := 2; q_np := 1; q_acc_J := 1 / 5000; q_ub := 1 / 1000; q_acc_w := 1 / 500; q_thr := 0; q_scaler := 1 |}.
Definition off_mu : vec := mu_of (fe_of 2 (fun i => i) (fun _ _ => 0) ex_sizes) (fun _ => 1 / 2).
Definition off_k : kstate nat cstate :=
  {| v_omegas := fun i m => off_mu i - 1 / ex_sizes i - ln (1 / 2) / ex_sizes i; v_Js := fun _ => 1;
     v_phis_comp := fun _ _ => 0; v_phis_feat := fun _ _ => 0; v_cons := [new_cons (no_class 2)]; v_g := 0%nat |}.

Lemma ex_sizes_pos i : 0 < ex_sizes i.
Proof. unfold ex_sizes. destruct (Nat.eqb i 0); lra. Qed.

Lemma off_admissible x : (forall i, (i < 2)%nat -> 0 < x i) -> admissible 2 2 (fun _ _ => 0) ex_sizes x.
Proof. intros H. split; [lia|]. split; [auto|]. split; [|exact H]. intros; apply ex_sizes_pos. Qed.

Lemma off_wf : wf_fe (fe_of 2 (fun i => i) (fun _ _ => 0) ex_sizes).
Proof. split; cbn; auto. intros i _. pose proof (ex_sizes_pos i). lra. Qed.

Lemma off_zero : exists k' nv rep, iterate off_q off_k = Ok (k', nv, rep) /\ e_incomp rep = 0 /\ e_omega rep = 0 /\ e_Js rep = 0.
Proof.
  destruct (C12_coexistence_stationary off_q off_k 2 (fun _ _ => 0) 0 ex_sizes (fun _ => 1 / 2) (fun _ _ => 1 / 2) off_mu)
    as (k' & nv & rep & H & E1 & E2 & E3 & E4); try reflexivity.
  - apply off_admissible. intros; lra.
  - cbn; lra.
  - cbn; lra.
  - constructor; [|constructor]. split; [exists 2%nat; reflexivity|]. split; reflexivity.
  - exists 0%nat. split; [cbn; lia|]. unfold alive; cbn; lra.
  - intros m Hm HA. split; [intros; lra|]. split; [cbn; lra|]. split; [apply potentials_mu; [apply off_wf|intros; lra]|]. reflexivity.
  - intros i Hi. unfold wmean, living. cbn. destruct (Rlt_dec 0 1); [|lra]. field.
  - exists k', nv, rep. auto.
Qed.

(** Sizes 1 and 2: a converged state of the grand canonical ensemble created
    with [from_chemical_potential] whose exchange chemical potential is not the
    requested one. *)
Theorem C53_unequal_sizes_refuted :
  exists (q : kernel) (k k' : kstate nat cstate) nv rep chis sizes mus m,
    mixture q 2 2 (fun i => i) chis 0 sizes /\ q_ensemble q = gc_compiled 2 (gc_activity_from_mu mus sizes) /\
    admissible 2 2 chis sizes (fun _ => 1) /\ iterate q k = Ok (k', nv, rep) /\
    e_incomp rep = 0 /\ e_omega rep = 0 /\ e_Js rep = 0 /\ e_cons rep = 0 /\ (m < q_np q)%nat /\ alive (q_thr q) (v_Js k) m /\
    exists ex, exchanges (fe_of 2 (fun i => i) chis sizes) (fun i => v_phis_comp k' i m) 0 ex /\ ex 1%nat <> mus 1%nat - mus 0%nat.
Proof.
  set (act := fun i => 1 / 2 / boltzmann_mean off_q off_k (fun i => i) ex_sizes i).
  assert (HA : alive (q_thr off_q) (v_Js off_k) 0) by (unfold alive; cbn; lra).
  assert (Ha : forall i, 0 < act i).
  { intros i. apply Rdiv_lt_0_compat; [lra|]. apply sym_boltzmann_pos; [cbn; lra|]. exists 0%nat. split; [cbn; lia|exact HA]. }
  assert (EA : gc_activity_from_mu (mu_for act ex_sizes) ex_sizes = act) by (apply mu_for_activity; auto using ex_sizes_pos).
  destruct off_zero as (k' & nv & rep & H & E1 & E2 & E3).
  assert (HM : mixture (with_ensemble off_q (gc_compiled 2 act)) 2 2 (fun i => i) (fun _ _ => 0) 0 ex_sizes) by now constructor.
  assert (H2 : iterate (with_ensemble off_q (gc_compiled 2 act)) off_k = Ok (k', nv, rep)).
  { apply (C54_canonical_as_grandcanonical off_q off_k 2 2 (fun i => i) (fun _ _ => 0) 0 ex_sizes (fun _ => 1/2)); auto. now constructor. }
  assert (HI : Forall idle (v_cons off_k)) by (constructor; [|constructor]; split; [exists 2%nat; reflexivity|]; split; reflexivity).
  exists (with_ensemble off_q (gc_compiled 2 act)), off_k, k', nv, rep, (fun _ _ => 0), ex_sizes, (mu_for act ex_sizes), 0%nat.
  split; [exact HM|]. split; [cbn; now rewrite EA|]. split; [apply off_admissible; intros; lra|]. split; [exact H2|].
  split; [exact E1|]. split; [exact E2|]. split; [exact E3|]. split.
  { apply iterate_inv in H. destruct H as (p0 & Q & phis & inc & _ & _ & F). rewrite (if_e_cons F). unfold t_evolve. cbn. apply Rmax_left; lra. }
  split; [cbn; lia|]. split; [exact HA|].
  destruct (C53_exchange_potentials (with_ensemble off_q (gc_compiled 2 act)) off_k k' nv rep 2 2 (fun i => i) (fun _ _ => 0) 0 0 ex_sizes
     (mu_for act ex_sizes) 0 0) with (m := 0%nat) as (ex & P & B); auto.
  - cbn. now rewrite EA.
  - apply off_admissible. intros; lra.
  - split; [exists 0%nat, 0%nat; repeat split; lia|]. intros; lra.
  - cbn; lra.
  - exists ex. split; [exact P|]. specialize (B 1%nat ltac:(lia)). rewrite E1, E2, !Rmult_0_r, Rplus_0_r in B.
    apply Rabs_le_inv in B. unfold ex_sizes in B at 3 4 5 6. cbn in B. rewrite ln_1 in B.
    assert (L : ln 2 < 1).
    { rewrite <- (ln_exp 1). apply ln_increasing; [lra|]. pose proof (exp_ineq1 1 ltac:(lra)). lra. }
    fold ex_sizes in B. intros E. rewrite E in B. lra.
Qed.

(* ------------------------------------------------------------------ *)
(** ** C19 *)

(** Different shifts, same demixed state. *)
Example case_C19 : exists k' nv rep, iterate (with_shift (sym_q (1/10)) 2 sym_chi 7) sym_k = Ok (k', nv, rep) /\ e_omega rep = 0 /\ e_Js rep = 0.
Proof.
  destruct case_C12_stationary as (k1 & nv & rep & H & E1 & E2 & E3 & _).
  destruct (C19_shift_irrelevant (sym_q (1/10)) sym_k 2 sym_chi (1/10) 7 k1 nv rep) as (k2 & rep2 & H2 & _ & _ & _ & HZ).
  - cbn; lra.
  - exact H.
  - destruct (HZ E1) as (-> & _). exists k2, nv, rep. auto.
Qed.
