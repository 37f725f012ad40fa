(** WitnessTheory.v -- concrete cases for PropertiesTheory.v. *)

From Coquelicot Require Import Coquelicot.
From Coq Require Import Reals Lra Lia List Bool Arith ZArith FunctionalExtensionality.
From Verif Require Import Base ModelCommon ModelParts ModelKernel ModelPhases ModelFinder ProofsKernel ProofsParts ProofsSteps
  ProofsRun ProofsRun2 ModelFreeEnergy ProofsFreeEnergy Spec Examples PropertiesKernel PropertiesRun PropertiesFreeEnergy
  PropertiesConstraints ProofsEquilibrium PropertiesEquilibrium PropertiesEnsembles WitnessEquilibrium PropertiesTheory.
Import ListNotations.
Open Scope R_scope.

(** C59 from a state that is not at equilibrium: the fields of the new state
    follow the derivative in the fractions. *)
Example case_C59_derivatives : exists k' nv rep xi s (d : mat),
  iterate (kernel_of (ex_finder 2 (fun _ => 1) 0 1)) (ex_k 2 (fun _ => 1) 0) = Ok (k', nv, rep) /\
  forall r m, (r < 2)%nat -> (m < 2)%nat ->
    is_derive (fun t => extended 2 2 2 (fun i => i) ex_chi ex_sizes (fun i Q => - (ex_means i / ex_sizes i) * ln Q)
       (fun _ => 1 / 2) (upd2 (v_phis_feat k') r m t) (v_omegas (ex_k 2 (fun _ => 1) 0)) xi 0) (v_phis_feat k' r m) (1 / 2 * d r m) /\
    v_omegas k' r m = v_omegas (ex_k 2 (fun _ => 1) 0) r m + s * d r m.
Proof.
  destruct (ex_iterate 2 (fun _ => 1) 0 1) as (k' & nv & rep & H); [lra|exists 0%nat; split; [lia|lra]|].
  set (q := kernel_of (ex_finder 2 (fun _ => 1) 0 1)) in *. set (k := ex_k 2 (fun _ => 1) 0) in *.
  destruct (C59_derivatives q k k' nv rep 2 2 (fun i => i) ex_chi 0 ex_sizes ex_means (fun i Q => - (ex_means i / ex_sizes i) * ln Q))
    as (xi & inc & le & d & s & mean & HD & _); auto.
  - now constructor.
  - now constructor.
  - split; [lia|]. split; [intros; unfold ex_chi; now rewrite Nat.eqb_sym|]. split; intros i _; unfold ex_sizes, ex_means.
    + destruct (Nat.eqb i 0); lra.
    + lra.
  - cbn; lra.
  - constructor; [|constructor]. split; [exists 2%nat; reflexivity|]. split; reflexivity.
  - exists k', nv, rep, xi, (s * q_acc_w q), d. split; [exact H|]. intros r m Hr Hm.
    assert (LA : forall m, alive (q_thr q) (v_Js k) m) by (intros; unfold alive; cbn; lra).
    assert (EV : volumes q k = fun _ => 1 / 2).
    { apply functional_extensionality. intros j. unfold volumes.
      assert (L1 : forall j, living (q_thr q) (v_Js k) j = 1) by (intros j'; unfold living; cbn; destruct (Rlt_dec 0 1); lra).
      cbn [q_np q kernel_of ex_finder f_np rsum]. rewrite !L1. field. }
    destruct (HD m Hm (LA m) 0) as (_ & D2 & _ & _ & _ & D6 & _). rewrite EV in D2. split.
    + apply (D2 r Hr).
    + apply (D6 r Hr).
Qed.

(** C59 at the demixed blend: a stationary point, with the energy of the phases. *)
Example case_C59_stationary : exists k' nv rep xi eta,
  iterate (sym_q (1/10)) sym_k = Ok (k', nv, rep) /\
  stationary (sym_q (1/10)) sym_k 2 2 (fun i => i) sym_chi sym_sizes (fun i Q => - (1 / 2 / sym_sizes i) * ln Q) (v_phis_feat k') xi eta /\
  extended 2 2 2 (fun i => i) sym_chi sym_sizes (fun i Q => - (1 / 2 / sym_sizes i) * ln Q) (volumes (sym_q (1/10)) sym_k)
    (v_phis_feat k') (v_omegas sym_k) xi eta = 9 / 8 * ln 3 - ln 4 - ln (1 / 2).
Proof.
  destruct case_C12_stationary as (k' & nv & rep & H & E1 & E2 & E3 & E4).
  assert (AD : admissible 2 2 sym_chi sym_sizes (fun _ => 1 / 2)) by (apply sym_admissible; intros; lra).
  assert (L1 : forall m, living (1/10) (v_Js sym_k) m = 1) by (intros; apply living_one; lra).
  destruct (proj1 (C59_stationary_points (sym_q (1/10)) sym_k k' nv rep 2 2 (fun i => i) sym_chi (1/10) sym_sizes (fun _ => 1/2)
    (fun i Q => - (1 / 2 / sym_sizes i) * ln Q) ltac:(now constructor) ltac:(now constructor) AD ltac:(cbn; lra) sym_idle H
    ltac:(cbn [q_np q_thr sym_q rsum]; rewrite !L1; unfold num_alive; cbn; destruct (Rlt_dec (1/10) 1); [cbn; lra|lra])))
    as (xi & eta & HS); [auto|].
  exists k', nv, rep, xi, eta. split; [exact H|]. split; [exact HS|].
  assert (W := C59_original_energy (sym_q (1/10)) sym_k k' nv rep 2 2 (fun i => i) sym_chi (1/10) sym_sizes (fun _ => 1/2) xi eta
    ltac:(now constructor) eq_refl AD ltac:(cbn; lra) H E1).
  cbn [q_np sym_q] in W. rewrite W.
  assert (VV : forall m, volumes (sym_q (1/10)) sym_k m = 1 / 2).
  { intros m. unfold volumes. cbn [q_np q_thr sym_q rsum]. rewrite !L1. field. }
  unfold fh. cbn [rsum]. rewrite !VV, !E4 by lia. unfold sym_phi, sym_chi, sym_sizes. cbn [Nat.eqb].
  assert (L34 : ln (3 / 4) = ln 3 - ln 4) by (apply ln_div; lra).
  assert (L14 : ln (1 / 4) = - ln 4) by (replace (1 / 4) with (/ 4) by field; apply ln_Rinv; lra).
  rewrite L34, L14. field.
Qed.
