(** WitnessCopies.v -- concrete cases for PropertiesCopies.v; the elastic constant
    of a global constraint refers to the number of compartments. *)

From Coq Require Import String Reals Lra Lia List Bool Arith ZArith.
From Verif Require Import Base ModelCommon ModelParts ModelKernel ModelPhases ModelFinder ModelHistory
  ProofsKernel ProofsParts ProofsSteps ProofsCopy ProofsRun ProofsHistory ProofsRun2 ProofsRelabel Spec Examples
  PropertiesKernel PropertiesRun PropertiesRelabel WitnessFinder WitnessSetup PropertiesOneStep WitnessOneStep
  ProofsCopies PropertiesCopies.
Import ListNotations.
Open Scope R_scope.

(** four compartments, two of each kind *)
Definition parity (m : nat) : nat := Nat.modulo m 2.

Lemma parity_copies : copies 2 4 2 parity.
Proof.
  split; [lia| |].
  - intros m _. apply Nat.mod_upper_bound. lia.
  - intros [|[|j]] Hj; [reflexivity|reflexivity|lia].
Qed.

Definition four : finder nat cstate :=
  let f := ex_finder 4 (fun _ => 1) 0 7 in
  with_k f {| v_omegas := fun i m => if Nat.eqb i (parity m) then 1 else 0; v_Js := fun _ => 1;
              v_phis_comp := fun _ _ => 5; v_phis_feat := fun _ _ => 5; v_cons := [new_cons (no_class 2)]; v_g := 3%nat |}.
Definition four0 : finder nat cstate := with_left
  {| f_inter := f_inter four; f_entropy := f_entropy four; f_ensemble := f_ensemble four; f_nc := 2; f_nf := 2; f_np := 4;
     f_par := ex_par 0 0; f_kwargs := []; f_k := f_k four; f_left := 0; f_diag := None |} (-3).

Lemma four_repeated : repeated 2 parity (ex_finder 2 (fun _ => 1) 0 0) four0.
Proof.
  split; try reflexivity.
  - exact parity_copies.
  - cbn. constructor; [|constructor]. apply crep_no; [intros r m _ _; reflexivity|intros m _; reflexivity].
Qed.

Example case_C82_run : exists g ph g2 ph2,
  run ops0 (ex_finder 2 (fun _ => 1) 0 0) (Some 1) (Some 0) (Some 1) = (g, Ok ph) /\
  run ops0 four0 (Some 1) (Some 0) (Some 1) = (g2, Ok ph2) /\
  nth 3 (p_vol ph2) 0 = nth 1 (p_vol ph) 0 /\ frac ph2 2 1 = frac ph 0 1 /\ repeated 2 parity g g2.
Proof.
  set (f := ex_finder 2 (fun _ => 1) 0 0).
  assert (HA : exists m, (m < 2)%nat /\ 0 < (fun _ : nat => 1) m) by (exists 0%nat; split; [lia|cbn; lra]).
  destruct (ex_run_budget 2 (fun _ => 1) 0 1 1 HA) as (g & ph & E); [lra|lra|].
  assert (A0 : forall m, alive 0 (fun _ : nat => 1) m) by (intros m; unfold alive; lra).
  destruct (C82_run ops0 ops0 2 parity f four0 (Some 1) (Some 0) (Some 1) g ph) as (g2 & ph2 & d1 & d2 & E2 & R & V & P & _); auto.
  - apply ex_classic.
  - exact four_repeated.
  - left. cbn. lia.
  - cbn. lra.
  - intros m Hm.
    assert (B : Rabs (v_Js (f_k g) m - 1) <= 2 * (1/1000)).
    { apply (C09_run ops0 f g 1 (Some 0) 1 ph m ltac:(cbn; lra) ltac:(cbn; lra) one_one ltac:(cbn; lia)); auto.
      cbn. unfold living, num_alive. cbn. destruct (Rlt_dec 0 1); [cbn; lra|lra]. }
    unfold Rabs in B. destruct (Rcase_abs _) in B; cbn; lra.
  - exists g, ph, g2, ph2. split; [exact E|]. split; [exact E2|]. split; [|split].
    + rewrite V by (cbn; lia). reflexivity.
    + rewrite P by (cbn; lia). reflexivity.
    + exact R.
Qed.

(* ------------------------------------------------------------------ *)
(** * Elastic global constraints *)

(** one compartment, the mean of the first component is required to vanish *)
Definition el_lin (e : R) : lin_par :=
  {| l_feat := 2; l_cons := 1; l_Cs := fun _ r => if Nat.eqb r 0 then 1 else 0; l_Ts := fun _ => 0; l_ratio := 1; l_elast := e |}.
Definition el_finder (np : nat) (e : R) : finder nat cstate :=
  with_k (ex_finder np (fun _ => 1) 0 0)
    {| v_omegas := fun _ _ => 0; v_Js := fun _ => 1; v_phis_comp := fun _ _ => 0; v_phis_feat := fun _ _ => 0;
       v_cons := [{| o_class := global_class (el_lin e); o_state := cstate0 |}]; v_g := 0%nat |}.

Lemma el_same s e1 e2 : e1 = s * e2 -> same_lin 2 s (el_lin e1) (el_lin e2).
Proof. now split. Qed.

Lemma one_many np : copies 1 (S np) (S np) (fun _ => 0%nat).
Proof.
  split; [lia|intros; lia|]. intros j Hj. replace j with 0%nat by lia. apply ncount_all. reflexivity.
Qed.

Lemma el_repeated np e : repeated (S np) (fun _ => 0%nat) (el_finder 1 (INR (S np) * e)) (el_finder (S np) e).
Proof.
  split; try reflexivity; [apply one_many|]. cbn [el_finder f_k with_k v_cons]. constructor; [|constructor].
  apply crep_global; [now apply el_same|reflexivity].
Qed.

(** the first step of one compartment moves the fields apart *)
Lemma el_step e w : fsteps ops0 (el_finder 1 e) 1 = Ok w ->
  v_omegas (w_k w) 0%nat 0%nat - v_omegas (w_k w) 1%nat 0%nat = e / 500.
Proof.
  intros H. unfold fsteps in H. cbn [steps bind] in H. unfold one_step in H. cbn [start w_count w_k] in H.
  unfold maybe_revive in H. destruct (Z.ltb_spec (Z.of_nat 0) (f_left (el_finder 1 e))) as [L|_]; [cbn in L; lia|].
  apply bind_Ok in H. destruct H as ([[k nv] rep] & HI & H). injection H as <-. cbn [w_k].
  apply iterate_inv in HI. destruct HI as (p0 & Q & phis & inc & EP & EN & F).
  rewrite (if_omegas F).
  set (q := kernel_of (el_finder 1 e)) in *. set (k0 := f_k (el_finder 1 e)) in *.
  assert (MK : t_masks q k0 0%nat = 1) by (apply mask_alive; cbn; lra).
  assert (J0 : t_J q k0 0%nat = 1) by (unfold t_J; rewrite MK; cbn; ring).
  apply ig_partition_spec in EP. destruct EP as (_ & EP & EQ). apply can_normalize_spec in EN. destruct EN as (_ & EN & _).
  assert (PH : forall i, (i < 2)%nat -> phis i 0%nat = 1 / 2).
  { intros i Hi. rewrite EN, EP, EQ by auto. unfold ig_Q. change (q_np q) with 1%nat. cbn [rsum]. rewrite J0, MK.
    unfold boltzmann. change (v_omegas k0 i 0%nat) with 0. rewrite Ropp_0, Rmult_0_l, exp_0. unfold ex_means. field. }
  assert (N1 : t_n q k0 = 1).
  { rewrite t_n_eq. unfold t_nv. rewrite <- masks_sum. change (q_np q) with 1%nat. cbn [rsum].
    change (make_masks (v_Js k0) (q_thr q) 0%nat) with (t_masks q k0 0%nat). rewrite MK. ring. }
  assert (D0 : t_maxJ q k0 phis inc = 0).
  { unfold t_maxJ. change (q_np q) with 1%nat. cbn [vmax]. unfold t_Jdiff, t_mean. rewrite N1. change (q_np q) with 1%nat.
    cbn [rsum]. rewrite J0. match goal with |- Rabs ?x = 0 => replace x with 0 by field end. apply Rabs_R0. }
  assert (FC : t_factor q k0 phis inc = 1).
  { unfold t_factor, t_change. rewrite D0. change (q_ub q) with (1/1000). rewrite Rmax_right by lra. field. }
  unfold t_omegas. rewrite FC, MK. unfold t_diff. rewrite MK. unfold t_otemp, omega_temp_of. change (q_acc_w q) with (1/500).
  change (v_omegas k0 0%nat 0%nat) with 0. change (v_omegas k0 1%nat 0%nat) with 0.
  assert (FT : forall i, (i < 2)%nat -> t_feat q k0 phis i 0%nat = 1 / 2).
  { intros i Hi. unfold t_feat. change (q_entropy q) with (ig_compiled 2 ex_sizes). rewrite ig_comp_to_feat by auto. auto. }
  assert (PT : t_pot q k0 phis 0%nat 0%nat = t_pot q k0 phis 1%nat 0%nat).
  { unfold t_pot. cbn [q_inter kernel_of el_finder ex_finder f_inter with_k q]. cbn [fh_compile fh_compiled i_potential rsum].
    rewrite !FT by lia. unfold ex_chi. cbn. ring. }
  rewrite PT.
  assert (CP : forall r, lsum (t_cs q k0 phis) (fun o => pot_of o r 0%nat) = if Nat.eqb r 0 then e else 0).
  { intros r. unfold t_cs, prepare_all. change (v_cons k0) with [{| o_class := global_class (el_lin e); o_state := cstate0 |}]. cbn [map lsum]. unfold pot_of, set_state.
    cbn [o_class o_state global_class k_prepare k_potential global_prepare c_pot el_lin l_cons l_Cs l_elast rsum cstate0 c_mult].
    change (q_np q) with 1%nat. cbn [rsum]. rewrite J0, MK. unfold lin_residue. cbn [el_lin l_feat l_Cs l_Ts rsum].
    rewrite !FT by lia. cbn. destruct (Nat.eqb r 0); field. }
  rewrite !CP. cbn [Nat.eqb]. field.
Qed.

(** Two compartments that are copies of one, with the same elastic constraint:
    after one step the fields are no longer copies.  The elastic term acts on the
    residue summed over, not averaged over, the compartments. *)
Theorem C82_elastic_refuted :
  ~ (forall (f1 f2 : finder nat cstate) (w1 w2 : mstate nat cstate) (r : nat),
      classic (f_nc f1) (kernel_of f1) -> copies (f_np f1) (f_np f2) 2 (fun _ => 0%nat) ->
      f_inter f1 = f_inter f2 -> f_entropy f1 = f_entropy f2 -> f_ensemble f1 = f_ensemble f2 ->
      f_nc f1 = f_nc f2 -> f_nf f1 = f_nf f2 -> f_par f1 = f_par f2 -> undisturbed ops0 f1 f2 ->
      v_omegas (f_k f1) = v_omegas (f_k f2) -> v_Js (f_k f1) = v_Js (f_k f2) -> v_cons (f_k f1) = v_cons (f_k f2) ->
      fsteps ops0 f1 1 = Ok w1 -> fsteps ops0 f2 1 = Ok w2 -> (r < f_nf f1)%nat ->
      v_omegas (w_k w1) r 0%nat = v_omegas (w_k w2) r 0%nat).
Proof.
  intros H.
  assert (OK : forall e, exists w, fsteps ops0 (el_finder 1 e) 1 = Ok w).
  { intros e. destruct (steps_total ops0 (kernel_of (el_finder 1 e)) 0 1 (start (f_k (el_finder 1 e)))) as (w & E & _).
    - eapply builtin_total_ig_can; reflexivity.
    - cbn; lra.
    - cbn; lra.
    - exists 0%nat. cbn. split; [lia|lra].
    - eauto. }
  destruct (OK 5) as (w1 & E1). destruct (OK (INR 2 * 5)) as (w & E).
  pose proof (C82_steps ops0 ops0 2 (fun _ => 0%nat) (el_finder 1 (INR 2 * 5)) (el_finder 2 5) 1
    (ex_classic 1 (fun _ => 1) 0 0) (el_repeated 1 5) ltac:(left; cbn; lia)) as X.
  rewrite E in X. destruct (fsteps ops0 (el_finder 2 5) 1) as [w2|e2] eqn:E2; [|contradiction].
  destruct X as (_ & _ & X & _).
  assert (Y : forall r, (r < 2)%nat -> v_omegas (w_k w1) r 0%nat = v_omegas (w_k w2) r 0%nat).
  { intros r Hr. apply (H (el_finder 1 5) (el_finder 2 5) w1 w2 r); auto.
    - apply (ex_classic 1 (fun _ => 1) 0 0).
    - apply (one_many 1).
    - left. cbn. lia. }
  pose proof (el_step 5 w1 E1) as D1. pose proof (el_step _ w E) as D2.
  rewrite <- (X 0%nat 0%nat), <- (X 1%nat 0%nat) in D2 by (cbn; lia). rewrite <- !Y in D2 by lia. cbn in D2. lra.
Qed.
