(** WitnessConvex.v -- concrete cases for PropertiesConvex.v. *)

From Coquelicot Require Import Coquelicot.
From Coq Require Import String Reals Lra Lia List Bool Arith ZArith.
From Verif Require Import Base ModelCommon ModelParts ModelKernel ModelPhases ModelFinder ProofsKernel ProofsParts ProofsSteps
  ProofsRun ProofsRun2 ModelFreeEnergy ProofsFreeEnergy Spec Examples PropertiesKernel PropertiesRun PropertiesFreeEnergy
  PropertiesConstraints ProofsEquilibrium PropertiesEquilibrium PropertiesHomogeneous PropertiesConvex WitnessEquilibrium.
Import ListNotations.
Open Scope R_scope.

(** Two components that like each other: chi = -1. *)
Definition mix_chi : mat := fun i j => if Nat.eqb i j then 0 else - 1.

Lemma mix_up_to : never_attractive_up_to 2 mix_chi (1 / 2).
Proof.
  intros x. unfold form, mix_chi. cbn.
  replace (_ + _) with (1 / 2 * ((x 0%nat - x 1%nat) * (x 0%nat - x 1%nat))) by field.
  apply Rmult_le_pos; [lra|apply Rle_0_sqr].
Qed.

Lemma mix_never : never_attractive 2 mix_chi.
Proof. intros x Hx. pose proof (mix_up_to x) as H. rewrite Hx in H. lra. Qed.

(** ... while demixing mixtures are excluded *)
Example sym_attractive : ~ never_attractive 2 sym_chi.
Proof.
  intros H. specialize (H (fun i => if Nat.eqb i 0 then 1 else - 1)). unfold form, sym_chi in H. cbn in H.
  pose proof ln3_pos. lra.
Qed.

Definition mix_mu (i : nat) : R := mu_of (fe_of 2 (fun i => i) mix_chi ex_sizes) (fun _ => 1 / 2) i.
Definition mix_k : kstate nat cstate :=
  {| v_omegas := fun i _ => mix_mu i - 1 / ex_sizes i - ln (1 / 2) / ex_sizes i; v_Js := fun m => if Nat.eqb m 0 then 3 / 2 else 1 / 2;
     v_phis_comp := fun _ _ => 0; v_phis_feat := fun _ _ => 0; v_cons := [new_cons (no_class 2)]; v_g := 0%nat |}.
Definition mix_q : kernel :=
  {| q_inter := fh_compile 2 mix_chi (1 / 10); q_entropy := ig_compiled 2 ex_sizes; q_ensemble := can_compiled 2 (fun _ => 1 / 2);
     q_nf := 2; q_np := 2; q_acc_J := 1 / 5000; q_ub := 1 / 1000; q_acc_w := 1 / 500; q_thr := 1 / 10; q_scaler := 1 |}.

Lemma mix_admissible : admissible 2 2 mix_chi ex_sizes (fun _ => 1 / 2).
Proof.
  split; [lia|]. split; [intros; unfold mix_chi; now rewrite Nat.eqb_sym|]. split; intros; [|lra].
  unfold ex_sizes. destruct (Nat.eqb i 0); lra.
Qed.

Lemma mix_idle : Forall idle (v_cons mix_k).
Proof. constructor; [|constructor]. split; [exists 2%nat; reflexivity|]. split; reflexivity. Qed.

(** C65: this state has no residual, and its compartments of different volumes
    have the same composition. *)
Example case_C65 : exists k' nv rep, iterate mix_q mix_k = Ok (k', nv, rep) /\
  e_incomp rep = 0 /\ e_omega rep = 0 /\ e_Js rep = 0 /\
  v_phis_comp k' 0%nat 0%nat = v_phis_comp k' 0%nat 1%nat /\ v_phis_comp k' 1%nat 1%nat = 1 / 2.
Proof.
  destruct (C12_coexistence_stationary mix_q mix_k 2 mix_chi (1 / 10) ex_sizes (fun _ => 1 / 2) (fun _ _ => 1 / 2) mix_mu)
    as (k' & nv & rep & H & E1 & E2 & E3 & _); try reflexivity; try (cbn; lra).
  - apply mix_admissible.
  - apply mix_idle.
  - exists 0%nat. split; [cbn; lia|]. unfold alive; cbn; lra.
  - intros m Hm _. split; [intros; lra|]. split; [cbn; lra|]. split; [|intros; reflexivity].
    apply potentials_mu; [|intros; lra]. destruct mix_admissible as (_ & A & B & _).
    split; cbn; [intros i Hi; specialize (B i Hi); lra|auto].
  - intros i Hi. unfold wmean, living. cbn. destruct (Rlt_dec (1 / 10) (3 / 2)); [|lra]. destruct (Rlt_dec (1 / 10) (1 / 2)); [|lra]. field.
  - exists k', nv, rep. split; [exact H|]. do 3 (split; [assumption|]).
    assert (A : forall m, (m < 2)%nat -> alive (q_thr mix_q) (v_Js mix_k) m).
    { intros m Hm. unfold alive. cbn. destruct (Nat.eqb m 0); lra. }
    assert (M : mixture mix_q 2 2 (fun i => i) mix_chi (1 / 10) ex_sizes) by now constructor.
    assert (T : 0 <= q_thr mix_q) by (cbn; lra).
    split.
    + exact (C65_zero mix_q mix_k k' nv rep 2 2 (fun i => i) mix_chi (1 / 10) ex_sizes (fun _ => 1 / 2)
        M (or_introl eq_refl) mix_admissible mix_never T mix_idle H E1 E2 E3 0%nat 1%nat 0%nat
        ltac:(cbn; lia) ltac:(cbn; lia) (A 0%nat ltac:(lia)) (A 1%nat ltac:(lia)) ltac:(lia)).
    + exact (C65_canonical mix_q mix_k k' nv rep 2 2 (fun i => i) mix_chi (1 / 10) ex_sizes (fun _ => 1 / 2)
        M eq_refl mix_admissible mix_never T mix_idle H E1 E2 E3 1%nat 1%nat ltac:(cbn; lia) (A 1%nat ltac:(lia)) ltac:(lia)).
Qed.

(** ... and any run of the example finder with this interaction that converges
    to a tolerance below one obeys the bound. *)
Definition mix_finder : finder nat cstate :=
  {| f_inter := fh_compile 2 mix_chi 0; f_entropy := ig_compiled 2 ex_sizes; f_ensemble := can_compiled 2 ex_means;
     f_nc := 2; f_nf := 2; f_np := 4; f_par := ex_par 0 0; f_kwargs := [];
     f_k := ex_k 4 (fun _ => 1) 0; f_left := 0%Z; f_diag := None |}.

Example case_C65_run f' ph d : run ops0 mix_finder None None None = (f', Ok ph) -> f_diag f' = Some d ->
  d_incomp d <= 1 / 100000 -> d_omega d <= 1 / 100000 -> d_Js d <= 1 / 100000 ->
  forall p1 p2, (p1 < 4)%nat -> (p2 < 4)%nat -> Rabs (frac ph p1 0 - frac ph p2 0) <= 1 / 30.
Proof.
  intros H HD E1 E2 E3 p1 p2 H1 H2.
  pose proof (C65_run ops0 mix_finder None None None f' ph d 2 (fun i => i) mix_chi 0 ex_sizes ex_means (- 1) 1 1 (1 / 2) (1 / 100000)) as B.
  assert (HX : forall r s, (r < 2)%nat -> (s < 2)%nat -> Rabs (mix_chi r s) <= 1).
  { intros r s _ _. unfold mix_chi. destruct (Nat.eqb r s); [rewrite Rabs_R0; lra|]. rewrite Rabs_left; lra. }
  specialize (B ops0_contract ltac:(cbn; lra) ltac:(now constructor) ltac:(now left) mix_admissible).
  assert (B2 : smallest 2 mix_chi (- 1)).
  { split; [exists 0%nat, 1%nat; repeat split; lia|]. intros. unfold mix_chi. destruct (Nat.eqb r s); lra. }
  specialize (B B2). 
  assert (B3 : Forall idle (v_cons (f_k mix_finder))).
  { constructor; [|constructor]. split; [exists 2%nat; reflexivity|]. split; reflexivity. }
  specialize (B B3 mix_up_to ltac:(lra) HX ltac:(lra)).
  assert (B4 : forall c, (c < f_nc mix_finder)%nat -> 1 <= ex_sizes c) by (intros c _; unfold ex_sizes; destruct (Nat.eqb c 0); lra).
  specialize (B B4 H HD ltac:(lra) E1 E2 E3 p1 p2 H1 H2).
  unfold closeness in B.
  assert (S : shifted_sum 2 mix_chi (- 1) 0 = 2) by (unfold shifted_sum, mix_chi; cbn; ring).
  rewrite S, (Rabs_right 2) in B by lra. cbn in B. unfold ex_sizes in B. cbn in B.
  set (a := frac ph p1 0 - frac ph p2 0) in *. set (b := frac ph p1 1 - frac ph p2 1) in *.
  assert (0 <= b * b) by apply Rle_0_sqr.
  assert (a * a <= 1 / 900) by lra.
  apply Rabs_le. nra.
Qed.

(** C66: the demixed symmetric blend has a common tangent plane. *)
Example case_C66 : exists k' nv rep e0 e1 g, iterate (sym_q (1/10)) sym_k = Ok (k', nv, rep) /\
  let F := fe_of 2 (fun i => i) sym_chi sym_sizes in
  energy_is F (fun i => v_phis_comp k' i 0%nat) e0 /\ energy_is F (fun i => v_phis_comp k' i 1%nat) e1 /\
  gradient_is F (fun i => v_phis_comp k' i 0%nat) g /\
  v_phis_comp k' 0%nat 0%nat = 3 / 4 /\ v_phis_comp k' 0%nat 1%nat = 1 / 4 /\
  e1 = e0 + rsum 2 (fun i => g i * (v_phis_comp k' i 1%nat - v_phis_comp k' i 0%nat)).
Proof.
  destruct case_C12_stationary as (k' & nv & rep & H & E1 & E2 & E3 & E4).
  destruct (C66_tangent (sym_q (1/10)) sym_k k' nv rep 2 2 (fun i => i) sym_chi (1/10) sym_sizes (fun _ => 1/2)) with (m := 0%nat) (n := 1%nat)
    as (e0 & e1 & g & A1 & A2 & A3 & A4); auto; try (unfold alive; cbn; lra); try (cbn; lia).
  - now constructor.
  - now left.
  - apply sym_admissible. intros; lra.
  - apply sym_idle.
  - exists k', nv, rep, e0, e1, g. split; [exact H|]. cbv zeta. split; [exact A1|]. split; [exact A2|]. split; [exact A3|].
    split; [rewrite E4 by lia; reflexivity|]. split; [rewrite E4 by lia; reflexivity|exact A4].
Qed.
