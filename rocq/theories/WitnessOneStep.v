(** WitnessOneStep.v -- concrete cases for PropertiesOneStep.v. *)

From Coq Require Import String Reals Lra Lia List Bool Arith ZArith.
From Verif Require Import Base ModelCommon ModelParts ModelKernel ModelPhases ModelFinder ModelHistory
  ProofsKernel ProofsParts ProofsSteps ProofsCopy ProofsRun ProofsHistory ProofsRun2 Spec Examples
  PropertiesKernel WitnessFinder PropertiesOneStep.
Import ListNotations.
Open Scope R_scope.

(** three compartments, the second is dead *)
Definition gap_J : vec := fun m => if Nat.eqb m 1 then 0 else 1.

Lemma ex_run_budget np J budget a i : (exists m, (m < np)%nat /\ 0 < J m) -> 0 < a -> 0 < i ->
  exists f' ph, run ops0 (ex_finder np J 0 budget) (Some a) (Some 0) (Some i) = (f', Ok ph).
Proof.
  intros HA Ha Hi. destruct (schedule_ok a i Ha Hi) as (tr & inner & ES & Htr & _).
  apply (run_ok ops0 (ex_finder np J 0 budget) (Some a) (Some 0) (Some i) tr inner ES Htr eq_refl).
  - intros n. destruct (ex_fsteps np J 0 budget n) as (w & E & _); [lra|auto|eauto].
  - intros n w E. destruct (ex_fsteps np J 0 budget n) as (w' & E' & HA'); [lra|auto|].
    rewrite E in E'. injection E' as <-.
    destruct (C08_copy_succeeds_default ops0 np (v_Js (w_k w)) (v_phis_comp (w_k w)) (v_g (w_k w)) ops0_contract HA')
      as (c & J' & phi & g & EC & _). eauto.
Qed.

Lemma gap_alive : exists m, (m < 3)%nat /\ 0 < gap_J m.
Proof. exists 0%nat. split; [lia|unfold gap_J; cbn; lra]. Qed.

Lemma one_one : schedule 1 1 = Ok (1%nat, 1%nat).
Proof.
  unfold schedule. rewrite (proj2 (Reqb_false 1 0)) by lra.
  assert (E : zceil (1 / 1) = 1%Z) by (apply zceil_unique; lra).
  assert (E' : zceil 1 = 1%Z) by (apply zceil_unique; lra). rewrite E, E'. reflexivity.
Qed.

(** Without budget the dead compartment stays empty through a run of five steps. *)
Example case_C04_run : exists g ph, run ops0 (ex_finder 3 gap_J 0 0) (Some 5) (Some 0) (Some 1) = (g, Ok ph) /\
  dead 0 gap_J 1 /\ v_Js (f_k g) 1%nat = 0 /\ v_omegas (f_k (ex_finder 3 gap_J 0 0)) 1%nat 1%nat = 1 /\
  v_omegas (f_k g) 1%nat 1%nat = 0.
Proof.
  destruct (ex_run_budget 3 gap_J 0 5 1 gap_alive) as (g & ph & E); [lra|lra|]. exists g, ph. split; [exact E|].
  assert (D : dead 0 gap_J 1) by (unfold dead, gap_J; cbn; lra).
  destruct (C04_run ops0 (ex_finder 3 gap_J 0 0) g _ _ _ ph 1 ltac:(cbn; lra) ltac:(cbn; lia) D E) as (A & B & _).
  repeat split; auto.
Qed.

(** With budget the fields (range [0, 1] in every row) are drawn: the generator
    returns 1/2, so the new field is 3/4. *)
Example case_C05_run : exists g ph w J gen, run ops0 (ex_finder 3 gap_J 0 1) (Some 5) (Some 0) (Some 1) = (g, Ok ph) /\
  run ops0 (refilled (ex_finder 3 gap_J 0 1) w J gen 1) (Some 5) (Some 0) (Some 1) = (g, Ok ph) /\
  J 1%nat = 1 /\ 0 <= w 1%nat 1%nat <= 1 /\ gen = 2%nat.
Proof.
  destruct (ex_run_budget 3 gap_J 1 5 1 gap_alive) as (g & ph & E); [lra|lra|].
  destruct (C05_run ops0 (ex_finder 3 gap_J 0 1) g _ _ _ ph ops0_contract ltac:(cbn; lra) ltac:(cbn; lra) ltac:(cbn; lia) E)
    as (w & J & gen & A & B & C & D).
  assert (N : num_dead 3 0 gap_J = 1%nat).
  { unfold num_dead, num_alive, gap_J. simpl. repeat (destruct (Rlt_dec _ _); try lra). reflexivity. }
  assert (DD : dead 0 gap_J 1) by (unfold dead, gap_J; cbn; lra).
  exists g, ph, w, J, gen. split; [exact E|]. cbn [f_np f_par ex_finder m_thr ex_par f_k v_Js ex_k f_nf v_g] in *. rewrite N in *.
  split; [exact D|]. split; [now apply (A 1%nat); [lia|]|]. split.
  - destruct (B 1%nat 1%nat ltac:(lia) ltac:(lia)) as [_ B1]. specialize (B1 0 1). cbn in B1.
    assert (M0 : is_min 3 (fun m => if Nat.eqb 1 m then 1 else 0) 0).
    { split; [exists 0%nat; split; [lia|reflexivity]|]. intros m _. destruct (Nat.eqb 1 m); lra. }
    assert (M1 : is_max 3 (fun m => if Nat.eqb 1 m then 1 else 0) 1).
    { split; [exists 1%nat; split; [lia|reflexivity]|]. intros m _. destruct (Nat.eqb 1 m); lra. }
    specialize (B1 M0 M1 DD). lra.
  - exact C.
Qed.

(** A step of C09 and C10: all compartments alive at volume one, doubling
    acceptance_omega doubles the change of the fields. *)
Example case_C10_run : exists g ph g2 ph2,
  run ops0 (ex_finder 2 (fun _ => 1) 0 0) (Some 1) (Some 0) (Some 1) = (g, Ok ph) /\
  run ops0 (with_steps (ex_finder 2 (fun _ => 1) 0 0) (1/5000) (1/1000) (1/250)) (Some 1) (Some 0) (Some 1) = (g2, Ok ph2) /\
  Rabs (v_Js (f_k g) 0%nat - 1) <= 2 * (1/1000) /\
  v_omegas (f_k g2) 0%nat 0%nat - 1 = 2 * (v_omegas (f_k g) 0%nat 0%nat - 1).
Proof.
  set (f := ex_finder 2 (fun _ => 1) 0 0).
  assert (HA : exists m, (m < 2)%nat /\ 0 < (fun _ : nat => 1) m) by (exists 0%nat; split; [lia|cbn; lra]).
  destruct (ex_run_budget 2 (fun _ => 1) 0 1 1 HA) as (g & ph & E); [lra|lra|].
  assert (E2 : exists g2 ph2, run ops0 (with_steps f (1/5000) (1/1000) (1/250)) (Some 1) (Some 0) (Some 1) = (g2, Ok ph2)).
  { set (f2 := with_steps f (1/5000) (1/1000) (1/250)).
    assert (FS : forall n, exists w, fsteps ops0 f2 n = Ok w /\ exists m, (m < 2)%nat /\ 0 < v_Js (w_k w) m).
    { intros n. destruct (steps_total ops0 (kernel_of f2) 0 n (start (f_k f2))) as (w & E' & H); auto.
      - eapply builtin_total_ig_can; reflexivity.
      - cbn; lra.
      - cbn; lra.
      - exists w. split; auto. }
    apply (run_ok ops0 f2 (Some 1) (Some 0) (Some 1) 1 1 one_one ltac:(lia) eq_refl).
    - intros n. destruct (FS n) as (w & E' & _). eauto.
    - intros n w E'. destruct (FS n) as (w' & E'' & HA'). rewrite E' in E''. injection E'' as <-.
      destruct (C08_copy_succeeds_default ops0 2 (v_Js (w_k w)) (v_phis_comp (w_k w)) (v_g (w_k w)) ops0_contract HA')
        as (c & J' & phi & gg & EC & _). eauto. }
  destruct E2 as (g2 & ph2 & E2). exists g, ph, g2, ph2. split; [exact E|]. split; [exact E2|].
  assert (A0 : forall m, alive 0 (fun _ : nat => 1) m) by (intros m; unfold alive; lra).
  split.
  - apply (C09_run ops0 f g 1 (Some 0) 1 ph 0 ltac:(cbn; lra) ltac:(cbn; lra) one_one ltac:(cbn; lia)); auto.
    { cbn. unfold living, num_alive. cbn. destruct (Rlt_dec 0 1); [cbn; lra|lra]. } cbn; lia.
  - destruct (C10_run ops0 f 1 1 one_one ltac:(cbn; lia)) as (dJ & dw & K).
    assert (D1 : exists d, f_diag g = Some d).
    { destruct (one_step_run ops0 f g 1 (Some 0) 1 ph one_one E) as (k' & nv & rep & gen & _ & _ & _ & D). eauto. }
    assert (D2 : exists d, f_diag g2 = Some d).
    { destruct (one_step_run ops0 _ g2 1 (Some 0) 1 ph2 one_one E2) as (k' & nv & rep & gen & _ & _ & _ & D). eauto. }
    destruct D1 as [d1 D1], D2 as [d2 D2].
    destruct (K (1/5000) (1/1000) (1/500) (Some 0) g ph d1 ltac:(lra) ltac:(lra) E D1) as (J1 & c1 & s1 & R1 & _ & F1 & _ & U1).
    destruct (K (1/5000) (1/1000) (1/250) (Some 0) g2 ph2 d2 ltac:(lra) ltac:(lra) E2 D2) as (J2 & c2 & s2 & R2 & _ & F2 & _ & U2).
    destruct (U1 0%nat ltac:(cbn; lia) (A0 0%nat)) as [_ V1]. destruct (U2 0%nat ltac:(cbn; lia) (A0 0%nat)) as [_ V2].
    rewrite J2, <- J1 in F2. set (X := Rmax (1 / 5000 * d_Js d1) (1 / 1000)) in *.
    assert (HX : 1/1000 <= X) by apply Rmax_r.
    assert (EC : c1 = c2) by (apply (Rmult_eq_reg_r X); [congruence|lra]).
    rewrite (V1 0%nat), (V2 0%nat). change (v_omegas (f_k f) 0%nat 0%nat) with 1. rewrite EC. lra.
Qed.
