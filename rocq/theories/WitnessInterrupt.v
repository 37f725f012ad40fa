(** WitnessInterrupt.v -- C86: concrete abandoned runs. *)

From Coq Require Import String Reals Lra Lia List Bool Arith ZArith.
From Verif Require Import Base ModelCommon ModelParts ModelKernel ModelPhases ModelFinder ModelHistory ModelInterrupt
  ProofsKernel ProofsParts ProofsSteps ProofsBounds ProofsCopy ProofsRun ProofsHistory ProofsRun2
  Spec Examples PropertiesKernel WitnessKernel PropertiesFinder PropertiesRun WitnessFinder PropertiesInterrupt.
Import ListNotations.
Open Scope R_scope.

Lemma sched11 : schedule 1 1 = Ok (1%nat, 1%nat).
Proof.
  unfold schedule. rewrite (proj2 (Reqb_false 1 0)) by lra.
  rewrite (zceil_unique (1/1) 1) by lra. rewrite (zceil_unique 1 1) by lra. reflexivity.
Qed.

(** A new finder with three compartments and revivals: a run of two steps is
    abandoned after the first one and continued. *)
Example case_C86_resume : exists f f1 f2 f3 ph2 ph3 d2 d3,
  history ops0 no0 f /\ f_np f = 3%nat /\
  interrupted ops0 f (Some 2) (Some 0) (Some 1) (Counted 1) = Some f1 /\
  run ops0 f1 (Some 1) (Some 0) (Some 1) = (f2, Ok ph2) /\
  run ops0 f (Some 2) (Some 0) (Some 1) = (f3, Ok ph3) /\
  f_diag f2 = Some d2 /\ f_diag f3 = Some d3 /\ d_steps d2 = 1%Z /\ d_steps d3 = 2%Z /\
  f_k f2 = f_k f3 /\ f_left f2 = f_left f3 /\ ph2 = ph3.
Proof.
  destruct (ex_create 2 0 2) as (f & EF & HH & HP & HN & _ & _ & HL). simpl in HL.
  destruct (C03_run_succeeds ops0 no0 f (Some 2) (Some 0) (Some 1) ops0_contract HH) as (f3 & ph3 & E3);
    rewrite ?HP, ?HN; simpl; auto; try lra; try lia.
  destruct (run_tol0 _ _ _ _ _ _ _ _ E3 sched21) as (j & w & rep & n & J & phi & g & -> & R3).
  assert (D3 : exists d3, f_diag f3 = Some d3 /\ d_steps d3 = 2%Z) by (rewrite (rf_f R3); eexists; split; reflexivity).
  destruct D3 as (d3 & D3 & N3).
  destruct (C86_places ops0 f _ _ _ _ _ _ E3 D3) as (tr & inner & J3 & ES & NJ & HJ & HP3 & _).
  change (schedule (opt (Some 2) (m_max_steps (f_par f))) (opt (Some 1) (m_interval (f_par f)))) with (schedule 2 1) in ES.
  rewrite sched21 in ES. injection ES as <- <-.
  destruct (proj2 (proj2 (HP3 1%nat)) ltac:(lia)) as (f1 & E1).
  destruct (C86_next_run ops0 no0 f (Some 2) (Some 0) (Some 1) (Counted 1) f1 (Some 1) (Some 0) (Some 1) ops0_contract HH) as (f2 & ph2 & E2);
    rewrite ?HP, ?HN; simpl; auto; try lra; try lia.
  destruct (run_tol0 _ _ _ _ _ _ _ _ E2 sched11) as (j2 & w2 & rep2 & n2 & Jb & phi2 & g2 & -> & R2).
  assert (D2 : exists d2, f_diag f2 = Some d2 /\ d_steps d2 = 1%Z) by (rewrite (rf_f R2); eexists; split; reflexivity).
  destruct D2 as (d2 & D2 & N2).
  exists f, f1, f2, f3, ph2, ph3, d2, d3.
  destruct (C86_resume ops0 f (Some 2) (Some 0) (Some 1) (Counted 1) f1 1 (Some 1) (Some 0) (Some 1)
              (Some 2) (Some 0) (Some 1) f2 f3 ph2 ph3 d2 d3 2 1) as (A & B & C & _); auto.
  { exact sched21. }
  { right. exists 1%nat. auto. }
  { rewrite N2, N3. reflexivity. }
  repeat (split; [assumption|]). assumption.
Qed.

(** Revivals are lost for the budget when the run is abandoned right after the
    compiled kernel returned: one compartment has been revived, the budget is
    still complete, so the bound of C06 does not hold for abandoned runs. *)
Theorem C86_budget_refuted : exists (f f1 : finder nat cstate) w,
  interrupted ops0 f (Some 1) (Some 0) (Some 1) (Returned 1) = Some f1 /\
  fsteps ops0 f 1 = Ok w /\ f_k f1 = w_k w /\ w_count w = 1%nat /\ f_left f = 2%Z /\ f_left f1 = 2%Z.
Proof.
  set (f := ex_finder 2 J10 0 1).
  destruct (ex_fsteps 2 J10 0 1 1) as (w & E & _); [lra|exists O; unfold J10; simpl; split; [lia|lra]|].
  fold f in E.
  assert (HC : w_count w = 1%nat).
  { assert (E' := E). unfold fsteps in E'. simpl steps in E'. cbn [bind] in E'. apply one_step_revives in E'.
    cbn [start w_count w_k] in E'. simpl f_left in E'. cbn [f f_k ex_finder ex_k v_Js] in E'.
    change (q_np (kernel_of f)) with 2%nat in E'. change (q_thr (kernel_of f)) with 0 in E'.
    assert (ND : num_dead 2 0 J10 = 1%nat).
    { unfold num_dead, num_alive. simpl. unfold J10. simpl.
      destruct (Rlt_dec 0 1); [|lra]. destruct (Rlt_dec 0 0); [lra|]. reflexivity. }
    rewrite ND in E'. simpl in E'. lia. }
  exists f, (with_k f (w_k w)), w. split.
  - unfold interrupted. change (schedule _ _) with (schedule 1 1). rewrite sched11. cbn [loop_at].
    unfold metastep. fold (start (f_k f)). fold (fsteps ops0 f 1). rewrite E. cbn [bind].
    destruct (steps_S_rep ops0 (kernel_of f) (f_left f) 0 (start (f_k f)) w E) as (rep & ER). rewrite ER. reflexivity.
  - split; [exact E|]. split; [reflexivity|]. split; [exact HC|]. split; reflexivity.
Qed.

(** A kill_threshold above all volumes: the kernel raises ZeroDivisionError in
    the first step and leaves zero volumes behind. *)
Example case_C86_raises : exists f' : finder nat cstate,
  kernel_raises ops0 (ex_finder 2 ones 2 0) (Some 1) (Some 0) (Some 1) ZeroDivisionError f' /\
  (forall m, v_Js (f_k f') m = 0) /\
  run ops0 (ex_finder 2 ones 2 0) (Some 1) (Some 0) (Some 1) = (ex_finder 2 ones 2 0, Err ZeroDivisionError).
Proof.
  set (f := ex_finder 2 ones 2 0).
  assert (Z : forall m, make_masks ones 2 m = 0) by (intros; rewrite make_masks_spec, (proj2 (Rltb_false _ _)); auto; unfold ones; lra).
  assert (HI : iterate (kernel_of f) (f_k f) = Err ZeroDivisionError).
  { unfold iterate. cbn [kernel_of q_entropy q_np q_thr f ex_finder f_entropy f_np f_par ex_par m_thr f_k ex_k v_Js v_phis_comp v_omegas].
    cbn [ig_compiled s_partition]. unfold ig_partition.
    replace (rsum 2 (fun m => ones m * make_masks ones 2 m)) with 0 by (simpl; rewrite !Z; ring).
    rewrite (proj2 (Reqb_true 0 0)) by reflexivity. reflexivity. }
  set (k' := {| v_omegas := v_omegas (f_k f); v_Js := fun m => v_Js (f_k f) m * make_masks (v_Js (f_k f)) 2 m;
                v_phis_comp := v_phis_comp (f_k f); v_phis_feat := v_phis_feat (f_k f);
                v_cons := v_cons (f_k f); v_g := v_g (f_k f) |} : kstate nat cstate).
  exists (with_k f k').
  assert (HM : maybe_revive ops0 (kernel_of f) (f_left f) 0 (f_k f) = (O, f_k f)) by reflexivity.
  split; [|split].
  - exists 1%nat, 1%nat. split; [exact sched11|].
    eapply raises_here with (m := O) (k := f_k f).
    + lia.
    + reflexivity.
    + exact HM.
    + exact HI.
    + split; [reflexivity|]. split; [reflexivity|]. split; [reflexivity|]. left; reflexivity.
  - intros m. simpl. rewrite Z. ring.
  - unfold run. change (schedule _ _) with (schedule 1 1). rewrite sched11. cbn [run_loop r_f].
    unfold metastep. cbn [steps bind]. unfold one_step. cbn [w_count w_k]. rewrite HM, HI. reflexivity.
Qed.
