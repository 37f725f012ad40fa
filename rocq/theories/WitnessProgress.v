(** WitnessProgress.v -- a converged run whose bars are full. *)

From Coquelicot Require Import Coquelicot.
From Coq Require Import String Reals Lra Lia List Bool Arith ZArith.
From Verif Require Import Base ModelCommon ModelParts ModelKernel ModelPhases ModelFinder ModelProgress
  ProofsKernel ProofsParts ProofsSteps ProofsCopy ProofsRun ProofsRun2 Spec Examples PropertiesKernel PropertiesRun
  PropertiesFinder PropertiesProgress WitnessFinder WitnessEquilibrium.
Import ListNotations.
Open Scope R_scope.

(** The demixed blend of WitnessEquilibrium.v in a finder. *)
Definition sym_f : finder nat cstate :=
  {| f_inter := fh_compile 2 sym_chi (1 / 10); f_entropy := ig_compiled 2 sym_sizes;
     f_ensemble := can_compiled 2 (fun _ => 1 / 2); f_nc := 2; f_nf := 2; f_np := 2;
     f_par := ex_par (1 / 10) 0; f_kwargs := []; f_k := con_k; f_left := 0%Z; f_diag := None |}.

Example case_C87_run : exists f' ph d,
  run ops0 sym_f (Some 2) (Some (/ 10 ^ 5)) (Some 1) = (f', Ok ph) /\ f_diag f' = Some d /\ d_steps d = 1%Z /\
  bars (/ 10 ^ 5) {| e_incomp := d_incomp d; e_omega := d_omega d; e_Js := d_Js d; e_cons := d_cons d |}
  = (INR 5, INR 5, INR 5, INR 5).
Proof.
  destruct case_C52 as (k' & nv & rep & E & E1 & E2 & E3 & E4 & _).
  change (sym_q (1/10)) with (kernel_of sym_f) in E.
  assert (HN : num_alive 2 (1/10) (v_Js con_k) = 2%nat).
  { rewrite num_alive_ncount. apply ncount_all. intros. apply Rltb_true. unfold con_k; cbn; lra. }
  assert (HJ : forall m, (m < 2)%nat -> 1 / 10 < v_Js k' m).
  { intros m Hm. pose proof (C09_volume_change_bounded (kernel_of sym_f) con_k k' nv rep m) as B.
    specialize (B ltac:(cbn; lra) ltac:(cbn; lra) E).
    change (q_np (kernel_of sym_f)) with 2%nat in B. change (q_thr (kernel_of sym_f)) with (1/10) in B.
    change (q_ub (kernel_of sym_f)) with (1/1000) in B.
    assert (X : Rabs (v_Js k' m - v_Js con_k m) <= 2 * (1/1000)).
    { apply B; auto.
      - rewrite HN. cbn. unfold living. repeat destruct (Rlt_dec _ _); lra.
      - unfold alive; cbn; lra. }
    apply Rabs_le_inv in X. cbn in X. lra. }
  assert (HV : nv = 2%Z).
  { pose proof (C02_volumes_normalised _ _ _ _ _ E) as (-> & _). change (Z.of_nat (num_alive 2 (1/10) (v_Js con_k)) = 2%Z).
    now rewrite HN. }
  set (w := {| w_k := k'; w_count := O; w_valid := nv; w_rep := Some rep |}).
  assert (EW : fsteps ops0 sym_f 1 = Ok w).
  { change (one_step ops0 (kernel_of sym_f) 0 (start con_k) = Ok w). unfold one_step. rewrite maybe_revive_alive_id.
    - cbn [start w_k]. rewrite E. reflexivity.
    - intros m Hm. cbn. lra. }
  assert (P : 0 < / 10 ^ 5) by (apply Rinv_0_lt_compat, pow_lt; lra).
  assert (HC : converged (/ 10 ^ 5) (safe_flag sym_f w) rep = true).
  { unfold converged. rewrite E1, E2, E3, E4, !(proj2 (Rltb_true _ _) P), !andb_true_r.
    unfold safe_flag. cbn [w w_valid]. rewrite HV. apply Z.eqb_eq. unfold count_valid. cbn [sym_f f_np f_par ex_par m_thr w_k w].
    rewrite (proj2 (ncount_all _ _)); [reflexivity|]. intros. apply Rltb_true. auto. }
  assert (X : exists f' ph d, run ops0 sym_f (Some 2) (Some (/ 10 ^ 5)) (Some 1) = (f', Ok ph) /\ f_diag f' = Some d /\ d_steps d = 1%Z).
  { unfold run. rewrite sched21. cbn [run_loop r_f].
    unfold metastep. fold (start (f_k sym_f)). fold (fsteps ops0 sym_f 1). rewrite EW. cbn [bind w w_rep].
    change (String.eqb (m_criterion (f_par sym_f)) "standard") with true. cbn iota.
    match goal with |- context [converged ?t ?b rep] => change (converged t b rep) with (converged (/ 10 ^ 5) (safe_flag sym_f w) rep) end.
    rewrite HC.
    cbn [r_f r_rep r_steps]. simpl f_np. simpl f_par. simpl f_k. cbn [ex_par m_thr w_k w v_Js v_phis_comp v_g].
    rewrite revive_by_copy_none; [|lra|exact HJ].
    eexists _, _, _. split; [reflexivity|]. split; reflexivity. }
  destruct X as (f' & ph & d & R & D & S). exists f', ph, d. split; [exact R|]. split; [exact D|]. split; [exact S|].
  apply (C87_run ops0 sym_f f' (Some 2) (Some 1) ph d 5 2 1); auto; cbn; try lra; try lia.
  all: first [exact sched21 | rewrite S; discriminate].
Qed.
