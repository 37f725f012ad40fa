(** WitnessConsistency.v -- concrete cases for PropertiesConsistency.v. *)

From Coq Require Import String Reals Lra Lia List Bool Arith ZArith.
From Verif Require Import Base ModelCommon ModelParts ModelKernel ModelPhases ModelFinder ModelHistory
  ProofsKernel ProofsParts ProofsSteps ProofsCopy ProofsRun ProofsHistory ProofsRun2 Spec Examples
  PropertiesKernel PropertiesFinder PropertiesRun WitnessFinder ProofsEquilibrium PropertiesConstraints PropertiesConsistency.
Import ListNotations.
Open Scope R_scope.

(** every finder with built-in parts, threshold 0 and a living compartment runs *)
Lemma any_run (f : finder nat cstate) a t i : parts_total (kernel_of f) -> m_thr (f_par f) = 0 -> 0 < m_ub (f_par f) ->
  m_criterion (f_par f) = "standard"%string ->
  (exists m, (m < f_np f)%nat /\ 0 < v_Js (f_k f) m) -> 0 < a -> 0 < i ->
  exists f' ph d, run ops0 f (Some a) (Some t) (Some i) = (f', Ok ph) /\ f_diag f' = Some d.
Proof.
  intros HP Ht Hu HC HA Ha Hi. destruct (schedule_ok a i Ha Hi) as (tr & inner & ES & Htr & _).
  assert (HS : forall n, exists w, fsteps ops0 f n = Ok w /\ some_alive (kernel_of f) (v_Js (w_k w))).
  { intros n. apply steps_total; auto; cbn; rewrite ?Ht; [lra|]. destruct HA as (m & Hm & HA). exists m. cbn. rewrite Ht. auto. }
  destruct (run_ok ops0 f (Some a) (Some t) (Some i) tr inner ES Htr HC) as (f' & ph & E).
  - intros n. destruct (HS n) as (w & E & _). eauto.
  - intros n w E. destruct (HS n) as (w' & E' & HA'). rewrite E in E'. injection E' as <-. rewrite Ht.
    destruct HA' as (m & Hm & HA'). cbn in HA'. rewrite Ht in HA'.
    destruct (C08_copy_succeeds_default ops0 (f_np f) (v_Js (w_k w)) (v_phis_comp (w_k w)) (v_g (w_k w)) ops0_contract)
      as (c & J' & phi & g & EC & _); eauto.
  - pose proof E as E0. apply run_inv in E0. destruct E0 as (tr' & inner' & j & w & rep & n & J & phi & g & R).
    eexists f', ph, _. split; [exact E|]. rewrite (rf_f R). reflexivity.
Qed.

(** the example finder with other mean fractions and constraints *)
Definition re_means (x : vec) (l : list (cons_obj cstate)) : finder nat cstate :=
  let f := ex_finder 2 ones 0 1 in
  {| f_inter := f_inter f; f_entropy := f_entropy f; f_ensemble := can_compiled 2 x; f_nc := 2; f_nf := 2; f_np := 2;
     f_par := f_par f; f_kwargs := []; f_k := with_cons (f_k f) l; f_left := f_left f; f_diag := None |}.

Lemma re_run x l a t i : 0 < a -> 0 < i ->
  exists f' ph d, run ops0 (re_means x l) (Some a) (Some t) (Some i) = (f', Ok ph) /\ f_diag f' = Some d.
Proof.
  intros Ha Hi. apply any_run; auto; try reflexivity; try (cbn; lra).
  - eapply builtin_total_ig_can; reflexivity.
  - exists O. cbn. unfold ones. split; [lia|lra].
Qed.

Lemma sched62 : schedule 6 2 = Ok (3%nat, 2%nat).
Proof. exact (schedule_multiple 2 3 ltac:(lia) ltac:(lia)). Qed.

(** Mean fractions 1/2 and 1/3: with tolerance 1/10 all six steps are done and
    the reported incompressibility is at least 1/6. *)
Example case_C71 : exists f' ph d,
  run ops0 (re_means (fun i => if Nat.eqb i 0 then 1/2 else 1/3) []) (Some 6) (Some (1/10)) (Some 2) = (f', Ok ph) /\
  f_diag f' = Some d /\ 1/6 <= d_incomp d /\ d_steps d = 6%Z.
Proof.
  destruct (re_run (fun i => if Nat.eqb i 0 then 1/2 else 1/3) [] 6 (1/10) 2) as (f' & ph & d & E & D); [lra|lra|].
  exists f', ph, d. split; [exact E|]. split; [exact D|].
  pose proof (C71_run ops0 (re_means (fun i => if Nat.eqb i 0 then 1/2 else 1/3) []) _ _ _ f' ph (fun i => if Nat.eqb i 0 then 1/2 else 1/3) d
    (or_introl (ex_intro _ 2%nat (ex_intro _ ex_sizes eq_refl))) eq_refl eq_refl ltac:(cbn; lra) E D) as (A & B).
  assert (V : Rabs (rsum 2 (fun i => if Nat.eqb i 0 then 1/2 else 1/3) - 1) = 1/6).
  { cbn. rewrite Rabs_left; lra. }
  change (f_nc (re_means _ _)) with 2%nat in *. rewrite V in *. split; [exact A|].
  cbn [opt] in B. destruct (B ltac:(lra)) as (tr & inner & S & HD). rewrite sched62 in S. injection S as <- <-.
  rewrite HD. reflexivity.
Qed.

(** phi_0 - phi_1 = T over all compartments, but the means are equal *)
Definition gap_lin (T : R) : lin_par :=
  {| l_cons := 1; l_feat := 2; l_Cs := fun _ r => if Nat.eqb r 0 then 1 else -1; l_Ts := fun _ => T; l_ratio := 1; l_elast := 1 |}.

Lemma gap_violation T : violation (gap_lin T) (fsum 2 (fun i => i) ex_means) 0 = - T.
Proof. unfold violation, fsum, ex_means. cbn. lra. Qed.

(** T = 1/4 is never reached ... *)
Example case_C72_incompatible : exists f' ph d,
  run ops0 (re_means ex_means [new_cons (global_class (gap_lin (1/4)))]) (Some 6) (Some (1/10)) (Some 2) = (f', Ok ph) /\
  f_diag f' = Some d /\ 1/4 <= d_cons d /\ d_steps d = 6%Z.
Proof.
  destruct (re_run ex_means [new_cons (global_class (gap_lin (1/4)))] 6 (1/10) 2) as (f' & ph & d & E & D); [lra|lra|].
  exists f', ph, d. split; [exact E|]. split; [exact D|].
  pose proof (C72_incompatible ops0 (re_means ex_means [new_cons (global_class (gap_lin (1/4)))]) _ _ _ f' ph 2 (fun i => i) ex_means d (new_cons (global_class (gap_lin (1/4)))) (gap_lin (1/4)) 0
    (carries_plain 2 ex_sizes) eq_refl ltac:(cbn; lra) (or_introl eq_refl) eq_refl eq_refl ltac:(cbn; lia) E D) as (A & B).
  change (f_nc (re_means _ _)) with 2%nat in *. rewrite gap_violation in *. rewrite Rabs_Ropp, Rabs_right in * by lra.
  split; [exact A|]. cbn [opt] in B. destruct (B ltac:(lra)) as (tr & inner & S & HD). rewrite sched62 in S. injection S as <- <-.
  rewrite HD. reflexivity.
Qed.

(** ... and T = 0 changes nothing, here beside a [NoConstraint]. *)
Example case_C72_compatible : exists f' f2 ph,
  run ops0 (re_means ex_means [new_cons (no_class 2)]) (Some 6) (Some (1/10)) (Some 2) = (f', Ok ph) /\
  run ops0 (re_means ex_means [new_cons (no_class 2); new_cons (global_class (gap_lin 0))]) (Some 6) (Some (1/10)) (Some 2)
    = (f2, Ok ph) /\ f_diag f2 = f_diag f'.
Proof.
  destruct (re_run ex_means [new_cons (no_class 2)] 6 (1/10) 2) as (f' & ph & d & E & D); [lra|lra|].
  destruct (C72_compatible ops0 (re_means ex_means [new_cons (no_class 2)]) (Some 6) (Some (1/10)) (Some 2) f' ph 2 (fun i => i) ex_means
    (new_cons (global_class (gap_lin 0))) (gap_lin 0) [new_cons (no_class 2)] [] (carries_plain 2 ex_sizes) eq_refl ltac:(cbn; lra) eq_refl)
    as (f2 & E2 & D2 & _); auto.
  - intros b Hb. cbn in Hb. replace b with O by lia. change (f_nc (re_means _ _)) with 2%nat. rewrite gap_violation. lra.
  - split; auto.
  - exists f', f2, ph. auto.
Qed.

(** A converging run (one of two steps, [fc_converges]) and its versions with
    a stricter tolerance and a higher limit. *)
Example case_C73 : exists tol f1 ph1 d1 f2 ph2 d2,
  run ops0 fc (Some 2) (Some tol) (Some 1) = (f1, Ok ph1) /\ f_diag f1 = Some d1 /\ d_steps d1 = 1%Z /\
  run ops0 fc (Some 2) (Some 0) (Some 1) = (f2, Ok ph2) /\ f_diag f2 = Some d2 /\ d_steps d2 = 2%Z /\
  run ops0 fc (Some 7) (Some tol) (Some 1) = (f1, Ok ph1).
Proof.
  destruct fc_converges as (tol & f1 & ph1 & d1 & w & E & ED & ES & HT & _).
  destruct (any_run fc 2 0 1) as (f2 & ph2 & d2 & E2 & D2); try reflexivity; try (cbn; lra).
  { eapply builtin_total_ig_can; reflexivity. }
  { exists O. cbn. unfold ones. split; [lia|lra]. }
  destruct (any_run fc 7 tol 1) as (f3 & ph3 & d3 & E3 & D3); try reflexivity; try (cbn; lra).
  { eapply builtin_total_ig_can; reflexivity. }
  { exists O. cbn. unfold ones. split; [lia|lra]. }
  exists tol, f1, ph1, d1, f2, ph2, d2. repeat (split; [assumption|]).
  destruct (run_tol0 _ _ _ _ _ _ _ _ E2 sched21) as (j & w2 & rep & n & J & phi & g & -> & R).
  split; [rewrite (rf_f R) in D2; injection D2 as <-; reflexivity|].
  destruct (C73_limit_multiple ops0 fc (Some 2) (Some 7) (Some tol) (Some 1) f1 ph1 d1 f3 ph3 1 2 7) as (<- & <-); auto;
    try (cbn; lra); try lia.
Qed.

(** The checks move with the limit: three steps in intervals of two are checked
    after every step, four steps after every second one.  So the result of a
    converged run can change with [max_steps]. *)
Theorem C73_any_limit_refuted : exists (f : finder nat cstate) tol f1 ph1 d1 f2 ph2 d2,
  run ops0 f (Some 3) (Some tol) (Some 2) = (f1, Ok ph1) /\ f_diag f1 = Some d1 /\ d_steps d1 = 1%Z /\
  d_incomp d1 < tol /\ d_omega d1 < tol /\ d_Js d1 < tol /\ d_cons d1 < tol /\
  run ops0 f (Some 4) (Some tol) (Some 2) = (f2, Ok ph2) /\ f_diag f2 = Some d2 /\ (2 <= d_steps d2)%Z.
Proof.
  destruct fc_converges as (tol & f0 & ph0 & d0 & w0 & E & ED & ES & HT & _).
  assert (S3 : schedule 3 2 = Ok (2%nat, 1%nat)).
  { unfold schedule. rewrite (proj2 (Reqb_false 2 0)) by lra.
    rewrite (zceil_unique (3/2) 2) by lra. rewrite (zceil_unique 3 3) by lra. reflexivity. }
  assert (E3 : run ops0 fc (Some 3) (Some tol) (Some 2) = (f0, Ok ph0)).
  { unfold run in *. rewrite S3. rewrite sched21 in E. exact E. }
  destruct (any_run fc 4 tol 2) as (f2 & ph2 & d2 & E2 & D2); try reflexivity; try (cbn; lra).
  { eapply builtin_total_ig_can; reflexivity. }
  { exists O. cbn. unfold ones. split; [lia|lra]. }
  pose proof (C14_convergence_sound ops0 fc (Some 2) (Some tol) (Some 1) f0 ph0 ltac:(simpl; lra) E) as C14.
  destruct C14 as (d' & tr & inner & ED' & HS' & _ & [C14|C14]); rewrite ED in ED'; injection ED' as <-;
    cbn [opt] in HS'; rewrite sched21 in HS'; injection HS' as <- <-; [rewrite ES in C14; discriminate|].
  cbn [opt] in C14. destruct C14 as (A1 & A2 & A3 & A4 & _).
  exists fc, tol, f0, ph0, d0, f2, ph2, d2. repeat (split; [assumption|]).
  apply run_inv in E2. destruct E2 as (tr & inner & j & w & rep & n & J & phi & g & R).
  pose proof (rf_sched R) as S. cbn [opt] in S.
  assert (S4 : schedule 4 2 = Ok (2%nat, 2%nat)) by exact (schedule_multiple 2 2 ltac:(lia) ltac:(lia)).
  rewrite S4 in S. injection S as <- <-. rewrite (rf_f R) in D2. injection D2 as <-. cbn [d_steps].
  pose proof (rf_j R). lia.
Qed.
