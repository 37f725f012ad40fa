(** WitnessFinder.v -- concrete runs: cases meeting the hypotheses of the
    theorems in PropertiesFinder.v and PropertiesRun.v, and runs refuting the
    stronger claims (C06, C15, C16, C18). *)

From Coq Require Import String Reals Lra Lia List Bool Arith ZArith.
From Verif Require Import Base ModelCommon ModelParts ModelKernel ModelPhases ModelFinder ModelHistory
  ProofsKernel ProofsParts ProofsSteps ProofsBounds ProofsCopy ProofsRun ProofsHistory ProofsRun2
  Spec Examples PropertiesKernel WitnessKernel PropertiesFinder PropertiesRun.
Import ListNotations.
Open Scope R_scope.

Definition no0 (nf : nat) : cons_obj cstate := new_cons (no_class nf).

(** Objects as the user creates them. *)
Definition ex_inter : compilable interaction :=
  {| a_params := ["additional_chis_shift"%string];
     a_impl := fun kw => Ok (fh_compile 2 ex_chi (kw_default kw "additional_chis_shift" 1)) |}.
Definition ex_ent : compilable entropy := {| a_params := []; a_impl := fun _ => Ok (ig_compiled 2 ex_sizes) |}.
Definition ex_ens : compilable ensemble := {| a_params := []; a_impl := fun _ => Ok (can_compiled 2 ex_means) |}.

Lemma ex_create np thr budget : exists f,
  create ops0 no0 ex_inter ex_ent ex_ens CA_none (Some (S np)) (ex_par thr budget) [] O = Ok f /\
  history ops0 no0 f /\ f_par f = ex_par thr budget /\ f_np f = S np /\ f_nc f = 2%nat /\ f_nf f = 2%nat /\
  f_left f = (budget * Z.of_nat (S np))%Z.
Proof.
  unfold create. simpl bind. eexists. split; [reflexivity|]. unfold reinitialize_random.
  destruct (draw_normal _ _ _ _ _) as [w g] eqn:E. split.
  - eapply hist_create with (inter := ex_inter) (ent := ex_ent) (ens := ex_ens) (cons := CA_none) (np := Some (S np))
      (par := ex_par thr budget) (kw := []) (g := O).
    + unfold create. simpl bind. f_equal. unfold reinitialize_random. rewrite E. reflexivity.
    + split; [left; eexists _, _; reflexivity|eexists _, _; left; reflexivity].
  - simpl. auto.
Qed.

(** C03, C06, C14, C15: a freshly created finder with three compartments and a
    revive budget runs successfully. *)
Example C03_case : exists f f' ph,
  history ops0 no0 f /\ f_np f = 3%nat /\ run ops0 f None None None = (f', Ok ph) /\
  (exists d, f_diag f' = Some d /\ d_left d = f_left f' /\ (1 <= d_steps d <= 10)%Z) /\
  (6 - 8 <= f_left f' <= 6)%Z.
Proof.
  destruct (ex_create 2 0 2) as (f & EF & HH & HP & HN & _ & _ & HL). simpl in HL.
  destruct (C03_run_succeeds ops0 no0 f None None None ops0_contract HH) as (f' & ph & E); rewrite ?HP, ?HN; simpl; auto; try lra; try lia.
  exists f, f', ph. split; [auto|]. split; [auto|]. split; [auto|].
  destruct (C15_schedule ops0 f None None None f' ph 10 2 5 E) as (d & inner & ED & H1 & H2 & H3 & _);
    rewrite ?HP; simpl; unfold is_ceil; auto; try lra; try lia.
  split.
  - exists d. split; auto. split; auto.
    destruct (C06_budget_counts_revivals ops0 f None None None f' ph E) as (d' & ED' & E1 & _).
    rewrite ED in ED'. injection ED' as <-. auto.
  - pose proof (C06_budget_bound ops0 no0 f [CRun None None None] eq_refl) as B. simpl in B. rewrite E in B. simpl in B.
    rewrite HL, HN in B. lia.
Qed.

(** A run that converges before its schedule is exhausted. *)
Definition ones : vec := fun _ => 1.
Definition fc : finder nat cstate := ex_finder 2 ones 0 0.

Lemma sched21 : schedule 2 1 = Ok (2%nat, 1%nat).
Proof.
  unfold schedule. rewrite (proj2 (Reqb_false 1 0)) by lra.
  rewrite (zceil_unique (2/1) 2) by lra. rewrite (zceil_unique 2 2) by lra. reflexivity.
Qed.

Lemma fc_step : exists w rep, fsteps ops0 fc 1 = Ok w /\ w_rep w = Some rep /\ w_valid w = 2%Z /\ w_count w = O /\
  forall m, (m < 2)%nat -> 0 < v_Js (w_k w) m.
Proof.
  destruct (ex_iterate 2 ones 0 0) as (k' & nv & rep & E); [lra|exists O; unfold ones; split; [lia|lra]|].
  assert (HN : num_alive 2 0 ones = 2%nat).
  { rewrite num_alive_ncount. apply ncount_all. intros. apply Rltb_true. unfold ones; lra. }
  assert (HJ : forall m, (m < 2)%nat -> 0 < v_Js k' m).
  { intros m Hm.
    pose proof (C09_volume_change_bounded (kernel_of fc) (ex_k 2 ones 0) k' nv rep m) as B.
    simpl in B. specialize (B ltac:(lra) ltac:(lra) E).
    assert (X : Rabs (v_Js k' m - ones m) <= 2 * (1/1000)).
    { apply B; auto.
      - change (0 + living 0 ones 0 + living 0 ones 1 = INR (num_alive 2 0 ones)). rewrite HN.
        unfold living, ones. repeat destruct (Rlt_dec _ _); simpl; lra.
      - unfold alive, ones; lra. }
    apply Rabs_le_inv in X. unfold ones in X. lra. }
  exists {| w_k := k'; w_count := O; w_valid := nv; w_rep := Some rep |}, rep.
  split.
  - change (one_step ops0 (kernel_of fc) 0 (start (ex_k 2 ones 0)) = 
      Ok {| w_k := k'; w_count := O; w_valid := nv; w_rep := Some rep |}).
    unfold one_step. rewrite maybe_revive_alive_id.
    + cbn [start w_k]. change (kernel_of fc) with (kernel_of (ex_finder 2 ones 0 0)). rewrite E. reflexivity.
    + intros m Hm. simpl. unfold ones; lra.
  - split; [auto|]. split; [|auto]. simpl.
    pose proof (C02_volumes_normalised _ _ _ _ _ E) as (-> & _). simpl. rewrite HN. reflexivity.
Qed.

(** Any first step that leaves two of two compartments alive is accepted for a
    large enough tolerance. *)
Lemma first_step_converges (f : finder nat cstate) w rep :
  f_np f = 2%nat -> m_thr (f_par f) = 0 -> m_criterion (f_par f) = "standard"%string ->
  fsteps ops0 f 1 = Ok w -> w_rep w = Some rep -> w_valid w = 2%Z ->
  (forall m, (m < 2)%nat -> 0 < v_Js (w_k w) m) ->
  exists tol f' ph d,
  run ops0 f (Some 2) (Some tol) (Some 1) = (f', Ok ph) /\ f_diag f' = Some d /\ d_steps d = 1%Z /\
  0 < tol /\ f_k f' = w_k w /\ e_incomp rep < tol.
Proof.
  intros HN Ht HCr EW ER EV EA.
  set (tol := Rmax (Rmax (e_incomp rep) (e_omega rep)) (Rmax (Rmax (e_Js rep) (e_cons rep)) 0) + 1).
  assert (HT : e_incomp rep < tol /\ e_omega rep < tol /\ e_Js rep < tol /\ e_cons rep < tol /\ 0 < tol).
  { unfold tol.
    pose proof (Rmax_l (Rmax (e_incomp rep) (e_omega rep)) (Rmax (Rmax (e_Js rep) (e_cons rep)) 0)).
    pose proof (Rmax_r (Rmax (e_incomp rep) (e_omega rep)) (Rmax (Rmax (e_Js rep) (e_cons rep)) 0)).
    pose proof (Rmax_l (e_incomp rep) (e_omega rep)). pose proof (Rmax_r (e_incomp rep) (e_omega rep)).
    pose proof (Rmax_l (Rmax (e_Js rep) (e_cons rep)) 0). pose proof (Rmax_r (Rmax (e_Js rep) (e_cons rep)) 0).
    pose proof (Rmax_l (e_Js rep) (e_cons rep)). pose proof (Rmax_r (e_Js rep) (e_cons rep)). lra. }
  exists tol.
  assert (HC : converged tol (safe_flag f w) rep = true).
  { unfold converged. destruct HT as (T1 & T2 & T3 & T4 & _).
    rewrite (proj2 (Rltb_true _ _) T1), (proj2 (Rltb_true _ _) T2), (proj2 (Rltb_true _ _) T3),
      (proj2 (Rltb_true _ _) T4), !andb_true_r.
    unfold safe_flag. rewrite EV. apply Z.eqb_eq. rewrite HN, Ht. unfold count_valid.
    rewrite (proj2 (ncount_all _ _)); [reflexivity|]. intros. apply Rltb_true. auto. }
  unfold run. rewrite sched21. cbn [run_loop r_f].
  unfold metastep. fold (start (f_k f)). fold (fsteps ops0 f 1). rewrite EW. cbn [bind]. rewrite ER, HCr.
  cbn [String.eqb Ascii.eqb Bool.eqb].
  change (Z.eqb (w_valid w) _) with (safe_flag f w). rewrite HC.
  cbn [r_f r_rep r_steps f_np f_par f_k with_k].
  simpl f_np. simpl f_par. simpl f_k. rewrite HN, Ht.
  rewrite revive_by_copy_none; [|lra|exact EA].
  eexists _, _, _. split; [reflexivity|]. split; [reflexivity|]. simpl.
  split; [reflexivity|]. split; [tauto|]. split; [|tauto].
  destruct (w_k w); reflexivity.
Qed.

Lemma fc_converges : exists tol f' ph d w,
  run ops0 fc (Some 2) (Some tol) (Some 1) = (f', Ok ph) /\ f_diag f' = Some d /\ d_steps d = 1%Z /\
  0 < tol /\ fsteps ops0 fc 1 = Ok w /\ f_k f' = w_k w /\ (forall m, (m < 2)%nat -> 0 < v_Js (w_k w) m).
Proof.
  destruct fc_step as (w & rep & EW & ER & EV & EC & EA).
  destruct (first_step_converges fc w rep) as (tol & f' & ph & d & E & ED & ES & HT & EK & _); auto.
  exists tol, f', ph, d, w. repeat (split; [assumption|]). assumption.
Qed.

(** C14, C17, C18, C20: the hypotheses hold for this run. *)
Example C17_C18_C20_case : exists tol f' ph d,
  run ops0 fc (Some 2) (Some tol) (Some 1) = (f', Ok ph) /\ f_diag f' = Some d /\
  d_incomp d < tol /\ d_Js d < tol /\
  rsum 2 (vol ph) = 2 /\ (forall p, (p < 2)%nat -> Rabs (rsum 2 (frac ph p) - 1) < tol) /\
  0 < frac ph 1 0 /\
  Rabs (mean_fraction ph 0 - 1/2) <= 2 * Rmin (1/1000) (1/5000 * tol) * (1 + tol) /\
  v_g (f_k f') = O /\
  run {| g_uniform := fun g => (0, negb g); g_integers := fun g k => (O, g);
         g_normal := fun g m s => (m, g); g_beta := fun g b => (1, g) |} (set_gen true fc)
    (Some 2) (Some tol) (Some 1) = (set_gen true f', Ok ph).
Proof.
  destruct fc_converges as (tol & f' & ph & d & w & E & ED & ES & HT & EW & EK & EA).
  exists tol, f', ph, d. split; [auto|]. split; [auto|].
  assert (HS : schedule (opt (Some 2) (m_max_steps (f_par fc))) (opt (Some 1) (m_interval (f_par fc))) = Ok (2%nat, 1%nat))
    by exact sched21.
  assert (HB : builtin_with fc ex_means).
  { split; [left; eexists _, _; reflexivity|]. split; [reflexivity|]. left; reflexivity. }
  pose proof (C14_convergence_sound ops0 fc (Some 2) (Some tol) (Some 1) f' ph ltac:(simpl; lra) E) as C14.
  destruct C14 as (d' & tr & inner & ED' & HS' & _ & [C14|C14]); rewrite ED in ED'; injection ED' as <-;
    rewrite HS in HS'; injection HS' as <- <-; [rewrite ES in C14; discriminate|].
  simpl in C14. split; [apply C14|]. split; [apply C14|].
  pose proof (C17_converged ops0 fc (Some 2) (Some tol) (Some 1) f' ph ex_means d 2 1 ops0_contract
    ltac:(simpl; lra) HB E ED HS ltac:(rewrite ES; discriminate)) as (V & F).
  split.
  { rewrite EK in V. change (f_np fc) with 2%nat in V. change (m_thr (f_par fc)) with 0 in V.
    rewrite V, num_alive_ncount, (proj2 (ncount_all _ _)); [simpl; lra|]. intros; apply Rltb_true; auto. }
  split; [exact F|].
  split.
  { apply (C17_fractions ops0 fc (Some 2) (Some tol) (Some 1) f' ph ex_means ops0_contract
      ltac:(simpl; lra) HB E 1 0); simpl; try lia. unfold ex_means; lra. }
  split.
  { pose proof (C18_mean_fraction_bound ops0 fc (Some 2) (Some tol) (Some 1) f' ph ex_means d 2 1 (start (f_k fc)) 0
      ops0_contract ltac:(simpl; lra) ltac:(simpl; lra) ltac:(simpl; lra) (proj1 HB) eq_refl eq_refl
      ltac:(intros; unfold ex_means; lra) E ED HS ltac:(rewrite ES; discriminate)
      ltac:(rewrite ES; reflexivity)) as C18. cbv zeta in C18. simpl in C18.
    destruct (C18 ltac:(lia)) as (C18' & _). apply C18'.
    unfold mean_one. simpl. rewrite num_alive_ncount, (proj2 (ncount_all _ _)).
    - simpl. unfold living, ones. repeat destruct (Rlt_dec _ _); lra.
    - intros. apply Rltb_true. unfold ones; lra. }
  apply (C20_no_randomness ops0 _ true fc (Some 2) (Some tol) (Some 1) f' ph d); auto.
  { simpl; lra. }
  rewrite ES. intros n w' m Hn Ew Hm. destruct n as [|[|n]]; [| |simpl in Hn; lia].
  - injection Ew as <-. unfold alive. simpl. unfold ones; lra.
  - rewrite EW in Ew. injection Ew as <-. apply EA. exact Hm.
Qed.

(* ------------------------------------------------------------------ *)
(** ** C15: fractional intervals *)

Lemma rep_incomp_nonneg {G St} (ops : rng_ops G) (f : finder G St) n w rep :
  fsteps ops f (S n) = Ok w -> w_rep w = Some rep -> 0 <= e_incomp rep.
Proof.
  intros E ER. unfold fsteps in E. simpl steps in E. apply bind_Ok in E. destruct E as (w0 & _ & E).
  unfold one_step in E. destruct (maybe_revive _ _ _ _ _) as [c k1].
  apply bind_Ok in E. destruct E as ([[k' nv] rp] & EI & E). injection E as <-. simpl in ER. injection ER as ->.
  apply iterate_inv in EI. destruct EI as (? & ? & ? & ? & _ & _ & F). rewrite (if_e_incomp F).
  apply vmax_abs_nonneg.
Qed.

(** With tolerance zero a run performs its whole schedule. *)
Lemma run_tol0 {G St} (ops : rng_ops G) (f f' : finder G St) a i ph tr inner :
  run ops f a (Some 0) i = (f', Ok ph) ->
  schedule (opt a (m_max_steps (f_par f))) (opt i (m_interval (f_par f))) = Ok (tr, inner) ->
  exists j w rep n J phi g, j = tr /\ run_facts ops f a (Some 0) i f' ph tr inner j w rep n J phi g.
Proof.
  intros H HS. apply run_inv in H. destruct H as (tr' & inner' & j & w & rep & n & J & phi & g & R).
  pose proof (rf_sched R) as HS'. rewrite HS in HS'. injection HS' as <- <-.
  exists j, w, rep, n, J, phi, g. split; [|exact R].
  destruct (rf_conv R) as [E|HC]; [auto|]. exfalso. apply converged_facts in HC.
  destruct HC as (_ & HC & _). simpl in HC.
  pose proof (rf_inner R). pose proof (rf_j R). pose proof (rf_steps R) as ES.
  destruct (j * inner)%nat as [|N] eqn:EN; [nia|].
  pose proof (rep_incomp_nonneg ops f N w rep ES (rf_rep R)). lra.
Qed.

Lemma ex_run np J a i : (exists m, (m < np)%nat /\ 0 < J m) -> 0 < a -> 0 < i ->
  exists f' ph, run ops0 (ex_finder np J 0 0) (Some a) (Some 0) (Some i) = (f', Ok ph).
Proof.
  intros HA Ha Hi. destruct (schedule_ok a i Ha Hi) as (tr & inner & ES & Htr & _).
  apply (run_ok ops0 (ex_finder np J 0 0) (Some a) (Some 0) (Some i) tr inner ES Htr eq_refl).
  - intros n. destruct (ex_fsteps np J 0 0 n) as (w & E & _); [lra|auto|eauto].
  - intros n w E. destruct (ex_fsteps np J 0 0 n) as (w' & E' & HA'); [lra|auto|].
    rewrite E in E'. injection E' as <-.
    destruct (C08_copy_succeeds_default ops0 np (v_Js (w_k w)) (v_phis_comp (w_k w)) (v_g (w_k w)) ops0_contract HA')
      as (c & J' & phi & g & EC & _). eauto.
Qed.

(** For a fractional interval more than max_steps steps are done. *)
Theorem C15_fractional_interval_refuted : exists (f f' : finder nat cstate) ph d,
  run ops0 f (Some 1) (Some 0) (Some (1/2)) = (f', Ok ph) /\ f_diag f' = Some d /\ d_steps d = 2%Z.
Proof.
  destruct (ex_run 2 ones 1 (1/2)) as (f' & ph & E); [exists O; unfold ones; split; [lia|lra]|lra|lra|].
  exists (ex_finder 2 ones 0 0), f', ph.
  assert (HS : schedule 1 (1/2) = Ok (2%nat, 1%nat)).
  { unfold schedule. rewrite (proj2 (Reqb_false (1/2) 0)) by lra.
    rewrite (zceil_unique (1/(1/2)) 2) by lra. rewrite (zceil_unique 1 1) by lra. reflexivity. }
  destruct (run_tol0 _ _ _ _ _ _ _ _ E HS) as (j & w & rep & n & J & phi & g & -> & R).
  eexists. split; [exact E|]. rewrite (rf_f R). split; reflexivity.
Qed.

(* ------------------------------------------------------------------ *)
(** ** C16: splitting into runs moves the generator when a compartment is dead *)

Definition J10 : vec := fun m => if Nat.eqb m 0 then 1 else 0.

Lemma no_budget_g {G St} (ops : rng_ops G) q tries n : forall w w' : mstate G St,
  (tries <= 0)%Z -> steps ops q tries n w = Ok w' -> v_g (w_k w') = v_g (w_k w).
Proof.
  induction n; intros w w' Ht E.
  - injection E as <-. reflexivity.
  - simpl in E. apply bind_Ok in E. destruct E as (w1 & E1 & E2). rewrite <- (IHn w w1 Ht E1).
    apply one_step_no_budget in E2; [|lia]. destruct E2 as (nv & rep & EI & _).
    apply iterate_inv in EI. destruct EI as (? & ? & ? & ? & _ & _ & F). apply (if_g F).
Qed.

Lemma copy10 (J : vec) t g : 0 < J 0%nat -> J 1%nat = 0 ->
  exists J' t', revive_by_copy ops0 2 J t 0 g = Ok (1%nat, J', t', S g).
Proof.
  intros H0 H1. unfold revive_by_copy, classify. simpl. rewrite H1.
  assert (R1 : Rltb (2 * 0) (J 0%nat) = true) by (apply Rltb_true; lra).
  assert (R2 : Rltb (2 * 0) 0 = false) by (apply Rltb_false; lra).
  assert (R3 : Rleb 0 0 = true) by (apply Rleb_true; lra).
  rewrite R1, R2, R3. simpl. unfold copy_one. simpl. rewrite R1. simpl. eauto.
Qed.

(** The run of [n] steps of the example with a dead compartment draws exactly
    one random number, in the final copy revival. *)
Lemma run10 (f f' : finder nat cstate) ph a i tr inner :
  f_np f = 2%nat -> m_thr (f_par f) = 0 -> (f_left f <= 0)%Z -> v_Js (f_k f) 1%nat <= 0 ->
  run ops0 f (Some a) (Some 0) (Some i) = (f', Ok ph) -> schedule a i = Ok (tr, inner) ->
  v_g (f_k f') = S (v_g (f_k f)) /\ v_Js (f_k f') 1%nat = 0 /\
  exists d, f_diag f' = Some d /\ d_steps d = Z.of_nat (tr * inner).
Proof.
  intros HN Ht HL HD E HS. destruct (run_tol0 _ _ _ _ _ _ _ _ E HS) as (j & w & rep & n & J & phi & g & -> & R).
  pose proof (rf_inner R). pose proof (rf_j R). pose proof (rf_steps R) as ES.
  pose proof ES as EG. unfold fsteps in EG. apply no_budget_g in EG; [|exact HL]. cbn [start w_k] in EG.
  destruct (tr * inner)%nat as [|N] eqn:EN; [nia|].
  assert (D1 : v_Js (w_k w) 1%nat = 0).
  { unfold fsteps in ES. apply (steps_dead ops0 (kernel_of f) (f_left f) N _ w 1) in ES; [apply ES|simpl; lra|simpl; lia|].
    simpl. rewrite Ht. exact HD. }
  assert (D0 : 0 < v_Js (w_k w) 0%nat).
  { destruct (run_last _ _ _ _ _ _ _ _ _ _ _ _ _ _ _ _ R) as (w0 & cc & k1 & nv & _ & _ & EI & _).
    apply C02_volumes_normalised in EI. destruct EI as (_ & HA & EQ & _). simpl in EQ. rewrite HN in EQ.
    simpl in EQ. rewrite D1 in EQ. apply lt_0_INR in HA. simpl in HA. rewrite HN in HA.
    replace (0 + v_Js (w_k w) 0%nat + 0) with (v_Js (w_k w) 0%nat) in EQ by lra. lra. }
  pose proof (rf_copy R) as C. rewrite HN, Ht in C.
  destruct (copy10 (v_Js (w_k w)) (v_phis_comp (w_k w)) (v_g (w_k w)) D0 D1) as (J' & t' & C').
  rewrite C in C'. injection C' as _ _ _ ->.
  rewrite (rf_f R). simpl. rewrite EG. split; [reflexivity|]. split; [exact D1|].
  eexists. split; [reflexivity|]. simpl d_steps. rewrite EN. reflexivity.
Qed.

Theorem C16_split_runs_refuted :
  exists (f f1 f2 f3 : finder nat cstate) ph1 ph2 ph3 d1 d2 d3,
    run ops0 f (Some 1) (Some 0) (Some 1) = (f1, Ok ph1) /\
    run ops0 f1 (Some 1) (Some 0) (Some 1) = (f2, Ok ph2) /\
    run ops0 f (Some 2) (Some 0) (Some 1) = (f3, Ok ph3) /\
    f_diag f1 = Some d1 /\ f_diag f2 = Some d2 /\ f_diag f3 = Some d3 /\
    d_steps d3 = (d_steps d1 + d_steps d2)%Z /\
    v_g (f_k f2) <> v_g (f_k f3).
Proof.
  assert (HA : exists m, (m < 2)%nat /\ 0 < J10 m) by (exists O; unfold J10; simpl; split; [lia|lra]).
  set (f := ex_finder 2 J10 0 0).
  destruct (ex_run 2 J10 1 1 HA) as (f1 & ph1 & E1); [lra|lra|].
  destruct (ex_run 2 J10 2 1 HA) as (f3 & ph3 & E3); [lra|lra|].
  assert (S1 : schedule 1 1 = Ok (1%nat, 1%nat)).
  { unfold schedule. rewrite (proj2 (Reqb_false 1 0)) by lra.
    rewrite (zceil_unique (1/1) 1) by lra. rewrite (zceil_unique 1 1) by lra. reflexivity. }
  destruct (run10 f f1 ph1 1 1 1 1 eq_refl eq_refl (Z.le_refl _) ltac:(unfold f, J10; simpl; lra) E1 S1)
    as (G1 & D1 & d1 & ED1 & N1).
  destruct (run10 f f3 ph3 2 1 2 1 eq_refl eq_refl (Z.le_refl _) ltac:(unfold f, J10; simpl; lra) E3 sched21)
    as (G3 & D3 & d3 & ED3 & N3).
  (* the second run *)
  pose proof E1 as E1'. apply run_inv in E1'. destruct E1' as (tr & inner & j & w & rep & n & J & phi & g & R).
  destruct (ex_fsteps 2 J10 0 0 (j * inner)) as (w' & EW' & HAw); [lra|auto|].
  pose proof (rf_steps R) as EW. rewrite EW in EW'. injection EW' as <-.
  assert (HL1 : f_left f1 = 0%Z).
  { pose proof (C06_budget_bound ops0 no0 f [CRun (Some 1) (Some 0) (Some 1)] eq_refl) as B. simpl in B.
    fold f in E1. rewrite E1 in B. simpl in B. change (f_left f) with 0%Z in B. lia. }
  assert (F1 : forall n, exists w, fsteps ops0 f1 n = Ok w /\ exists m, (m < 2)%nat /\ 0 < v_Js (w_k w) m).
  { intros n1. rewrite (rf_f R). unfold fsteps. simpl kernel_of.
    apply (steps_total ops0 (kernel_of f)); simpl; try lra.
    - apply ex_total.
    - exact HAw. }
  destruct (run_ok ops0 f1 (Some 1) (Some 0) (Some 1) 1 1) as (f2 & ph2 & E2).
  { exact S1. }
  { lia. }
  { rewrite (rf_f R). reflexivity. }
  { intros n1. destruct (F1 n1) as (w1 & Ew & _). eauto. }
  { intros n1 w1 Ew. destruct (F1 n1) as (w2 & Ew2 & HA2). rewrite Ew in Ew2. injection Ew2 as <-.
    destruct (C08_copy_succeeds_default ops0 2 (v_Js (w_k w1)) (v_phis_comp (w_k w1)) (v_g (w_k w1)) ops0_contract HA2)
      as (c & J' & phi' & g' & EC & _).
    rewrite (rf_f R). simpl. eauto. }
  destruct (run10 f1 f2 ph2 1 1 1 1) as (G2 & D2 & d2 & ED2 & N2); auto.
  { rewrite (rf_f R). reflexivity. }
  { rewrite (rf_f R). reflexivity. }
  { lia. }
  { lra. }
  exists f, f1, f2, f3, ph1, ph2, ph3, d1, d2, d3.
  split; [exact E1|]. split; [exact E2|]. split; [exact E3|]. do 3 (split; [assumption|]).
  split; [rewrite N1, N2, N3; reflexivity|].
  rewrite G2, G1, G3. simpl. discriminate.
Qed.

(* ------------------------------------------------------------------ *)
(** ** C18: the returned mean fractions are not exactly the prescribed ones *)

Definition par18 : params :=
  {| m_max_steps := 2; m_criterion := "standard"; m_tolerance := 1; m_interval := 1;
     m_random_std := 1; m_acc_J := 1; m_acc_w := 1; m_ub := 1/10; m_thr := 0;
     m_scaler := 1; m_max_revive := 0 |}.
Definition w18 : vec := fun m => if Nat.eqb m 0 then ln 9 else 0.
Definition f18 : finder nat cstate :=
  {| f_nf := 1; f_nc := 1; f_np := 2; f_inter := fh_compile 1 (fun _ _ => 0) 0;
     f_entropy := ig_compiled 1 (fun _ => 1); f_ensemble := can_compiled 1 (fun _ => 1); f_par := par18; f_kwargs := [];
     f_k := k1 w18 ones O; f_left := 0; f_diag := None |}.

(** One component with prescribed mean fraction one: the run converges, reports
    errors below the tolerance, and the volume-weighted mean of the returned
    fractions differs from one. *)
Theorem C18_exact_mean_refuted :
  exists (f f' : finder nat cstate) tol ph d,
    f_ensemble f = can_compiled 1 (fun _ => 1) /\
    run ops0 f (Some 2) (Some tol) (Some 1) = (f', Ok ph) /\ f_diag f' = Some d /\
    d_steps d = 1%Z /\ d_incomp d < tol /\ d_Js d < tol /\
    mean_fraction ph 0 < 1.
Proof.
  pose proof ln9 as L9. set (q := kernel_of f18). set (k := f_k f18).
  destruct (iterate_total q k) as (k' & nv & rep & E).
  { eapply builtin_total_ig_can; reflexivity. }
  { simpl; lra. }
  { simpl. lra. }
  { exists O. split; [simpl; lia|]. simpl; unfold ones; lra. }
  assert (HA : forall m, 0 < v_Js k m) by (intros; simpl; unfold ones; lra).
  assert (HN : num_alive (q_np q) (q_thr q) (v_Js k) = 2%nat).
  { rewrite num_alive_ncount. apply ncount_all. intros m _. apply Rltb_true. apply HA. }
  set (w := {| w_k := k'; w_count := O; w_valid := nv; w_rep := Some rep |}).
  assert (EW : fsteps ops0 f18 1 = Ok w).
  { change (one_step ops0 q 0 (start k) = Ok w). unfold one_step. rewrite maybe_revive_alive_id.
    - cbn [start w_k]. rewrite E. reflexivity.
    - intros m _. apply HA. }
  assert (EV : nv = 2%Z) by (pose proof (C02_volumes_normalised _ _ _ _ _ E) as (-> & _); rewrite HN; reflexivity).
  pose proof E as E'. apply iterate_inv in E'. destruct E' as (p0 & Q & phis & inc & HP & HC & F).
  apply ig_partition_spec in HP. destruct HP as (HS & HB & HQ).
  apply can_normalize_spec in HC. destruct HC as (_ & HC & HI).
  assert (HM : forall m, t_masks q k m = 1) by (intros m; unfold t_masks; apply mask_alive; apply HA).
  assert (HJ : forall m, t_J q k m = 1) by (intros m; unfold t_J; rewrite HM; simpl; unfold ones; lra).
  assert (B0 : boltzmann 0 1 = 1) by (unfold boltzmann; replace (-0*1) with 0 by lra; apply exp_0).
  assert (B9 : boltzmann (ln 9) 1 = 1/9).
  { unfold boltzmann. replace (- ln 9 * 1) with (- ln 9) by lra. rewrite exp_Ropp, exp_ln by lra. lra. }
  assert (Q5 : Q 0%nat = 5/9).
  { rewrite HQ by lia. unfold ig_Q. simpl. rewrite !HJ. unfold w18. simpl. rewrite B0, B9. lra. }
  assert (P : forall m, phis 0%nat m = if Nat.eqb m 0 then 1/5 else 9/5).
  { intros m. rewrite HC by lia. rewrite HB by lia. rewrite HM, Q5. simpl. unfold w18.
    destruct (Nat.eqb m 0); [rewrite B9|rewrite B0]; lra. }
  assert (LE : forall m, t_le q k phis inc m = if Nat.eqb m 0 then - (1/5) - ln 9 else - (9/5)).
  { intros m. unfold q. change (kernel_of f18) with (q1 2 (can_compiled 1 (fun _ => 1)) 1 (1/10) 1 0).
    rewrite one_le by reflexivity.
    change (q1 2 (can_compiled 1 (fun _ => 1)) 1 (1/10) 1 0) with q. rewrite HM, HI. unfold row_incomp. rewrite HM.
    simpl. rewrite P. unfold w18. destruct (Nat.eqb m 0); lra. }
  assert (N2 : t_nv q k = 2%nat) by (unfold t_nv, count_valid; now rewrite <- num_alive_ncount).
  set (d := ln 9 / 2 - 4/5).
  assert (DJ : forall m, t_Jdiff q k phis inc m = if Nat.eqb m 0 then d else - d).
  { intros m. unfold t_Jdiff, t_mean. rewrite t_n_eq, N2, HM, LE. simpl. rewrite !HJ, !LE. simpl. unfold d.
    destruct (Nat.eqb m 0); lra. }
  set (a := t_factor q k phis inc) in *.
  assert (Ha : 0 < a).
  { unfold a. apply t_factor_range; simpl; lra. }
  assert (J1 : forall m, v_Js k' m = if Nat.eqb m 0 then 1 + a * d else 1 - a * d).
  { intros m. rewrite (if_Js F). rewrite t_J2_eq, HM, t_J1_alive by apply HA.
    unfold t_shift. rewrite t_n_eq, N2. simpl q_np. simpl rsum. rewrite !t_J1_alive by apply HA.
    rewrite !DJ. fold a. simpl. unfold ones. destruct (Nat.eqb m 0); lra. }
  assert (HU : a * d <= 2 * (1/10)).
  { pose proof (C09_volume_change_bounded q k k' nv rep 0 ltac:(simpl; lra) ltac:(simpl; lra) E) as B.
    assert (X : Rabs (v_Js k' 0%nat - v_Js k 0%nat) <= 2 * q_ub q).
    { apply B; [|simpl; lia|apply HA]. rewrite HN. simpl. unfold living, ones. repeat destruct (Rlt_dec _ _); simpl; lra. }
    rewrite J1 in X. simpl in X. unfold ones in X. apply Rabs_le_inv in X. lra. }
  assert (Hd : 0 < a * d) by (apply Rmult_lt_0_compat; unfold d; lra).
  assert (HL : forall m, (m < 2)%nat -> 0 < v_Js k' m) by (intros m _; rewrite J1; destruct (Nat.eqb m 0); lra).
  destruct (first_step_converges f18 w rep) as (tol & f' & ph & dg & ER & ED & ES & HT & EK & _); auto.
  exists f18, f', tol, ph, dg. split; [reflexivity|]. split; [exact ER|]. split; [exact ED|]. split; [exact ES|].
  destruct (C14_convergence_sound ops0 f18 (Some 2) (Some tol) (Some 1) f' ph ltac:(simpl; lra) ER)
    as (d' & tr & inner & ED' & HS' & _ & C14).
  rewrite ED in ED'. injection ED' as <-. simpl in HS'. rewrite sched21 in HS'. injection HS' as <- <-.
  destruct C14 as [C14|C14]; [rewrite ES in C14; discriminate|].
  split; [apply C14|]. split; [apply C14|].
  apply run_inv in ER. destruct ER as (tr & inner & j & ww & rp & n & J & phi & g & RF).
  pose proof (rf_sched RF) as HS2. simpl in HS2. rewrite sched21 in HS2. injection HS2 as <- <-.
  pose proof (rf_f RF) as EF. rewrite EF in ED. injection ED as <-. simpl in ES.
  assert (j = 1%nat) as -> by lia. pose proof (rf_steps RF) as EW2. simpl in EW2.
  change (fsteps ops0 f18 1 = Ok ww) in EW2. rewrite EW in EW2. injection EW2 as <-.
  pose proof (rf_copy RF) as CP. simpl in CP. rewrite revive_by_copy_none in CP; [|lra|exact HL].
  injection CP as _ <- <- _.
  pose proof (result_phases_ok _ _ _ _ _ (rf_ph RF)) as (V & FR & _).
  assert (PC : forall m, v_phis_comp k' 0%nat m = if Nat.eqb m 0 then 1/5 else 9/5) by (intros; rewrite (if_comp F); apply P).
  unfold mean_fraction, total_volume. rewrite V, FR. simpl. rewrite !J1, !PC. simpl.
  match goal with |- ?x < 1 => replace x with (1 - 4/5 * (a*d)) by (field; lra) end. lra.
Qed.

(* ------------------------------------------------------------------ *)
(** ** C06: the budget can be exceeded *)

(** A generator with uniform draws at the lower end of the range. *)
Definition ops_low : rng_ops nat :=
  {| g_uniform := fun g => (-1, S g); g_integers := fun g k => (O, S g);
     g_normal := fun g mean std => (mean, S g); g_beta := fun g b => (1/2, S g) |}.
Lemma ops_low_contract : rng_contract ops_low.
Proof. constructor; simpl; intros; try lra. lia. Qed.

Definition par6 : params :=
  {| m_max_steps := 3; m_criterion := "standard"; m_tolerance := 0; m_interval := 3;
     m_random_std := 1; m_acc_J := 1; m_acc_w := 1; m_ub := 100; m_thr := 0;
     m_scaler := 1; m_max_revive := 1 |}.
Definition w6 : mat := fun _ m => if Nat.eqb m 0 then 6 else 0.

(** Created with scaled activity zero and three compartments, then
    reinitialised with the fields 6, 0, 0. *)
Definition f6_create : res (finder nat cstate) :=
  create ops_low no0
    {| a_params := []; a_impl := fun _ => Ok (fh_compile 1 (fun _ _ => 0) 0) |}
    {| a_params := []; a_impl := fun _ => Ok (ig_compiled 1 (fun _ => 1)) |}
    {| a_params := []; a_impl := fun _ => Ok (gc_compiled 1 (fun _ => 0)) |}
    CA_none (Some 3%nat) par6 [] O.
Definition nd6 : nd := {| nd_shape := [1; 3]%nat; nd_at := fun i => match i with [_; m] => w6 0%nat m | _ => 0 end |}.

Notation q6 := (q1 3 (gc_compiled 1 (fun _ => 0)) 1 100 1 0).

(** A step of this system with all compartments alive. *)
Lemma step6 (k k' : kstate nat cstate) nv rep :
  v_cons k = [new_cons (no_class 1)] -> (forall m, (m < 3)%nat -> v_omegas k 0%nat m = w6 0%nat m) ->
  (forall m, (m < 3)%nat -> 0 < v_Js k m) ->
  v_Js k 0%nat <= 10 -> iterate q6 k = Ok (k', nv, rep) ->
  let mean := -6 * v_Js k 0%nat / 3 in
  let shift := 1 - (v_Js k 0%nat + v_Js k 1%nat + v_Js k 2%nat + 3 * mean + 6) / 3 in
  v_cons k' = [new_cons (no_class 1)] /\ (forall m, (m < 3)%nat -> v_omegas k' 0%nat m = w6 0%nat m) /\
  (forall m, (m < 3)%nat -> v_Js k' m = v_Js k m + mean + w6 0%nat m + shift).
Proof.
  intros HC HW HA HJ0 HI mean shift.
  apply iterate_inv in HI. destruct HI as (p0 & Q & phis & inc & _ & HN & F).
  apply (gc_normalize_spec 1 (fun _ => 0) p0 Q) in HN. destruct HN as (HP & HInc).
  assert (HM : forall m, (m < 3)%nat -> t_masks q6 k m = 1) by (intros m Hm; unfold t_masks; apply mask_alive; now apply HA).
  assert (P0 : forall m, phis 0%nat m = 0) by (intros m; rewrite HP by lia; lra).
  assert (LE : forall m, (m < 3)%nat -> t_le q6 k phis inc m = - w6 0%nat m).
  { intros m Hm. rewrite one_le by exact HC. rewrite P0, HM, HW, HInc by auto. unfold row_incomp.
    rewrite HM by auto. simpl. rewrite P0. lra. }
  assert (N3 : t_nv q6 k = 3%nat).
  { unfold t_nv, count_valid. apply ncount_all. intros m Hm. apply Rltb_true. now apply HA. }
  assert (TJ : forall m, (m < 3)%nat -> t_J q6 k m = v_Js k m) by (intros m Hm; unfold t_J; rewrite HM by auto; lra).
  assert (MN : t_mean q6 k phis inc = mean).
  { unfold t_mean. rewrite t_n_eq, N3. unfold q1. simpl q_np. fold q6. simpl rsum. rewrite !LE, !TJ by lia. unfold w6, mean. simpl. lra. }
  assert (DJ : forall m, (m < 3)%nat -> t_Jdiff q6 k phis inc m = mean + w6 0%nat m).
  { intros m Hm. unfold t_Jdiff. rewrite HM, MN, LE by auto. lra. }
  pose proof (HA 0%nat ltac:(lia)).
  assert (FAC : t_factor q6 k phis inc = 1).
  { apply t_factor_one; [simpl; lra|].
    assert (t_maxJ q6 k phis inc <= 100).
    { unfold t_maxJ. apply vmax_le; [simpl; lia|]. intros m Hm. rewrite DJ by exact Hm. apply Rabs_le.
      unfold mean, w6. destruct (Nat.eqb m 0); lra. }
    simpl q_acc_J. simpl q_ub. lra. }
  assert (J1 : forall m, (m < 3)%nat -> t_J1 q6 k phis inc m = v_Js k m + mean + w6 0%nat m).
  { intros m Hm. rewrite t_J1_alive by (now apply HA). rewrite FAC, DJ by auto. simpl q_acc_J. lra. }
  assert (SH : t_shift q6 k phis inc = shift).
  { unfold t_shift. rewrite t_n_eq, N3. unfold q1. simpl q_np. fold q6. simpl rsum. rewrite !J1 by lia. unfold shift, w6. simpl. lra. }
  split; [|split].
  - rewrite (if_cons F). unfold t_evolve, t_cs. rewrite HC. reflexivity.
  - intros m Hm. rewrite (if_omegas F). unfold t_omegas. rewrite one_diff with (inc := inc) by exact HC. rewrite HM, HW by auto. lra.
  - intros m Hm. rewrite (if_Js F), t_J2_eq, J1, SH, HM by auto. lra.
Qed.

Lemma revive6 (k k' : kstate nat cstate) c c' :
  maybe_revive ops_low q6 3 c k = (c', k') -> (c < 3)%nat ->
  v_cons k = [new_cons (no_class 1)] -> (forall m, (m < 3)%nat -> v_omegas k 0%nat m = w6 0%nat m) ->
  0 < v_Js k 0%nat -> v_Js k 1%nat <= 0 -> v_Js k 2%nat <= 0 ->
  c' = (c + 2)%nat /\ v_cons k' = [new_cons (no_class 1)] /\
  (forall m, (m < 3)%nat -> v_omegas k' 0%nat m = w6 0%nat m) /\
  v_Js k' 0%nat = v_Js k 0%nat /\ v_Js k' 1%nat = 1 /\ v_Js k' 2%nat = 1.
Proof.
  intros H Hc HC HW H0 H1 H2. apply maybe_revive_cases in H.
  destruct H as [(_ & _ & [L|A])|(_ & cc & J & t & g & ER & _ & _ & -> & ->)].
  - lia.
  - exfalso. specialize (A 1%nat ltac:(simpl; lia)). simpl in A. lra.
  - simpl in ER. unfold revive_by_random in ER.
    assert (CE : target_center 3 (v_omegas k) 0 = 3).
    { unfold target_center. simpl. rewrite !HW by lia. unfold w6. simpl.
      rewrite (Rmax_left 6 0), (Rmin_right 6 0) by lra. rewrite Rmax_left, Rmin_left by lra. lra. }
    assert (WE : target_width 3 (v_omegas k) 0 = 3).
    { unfold target_width. simpl. rewrite !HW by lia. unfold w6. simpl.
      rewrite (Rmax_left 6 0), (Rmin_right 6 0) by lra. rewrite Rmax_left, Rmin_left by lra. lra. }
    simpl in ER.
    rewrite (proj2 (Rleb_false (v_Js k 0%nat) 0)) in ER by lra.
    rewrite (proj2 (Rleb_true (v_Js k 1%nat) 0)) in ER by lra.
    unfold upd in ER at 1. simpl in ER.
    rewrite (proj2 (Rleb_true (v_Js k 2%nat) 0)) in ER by lra.
    injection ER as <- <- <- <-. cbn [v_cons v_omegas v_Js]. split; [lia|]. split; [auto|]. split.
    + intros m Hm. rewrite CE, WE. unfold upd2. simpl.
      destruct m as [|[|[|m]]]; simpl; try lia; unfold w6; simpl; try lra.
      rewrite HW by lia. reflexivity.
    + unfold upd. simpl. auto.
Qed.

Theorem C06_strict_budget_refuted :
  exists (f f' : finder nat cstate) ph, history ops_low no0 f /\ f_left f = (m_max_revive (f_par f) * Z.of_nat (f_np f))%Z /\
    run ops_low f (Some 3) (Some 0) (Some 3) = (f', Ok ph) /\ (f_left f < revivals ops_low f 3)%Z /\
    (f_left f' < 0)%Z.
Proof.
  destruct f6_create as [f0|e] eqn:EC; [|discriminate].
  set (f := fst (reinitialize_from_omegas f0 nd6)).
  assert (HB : builtin f).
  { unfold f6_create, create in EC. simpl in EC. injection EC as <-. unfold f, reinitialize_random.
    destruct (draw_normal _ _ _ _ _). simpl. split; [left; eexists _, _; reflexivity|eexists _, _; right; reflexivity]. }
  assert (HH : history ops_low no0 f).
  { apply hist_call with (f := f0) (c := CReinitOmegas nd6) (out := None).
    - unfold f6_create in EC. eapply hist_create; [exact EC|].
      unfold f6_create, create in EC. simpl in EC. injection EC as <-. unfold reinitialize_random.
      destruct (draw_normal _ _ _ _ _). split; [left; eexists _, _; reflexivity|eexists _, _; right; reflexivity].
    - unfold f6_create, create in EC. simpl in EC. injection EC as <-. unfold f, reinitialize_random.
      destruct (draw_normal _ _ _ _ _). reflexivity.
    - discriminate.
    - exact HB. }
  assert (EF : f_par f = par6 /\ f_np f = 3%nat /\ f_left f = 3%Z /\ kernel_of f = q6 /\
               v_cons (f_k f) = [new_cons (no_class 1)] /\
               (forall r m, v_omegas (f_k f) r m = w6 0%nat m) /\ forall m, v_Js (f_k f) m = 1).
  { unfold f6_create, create in EC. simpl in EC. injection EC as <-. unfold f, reinitialize_random.
    destruct (draw_normal _ _ _ _ _). simpl. repeat split. }
  destruct EF as (EP & EN & EL & EK & EC0 & EW0 & EJ0).
  destruct (C03_run_succeeds ops_low no0 f (Some 3) (Some 0) (Some 3) ops_low_contract HH) as (f' & ph & E);
    rewrite ?EP, ?EN; simpl; auto; try lra; try lia.
  exists f, f', ph. split; [auto|]. split; [rewrite EP, EN, EL; reflexivity|]. split; [exact E|].
  assert (HS : schedule 3 3 = Ok (1%nat, 3%nat)).
  { unfold schedule. rewrite (proj2 (Reqb_false 3 0)) by lra.
    rewrite (zceil_unique (3/3) 1) by lra. rewrite (zceil_unique 3 3) by lra. reflexivity. }
  destruct (run_tol0 _ _ _ _ _ _ _ _ E HS) as (j & w & rep & n & J & phi & g & -> & R).
  assert (STEPS : forall N, exists w, fsteps ops_low f N = Ok w).
  { intros N. destruct (C03_never_extinct ops_low no0 f N HH) as (w' & E' & _); rewrite ?EP, ?EN; simpl; try lra; try lia. eauto. }
  (* first step *)
  destruct (STEPS 1%nat) as (w1 & E1). destruct (STEPS 2%nat) as (w2 & E2).
  assert (X1 := E1). unfold fsteps in X1. rewrite EK, EL in X1. simpl steps in X1. cbn [bind] in X1.
  unfold one_step in X1.
  rewrite maybe_revive_alive_id in X1 by (intros m _; cbn [start w_k]; rewrite EJ0; simpl; lra).
  apply bind_Ok in X1. destruct X1 as ([[k1 nv1] rp1] & I1 & X1). cbn [start w_k w_count] in I1, X1.
  apply step6 in I1; auto; try (intros; rewrite EJ0; lra); try (rewrite EJ0; lra).
  cbv zeta in I1. destruct I1 as (C1 & W1 & J1). injection X1 as <-.
  pose proof (J1 0%nat ltac:(lia)) as J10'. pose proof (J1 1%nat ltac:(lia)) as J11. pose proof (J1 2%nat ltac:(lia)) as J12.
  rewrite !EJ0 in J10', J11, J12. unfold w6 in J10', J11, J12. simpl in J10', J11, J12. 
  (* second step *)
  assert (X2 := E2). unfold fsteps in X2. change 2%nat with (1 + 1)%nat in X2. rewrite steps_add in X2.
  fold (fsteps ops_low f 1) in X2. rewrite E1 in X2. cbn [bind] in X2. rewrite EK, EL in X2. simpl steps in X2. cbn [bind] in X2.
  unfold one_step in X2. cbn [w_k w_count] in X2.
  destruct (maybe_revive ops_low q6 3 0 k1) as [c2 k2] eqn:M2.
  apply revive6 in M2; auto; try lia; try lra. destruct M2 as (-> & C2 & W2 & J20 & J21 & J22).
  apply bind_Ok in X2. destruct X2 as ([[k3 nv3] rp3] & I3 & X2). injection X2 as <-.
  apply step6 in I3; auto; try lra.
  2: { intros m Hm. destruct m as [|[|[|m]]]; [| | |lia]; lra. }
  cbv zeta in I3. destruct I3 as (C3 & W3 & J3).
  pose proof (J3 0%nat ltac:(lia)) as J30. pose proof (J3 1%nat ltac:(lia)) as J31. pose proof (J3 2%nat ltac:(lia)) as J32.
  rewrite J20, J21, J22, J10' in J30, J31, J32. unfold w6 in J30, J31, J32. simpl in J30, J31, J32.
  assert (R3 : revivals ops_low f 3 = 4%Z).
  { assert (ND : forall J : vec, 0 < J 0%nat -> J 1%nat <= 0 -> J 2%nat <= 0 -> num_dead 3 0 J = 2%nat).
    { intros J' A B C. unfold num_dead. rewrite num_alive_ncount. simpl.
      rewrite (proj2 (Rltb_true _ _) A), (proj2 (Rltb_false _ _) B), (proj2 (Rltb_false _ _) C). reflexivity. }
    assert (R1 : revivals ops_low f 1 = 0%Z).
    { simpl. rewrite EN, EP, EL. simpl. unfold num_dead. rewrite num_alive_ncount.
      rewrite (proj2 (ncount_all _ _)); [reflexivity|]. intros. apply Rltb_true. rewrite EJ0. lra. }
    assert (R2 : revivals ops_low f 2 = 2%Z).
    { change (revivals ops_low f 2) with (revivals ops_low f 1 + match fsteps ops_low f 1 with
       | Ok w => if Z.ltb 0 (f_left f - revivals ops_low f 1)
                 then Z.of_nat (num_dead (f_np f) (m_thr (f_par f)) (v_Js (w_k w))) else 0
       | Err _ => 0
       end)%Z. rewrite R1, E1, EL, EN, EP. simpl. rewrite ND by lra. reflexivity. }
    change (revivals ops_low f 3) with (revivals ops_low f 2 + match fsteps ops_low f 2 with
       | Ok w => if Z.ltb 0 (f_left f - revivals ops_low f 2)
                 then Z.of_nat (num_dead (f_np f) (m_thr (f_par f)) (v_Js (w_k w))) else 0
       | Err _ => 0
       end)%Z. rewrite R2, E2, EL, EN, EP. simpl. rewrite ND by lra. reflexivity. }
  change (f_left f < revivals ops_low f 3 /\ f_left f' < 0)%Z.
  split; [rewrite R3, EL; lia|].
  destruct (C06_budget_counts_revivals ops_low f (Some 3) (Some 0) (Some 3) f' ph E) as (d & ED & _ & EB).
  rewrite (rf_f R) in ED. injection ED as <-. simpl d_steps in EB.
  change (Z.to_nat 3) with 3%nat in EB. rewrite EL, R3 in EB. lia.
Qed.
