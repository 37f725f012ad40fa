(** PropertiesOneStep.v -- what a run of one step does to the finder, in terms
    of the parameters given to the constructor: finder-level versions of C04,
    C05, C09 and C10. *)

From Coq Require Import String Reals Lra Lia List Bool Arith ZArith.
From Verif Require Import Base ModelCommon ModelParts ModelKernel ModelPhases ModelFinder ModelHistory
  ProofsKernel ProofsParts ProofsSteps ProofsBounds ProofsCopy ProofsRun ProofsHistory ProofsRun2 Spec PropertiesKernel.
Import ListNotations.
Open Scope R_scope.

Section OneStep.
Context {G St : Type} (ops : rng_ops G).
Notation finder := (finder G St).

(** A run of one step: the only metastep has one step. *)
Lemma one_step_run (f g : finder) a t i ph : schedule a i = Ok (1%nat, 1%nat) ->
  run ops f (Some a) t (Some i) = (g, Ok ph) ->
  let r := maybe_revive ops (kernel_of f) (f_left f) 0 (f_k f) in
  exists k' nv rep gen, iterate (kernel_of f) (snd r) = Ok (k', nv, rep) /\
    f_k g = k_with_g k' gen /\
    f_left g = (f_left f - Z.of_nat (fst r))%Z /\
    f_diag g = Some {| d_steps := 1; d_incomp := e_incomp rep; d_omega := e_omega rep; d_Js := e_Js rep;
      d_cons := e_cons rep; d_left := f_left g |}.
Proof.
  intros ES H. cbv zeta. unfold run in H. rewrite ES in H. cbn [run_loop r_f] in H.
  unfold metastep in H. cbn [steps bind] in H. unfold one_step in H. cbn [w_count w_k] in H.
  destruct (maybe_revive ops (kernel_of f) (f_left f) 0 (f_k f)) as [c k1]. cbn [fst snd].
  destruct (iterate (kernel_of f) k1) as [[[k' nv] rep]|e]; [|discriminate]. cbn [bind w_rep w_count w_k] in H.
  destruct (String.eqb _ _); [|discriminate].
  destruct (converged _ _ rep); cbn [r_f r_rep f_k with_left with_k f_np f_par r_steps] in H;
    (destruct (revive_by_copy _ _ _ _ _ _) as [[[[cc J] P] gg]|e]; [|discriminate]); injection H as <- _;
    exists k', nv, rep, gg; repeat split; reflexivity.
Qed.

Lemma no_budget (f : finder) : (f_left f <= 0)%Z ->
  maybe_revive ops (kernel_of f) (f_left f) 0 (f_k f) = (0%nat, f_k f).
Proof. intros H. unfold maybe_revive. destruct (Z.ltb_spec (Z.of_nat 0) (f_left f)); [lia|reflexivity]. Qed.

(* ------------------------------------------------------------------ *)
(** * C04 *)

(** Runs of any length, one after the other, without budget: a dead
    compartment has volume zero, its fields read zero, and (built-in
    ensembles) so do its fractions. *)
Theorem C04_run (f g : finder) a t i ph m : 0 <= m_thr (f_par f) -> (f_left f <= 0)%Z ->
  dead (m_thr (f_par f)) (v_Js (f_k f)) m -> run ops f a t i = (g, Ok ph) ->
  v_Js (f_k g) m = 0 /\ (forall r, v_omegas (f_k g) r m = 0) /\ f_left g = f_left f /\
  (forall nc x, f_ensemble f = can_compiled nc x \/ f_ensemble f = gc_compiled nc x ->
     forall c, (c < nc)%nat -> v_phis_comp (f_k g) c m = 0).
Proof.
  intros Ht HL HD H. apply run_inv in H. destruct H as (tr & inner & j & w & rep & n & J & phi & gg & R).
  pose proof (rf_inner R) as H1. pose proof (rf_j R) as H2. pose proof (rf_steps R) as ES.
  destruct (j * inner)%nat as [|N] eqn:EN; [nia|].
  destruct (C04_dead_stays_dead ops (kernel_of f) (f_left f) N (f_k f) w m Ht HL HD ES) as (A & B & C).
  assert (W : w_count w = 0%nat).
  { assert (K : forall N w, steps ops (kernel_of f) (f_left f) N (start (f_k f)) = Ok w -> w_count w = 0%nat).
    { induction N0; intros w0 E0; [injection E0 as <-; reflexivity|]. simpl steps in E0. apply bind_Ok in E0.
      destruct E0 as (w1 & E1 & E2). specialize (IHN0 _ E1). unfold one_step in E2. rewrite IHN0 in E2.
      unfold maybe_revive in E2. destruct (Z.ltb_spec (Z.of_nat 0) (f_left f)); [lia|].
      apply bind_Ok in E2. destruct E2 as ([[k nv] rp] & _ & E2). injection E2 as <-. reflexivity. }
    exact (K _ _ ES). }
  rewrite (rf_f R). cbn [f_k with_diag with_k f_left with_left k_with_g v_Js v_omegas v_phis_comp].
  split; [exact A|]. split; [exact B|]. split; [|exact C]. unfold advance. cbn. rewrite W. lia.
Qed.

(* ------------------------------------------------------------------ *)
(** * C05 *)

(** the finder with other fields, volumes and generator, after [c] revivals *)
Definition refilled (f : finder) (w : mat) (J : vec) (gen : G) (c : nat) : finder :=
  with_left (with_k f (k_with_fields (f_k f) w J gen)) (f_left f - Z.of_nat c)%Z.

Definition shift_count (c : nat) (w : mstate G St) : mstate G St :=
  {| w_k := w_k w; w_count := (w_count w + c)%nat; w_valid := w_valid w; w_rep := w_rep w |}.

Lemma one_step_shift q tries c (w : mstate G St) :
  one_step ops q tries (shift_count c w) = (let* w' := one_step ops q (tries - Z.of_nat c) w in Ok (shift_count c w')).
Proof.
  unfold one_step. cbn [w_count w_k shift_count].
  assert (E : maybe_revive ops q tries (w_count w + c) (w_k w) =
    let '(n, k) := maybe_revive ops q (tries - Z.of_nat c) (w_count w) (w_k w) in ((n + c)%nat, k)).
  { unfold maybe_revive. destruct (Z.ltb_spec (Z.of_nat (w_count w + c)) tries), (Z.ltb_spec (Z.of_nat (w_count w)) (tries - Z.of_nat c)); try lia; auto.
    destruct (Nat.eqb _ _); auto. destruct (revive_by_random _ _ _ _ _ _ _ _) as [[[n J] t] g]. f_equal. lia. }
  rewrite E. destruct (maybe_revive ops q (tries - Z.of_nat c) (w_count w) (w_k w)) as [n k].
  destruct (iterate q k) as [[[k' nv] rep]|e]; reflexivity.
Qed.

Lemma steps_shift q tries c (k k1 : kstate G St) n :
  maybe_revive ops q tries 0 k = (c, k1) -> maybe_revive ops q (tries - Z.of_nat c) 0 k1 = (0%nat, k1) ->
  steps ops q tries (S n) (start k) = (let* w := steps ops q (tries - Z.of_nat c) (S n) (start k1) in Ok (shift_count c w)).
Proof.
  intros E1 E2. induction n.
  - cbn [steps bind]. unfold one_step. cbn [start w_count w_k]. rewrite E1, E2.
    destruct (iterate q k1) as [[[k' nv] rep]|e]; reflexivity.
  - remember (S n) as n1. cbn [steps]. rewrite IHn. destruct (steps ops q (tries - Z.of_nat c) n1 (start k1)) as [w|e]; [|reflexivity].
    cbn [bind]. apply one_step_shift.
Qed.

Lemma metastep_shift q tries c (k k1 : kstate G St) n :
  maybe_revive ops q tries 0 k = (c, k1) -> maybe_revive ops q (tries - Z.of_nat c) 0 k1 = (0%nat, k1) ->
  metastep ops q (S n) tries k =
    (let* (k', rep, count, safe) := metastep ops q (S n) (tries - Z.of_nat c) k1 in Ok (k', rep, (count + c)%nat, safe)).
Proof.
  intros E1 E2. unfold metastep.
  change {| w_k := k; w_count := 0; w_valid := 0; w_rep := None |} with (start k).
  change {| w_k := k1; w_count := 0; w_valid := 0; w_rep := None |} with (start k1).
  rewrite (steps_shift q tries c k k1 n E1 E2).
  destruct (steps ops q (tries - Z.of_nat c) (S n) (start k1)) as [w|e]; [|reflexivity]. cbn [bind shift_count w_rep w_k w_count w_valid].
  destruct (w_rep w) as [rep|]; reflexivity.
Qed.

(** With budget left, a run first refills exactly the dead compartments, at
    volume one and with fields from the range of the present fields scaled by
    [revive_scaler], and charges the budget for them; then it is the run of the
    refilled finder. *)
Theorem C05_run (f g : finder) a t i ph : rng_contract ops -> 0 <= m_scaler (f_par f) -> m_thr (f_par f) < 1 ->
  (0 < f_left f)%Z -> run ops f a t i = (g, Ok ph) ->
  let thr := m_thr (f_par f) in
  let Js := v_Js (f_k f) in
  exists w J gen,
    (forall m, (m < f_np f)%nat -> (alive thr Js m -> J m = Js m) /\ (dead thr Js m -> J m = 1)) /\
    (forall r m, (r < f_nf f)%nat -> (m < f_np f)%nat ->
       (alive thr Js m -> w r m = v_omegas (f_k f) r m) /\
       forall lo hi, is_min (f_np f) (v_omegas (f_k f) r) lo -> is_max (f_np f) (v_omegas (f_k f) r) hi ->
         dead thr Js m ->
         (lo + hi) / 2 - m_scaler (f_par f) * ((hi - lo) / 2) <= w r m
           <= (lo + hi) / 2 + m_scaler (f_par f) * ((hi - lo) / 2)) /\
    gen = times (num_dead (f_np f) thr Js * f_nf f) (fun g => snd (g_uniform ops g)) (v_g (f_k f)) /\
    run ops (refilled f w J gen (num_dead (f_np f) thr Js)) a t i = (g, Ok ph).
Proof.
  intros HR Hs Ht HL H thr Js.
  assert (X : exists w J gen,
    (forall m, (m < f_np f)%nat -> (alive thr Js m -> J m = Js m) /\ (dead thr Js m -> J m = 1)) /\
    (forall r m, (r < f_nf f)%nat -> (m < f_np f)%nat ->
       (alive thr Js m -> w r m = v_omegas (f_k f) r m) /\
       forall lo hi, is_min (f_np f) (v_omegas (f_k f) r) lo -> is_max (f_np f) (v_omegas (f_k f) r) hi ->
         dead thr Js m ->
         (lo + hi) / 2 - m_scaler (f_par f) * ((hi - lo) / 2) <= w r m
           <= (lo + hi) / 2 + m_scaler (f_par f) * ((hi - lo) / 2)) /\
    gen = times (num_dead (f_np f) thr Js * f_nf f) (fun g => snd (g_uniform ops g)) (v_g (f_k f)) /\
    maybe_revive ops (kernel_of f) (f_left f) 0 (f_k f) = (num_dead (f_np f) thr Js, k_with_fields (f_k f) w J gen)).
  { assert (ND : num_dead (f_np f) thr Js = ncount (f_np f) (fun m => Rleb (Js m) thr)).
    { rewrite dead_count. unfold num_dead. now rewrite num_alive_ncount. }
    unfold maybe_revive. destruct (Z.ltb_spec (Z.of_nat 0) (f_left f)); [|lia]. cbn [kernel_of q_np q_thr q_nf q_scaler].
    fold thr Js. unfold count_valid. rewrite <- num_alive_ncount.
    destruct (Nat.eqb_spec (num_alive (f_np f) thr Js) (f_np f)) as [E|E].
    - assert (AL : forall m, (m < f_np f)%nat -> thr < Js m).
      { rewrite num_alive_ncount in E. intros m Hm. apply Rltb_true. exact (proj1 (ncount_all (f_np f) (fun m => Rltb thr (Js m))) E m Hm). }
      assert (Z0 : num_dead (f_np f) thr Js = 0%nat) by (unfold num_dead; lia).
      exists (v_omegas (f_k f)), Js, (v_g (f_k f)). rewrite Z0. split; [|split; [|split]].
      + intros m Hm. split; auto. intros K. specialize (AL m Hm). unfold dead in K. lra.
      + intros r m Hr Hm. split; auto. intros lo hi _ _ K. specialize (AL m Hm). unfold dead in K. lra.
      + reflexivity.
      + f_equal. unfold Js. now destruct (f_k f).
    - destruct (revive_by_random ops (f_nf f) (f_np f) Js (v_omegas (f_k f)) thr (v_g (f_k f)) (m_scaler (f_par f)))
        as [[[c J] w] gen] eqn:ER.
      destruct (C05_random_revival ops _ _ _ _ _ _ _ _ _ _ _ HR Hs ER) as (A & B & C & D & _ & F & GG).
      exists w, J, gen. rewrite <- F. split; [|split; [|split]]; auto. }
  destruct X as (w & J & gen & A & B & C & E). exists w, J, gen. split; [exact A|]. split; [exact B|]. split; [exact C|].
  set (c := num_dead (f_np f) thr Js) in *.
  assert (E2 : maybe_revive ops (kernel_of f) (f_left f - Z.of_nat c) 0 (k_with_fields (f_k f) w J gen) = (0%nat, k_with_fields (f_k f) w J gen)).
  { unfold maybe_revive. destruct (Z.ltb _ _); [|reflexivity]. cbn [kernel_of q_np q_thr v_Js k_with_fields].
    assert (K : count_valid (f_np f) J (m_thr (f_par f)) = f_np f).
    { unfold count_valid. apply ncount_all. intros m Hm. apply Rltb_true. fold thr. destruct (A m Hm) as [A1 A2].
      destruct (Rlt_dec thr (Js m)) as [L|L]; [rewrite A1 by exact L; exact L|rewrite A2 by (unfold dead; lra); exact Ht]. }
    rewrite K, Nat.eqb_refl. reflexivity. }
  rewrite <- H. unfold run. fold (opt a (m_max_steps (f_par f))). fold (opt i (m_interval (f_par f))).
  change (f_par (refilled f w J gen c)) with (f_par f).
  assert (H0 := H). unfold run in H0. fold (opt a (m_max_steps (f_par f))) in H0. fold (opt i (m_interval (f_par f))) in H0.
  destruct (schedule _ _) as [[tr inner]|e] eqn:ES; [|discriminate].
  destruct (schedule_inner _ _ _ _ ES) as [b ->].
  destruct tr as [|tr].
  { cbn [run_loop r_f r_rep] in H0. destruct (revive_by_copy _ _ _ _ _ _) as [[[[n J'] phi] gg]|e]; discriminate. }
  cbn [run_loop r_f r_steps] in H0 |- *.
  change (kernel_of (refilled f w J gen c)) with (kernel_of f).
  change (f_left (refilled f w J gen c)) with (f_left f - Z.of_nat c)%Z.
  change (f_k (refilled f w J gen c)) with (k_with_fields (f_k f) w J gen).
  rewrite (metastep_shift (kernel_of f) (f_left f) c (f_k f) _ b E E2) in H0 |- *.
  destruct (metastep ops (kernel_of f) (S b) (f_left f - Z.of_nat c) (k_with_fields (f_k f) w J gen)) as [[[[k' rep] count] safe]|e];
    [|discriminate H0]. cbn [bind].
  assert (EF : with_left (with_k (refilled f w J gen c) k') (f_left f - Z.of_nat c - Z.of_nat count)
             = with_left (with_k f k') (f_left f - Z.of_nat (count + c))).
  { unfold refilled, with_left, with_k. cbn. f_equal. lia. }
  rewrite EF. reflexivity.
Qed.

(* ------------------------------------------------------------------ *)
(** * C09, C10 *)

(** One step changes the volume of a living compartment by at most twice
    [Js_step_upper_bound]. *)
Theorem C09_run (f g : finder) a t i ph m : 0 < m_ub (f_par f) -> 0 < m_acc_J (f_par f) ->
  schedule a i = Ok (1%nat, 1%nat) -> (f_left f <= 0)%Z ->
  rsum (f_np f) (living (m_thr (f_par f)) (v_Js (f_k f))) = INR (num_alive (f_np f) (m_thr (f_par f)) (v_Js (f_k f))) ->
  (m < f_np f)%nat -> alive (m_thr (f_par f)) (v_Js (f_k f)) m ->
  run ops f (Some a) t (Some i) = (g, Ok ph) ->
  Rabs (v_Js (f_k g) m - v_Js (f_k f) m) <= 2 * m_ub (f_par f).
Proof.
  intros Hu Ha ES HL HS Hm HA H. destruct (one_step_run f g a t i ph ES H) as (k' & nv & rep & gen & E & -> & _).
  rewrite (no_budget f HL) in E. cbn [snd] in E.
  exact (C09_volume_change_bounded (kernel_of f) (f_k f) k' nv rep m Hu Ha E HS Hm HA).
Qed.

(** the finder constructed with other step parameters *)
Definition with_steps (f : finder) (acc_J ub acc_w : R) : finder :=
  {| f_inter := f_inter f; f_entropy := f_entropy f; f_ensemble := f_ensemble f; f_nc := f_nc f; f_nf := f_nf f; f_np := f_np f;
     f_par := {| m_max_steps := m_max_steps (f_par f); m_criterion := m_criterion (f_par f); m_tolerance := m_tolerance (f_par f);
                 m_interval := m_interval (f_par f); m_random_std := m_random_std (f_par f);
                 m_acc_J := acc_J; m_acc_w := acc_w; m_ub := ub; m_thr := m_thr (f_par f);
                 m_scaler := m_scaler (f_par f); m_max_revive := m_max_revive (f_par f) |};
     f_kwargs := f_kwargs f; f_k := f_k f; f_left := f_left f; f_diag := f_diag f |}.

(** [acceptance_Js], [acceptance_omega] and [Js_step_upper_bound] only scale a
    step: volumes and fields move along directions that do not depend on them,
    with one common limiter. *)
Theorem C10_run (f : finder) a i : schedule a i = Ok (1%nat, 1%nat) -> (f_left f <= 0)%Z ->
  exists (dJ : vec) (dw : mat), forall acc_J ub acc_w t g ph d,
    0 < ub -> 0 <= acc_J -> run ops (with_steps f acc_J ub acc_w) (Some a) t (Some i) = (g, Ok ph) -> f_diag g = Some d ->
    d_Js d = vmax (f_np f) (fun m => Rabs (dJ m)) /\
    exists factor shift,
      0 < factor <= 1 /\ (factor = 1 <-> acc_J * d_Js d <= ub) /\ factor * Rmax (acc_J * d_Js d) ub = ub /\
      (forall m, (m < f_np f)%nat -> Rabs (factor * acc_J * dJ m) <= ub) /\
      (forall m, (m < f_np f)%nat -> alive (m_thr (f_par f)) (v_Js (f_k f)) m ->
         v_Js (f_k g) m = v_Js (f_k f) m + factor * acc_J * dJ m + shift /\
         forall r, v_omegas (f_k g) r m = v_omegas (f_k f) r m + factor * acc_w * dw r m).
Proof.
  intros ES HL. destruct (C10_common_damping (kernel_of f) (f_k f)) as (dJ & dw & K). exists dJ, dw.
  intros acc_J ub acc_w t g ph d Hu Ha H D.
  destruct (one_step_run (with_steps f acc_J ub acc_w) g a t i ph ES H) as (k' & nv & rep & gen & E & -> & _ & D').
  rewrite D' in D. injection D as <-. cbn [d_Js].
  rewrite (no_budget (with_steps f acc_J ub acc_w) HL) in E. cbn [snd] in E.
  exact (K acc_J ub acc_w k' nv rep Hu Ha E).
Qed.
End OneStep.
