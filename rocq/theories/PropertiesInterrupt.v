(** PropertiesInterrupt.v -- C86: abandoned runs. *)

From Coq Require Import String Reals Lra Lia List Bool Arith ZArith.
From Verif Require Import Base ModelCommon ModelParts ModelKernel ModelPhases ModelFinder ModelHistory ModelInterrupt
  ProofsKernel ProofsParts ProofsSteps ProofsBounds ProofsCopy ProofsRun ProofsHistory ProofsRun2 ProofsEquilibrium
  Spec PropertiesKernel PropertiesFinder PropertiesRelabel.
Import ListNotations.
Open Scope R_scope.

(** Everything about a finder that run() never changes. *)
Definition same_setup {G St} (f f' : finder G St) : Prop :=
  f_inter f' = f_inter f /\ f_entropy f' = f_entropy f /\ f_ensemble f' = f_ensemble f /\
  f_nc f' = f_nc f /\ f_nf f' = f_nf f /\ f_np f' = f_np f /\ f_par f' = f_par f /\ f_kwargs f' = f_kwargs f.

Section Props.
Context {G St : Type} (ops : rng_ops G).
Implicit Types (f : finder G St) (w : mstate G St).

Lemma advance_zero f k : with_k f k = advance f k 0.
Proof. destruct f. unfold advance, with_left, with_k; simpl. f_equal. lia. Qed.

Lemma loop_at_spec tol b n : forall f j c f',
  loop_at ops tol (S b) n f j c = Some f' ->
  exists w w0, (1 <= j <= n)%nat /\ fsteps ops f (j * S b) = Ok w /\ fsteps ops f ((j - 1) * S b) = Ok w0 /\
    f' = advance f (w_k w) (if c then w_count w else w_count w0).
Proof.
  induction n; intros f j c f' H; [destruct j; discriminate|].
  destruct j as [|j]; [discriminate|]. cbn [loop_at] in H.
  destruct (metastep _ _ _ _ _) as [[[[k' rep] ct] safe]|e] eqn:EM; [|discriminate].
  apply metastep_inv in EM. destruct EM as (w1 & E1 & Hk & Hr & Hc & Hs).
  destruct j as [|j].
  - injection H as <-. exists w1, (start (f_k f)). split; [lia|]. split; [rewrite Nat.mul_1_l; exact E1|].
    split; [reflexivity|]. rewrite Hk, <- Hc. destruct c; [reflexivity|]. apply advance_zero.
  - destruct (String.eqb _ _); [|discriminate]. destruct (converged _ _ _); [discriminate|].
    assert (Ef : with_left (with_k f k') (f_left (with_k f k') - Z.of_nat ct)%Z = advance f (w_k w1) (w_count w1))
      by (rewrite Hk, Hc; reflexivity).
    rewrite Ef in H. apply IHn in H. destruct H as (w & w0 & Hj & EW & EW0 & HF).
    pose proof (fsteps_split ops f (S b) (b + j * S b) w1 E1) as EQ.
    replace (S (b + j * S b)) with (S j * S b)%nat in EQ by (simpl; lia). rewrite EW in EQ. simpl res_map in EQ.
    exists (shift_count (w_count w1) w).
    replace (S (S j) - 1)%nat with (S j) by lia.
    destruct j as [|j].
    + exists w1. split; [lia|]. split; [replace (2 * S b)%nat with (S b + 1 * S b)%nat by lia; exact EQ|].
      split; [rewrite Nat.mul_1_l; exact E1|].
      rewrite HF. simpl in EW0. injection EW0 as <-. rewrite advance_advance. cbn [start w_count].
      destruct c; cbn [shift_count w_k w_count]; f_equal; lia.
    + replace (S (S j) - 1)%nat with (S j) in EW0 by lia.
      pose proof (fsteps_split ops f (S b) (b + j * S b) w1 E1) as EQ0.
      replace (S (b + j * S b)) with (S j * S b)%nat in EQ0 by (simpl; lia). rewrite EW0 in EQ0. simpl res_map in EQ0.
      exists (shift_count (w_count w1) w0).
      split; [lia|]. split; [replace (S (S (S j)) * S b)%nat with (S b + S (S j) * S b)%nat by (simpl; lia); exact EQ|].
      split; [replace (S (S j) * S b)%nat with (S b + S j * S b)%nat by (simpl; lia); exact EQ0|].
      rewrite HF, advance_advance. destruct c; reflexivity.
Qed.

Lemma steps_mono_count f a b w0 w : (a <= b)%nat -> fsteps ops f a = Ok w0 -> fsteps ops f b = Ok w ->
  (w_count w0 <= w_count w)%nat.
Proof.
  intros Hab E0 E. destruct (Nat.eq_dec a b) as [->|N]; [assert (w0 = w) by congruence; subst; lia|].
  replace b with (a + S (b - a - 1))%nat in E by lia. rewrite (fsteps_split _ _ _ _ _ E0) in E.
  destruct (fsteps ops (advance _ _ _) _) as [w2|]; [|discriminate]. injection E as <-. simpl. lia.
Qed.

(** Wherever run() is abandoned, fields, volumes, fractions and constraint
    multipliers are those after a whole number of metasteps; the budget is the
    initial one minus the revivals, except that the revivals of the last
    metastep are missing when it was abandoned right after the compiled kernel;
    diagnostics still describe an earlier run. *)
Theorem C86_interrupted f a t i p f' :
  interrupted ops f a t i p = Some f' ->
  exists tr inner j w c,
    schedule (opt a (m_max_steps (f_par f))) (opt i (m_interval (f_par f))) = Ok (tr, inner) /\ (j <= tr)%nat /\
    fsteps ops f (j * inner) = Ok w /\
    v_omegas (f_k f') = v_omegas (w_k w) /\ v_Js (f_k f') = v_Js (w_k w) /\ v_cons (f_k f') = v_cons (w_k w) /\
    v_phis_comp (f_k f') = v_phis_comp (w_k w) /\ v_phis_feat (f_k f') = v_phis_feat (w_k w) /\
    (p <> Filled -> p <> Finished -> v_g (f_k f') = v_g (w_k w)) /\
    f_left f' = (f_left f - Z.of_nat c)%Z /\
    match p with
    | Started => j = O
    | Returned j' => j' = j /\ (1 <= j)%nat /\
        exists w0, fsteps ops f ((j - 1) * inner) = Ok w0 /\ c = w_count w0 /\ (c <= w_count w)%nat
    | Counted j' => j' = j /\ (1 <= j)%nat /\ c = w_count w
    | _ => c = w_count w
    end /\
    (p <> Finished -> f_diag f' = f_diag f) /\ same_setup f f'.
Proof.
  unfold interrupted. fold (opt a (m_max_steps (f_par f))). fold (opt t (m_tolerance (f_par f))).
  fold (opt i (m_interval (f_par f))).
  destruct (schedule _ _) as [[tr inner]|e] eqn:ES; [|discriminate].
  destruct (schedule_inner _ _ _ _ ES) as [b ->].
  assert (SS : forall k c, same_setup f (advance f k c)) by (intros; repeat split).
  destruct p as [|j|j| |].
  - intros H; injection H as <-. exists tr, (S b), O, (start (f_k f)), O.
    split; [reflexivity|]. split; [lia|]. split; [reflexivity|]. cbn [start w_k w_count].
    split; [reflexivity|]. split; [reflexivity|]. split; [reflexivity|]. split; [reflexivity|].
    split; [reflexivity|]. split; [reflexivity|]. split; [lia|]. split; [reflexivity|]. split; [reflexivity|]. repeat split.
  - intros H. apply loop_at_spec in H. destruct H as (w & w0 & Hj & E & E0 & ->).
    exists tr, (S b), j, w, (w_count w0). split; [reflexivity|]. split; [lia|]. split; [exact E|].
    split; [reflexivity|]. split; [reflexivity|]. split; [reflexivity|]. split; [reflexivity|].
    split; [reflexivity|]. split; [reflexivity|]. split; [reflexivity|].
    split; [split; [reflexivity|]; split; [lia|]; exists w0; split; [exact E0|]; split; [reflexivity|];
            eapply steps_mono_count; [|exact E0|exact E]; nia|].
    split; [reflexivity|]. apply SS.
  - intros H. apply loop_at_spec in H. destruct H as (w & w0 & Hj & E & E0 & ->).
    exists tr, (S b), j, w, (w_count w). split; [reflexivity|]. split; [lia|]. split; [exact E|].
    split; [reflexivity|]. split; [reflexivity|]. split; [reflexivity|]. split; [reflexivity|].
    split; [reflexivity|]. split; [reflexivity|]. split; [reflexivity|].
    split; [split; [reflexivity|]; split; [lia|reflexivity]|]. split; [reflexivity|]. apply SS.
  - destruct (run_loop _ _ _ _ _) as [s [u|e]] eqn:EL; [|discriminate].
    apply run_loop_inv in EL. cbn [r_f r_steps r_rep r_conv] in EL.
    destruct EL as (j & w & Hj & EW & HF & _). rewrite HF.
    destruct (revive_by_copy _ _ _ _ _ _) as [[[[n J] phi] g]|e]; [|discriminate].
    intros H; injection H as <-. exists tr, (S b), j, w, (w_count w).
    split; [reflexivity|]. split; [lia|]. split; [exact EW|].
    split; [reflexivity|]. split; [reflexivity|]. split; [reflexivity|]. split; [reflexivity|].
    split; [reflexivity|]. split; [congruence|]. split; [reflexivity|]. split; [reflexivity|]. split; [reflexivity|]. repeat split.
  - destruct (run ops f a t i) as [f1 [ph|e]] eqn:ER; [|discriminate]. intros H; injection H as <-.
    apply run_inv in ER. destruct ER as (tr' & inner & j & w & rep & n & J & phi & g & R).
    pose proof (rf_sched R) as ES'. rewrite ES in ES'. injection ES' as <- <-.
    pose proof (rf_j R). pose proof (rf_steps R) as EW. rewrite (rf_f R).
    exists tr, (S b), j, w, (w_count w).
    split; [reflexivity|]. split; [lia|]. split; [exact EW|].
    split; [reflexivity|]. split; [reflexivity|]. split; [reflexivity|]. split; [reflexivity|].
    split; [reflexivity|]. split; [congruence|]. split; [reflexivity|]. split; [reflexivity|]. split; [congruence|]. repeat split.
Qed.

Lemma loop_at_S tol inner n f j c : loop_at ops tol inner (S n) f (S (S j)) c =
  match metastep ops (kernel_of f) inner (f_left f) (f_k f) with
  | Err _ => None
  | Ok (k', rep, count, safe) =>
      if String.eqb (m_criterion (f_par f)) "standard" then
        if converged tol safe rep then None
        else loop_at ops tol inner n (with_left (with_k f k') (f_left f - Z.of_nat count)%Z) (S j) c
      else None
  end.
Proof. reflexivity. Qed.

(** The places are those a run passes: the [j]-th pass is reached exactly if
    run() performs at least [j] metasteps, and the finished run differs from the
    last pass only in diagnostics and generator. *)
Lemma run_loop_passes tol b n : forall (s s' : rstate G St) u,
  run_loop ops tol (S b) n s = (s', Ok u) ->
  exists J, r_steps s' = (r_steps s + J * S b)%nat /\
    (forall j c, (exists f', loop_at ops tol (S b) n (r_f s) j c = Some f') <-> (1 <= j <= J)%nat) /\
    ((1 <= J)%nat -> loop_at ops tol (S b) n (r_f s) J true = Some (r_f s')) /\
    (J = O -> r_f s' = r_f s).
Proof.
  induction n; intros s s' u H.
  - injection H as <- _. exists O. split; [lia|]. split; [|split; [lia|reflexivity]].
    intros j c. split; [intros (f' & X); destruct j; discriminate|lia].
  - cbn [run_loop] in H.
    destruct (metastep ops (kernel_of (r_f s)) (S b) (f_left (r_f s)) (f_k (r_f s))) as [[[[k' rep] ct] safe]|e] eqn:EM;
      [|discriminate].
    destruct (String.eqb (m_criterion (f_par (r_f s))) "standard") eqn:EC; [|discriminate].
    destruct (converged tol safe rep) eqn:EV.
    + injection H as <- _. exists 1%nat. cbn [r_steps r_f]. split; [lia|]. split.
      * intros j c. destruct j as [|[|j]]; cbn [loop_at]; [|rewrite EM|rewrite EM, EC, EV].
        -- split; [intros (f' & X); discriminate|lia].
        -- split; [lia|eauto].
        -- split; [intros (f' & X); discriminate|lia].
      * split; [|lia]. intros _. cbn [loop_at]. rewrite EM. reflexivity.
    + apply IHn in H. cbn [r_f r_steps] in H. destruct H as (J & HS & HP & HL & H0). exists (S J). split; [lia|]. split.
      * intros j c. destruct j as [|[|j]].
        -- cbn [loop_at]. split; [intros (f' & X); discriminate|lia].
        -- cbn [loop_at]. rewrite EM. split; [lia|eauto].
        -- rewrite loop_at_S, EM, EC, EV, HP. lia.
      * split; [|lia]. intros _. destruct J as [|J].
        -- cbn [loop_at]. rewrite EM, (H0 eq_refl). reflexivity.
        -- specialize (HL ltac:(lia)). rewrite loop_at_S, EM, EC, EV. exact HL.
Qed.

Theorem C86_places f a t i f' ph d :
  run ops f a t i = (f', Ok ph) -> f_diag f' = Some d ->
  exists tr inner J,
    schedule (opt a (m_max_steps (f_par f))) (opt i (m_interval (f_par f))) = Ok (tr, inner) /\
    d_steps d = Z.of_nat (J * inner) /\ (1 <= J)%nat /\
    (forall j, ((exists f1, interrupted ops f a t i (Returned j) = Some f1) <-> (1 <= j <= J)%nat) /\
               ((exists f1, interrupted ops f a t i (Counted j) = Some f1) <-> (1 <= j <= J)%nat)) /\
    interrupted ops f a t i Finished = Some f' /\
    exists f1 f2 g, interrupted ops f a t i (Counted J) = Some f1 /\
      interrupted ops f a t i Filled = Some f2 /\
      f2 = with_k f1 (k_with_g (f_k f1) g) /\ f' = with_diag f2 (Some d).
Proof.
  intros H ED. unfold interrupted. rewrite H. revert H.
  unfold run. fold (opt a (m_max_steps (f_par f))). fold (opt t (m_tolerance (f_par f))).
  fold (opt i (m_interval (f_par f))).
  destruct (schedule _ _) as [[tr inner]|e] eqn:ES; [|discriminate].
  destruct (schedule_inner _ _ _ _ ES) as [b ->].
  destruct (run_loop _ _ _ _ _) as [s [u|e]] eqn:EL; [|discriminate].
  pose proof (run_loop_passes _ _ _ _ _ _ EL) as (J & HS & HP & HL & H0). cbn [r_f r_steps] in *.
  apply run_loop_inv in EL. cbn [r_f r_steps r_rep r_conv] in EL.
  destruct EL as (j & w & Hj & EW & HF & HS' & Hj0 & HRep & _).
  destruct (revive_by_copy _ _ _ _ _ _) as [[[[n Jv] phi] g]|e] eqn:ER; [|discriminate].
  destruct (r_rep s) as [rep|] eqn:ERp; [|discriminate]. intros H. injection H as <- HPh.
  simpl in ED. injection ED as <-.
  assert (Ej : J = j) by nia. subst j.
  assert (HJ : (1 <= J)%nat) by (destruct J; [rewrite (Hj0 eq_refl) in ERp; discriminate|lia]).
  exists tr, (S b), J. split; [reflexivity|]. split; [simpl; lia|]. split; [exact HJ|]. split; [intros j; split; apply HP|].
  split; [reflexivity|].
  exists (r_f s), (with_k (r_f s) (k_with_g (f_k (r_f s)) g)), g.
  split; [exact (HL HJ)|]. split; [reflexivity|]. split; reflexivity.
Qed.

(** Continuing an abandoned run is the same as not having abandoned it, also
    when compartments are dead: with the same total number of steps the state,
    budget, phases and errors agree. *)
Theorem C86_resume f a1 t1 i1 p f1 n1 a2 t2 i2 a3 t3 i3 f2 f3 ph2 ph3 d2 d3 tr inner :
  schedule (opt a1 (m_max_steps (f_par f))) (opt i1 (m_interval (f_par f))) = Ok (tr, inner) ->
  (p = Started /\ n1 = O \/ exists j, p = Counted j /\ n1 = (j * inner)%nat) ->
  interrupted ops f a1 t1 i1 p = Some f1 ->
  run ops f1 a2 t2 i2 = (f2, Ok ph2) -> run ops f a3 t3 i3 = (f3, Ok ph3) ->
  f_diag f2 = Some d2 -> f_diag f3 = Some d3 -> d_steps d3 = (Z.of_nat n1 + d_steps d2)%Z ->
  f_k f2 = f_k f3 /\ f_left f2 = f_left f3 /\ ph2 = ph3 /\
  d_incomp d2 = d_incomp d3 /\ d_omega d2 = d_omega d3 /\ d_Js d2 = d_Js d3 /\ d_cons d2 = d_cons d3 /\
  d_left d2 = d_left d3.
Proof.
  intros ES HP HI H2 H3 D2 D3 E.
  assert (X : exists w1, fsteps ops f n1 = Ok w1 /\ f1 = advance f (w_k w1) (w_count w1)).
  { unfold interrupted in HI. fold (opt a1 (m_max_steps (f_par f))) in HI. fold (opt t1 (m_tolerance (f_par f))) in HI.
    fold (opt i1 (m_interval (f_par f))) in HI. rewrite ES in HI.
    destruct (schedule_inner _ _ _ _ ES) as [b ->].
    destruct HP as [(-> & ->)|(j & -> & ->)].
    - injection HI as <-. exists (start (f_k f)). split; [reflexivity|]. symmetry. apply advance_0.
    - apply loop_at_spec in HI. destruct HI as (w & w0 & _ & EW & _ & ->). eauto. }
  destruct X as (w1 & S1 & F1). apply run_inv in H2, H3.
  destruct H2 as (tr2 & in2 & j2 & w2 & rep2 & n2 & J2 & phi2 & g2 & R2).
  destruct H3 as (tr3 & in3 & j3 & w3 & rep3 & n3 & J3 & phi3 & g3 & R3).
  pose proof (rf_f R2) as F2. pose proof (rf_f R3) as F3.
  rewrite F2 in D2. rewrite F3 in D3. simpl in D2, D3. injection D2 as <-. injection D3 as <-. simpl in E.
  pose proof (rf_steps R2) as S2. rewrite F1 in S2. pose proof (rf_steps R3) as S3.
  assert (E' : (j3 * in3 = n1 + j2 * in2)%nat) by lia.
  pose proof (rf_inner R2). pose proof (rf_j R2).
  destruct (j2 * in2)%nat as [|b] eqn:EB; [nia|].
  rewrite E' in S3. rewrite (fsteps_split _ _ _ _ _ S1), S2 in S3. simpl in S3. injection S3 as S3.
  pose proof (rf_copy R2) as C2. pose proof (rf_copy R3) as C3. rewrite F1 in C2. simpl in C2.
  rewrite <- S3 in C3. simpl in C3. rewrite C2 in C3. injection C3 as <- <- <- <-.
  pose proof (rf_rep R2) as P2. pose proof (rf_rep R3) as P3. rewrite <- S3 in P3. simpl in P3.
  rewrite P2 in P3. injection P3 as <-.
  pose proof (rf_ph R2) as Q2. pose proof (rf_ph R3) as Q3. rewrite F1 in Q2. simpl in Q2.
  simpl. rewrite F2, F3, F1. simpl. rewrite <- S3. simpl.
  split; [reflexivity|]. split; [lia|]. split; [congruence|]. repeat split; auto. lia.
Qed.

Variable no : nat -> cons_obj St.

(** After an abandoned run nothing is extinct and, with the default threshold
    and criterion, the next run succeeds. *)
Lemma interrupted_wf f a t i p f' : builtin f -> proper f -> wf f ->
  interrupted ops f a t i p = Some f' -> builtin f' /\ proper f' /\ wf f'.
Proof.
  intros HB HP HW H. apply C86_interrupted in H.
  destruct H as (tr & inner & j & w & c & _ & _ & E & _ & EJ & _ & _ & _ & _ & _ & _ & _ & S).
  destruct S as (S1 & S2 & S3 & S4 & S5 & S6 & S7 & _).
  destruct (wf_steps ops f (j * inner) HB HP HW) as (w' & E' & HA). rewrite E in E'. injection E' as <-.
  split; [unfold builtin in *; rewrite S2, S3; exact HB|].
  split; [unfold proper in *; rewrite S6, S7; exact HP|].
  destruct HW as (W1 & W2 & _). unfold wf. rewrite S2, S3, S4, S6, S7, EJ. auto.
Qed.

Theorem C86_never_extinct f a t i p f' n :
  history ops no f -> 0 <= m_thr (f_par f) < 1 -> 0 < m_ub (f_par f) -> (1 <= f_np f)%nat ->
  interrupted ops f a t i p = Some f' ->
  exists w, fsteps ops f' n = Ok w /\ exists m, (m < f_np f)%nat /\ alive (m_thr (f_par f)) (v_Js (w_k w)) m.
Proof.
  intros HH Ht Hu Hn HI. assert (HP : proper f) by (split; auto).
  destruct (history_wf _ _ _ HH HP) as [HB HW].
  destruct (interrupted_wf _ _ _ _ _ _ HB HP HW HI) as (B' & P' & W').
  destruct (wf_steps ops f' n B' P' W') as (w & E & HA). exists w. split; [exact E|].
  apply C86_interrupted in HI. destruct HI as (tr & inner & j & w1 & c & HI).
  destruct HI as (_ & _ & _ & _ & _ & _ & _ & _ & _ & _ & _ & _ & S).
  destruct S as (_ & _ & _ & _ & _ & S6 & S7 & _). rewrite S6, S7 in HA. exact HA.
Qed.

Theorem C86_next_run f a t i p f1 a2 t2 i2 :
  rng_contract ops -> history ops no f ->
  m_thr (f_par f) = 0 -> m_criterion (f_par f) = "standard"%string ->
  0 < m_ub (f_par f) -> (1 <= f_np f)%nat ->
  0 < opt a2 (m_max_steps (f_par f)) -> 0 < opt i2 (m_interval (f_par f)) ->
  interrupted ops f a t i p = Some f1 ->
  exists f2 ph, run ops f1 a2 t2 i2 = (f2, Ok ph).
Proof.
  intros HR HH Ht HC Hu Hn H1 H2 HI. assert (HP : proper f) by (split; [lra|auto]).
  destruct (history_wf _ _ _ HH HP) as [HB HW].
  destruct (interrupted_wf _ _ _ _ _ _ HB HP HW HI) as (B' & P' & W').
  apply C86_interrupted in HI. destruct HI as (tr0 & inner0 & j0 & w1 & c & HI).
  destruct HI as (_ & _ & _ & _ & _ & _ & _ & _ & _ & _ & _ & _ & S).
  destruct S as (_ & _ & _ & _ & _ & S6 & S7 & _).
  destruct (run ops f1 a2 t2 i2) as [f2 [ph|e]] eqn:E; [eauto|exfalso].
  apply run_err in E. rewrite S7 in E.
  destruct (schedule_ok _ _ H1 H2) as (tr & inner & ES & Htr & _).
  destruct E as [(E & _)|(tr' & inner' & j & w & E & Hj & EW & _ & H)]; [congruence|].
  rewrite ES in E. injection E as <- <-.
  destruct H as [(H & _)|[(H & _)|[H|H]]]; [auto|lia| |].
  - destruct (wf_steps ops f1 (j * inner + inner) B' P' W') as (w' & E' & _). congruence.
  - destruct (wf_steps ops f1 (j * inner) B' P' W') as (w' & E' & HA). rewrite EW in E'. injection E' as <-.
    rewrite Ht in H. rewrite S7, Ht in HA.
    destruct (C08_copy_succeeds_default ops (f_np f1) (v_Js (w_k w)) (v_phis_comp (w_k w)) (v_g (w_k w)) HR HA)
      as (c' & J & phi & g & E' & _). congruence.
Qed.

(* ------------------------------------------------------------------ *)
(** ** Exceptions inside the kernel *)

Lemma loop_raises_spec tol b n f e f' : loop_raises ops tol (S b) n f e f' ->
  exists j w m w1 c k,
    (j < n)%nat /\ (m < S b)%nat /\ fsteps ops f (j * S b) = Ok w /\
    fsteps ops f (j * S b + m) = Ok w1 /\
    maybe_revive ops (kernel_of f) (f_left f) (w_count w1) (w_k w1) = (c, k) /\
    iterate (kernel_of f) k = Err e /\ broken (kernel_of f) k (f_k f') /\
    f' = advance f (f_k f') (w_count w).
Proof.
  induction 1 as [n' m w c k k' f e Hm HS HM HI HB|n' f k1 rep count safe e f' HM HC HV HR IH].
  - exists O, (start (f_k f)), m, w, c, k. split; [lia|]. split; [lia|]. split; [reflexivity|].
    split; [exact HS|]. split; [exact HM|]. split; [exact HI|]. split; [exact HB|].
    cbn [start w_count]. simpl f_k. apply advance_zero.
  - apply metastep_inv in HM. destruct HM as (w1 & E1 & Hk & Hr & Hc & Hs).
    assert (Ef : with_left (with_k f k1) (f_left f - Z.of_nat count)%Z = advance f (w_k w1) (w_count w1))
      by (rewrite Hk, Hc; reflexivity).
    rewrite Ef in IH. destruct IH as (j & w & m & w2 & c & k & Hj & Hm & EW & EW2 & HM & HI & HB & HF).
    assert (Sh : forall n0 w0, fsteps ops (advance f (w_k w1) (w_count w1)) n0 = Ok w0 ->
       exists w0', fsteps ops f (S b + n0) = Ok w0' /\ w_k w0' = w_k w0 /\ w_count w0' = (w_count w1 + w_count w0)%nat).
    { intros n0 w0 E0. destruct n0 as [|n0].
      - injection E0 as <-. exists w1. rewrite Nat.add_0_r. cbn [start w_k w_count]. split; [exact E1|]. split; [reflexivity|lia].
      - exists (shift_count (w_count w1) w0). rewrite (fsteps_split _ _ _ _ _ E1), E0. split; [reflexivity|]. split; reflexivity. }
    destruct (Sh _ _ EW) as (wa & Ea & Ka & Ca). destruct (Sh _ _ EW2) as (wb & Eb & Kb & Cb).
    pose proof (maybe_revive_shift ops (kernel_of f) (f_left f) (w_count w1) (w_count w2) (w_k w2)) as MS.
    change (maybe_revive ops (kernel_of f) (f_left f - Z.of_nat (w_count w1)) (w_count w2) (w_k w2) = (c, k)) in HM.
    rewrite HM in MS.
    exists (S j), wa, m, wb, (w_count w1 + c)%nat, k. split; [lia|]. split; [exact Hm|].
    split; [exact Ea|]. split; [replace (S j * S b + m)%nat with (S b + (j * S b + m))%nat by (simpl; lia); exact Eb|].
    split; [rewrite Kb, Cb; exact MS|]. split; [exact HI|]. split; [exact HB|].
    rewrite HF at 1. rewrite advance_advance, Ca. reflexivity.
Qed.

(** The finder when the kernel raises in its [m+1]-st step of a metastep: the
    exception leaves run(), the [m] steps before have been applied to fields and
    generator, compartments have been revived but not counted, and the volumes
    of dead compartments are zero.  Diagnostics and setup are as before. *)
Theorem C86_kernel_raises f a t i e f' :
  kernel_raises ops f a t i e f' ->
  exists tr inner j m w w1 c k,
    schedule (opt a (m_max_steps (f_par f))) (opt i (m_interval (f_par f))) = Ok (tr, inner) /\
    (j < tr)%nat /\ (m < inner)%nat /\
    fsteps ops f (j * inner) = Ok w /\ fsteps ops f (j * inner + m) = Ok w1 /\
    maybe_revive ops (kernel_of f) (f_left f) (w_count w1) (w_k w1) = (c, k) /\
    v_omegas (f_k f') = v_omegas k /\ v_g (f_k f') = v_g k /\
    (0 <= m_thr (f_par f) -> forall p, v_Js (f_k f') p = living (m_thr (f_par f)) (v_Js k) p) /\
    f_left f' = (f_left f - Z.of_nat (w_count w))%Z /\ f_diag f' = f_diag f /\ same_setup f f' /\
    (exists f1, run ops f a t i = (f1, Err e) /\ f_left f1 = f_left f' /\ f_diag f1 = f_diag f').
Proof.
  intros (tr & inner & ES & HL). fold (opt a (m_max_steps (f_par f))) in ES.
  fold (opt i (m_interval (f_par f))) in ES. fold (opt t (m_tolerance (f_par f))) in HL.
  destruct (schedule_inner _ _ _ _ ES) as [b ->]. assert (HL' := HL).
  apply loop_raises_spec in HL. destruct HL as (j & w & m & w1 & c & k & Hj & Hm & EW & EW1 & HM & HI & HB & HF).
  exists tr, (S b), j, m, w, w1, c, k.
  split; [exact ES|]. split; [exact Hj|]. split; [exact Hm|]. split; [exact EW|]. split; [exact EW1|]. split; [exact HM|].
  destruct HB as (B1 & B2 & B3 & _). split; [exact B1|]. split; [exact B2|].
  split; [intros _ p; rewrite B3; apply (mask_living (kernel_of f))|].
  split; [rewrite HF; reflexivity|]. split; [rewrite HF; reflexivity|]. split; [rewrite HF; repeat split|].
  assert (X : forall n s, loop_raises ops (opt t (m_tolerance (f_par f))) (S b) n (r_f s) e f' ->
     exists s', run_loop ops (opt t (m_tolerance (f_par f))) (S b) n s = (s', Err e) /\
       f_left (r_f s') = f_left f' /\ f_diag (r_f s') = f_diag f').
  { clear. intros n s H. remember (r_f s) as f0 eqn:E0. revert s E0.
    induction H as [n' m w c k k' f0 e Hm HS HM HI HB|n' f0 k1 rep count safe e f' HM HC HV HR IH]; intros s E0.
    - assert (EM : metastep ops (kernel_of f0) (S b) (f_left f0) (f_k f0) = Err e).
      { assert (EA : forall n0 e0, steps ops (kernel_of f0) (f_left f0) m (start (f_k f0)) = Ok w ->
            one_step ops (kernel_of f0) (f_left f0) w = Err e0 ->
            steps ops (kernel_of f0) (f_left f0) (S m + n0) (start (f_k f0)) = Err e0).
        { intros n0 e0 A B. induction n0; [rewrite Nat.add_0_r; simpl; rewrite A; exact B|].
          rewrite Nat.add_succ_r. simpl. simpl in IHn0. rewrite IHn0. reflexivity. }
        unfold metastep. fold (start (f_k f0)). replace (S b) with (S m + (b - m))%nat by lia.
        rewrite (EA _ e HS); [reflexivity|]. unfold one_step. rewrite HM. rewrite HI. reflexivity. }
      exists s. cbn [run_loop]. rewrite <- E0, EM. repeat split.
    - cbn [run_loop]. rewrite <- E0, HM, HC. cbn [String.eqb]. rewrite HV. apply IH. reflexivity. }
  destruct (X tr {| r_f := f; r_steps := O; r_rep := None; r_conv := false |} HL') as (s' & EL & X1 & X2).
  exists (r_f s'). split; [|split; assumption].
  unfold run. fold (opt a (m_max_steps (f_par f))). fold (opt t (m_tolerance (f_par f))).
  fold (opt i (m_interval (f_par f))). rewrite ES, EL. reflexivity.
Qed.

End Props.
