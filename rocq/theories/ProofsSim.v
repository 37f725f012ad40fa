(** ProofsSim.v -- simulation of one finder by another. *)

From Coq Require Import String Reals Lra Lia List Bool Arith ZArith.
From Verif Require Import Base ModelCommon ModelParts ModelKernel ModelPhases ModelFinder
  ProofsKernel ProofsSteps ProofsRun.
Import ListNotations.
Open Scope R_scope.

Section Sim.
Context {G1 G2 St1 St2 : Type} (ops1 : rng_ops G1) (ops2 : rng_ops G2).
Variables (g1 : finder G1 St1) (g2 : finder G2 St2).
Notation q1 := (kernel_of g1).
Notation q2 := (kernel_of g2).
(** [K] holds throughout, [P] after a step; [PH] relates the results. *)
Variables (K P : kstate G1 St1 -> kstate G2 St2 -> Prop) (PH : phases -> phases -> Prop).
Hypothesis HR : forall tries c k1 k2, K k1 k2 ->
  fst (maybe_revive ops1 q1 tries c k1) = fst (maybe_revive ops2 q2 tries c k2) /\
  K (snd (maybe_revive ops1 q1 tries c k1)) (snd (maybe_revive ops2 q2 tries c k2)).
Hypothesis HI : forall k1 k2 k1' n r, K k1 k2 -> iterate q1 k1 = Ok (k1', n, r) ->
  exists k2', iterate q2 k2 = Ok (k2', n, r) /\ K k1' k2' /\ P k1' k2'.
Hypothesis HV : forall k1 k2, K k1 k2 ->
  count_valid (q_np q1) (v_Js k1) (q_thr q1) = count_valid (q_np q2) (v_Js k2) (q_thr q2).
Hypothesis HC : forall k1 k2 n J1 p1 h1 ph1, K k1 k2 -> P k1 k2 ->
  revive_by_copy ops1 (f_np g1) (v_Js k1) (v_phis_comp k1) (m_thr (f_par g1)) (v_g k1) = Ok (n, J1, p1, h1) ->
  result_phases (f_nc g1) (f_np g1) J1 p1 = Ok ph1 ->
  exists J2 p2 h2 ph2,
    revive_by_copy ops2 (f_np g2) (v_Js k2) (v_phis_comp k2) (m_thr (f_par g2)) (v_g k2) = Ok (n, J2, p2, h2) /\
    result_phases (f_nc g2) (f_np g2) J2 p2 = Ok ph2 /\ PH ph1 ph2 /\ K (k_with_g k1 h1) (k_with_g k2 h2).

Definition msim (w1 : mstate G1 St1) (w2 : mstate G2 St2) : Prop :=
  K (w_k w1) (w_k w2) /\ w_count w1 = w_count w2 /\ w_valid w1 = w_valid w2 /\ w_rep w1 = w_rep w2 /\
  (w_rep w1 <> None -> P (w_k w1) (w_k w2)).

Lemma steps_sim tries n w1 w2 w1' : msim w1 w2 -> steps ops1 q1 tries n w1 = Ok w1' ->
  exists w2', steps ops2 q2 tries n w2 = Ok w2' /\ msim w1' w2'.
Proof using HR HI.
  intros H. revert w1'. induction n as [|n IH]; intros w1' E; cbn [steps] in *.
  - injection E as <-. eauto.
  - apply bind_Ok in E. destruct E as (a & Ea & E). destruct (IH a Ea) as (b & Eb & (B1 & B2 & B3 & B4 & B5)).
    rewrite Eb. cbn [bind]. unfold one_step in *. rewrite B2 in E.
    destruct (HR tries (w_count b) _ _ B1) as (R1 & R2).
    destruct (maybe_revive ops1 q1 tries (w_count b) (w_k a)) as [c1 k1].
    destruct (maybe_revive ops2 q2 tries (w_count b) (w_k b)) as [c2 k2]. cbn [fst snd] in *. subst c2.
    apply bind_Ok in E. destruct E as ([[k1' nv] r] & EI & E). injection E as <-.
    destruct (HI _ _ _ _ _ R2 EI) as (k2' & EI2 & K1 & P1). rewrite EI2. cbn [bind].
    eexists. split; [reflexivity|]. repeat split; auto.
Qed.

(** same constants, related states *)
Definition fsim (f1 : finder G1 St1) (f2 : finder G2 St2) : Prop :=
  kernel_of f1 = q1 /\ kernel_of f2 = q2 /\ f_par f1 = f_par g1 /\ f_par f2 = f_par g2 /\
  f_nc f1 = f_nc g1 /\ f_nc f2 = f_nc g2 /\
  f_left f1 = f_left f2 /\ K (f_k f1) (f_k f2).

Hypothesis Hpar : f_par g1 = f_par g2.

Lemma run_loop_sim tol inner n : forall s1 s2 s1' u, fsim (r_f s1) (r_f s2) ->
  r_steps s1 = r_steps s2 -> r_rep s1 = r_rep s2 -> (r_rep s1 <> None -> P (f_k (r_f s1)) (f_k (r_f s2))) ->
  run_loop ops1 tol inner n s1 = (s1', Ok u) ->
  exists s2', run_loop ops2 tol inner n s2 = (s2', Ok u) /\ fsim (r_f s1') (r_f s2') /\
    r_steps s1' = r_steps s2' /\ r_rep s1' = r_rep s2' /\
    (r_rep s1' <> None -> P (f_k (r_f s1')) (f_k (r_f s2'))).
Proof using HR HI HV Hpar.
  induction n as [|n IH]; intros s1 s2 s1' u F HS HRp HP H; cbn [run_loop] in *.
  - injection H as <- <-. exists s2. auto.
  - destruct F as (F1 & F2 & F3 & F4 & F5 & F6 & F7 & F8). rewrite F1 in H. rewrite F2. unfold metastep in *.
    fold (start (f_k (r_f s1))) in H. fold (start (f_k (r_f s2))).
    destruct (steps ops1 q1 (f_left (r_f s1)) inner (start (f_k (r_f s1)))) as [w1|e] eqn:E1; cbn [bind] in H; [|discriminate].
    destruct (steps_sim (f_left (r_f s1)) inner (start (f_k (r_f s1))) (start (f_k (r_f s2))) w1) as (w2 & E2 & (M1 & M2 & M3 & M4 & M5));
      [repeat split; auto; cbn; congruence|exact E1|].
    rewrite <- F7, E2. cbn [bind]. rewrite <- M4.
    destruct (w_rep w1) as [rep|]; [|discriminate].
    rewrite <- M2, <- M3, <- (HV _ _ M1), F4, <- Hpar, <- F3.
    set (safe := Z.eqb (w_valid w1) _) in *. clearbody safe.
    assert (F' : fsim (with_left (with_k (r_f s1) (w_k w1)) (f_left (r_f s1) - Z.of_nat (w_count w1))%Z)
                      (with_left (with_k (r_f s2) (w_k w2)) (f_left (r_f s1) - Z.of_nat (w_count w1))%Z)).
    { repeat split; auto. }
    destruct (String.eqb _ _); [|discriminate]. destruct (converged tol safe rep).
    + injection H as <- <-. rewrite HS. eexists. split; [reflexivity|]. cbn [r_f r_steps r_rep].
      repeat split; auto.
    + rewrite HS in H. eapply IH in H; [exact H|exact F'|reflexivity|reflexivity|].
      intros _. cbn [r_f f_k with_left with_k]. apply M5. discriminate.
Qed.

Theorem run_sim a t i f1' ph1 : f_left g1 = f_left g2 -> K (f_k g1) (f_k g2) ->
  run ops1 g1 a t i = (f1', Ok ph1) ->
  exists f2' ph2, run ops2 g2 a t i = (f2', Ok ph2) /\ PH ph1 ph2 /\
    f_diag f1' = f_diag f2' /\ f_left f1' = f_left f2' /\ K (f_k f1') (f_k f2').
Proof using HR HI HV HC Hpar.
  intros HL HK H. unfold run in *. rewrite <- Hpar.
  destruct (schedule _ _) as [[tr inner]|e]; [|discriminate].
  set (tol := match t with Some _ => _ | None => _ end) in *. clearbody tol.
  destruct (run_loop ops1 tol inner tr _) as [s1 [u|e]] eqn:EL; [|discriminate].
  assert (F0 : fsim g1 g2) by (repeat split; auto).
  destruct (run_loop_sim tol inner tr {| r_f := g1; r_steps := O; r_rep := None; r_conv := false |}
    {| r_f := g2; r_steps := O; r_rep := None; r_conv := false |} s1 u F0 eq_refl eq_refl ltac:(cbn; congruence) EL)
    as (s2 & EL2 & (F1 & F2 & F3 & F4 & F5 & F6 & F7 & F8) & HS & HRp & HP).
  rewrite EL2. rewrite <- HRp.
  assert (N1 : f_np (r_f s1) = f_np g1) by exact (f_equal q_np F1).
  assert (N2 : f_np (r_f s2) = f_np g2) by exact (f_equal q_np F2).
  rewrite N1, F3 in H. rewrite N2, F4.
  destruct (revive_by_copy ops1 _ _ _ _ _) as [[[[n J] phi] h]|e] eqn:ER; [|discriminate].
  destruct (r_rep s1) as [rep|]; [|discriminate].
  injection H as H EP. cbn [f_nc f_np with_k] in EP. rewrite N1, F5 in EP.
  destruct (HC _ _ _ _ _ _ _ F8 (HP ltac:(discriminate)) ER EP) as (J2 & p2 & h2 & ph2 & E2 & EP2 & HPH & HK2).
  rewrite E2. cbn [f_nc f_np with_k]. rewrite N2, F6, EP2. eexists _, _. split; [reflexivity|].
  subst f1'. cbn [f_diag f_left f_k with_diag with_k]. rewrite HS, F7. auto.
Qed.
End Sim.
