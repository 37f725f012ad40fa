(** WitnessContract.v -- cases of C95: three components that repel each other
    weakly, and an ideal mixture of polymers that share features. *)

From Coq Require Import Reals Lra Lia String List Bool Arith ZArith.
From Verif Require Import Base ModelCommon ModelParts ModelKernel ModelPhases ModelFinder ProofsKernel ProofsParts ProofsSteps
  ProofsHistory ProofsRun ProofsRun2 ModelFreeEnergy Spec Examples PropertiesKernel PropertiesRun
  PropertiesConstraints ProofsEquilibrium PropertiesEquilibrium PropertiesBinary PropertiesAccuracy WitnessAccuracy WitnessOptimum ProofsContract PropertiesContract.
Import ListNotations.
Open Scope R_scope.

(** five compartments of different volumes, one of them dead, whose fields differ *)
Definition swirl (r m : nat) : R := if Nat.eqb r m then 1 / 100 else if Nat.ltb r m then - (1 / 200) else 0.
Definition swirl_k (J : vec) : kstate nat cstate :=
  {| v_omegas := swirl; v_Js := J; v_phis_comp := fun _ _ => 0; v_phis_feat := fun _ _ => 0; v_cons := [still]; v_g := 0%nat |}.
Definition swirl_J : vec := fun m => if Nat.eqb m 2 then 0 else INR m + 1.

Lemma swirl_bound r m : Rabs (swirl r m) <= 1 / 100.
Proof. unfold swirl. destruct (Nat.eqb r m); [|destruct (Nat.ltb r m)]; apply Rabs_le; lra. Qed.
Lemma swirl_X r s t : Rabs (equal_chi (1 / 100) r t - equal_chi (1 / 100) s t) <= 1 / 100.
Proof. unfold equal_chi. destruct (Nat.eqb r t), (Nat.eqb s t); apply Rabs_le; lra. Qed.
Lemma swirl_min : smallest 3 (equal_chi (1 / 100)) 0.
Proof.
  split; [exists 0%nat, 0%nat; repeat split; lia|]. intros r s _ _. unfold equal_chi. destruct (Nat.eqb r s); lra.
Qed.
Lemma swirl_shift : shifted_sum 3 (equal_chi (1 / 100)) 0 (1 / 10) = 6 / 100 + 9 / 10.
Proof. unfold shifted_sum, equal_chi. cbn. lra. Qed.
Lemma swirl_T : rsum 3 (fun i => third i * exp (ones i * (12 * (1 / 100) + 6 * (1 / 100))) * ones i) <= 3.
Proof.
  unfold third, ones. cbn. assert (exp (1 * (12 * (1 / 100) + 6 * (1 / 100))) <= exp 1) by (apply exp_mono_le; lra).
  pose proof exp_le_3. lra.
Qed.
Lemma swirl_adm : admissible 3 3 (equal_chi (1 / 100)) ones third.
Proof. apply tri_adm. intros; unfold third; lra. Qed.

Example case_C95_converges eps : 0 < eps -> exists n0, forall n, (n0 <= n)%nat -> exists w rep,
  steps ops0 (tri_q (1 / 100) 5 0) 0 n (start (swirl_k swirl_J)) = Ok w /\ w_rep w = Some rep /\
  w_valid w = Z.of_nat (num_alive 5 0 (v_Js (w_k w))) /\
  e_incomp rep < eps /\ e_omega rep < eps /\ e_Js rep < eps /\ e_cons rep < eps /\
  (forall m i, (m < 5)%nat -> 0 < v_Js (w_k w) m -> (i < 3)%nat -> Rabs (v_phis_comp (w_k w) i m - 1 / 3) < eps).
Proof.
  apply (C95_converges ops0 (tri_q (1 / 100) 5 0) 0 (swirl_k swirl_J) 3 3 (fun i => i) (equal_chi (1 / 100)) (1 / 10) ones third (1 / 100) (1 / 100) 0);
    try (cbn; lra).
  - now constructor.
  - reflexivity.
  - exact swirl_adm.
  - exact third_sum.
  - exact still_idle.
  - lia.
  - exists 0%nat. split; [cbn; lia|]. cbn. lra.
  - intros. apply swirl_bound.
  - intros. apply swirl_X.
  - exact swirl_min.
  - rewrite swirl_shift. pose proof swirl_T as H. set (T := rsum 3 _) in *. change (q_acc_w _) with (1 / 500).
    replace (INR 3) with 3 by (cbn; lra). lra.
  - pose proof swirl_T as H. set (T := rsum 3 _) in *. lra.
Qed.

Definition swirl_finder (J : vec) tries par : finder nat cstate :=
  {| f_inter := fh_compile 3 (equal_chi (1 / 100)) (1 / 10); f_entropy := ig_compiled 3 ones; f_ensemble := can_compiled 3 third;
     f_nc := 3; f_nf := 3; f_np := 5; f_par := par; f_kwargs := []; f_k := swirl_k J; f_left := tries; f_diag := None |}.

Lemma long_enough n0 : exists tr inner, schedule (INR n0 + 1) 1 = Ok (tr, inner) /\ (1 <= tr)%nat /\ (n0 <= tr * inner)%nat.
Proof.
  pose proof (pos_INR n0) as P. destruct (schedule_ok (INR n0 + 1) 1 ltac:(lra) ltac:(lra)) as (tr & inner & SC & TR & E1 & E2).
  exists tr, inner. split; [exact SC|]. split; [exact TR|]. assert (1 <= inner)%nat by lia.
  assert (n0 <= tr)%nat; [|nia]. apply INR_le. rewrite (INR_IZR_INZ tr), E1. unfold zceil. rewrite opp_IZR.
  destruct (base_Int_part (- ((INR n0 + 1) / 1))) as (HI & _). lra.
Qed.

(** the finder runs until it has converged, whatever the tolerance *)
Example case_C95_run tol : 0 < tol -> exists steps f' ph d, run ops0 (swirl_finder swirl_J 0 (ex_par 0 0)) (Some steps) (Some tol) (Some 1) = (f', Ok ph) /\ f_diag f' = Some d /\
  d_incomp d < tol /\ d_omega d < tol /\ d_Js d < tol /\ d_cons d < tol.
Proof.
  intros Ht.
  assert (CAP : 1 / 500 * (shifted_sum 3 (equal_chi (1 / 100)) 0 (1 / 10) / INR 3) *
     rsum 3 (fun i => third i * exp (ones i * (12 * (1 / 100) + 6 * (1 / 100))) * ones i) <= 1).
  { rewrite swirl_shift. pose proof swirl_T as H. set (T := rsum 3 _) in *. replace (INR 3) with 3 by (cbn; lra). lra. }
  assert (SIX : 6 * (1 / 100) * rsum 3 (fun i => third i * exp (ones i * (12 * (1 / 100) + 6 * (1 / 100))) * ones i) < 1).
  { pose proof swirl_T as H. set (T := rsum 3 _) in *. lra. }
  destruct (C95_run ops0 (swirl_finder swirl_J 0 (ex_par 0 0)) 3 3 (fun i => i) (equal_chi (1 / 100)) (1 / 10) ones third (1 / 100) (1 / 100) 0
    ops0_contract eq_refl ltac:(now constructor) eq_refl swirl_adm third_sum still_idle eq_refl ltac:(cbn; lra) ltac:(cbn; lra) ltac:(cbn; lra) ltac:(cbn; lia) eq_refl
    ltac:(exists 0%nat; split; [cbn; lia|cbn; lra]) ltac:(intros; apply swirl_bound) ltac:(intros; apply swirl_X) swirl_min ltac:(lra) CAP SIX tol Ht) as (n0 & H).
  destruct (long_enough n0) as (tr & inner & SC & TR & LN).
  destruct (H (Some (INR n0 + 1)) (Some tol) (Some 1) tr inner SC TR) as (f' & ph & d & E & ED & H1 & _).
  destruct (H1 ltac:(cbn; lra) LN) as (A & B & C & D & _). exists (INR n0 + 1), f', ph, d. auto 10.
Qed.

(** slow exchange of volume: nothing dies and all errors decay geometrically,
    with sixteen revivals allowed *)
Definition slow_q acc : kernel :=
  {| q_inter := fh_compile 3 (equal_chi (1 / 100)) (1 / 10); q_entropy := ig_compiled 3 ones; q_ensemble := can_compiled 3 third;
     q_nf := 3; q_np := 5; q_acc_J := acc; q_ub := 1 / 1000; q_acc_w := 1 / 500; q_thr := 0; q_scaler := 1 |}.
Example case_C95_survive : exists acc C gam, 0 < acc /\ 0 < C /\ 0 <= gam < 1 /\ forall n, exists w rep,
  steps ops0 (slow_q acc) 16 (S n) (start (swirl_k (fun _ => 1))) = Ok w /\ w_rep w = Some rep /\ w_count w = 0%nat /\ w_valid w = 5%Z /\
  (forall m, (m < 5)%nat -> 0 < v_Js (w_k w) m) /\ e_incomp rep <= C * gam ^ n /\ e_omega rep <= C * gam ^ n /\ e_Js rep <= C * gam ^ n.
Proof.
  assert (SIX : 6 * (1 / 100) * rsum 3 (fun i => third i * exp (ones i * (12 * (1 / 100) + 6 * (1 / 100))) * ones i) < 1).
  { pose proof swirl_T as H. set (T := rsum 3 _) in *. lra. }
  destruct (C95_survive ops0 3 3 (fun i => i) (equal_chi (1 / 100)) (1 / 10) ones third (1 / 100) (1 / 100) 0 swirl_adm third_sum swirl_min ltac:(lra) ltac:(lra)
    ltac:(intros; apply swirl_X) SIX) as (b & C & bP & CP & H).
  exists (b * (1 / 500)), C.
  destruct (H (slow_q (b * (1 / 500))) 16%Z (swirl_k (fun _ => 1))) as (gam & HG & HS); try reflexivity; try (cbn; lra).
  - now constructor.
  - exact still_idle.
  - cbn. lia.
  - rewrite swirl_shift. pose proof swirl_T as HT. set (T := rsum 3 _) in *. change (q_acc_w _) with (1 / 500). replace (INR 3) with 3 by (cbn; lra). lra.
  - intros. apply swirl_bound.
  - exists gam. split; [lra|]. split; [exact CP|]. split; [exact HG|]. intros n.
    destruct (HS n) as (w & rep & E1 & E2 & E3 & E4 & E5 & E6 & E7 & E8 & _). exists w, rep. auto 10.
Qed.

Example case_C95_survive_run tol : 0 < tol -> exists acc steps f' ph d, 0 < acc /\
  let par := {| m_max_steps := 10; m_criterion := "standard"; m_tolerance := 1 / 10; m_interval := 5; m_random_std := 1; m_acc_J := acc; m_acc_w := 1 / 500;
                m_ub := 1 / 1000; m_thr := 0; m_scaler := 1; m_max_revive := 16 |} in
  run ops0 (swirl_finder (fun _ => 1) 16 par) (Some steps) (Some tol) (Some 1) = (f', Ok ph) /\ f_diag f' = Some d /\
  d_incomp d < tol /\ d_omega d < tol /\ d_Js d < tol /\ d_cons d < tol.
Proof.
  intros Ht.
  assert (CAP : 1 / 500 * (shifted_sum 3 (equal_chi (1 / 100)) 0 (1 / 10) / INR 3) *
     rsum 3 (fun i => third i * exp (ones i * (12 * (1 / 100) + 6 * (1 / 100))) * ones i) <= 1).
  { rewrite swirl_shift. pose proof swirl_T as H. set (T := rsum 3 _) in *. replace (INR 3) with 3 by (cbn; lra). lra. }
  assert (SIX : 6 * (1 / 100) * rsum 3 (fun i => third i * exp (ones i * (12 * (1 / 100) + 6 * (1 / 100))) * ones i) < 1).
  { pose proof swirl_T as H. set (T := rsum 3 _) in *. lra. }
  destruct (C95_survive_run ops0 3 3 (fun i => i) (equal_chi (1 / 100)) (1 / 10) ones third (1 / 100) (1 / 100) 0 ops0_contract swirl_adm third_sum swirl_min ltac:(lra) ltac:(lra)
    ltac:(intros; apply swirl_X) SIX) as (b & bP & H).
  set (par := {| m_max_steps := 10; m_criterion := "standard"; m_tolerance := 1 / 10; m_interval := 5; m_random_std := 1; m_acc_J := b * (1 / 500); m_acc_w := 1 / 500;
                m_ub := 1 / 1000; m_thr := 0; m_scaler := 1; m_max_revive := 16 |}).
  destruct (H (swirl_finder (fun _ => 1) 16 par) eq_refl ltac:(now constructor) eq_refl still_idle eq_refl ltac:(cbn; lra) ltac:(cbn; lia) ltac:(cbn; lra) CAP ltac:(cbn; lra) eq_refl
     ltac:(reflexivity) ltac:(intros; apply swirl_bound) tol Ht) as (n0 & HR).
  destruct (long_enough n0) as (tr & inner & SC & TR & LN).
  destruct (HR (Some (INR n0 + 1)) (Some tol) (Some 1) tr inner SC TR) as (f' & ph & d & E & ED & H1 & _).
  destruct (H1 ltac:(cbn; lra) LN) as (A & B & C & D & _). exists (b * (1 / 500)), (INR n0 + 1), f', ph, d. split; [lra|]. cbv zeta. fold par. auto 10.
Qed.

(** without interactions any fields will do: here up to a hundred *)
Definition ideal_q a pm : kernel :=
  {| q_inter := fh_compile 2 (fun _ _ => 0) 1; q_entropy := pg_compiled 3 2 blend blend_sizes; q_ensemble := can_compiled 3 pm; q_nf := 2; q_np := 6;
     q_acc_J := 1; q_ub := 1; q_acc_w := a; q_thr := 1 / 10; q_scaler := 1 |}.
Definition wild_k : kstate nat cstate :=
  {| v_omegas := fun r m => if Nat.eqb r m then 100 else -100; v_Js := fun _ => 1; v_phis_comp := fun _ _ => 0; v_phis_feat := fun _ _ => 0; v_cons := []; v_g := 0%nat |}.
Example case_C95_ideal : exists a, 0 < a <= 1 /\ forall eps, 0 < eps -> exists n0, forall n, (n0 <= n)%nat -> exists w rep,
  steps ops0 (ideal_q a third) (-1) n (start wild_k) = Ok w /\ w_rep w = Some rep /\
  e_incomp rep < eps /\ e_omega rep < eps /\ e_Js rep < eps /\
  forall m i, (m < 6)%nat -> 1 / 10 < v_Js (w_k w) m -> (i < 3)%nat -> Rabs (v_phis_comp (w_k w) i m - 1 / 3) < eps.
Proof.
  destruct (C95_ideal ops0 3 2 (feature_of 2 blend) 1 blend_sizes third 100) as (a & Ha & H); try lra.
  - split; [lia|]. split; [auto|]. split; [|intros; unfold third; lra]. intros i _. unfold blend_sizes. destruct (Nat.ltb i 2); lra.
  - exact third_sum.
  - exists a. split; [exact Ha|]. intros eps He. destruct (H (ideal_q a third) (-1)%Z wild_k) with (eps := eps) as (n0 & HN); try reflexivity; try lia; try (cbn; lra).
    + change 3%nat with (nsum 2 blend). apply (mix_poly (ideal_q a third) 2 blend (fun _ _ => 0) 1 blend_sizes); try reflexivity. intros [|r] _; cbn; lia.
    + constructor.
    + exists 0%nat. split; [cbn; lia|cbn; lra].
    + intros m r _ _ _. cbn. destruct (Nat.eqb r m); [rewrite Rabs_right|rewrite Rabs_left]; lra.
    + exists n0. intros n Hn. destruct (HN n Hn) as (w & rep & E1 & E2 & _ & E3 & E4 & E5 & _ & E6). exists w, rep. do 5 (split; [auto|]). intros m i Hm HA Hi. now apply E6.
Qed.
