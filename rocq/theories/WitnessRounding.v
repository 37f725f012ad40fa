(** WitnessRounding.v -- concrete binary64 runs for C85. *)

From Flocq Require Import Core BinarySingleNaN.
From Coq Require Import Reals ZArith List Bool Arith Lia Lra.
From Verif Require Import Base ModelFloat ModelFloatKernel ProofsFloatKernel PropertiesFloatKernel
  WitnessFloatKernel ProofsRounding PropertiesRounding.
Import ListNotations.
Open Scope R_scope.

(** [np.exp] replaced by [abs(1 + x)], which is never negative *)
Definition ex_pf2 : platform64 unit := {|
  pf_exp := fun x => abs64 (add64 one64 x); pf_int := pf_int ex_pf;
  pf_uniform := pf_uniform ex_pf; pf_integers := pf_integers ex_pf
|}.
Lemma abs_nonneg x : nonneg64 (abs64 x). Proof. destruct x as [|[]| |[]]; reflexivity. Qed.

(** two compartments with fields that differ, the second one dead: after one step
    the second phase is a copy of the first *)
Definition ex_s3 : state64 unit unit := {|
  x_omegas := fun r m => if Nat.eqb r 1 then half64 else zero64;
  x_Js := fun m => if Nat.eqb m 1 then zero64 else one64;
  x_comp := fun _ _ => zero64; x_featv := fun _ _ => zero64; x_cons := []; x_g := tt
|}.

Example case_C85_run :
  exists o J phis, run64 ex_pf2 ex_q64 ex_tol 1 1 0 ex_s3 = Ok (o, J, phis) /\
    (forall m, (m < 2)%nat ->
       (forall i, (i < 2)%nat -> 0 <= B2R (phis i m)) /\
       Rabs (rsum 2 (fun i => B2R (phis i m)) - 1) <= B2R (r6_incomp (oc_rep o)) + INR 2 / 2 ^ 50 /\
       Rabs (rsum 2 (fun i => B2R (phis i m)) - 1)
         <= B2R (r6_incomp (oc_rep o)) + ((1 + / 2 ^ 53) ^ 2 - 1) * (1 + rsum 2 (fun i => Rabs (B2R (phis i m))))) /\
    rsum 2 (fun m => B2R (J m)) = rsum 2 (fun m => B2R (x_Js (oc_k o) m)) /\
    B2R (J 0%nat) = / 2 /\ B2R (J 1%nat) = / 2 /\ count_valid64 2 (x_Js (oc_k o)) (z_thr ex_q64) = 1%nat.
Proof.
  assert (H : match run64 ex_pf2 ex_q64 ex_tol 1 1 0 ex_s3 with
              | Ok (o, J, phis) =>
                  oc_safe o && is_finite (r6_incomp (oc_rep o)) && is_finite (r6_Js (oc_rep o))
                  && lt64 (r6_incomp (oc_rep o)) one64
                  && is_finite (x_Js (oc_k o) 0%nat) && is_finite (x_Js (oc_k o) 1%nat)
                  && (is_finite (J 0%nat) && Beqb (J 0%nat) half64) && (is_finite (J 1%nat) && Beqb (J 1%nat) half64)
                  && Nat.eqb (count_valid64 2 (x_Js (oc_k o)) (z_thr ex_q64)) 1
              | Err _ => false end = true) by (vm_compute; reflexivity).
  destruct (run64 ex_pf2 ex_q64 ex_tol 1 1 0 ex_s3) as [[[o J] phis]|] eqn:E; [|discriminate].
  rewrite !andb_true_iff in H. destruct H as ((((((((Hs & Fi) & FD) & Li) & F0) & F1) & (G0 & J0)) & (G1 & J1)) & Hc).
  apply Nat.eqb_eq in Hc.
  assert (FJ : forall m, (m < z_np ex_q64)%nat -> is_finite (x_Js (oc_k o) m) = true).
  { intros m L. cbn in L. destruct m as [|[|m]]; [exact F0|exact F1|lia]. }
  assert (T : nonneg64 (z_thr ex_q64)) by (vm_compute; reflexivity).
  assert (Ft : is_finite (z_thr ex_q64) = true) by (vm_compute; reflexivity).
  assert (B1 : B2R (r6_incomp (oc_rep o)) <= 1).
  { rewrite <- B2R_one. left. apply lt_B2R; [exact Fi|reflexivity|exact Li]. }
  exists o, J, phis. split; [reflexivity|]. split; [|split; [|split; [|split]]].
  - intros m L.
    destruct (C85_fractions ex_pf2 ex_q64 ex_tol 1 1 0 ex_s3 o J phis T Ft ltac:(cbn; lia)
      (fun x => abs_nonneg _) ltac:(intros i _; vm_compute; reflexivity) E Fi B1 FJ m L) as [A B].
    split; [exact A|]. split; [exact B|].
    exact (C85_incompressible ex_pf2 ex_q64 ex_tol 1 1 0 ex_s3 o J phis T E Fi FJ m L).
  - refine (proj1 (C85_volumes ex_pf2 ex_q64 ex_tol 1 1 0 ex_s3 o J phis _ Ft _ _ _ _ _ E Hs FD FJ));
      [cbn; lia| |vm_compute; reflexivity|cbn [z_ub ex_q64]; rewrite B2R_half; lra|vm_compute; reflexivity
      |cbn [z_acc_J ex_q64]; rewrite B2R_half; lra].
    assert (K : / 16 <= B2R (z_thr ex_q64)) by (vm_compute; lra). apply Rle_trans with (2 := K).
    change (/ 16) with (bpow radix2 (-4)). apply bpow_le. lia.
  - rewrite (Beqb_correct _ _ _ _ G0 fin_half) in J0. rewrite <- B2R_half.
    revert J0. case Req_bool_spec; [trivial|discriminate].
  - rewrite (Beqb_correct _ _ _ _ G1 fin_half) in J1. rewrite <- B2R_half.
    revert J1. case Req_bool_spec; [trivial|discriminate].
  - exact Hc.
Qed.

(** one step from two living compartments with different fields *)
Lemma bpow_ok (x : R) : / 2 <= x <= 1 -> bpow radix2 (-300) <= x <= bpow radix2 300.
Proof.
  intros [A B]. split.
  - apply Rle_trans with (2 := A). change (/ 2) with (bpow radix2 (-1)). apply bpow_le. lia.
  - apply Rle_trans with (1 := B). change 1 with (bpow radix2 0). apply bpow_le. lia.
Qed.
Example case_C85_step :
  exists k' n rep, iterate64 ex_pf2 ex_q64 (ex_s64 half64) = Ok (k', n, rep) /\
    Rabs (rsum 2 (fun m => B2R (x_Js k' m)) - 2) <= 2 * ((2 + 4) * (1 + 2 * / 2 + 1)) / 2 ^ 51 /\
    (forall i, (i < 2)%nat ->
      Rabs (rsum 2 (fun m => B2R (x_comp k' i m) * 1) - / 2 * 2) <= (2 + 2) / 2 ^ 51 * (/ 2 * 2)).
Proof.
  assert (H : match iterate64 ex_pf2 ex_q64 (ex_s64 half64) with
              | Ok (k', n, rep) => is_finite (r6_Js rep) && is_finite (x_Js k' 0%nat) && is_finite (x_Js k' 1%nat)
              | Err _ => false end = true) by (vm_compute; reflexivity).
  destruct (iterate64 ex_pf2 ex_q64 (ex_s64 half64)) as [[[k' n] rep]|] eqn:E; [|discriminate].
  rewrite !andb_true_iff in H. destruct H as ((FD & F0) & F1).
  assert (Ft : is_finite (z_thr ex_q64) = true) by (vm_compute; reflexivity).
  assert (C : count_valid64 2 (x_Js (ex_s64 half64)) (z_thr ex_q64) = 2%nat) by (vm_compute; reflexivity).
  exists k', n, rep. split; [reflexivity|]. split.
  - pose proof (C85_volumes_step ex_pf2 ex_q64 (ex_s64 half64) k' n rep 1) as B. cbv zeta in B.
    change (z_np ex_q64) with 2%nat in B. change (z_ub ex_q64) with half64 in B. change (z_acc_J ex_q64) with half64 in B.
    rewrite C, B2R_half in B. change (INR 2) with 2 in B. apply B; try exact Ft; try exact E; try exact FD;
      try lia; try lra; try (vm_compute; reflexivity).
    + intros m L. destruct m as [|[|m]]; [exact F0|exact F1|lia].
    + intros m L. cbn [x_Js ex_s64]. rewrite B2R_one. lra.
  - intros i Li.
    assert (V : forall m, (m < 2)%nat ->
      (if lt64 (z_thr ex_q64) (x_Js (ex_s64 half64) m) then B2R (x_Js (ex_s64 half64) m) else 0) = 1).
    { intros m L. cbn [x_Js ex_s64]. replace (lt64 (z_thr ex_q64) one64) with true by (vm_compute; reflexivity). apply B2R_one. }
    assert (K : / 16 <= B2R (z_thr ex_q64)) by (vm_compute; lra).
    pose proof (C85_canonical_step ex_pf2 ex_q64 (ex_s64 half64) k' n rep (fun _ => half64) i) as B.
    cbv zeta in B. change (z_np ex_q64) with 2%nat in B. change (z_nc ex_q64) with 2%nat in B.
    rewrite (rsum_ext 2 (fun m => if lt64 (z_thr ex_q64) (x_Js (ex_s64 half64) m) then _ else _) (fun _ => 1) V) in B.
    rewrite (rsum_ext 2 (fun m => B2R (x_comp k' i m) * _) (fun m => B2R (x_comp k' i m) * 1)) in B
      by (intros m L; rewrite V by exact L; reflexivity).
    rewrite rsum_const, B2R_half in B. change (INR 2) with 2 in B. rewrite Rmult_1_r in B.
    apply B; try exact Ft; try exact E; try exact Li; try lia; try reflexivity.
    + apply Rle_trans with (2 := K). change (/ 16) with (bpow radix2 (-4)). apply bpow_le. lia.
    + right. split; [change (/ 2) with (bpow radix2 (-1)); apply bpow_le; lia|].
      apply Rle_trans with 1; [lra|]. change 1 with (bpow radix2 0). apply bpow_le. lia.
    + intros m L. split; [reflexivity|]. cbn [x_Js ex_s64]. rewrite B2R_one. change 1 with (bpow radix2 0). apply bpow_le. lia.
    + intros m L.
      assert (Hb : exists b : bool, pf_exp ex_pf2 (mul64 (opp64 (x_omegas (ex_s64 half64) (z_rho ex_q64 i) m)) (z_sizes ex_q64 i))
        = abs64 (add64 one64 (mul64 (opp64 (if b then half64 else zero64)) one64))).
      { exists (Nat.eqb i 1 && Nat.eqb m 1)%bool. reflexivity. }
      destruct Hb as [b ->]. destruct b; (split; [vm_compute; reflexivity|]); apply bpow_ok; vm_compute; lra.
Qed.

(** outside the ranges: two Boltzmann factors of 2^1023 have an infinite sum, and
    the component disappears from all compartments without an exception *)
Definition ex_pf3 : platform64 unit := {|
  pf_exp := fun _ => ofZ64 (2 ^ 1023); pf_int := pf_int ex_pf;
  pf_uniform := pf_uniform ex_pf; pf_integers := pf_integers ex_pf
|}.
Example case_C85_overflow :
  match iterate64 ex_pf3 ex_q64 (ex_s64 zero64) with
  | Ok (k', n, rep) =>
      eq0_64 (x_comp k' 0%nat 0%nat) && eq0_64 (x_comp k' 0%nat 1%nat) && eq0_64 (x_comp k' 1%nat 1%nat)
      && Beqb (r6_incomp rep) one64
  | Err _ => false end = true.
Proof. vm_compute. reflexivity. Qed.
