(** WitnessMetrics.v -- concrete cases for PropertiesMetrics.v and
    PropertiesHomogeneous.v. *)

From Coquelicot Require Import Coquelicot.
From Coq Require Import String Reals Lra Lia List Bool Arith ZArith.
From Verif Require Import Base ModelCommon ModelParts ModelKernel ModelPhases ModelFinder ProofsKernel ProofsParts ProofsSteps
  ProofsRun ProofsRun2 Spec Examples PropertiesKernel PropertiesRun PropertiesConstraints ProofsRelabel ProofsTwin PropertiesRelabel
  ProofsEquilibrium PropertiesEquilibrium PropertiesMetrics PropertiesHomogeneous.
Import ListNotations.
Open Scope R_scope.

(** two components, chi = 3, mean composition (1/2, 1/2), three compartments
    that all have the fields (1, 0) *)
Definition hom_k : kstate nat cstate :=
  {| v_omegas := fun r _ => if Nat.eqb r 0 then 1 else 0; v_Js := fun _ => 1; v_phis_comp := fun _ _ => 0;
     v_phis_feat := fun _ _ => 0; v_cons := [new_cons (no_class 2)]; v_g := 0%nat |}.
Definition hom_u : vec := fun r => if Nat.eqb r 0 then 1 else 0.
Definition hom_q (a : R) : kernel :=
  {| q_inter := fh_compile 2 ex_chi 0; q_entropy := ig_compiled 2 ex_sizes; q_ensemble := can_compiled 2 ex_means;
     q_nf := 2; q_np := 3; q_acc_J := a; q_ub := a; q_acc_w := a; q_thr := 0; q_scaler := 1 |}.

Lemma hom_mixture a : mixture (hom_q a) 2 2 (fun i => i) ex_chi 0 ex_sizes.
Proof. now constructor. Qed.

Lemma hom_homogeneous : homogeneous 2 3 hom_k hom_u.
Proof. split; reflexivity. Qed.

Lemma hom_idle : Forall idle (v_cons hom_k).
Proof. constructor; [|constructor]. split; [exists 2%nat; reflexivity|]. split; reflexivity. Qed.

Lemma hom_off r : (r < 2)%nat -> offset 2 2 (fun i => i) ex_chi ex_means hom_u r = if Nat.eqb r 0 then - (1 / 2) else 1 / 2.
Proof. intros Hr. unfold offset, mean_potential. destruct r as [|[|?]]; [| |lia]; unfold ex_chi, ex_means, hom_u; cbn; field. Qed.

(** C64: after ten steps with acceptance 1/2, the fields have moved to within
    2^-10 of their limit, while nothing has demixed. *)
Example case_C64 : exists w rep, steps ops0 (hom_q (1 / 2)) 30 10 (start hom_k) = Ok w /\ w_rep w = Some rep /\
  (forall m, (m < 3)%nat -> v_omegas (w_k w) 0%nat m = 1 / 2 + 1 / 2 * (1 / 2) ^ 10) /\
  (forall i m, (i < 2)%nat -> (m < 3)%nat -> v_phis_comp (w_k w) i m = 1 / 2) /\
  0 < e_omega rep <= (1 / 2) ^ 10.
Proof.
  destruct (C64_steps ops0 (hom_q (1 / 2)) 2 2 (fun i => i) ex_chi 0 ex_sizes ex_means) with (k := hom_k) (u := hom_u) (tries := 30%Z) (n := 10%nat)
    as (w & E & (_ & HO) & _ & _ & _ & R); cbn [hom_q q_np q_thr q_ub q_acc_w]; try lia; try lra; try reflexivity.
  - apply hom_mixture.
  - unfold ex_means; cbn; lra.
  - apply hom_homogeneous.
  - apply hom_idle.
  - destruct (R ltac:(lia)) as (_ & HP & rep & d & ER & _ & _ & _ & EO & HD & HB). exists w, rep.
    split; [exact E|]. split; [exact ER|]. split; [|split; [exact HP|]].
    + intros m Hm. rewrite (HO 0%nat m) by (auto; cbn; lia). rewrite hom_off by lia. unfold hom_u; cbn. field.
    + assert (d = 1 / 2) as ->.
      { pose proof (HB 1%nat ltac:(lia)) as B. rewrite hom_off in B by lia. cbn in B.
        destruct HD as [->|(r & Hr & <-)]; [lra|]. rewrite hom_off in * by auto. destruct (Nat.eqb r 0); lra. }
      rewrite EO. cbn [hom_q q_acc_w]. replace (1 - 1 / 2) with (1 / 2) by lra. cbn. lra.
Qed.

(** C62: with other acceptances the same state gives the same report, but
    different new fields. *)
Example case_C62 : exists k1 n1 r1 k2 n2 r2, iterate (hom_q (1 / 2)) hom_k = Ok (k1, n1, r1) /\
  iterate (hom_q (1 / 4)) hom_k = Ok (k2, n2, r2) /\ r1 = r2 /\ v_omegas k1 0%nat 0%nat <> v_omegas k2 0%nat 0%nat.
Proof.
  assert (X : forall a, 0 < a <= 1 -> exists k nv rep, iterate (hom_q a) hom_k = Ok (k, nv, rep) /\ v_omegas k 0%nat 0%nat = 1 - a / 2).
  { intros a Ha.
    destruct (C64_steps ops0 (hom_q a) 2 2 (fun i => i) ex_chi 0 ex_sizes ex_means) with (k := hom_k) (u := hom_u) (tries := 0%Z) (n := 1%nat)
      as (w & E & (_ & HO) & _); cbn [hom_q q_np q_thr q_ub q_acc_w]; try lia; try lra; try reflexivity.
    - apply hom_mixture.
    - unfold ex_means; cbn; lra.
    - apply hom_homogeneous.
    - apply hom_idle.
    - cbn [steps bind] in E. unfold one_step in E. cbn [w_count w_k start] in E.
      change (maybe_revive ops0 (hom_q a) 0 0 hom_k) with (0%nat, hom_k) in E. cbv beta iota in E.
      destruct (iterate (hom_q a) hom_k) as [[[k nv] rep]|e]; cbn [bind] in E; [|discriminate]. injection E as <-.
      exists k, nv, rep. split; [reflexivity|]. cbn [w_k] in HO. rewrite (HO 0%nat 0%nat) by (cbn; lia).
      rewrite hom_off by lia. unfold hom_u; cbn. field. }
  destruct (X (1 / 2) ltac:(lra)) as (k1 & n1 & r1 & E1 & O1). destruct (X (1 / 4) ltac:(lra)) as (k2 & n2 & r2 & E2 & O2).
  exists k1, n1, r1, k2, n2, r2. split; [exact E1|]. split; [exact E2|]. split; [|rewrite O1, O2; lra].
  pose proof (C62_metrics (hom_q (1 / 2)) (hom_q (1 / 4)) hom_k) as M. rewrite E1, E2 in M.
  apply M; [repeat split|cbn; lra|cbn; lra|]. constructor; [|constructor]. apply (C62_builtin_constraints 2). constructor.
Qed.

(** C63: three compartments, of which the first two have the same fields. *)
Definition twin_k : kstate nat cstate :=
  {| v_omegas := fun r m => if Nat.eqb r (m / 2) then 1 else 0; v_Js := fun m => if Nat.eqb m 2 then 2 else 1 / 2;
     v_phis_comp := fun _ _ => 0; v_phis_feat := fun _ _ => 0; v_cons := [new_cons (no_class 2)]; v_g := 0%nat |}.

Example case_C63 : exists w, steps ops0 (hom_q (1 / 10)) 0 100 (start twin_k) = Ok w /\
  v_omegas twin_k 0%nat 0%nat <> v_omegas twin_k 0%nat 2%nat /\
  v_phis_comp (w_k w) 0%nat 0%nat = v_phis_comp (w_k w) 0%nat 1%nat /\ v_Js (w_k w) 0%nat = v_Js (w_k w) 1%nat.
Proof.
  destruct (steps_total ops0 (hom_q (1 / 10)) 0 100 (start twin_k)) as (w & E & _).
  - eapply builtin_total_ig_can; reflexivity.
  - cbn; lra.
  - cbn; lra.
  - exists 0%nat. cbn. split; [lia|lra].
  - exists w. split; [exact E|]. split; [cbn; lra|].
    destruct (C63_twins ops0 2 (hom_q (1 / 10)) 0 100 twin_k 0 1 w) as (_ & HJ & HP); cbn [hom_q q_np]; try lia; auto.
    + split; [do 2 eexists; reflexivity|]. split; [left; split; [reflexivity|eexists; reflexivity]|eexists; left; reflexivity].
    + split; [|split]; [intros; reflexivity|reflexivity|]. constructor; [|constructor]. now constructor.
    + split; [apply HP; lia|exact HJ].
Qed.
