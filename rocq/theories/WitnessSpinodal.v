(** WitnessSpinodal.v -- concrete mixtures for the theorems of
    PropertiesSpinodal.v. *)

From Coq Require Import Reals Lra Lia List Bool Arith ZArith.
From Verif Require Import Base ModelCommon ModelFreeEnergy ProofsFreeEnergy PropertiesFreeEnergy WitnessFreeEnergy PropertiesSpinodal.
Import ListNotations.
Open Scope R_scope.

(** chi = 5 with polymers of length 2: unstable, and demixes *)
Lemma phiB_positive : Forall (fun x => 0 < x) phiB.
Proof. unfold phiB. repeat constructor; lra. Qed.

Example case_C80_unstable : is_stable eig1 (blend 10 2) (One phiB) true = Ok (Single false) /\
  exists psi psi' e e1 e2, split_of true phiB (1 / 1000) [(1 / 2, psi); (1 / 2, psi')] /\
    reported (blend 10 2) phiB e /\ reported (blend 10 2) psi e1 /\ reported (blend 10 2) psi' e2 /\ 1 / 2 * e1 + 1 / 2 * e2 < e.
Proof.
  assert (WF : wf_fe (blend 10 2)) by (apply blend_wf; lra).
  assert (HE : eig_ok eig1 1 (hessian_rows (blend 10 2) (Some O) (entries phiB))) by (apply blend_reduced; exact phiB_pos).
  assert (S : is_stable eig1 (blend 10 2) (One phiB) true = Ok (Single false)).
  { destruct (stable_spec eig1 (blend 10 2) phiB true WF eq_refl phiB_positive (fun _ => Nat.lt_0_succ 1) HE) as (b & E & HB).
    rewrite E. do 2 f_equal. destruct b; auto. exfalso. pose proof (proj1 HB eq_refl (fun i => if Nat.eqb i 0 then 1 else -1) ltac:(intros _; cbn; lra)) as X.
    unfold full_h, entries, phiB in X. cbn in X. lra. }
  split; [exact S|].
  destruct (C80_unstable eig1 (blend 10 2) phiB true WF eq_refl phiB_positive ltac:(cbn; lia)) with (eps := 1 / 1000)
    as (psi & psi' & e & e1 & e2 & A & _ & _ & B & C & D & E); auto; try lra.
  - intros [|[|i]] Hi; cbn in *; try lra; lia.
  - exists psi, psi', e, e1, e2. auto.
Qed.

(** chi = 1 with unit sizes: stable, and a concrete neighbouring split exists *)
Example case_C80_stable : exists eps e, 0 < eps /\ reported (blend 1 1) phiB e /\
  (exists s, split_of true phiB eps s /\ ~ Forall (fun wp => snd wp = phiB) s) /\
  forall s, split_of true phiB eps s ->
    exists es, Forall2 (fun wp e' => reported (blend 1 1) (snd wp) e') s es /\
      e <= lsum (combine s es) (fun p => fst (fst p) * snd p).
Proof.
  assert (WF : wf_fe (blend 1 1)) by (apply blend_wf; lra).
  destruct (C80_stable eig1 (blend 1 1) phiB true WF eq_refl phiB_positive ltac:(cbn; lia)) as (eps & e & He & HR & HS).
  - intros [|[|i]] Hi; cbn in *; try lra; lia.
  - split; [apply blend_reduced; exact phiB_pos|]. intros x Hx.
    rewrite (reduced_two_eig eig1 (blend 1 1) phiB 2) in Hx; [| reflexivity|exact phiB_pos|apply blend_reduced; exact phiB_pos|].
    + destruct Hx as [<-|[]]. exists 2. split; [lra|reflexivity].
    + unfold full_h, entries, phiB. cbn. field.
  - exists eps, e. split; auto. split; auto. split.
    + set (t := Rmin (1 / 4) eps). assert (0 < t) by (apply Rmin_pos; lra).
      assert (t <= 1 / 4) by apply Rmin_l. assert (t <= eps) by apply Rmin_r.
      exists [(1 / 2, moved phiB t (fun i => if Nat.eqb i 0 then 1 else -1)); (1 / 2, moved phiB (- t) (fun i => if Nat.eqb i 0 then 1 else -1))].
      split.
      * apply split_pair; auto; [|exact phiB_positive|intros _; cbn; lra].
        intros [|[|i]] Hi; cbn in Hi; try lia; unfold entries, phiB; cbn; [rewrite Rabs_R1|rewrite Rabs_left by lra]; lra.
      * intros F. inversion F as [|x l F1 F2]; subst. cbn in F1. injection F1 as F1 _. lra.
    + intros s SP. destruct (HS s SP) as (es & A & B & _). eauto.
Qed.

Example case_C80_sizes_refuted : eig_ok eig1 1
  (hessian_rows {| fe_nc := 2; fe_chis := fun i j => if Nat.eqb i j then 0 else 2; fe_sizes := fun _ => 2 |} (Some O) (entries [1 / 2; 1 / 2])).
Proof. exact case_C47_refuted. Qed.

Example case_C80_marginal_refuted : eig_ok eig1 1 (hessian_rows (binary_fe (8 / 3)) (Some O) (entries [1 / 4; 3 / 4])).
Proof.
  rewrite reduced_rows; [apply eig1_ok|cbn; lia|]. intros i Hi. unfold entries. destruct i as [|[|i]]; cbn in *; lra || lia.
Qed.
