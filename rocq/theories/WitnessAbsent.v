(** WitnessAbsent.v -- concrete cases for PropertiesAbsent.v, and the refuted
    part of C81. *)

From Coquelicot Require Import Coquelicot.
From Coq Require Import Reals Lra Lia List Bool Arith ZArith FunctionalExtensionality.
From Verif Require Import Base ModelCommon ModelParts ModelKernel ModelPhases ModelFinder ProofsKernel ProofsParts ProofsSteps
  ProofsRun ProofsRun2 ModelFreeEnergy ProofsFreeEnergy Spec Examples PropertiesKernel PropertiesRun PropertiesFreeEnergy
  PropertiesConstraints ProofsEquilibrium PropertiesEquilibrium PropertiesEnsembles WitnessEquilibrium PropertiesConvex PropertiesAbsent.
Import ListNotations.
Open Scope R_scope.

(** the demixed blend of WitnessEquilibrium.v with a third component, of which
    nothing is present and which repels the others with chi = 1 *)
Definition third_chi : mat := fun i j => if Nat.eqb i 2 then (if Nat.eqb j 2 then 0 else 1) else if Nat.eqb j 2 then 1 else sym_chi i j.
Definition third_x : vec := fun i => if Nat.eqb i 2 then 0 else 1 / 2.
Definition third_q : kernel :=
  {| q_inter := fh_compile 3 third_chi (1 / 10); q_entropy := ig_compiled 3 sym_sizes; q_ensemble := can_compiled 3 third_x;
     q_nf := 3; q_np := 2; q_acc_J := 1 / 5000; q_ub := 1 / 1000; q_acc_w := 1 / 500; q_thr := 1 / 10; q_scaler := 1 |}.
Definition third_k (w : vec) : kstate nat cstate :=
  {| v_omegas := fun i m => if Nat.eqb i 2 then w m else v_omegas sym_k i m; v_Js := fun _ => 1;
     v_phis_comp := fun _ _ => 0; v_phis_feat := fun _ _ => 0; v_cons := [new_cons (no_class 3)]; v_g := 0%nat |}.

Lemma third_struck : struck third_q (sym_q (1/10)) 2 2 third_chi (1/10) (1/10) sym_sizes third_x.
Proof.
  split; try reflexivity; try lia.
  - cbn [q_inter sym_q]. replace (fun r s => third_chi (skip 2 r) (skip 2 s)) with sym_chi; [reflexivity|].
    apply functional_extensionality. intros r. apply functional_extensionality. intros s. unfold third_chi.
    destruct (Nat.eqb_spec (skip 2 r) 2) as [E|_]; [now apply skip_neq in E|].
    destruct (Nat.eqb_spec (skip 2 s) 2) as [E|_]; [now apply skip_neq in E|].
    unfold sym_chi, skip. destruct (Nat.ltb_spec r 2), (Nat.ltb_spec s 2);
      repeat match goal with |- context [Nat.eqb ?a ?b] => destruct (Nat.eqb_spec a b) end; try lia; reflexivity.
  - left. split; [reflexivity|]. cbn [q_ensemble sym_q]. apply f_equal. apply functional_extensionality. intros i. unfold third_x.
    destruct (Nat.eqb_spec (skip 2 i) 2) as [E|_]; [now apply skip_neq in E|reflexivity].
Qed.

Lemma third_kept w : kept third_q 2 2 (third_k w) sym_k.
Proof. split; [reflexivity|]. intros r m Hr _. destruct r as [|[|?]]; [reflexivity..|lia]. Qed.

Lemma third_idle w : Forall idle (v_cons (third_k w)).
Proof. constructor; [|constructor]. split; [exists 3%nat; reflexivity|]. split; reflexivity. Qed.

(** C81: a third component can be added to the converged blend ... *)
Example case_C81_extend : exists w k' nv rep, iterate third_q (third_k w) = Ok (k', nv, rep) /\ errorless rep /\
  forall m, (m < 2)%nat -> v_phis_comp k' 2%nat m = 0 /\ forall i, (i < 2)%nat -> v_phis_comp k' i m = sym_phi i m.
Proof.
  destruct case_C12_stationary as (k2' & nv2 & rep2 & H2 & E1 & E2 & E3 & E4).
  destruct (C81_extend _ _ _ _ _ _ _ _ _ _ _ _ _ third_struck eq_refl sym_idle ltac:(cbn; lra) ltac:(cbn; lra) H2 (conj E1 (conj E2 E3)))
    as (w & HW).
  destruct (HW (third_k w) (third_idle w) (third_kept w) ltac:(reflexivity)) as (k' & nv & rep & H & HE & HF).
  exists w, k', nv, rep. split; [exact H|]. split; [exact HE|]. intros m Hm. destruct (HF m Hm) as [F0 F]. split; [exact F0|].
  intros i Hi. rewrite <- E4 by auto. rewrite <- F by auto. destruct i as [|[|?]]; [reflexivity..|lia].
Qed.

(** ... and struck from it again *)
Example case_C81_restrict : exists w k1' nv1 rep1, iterate third_q (third_k w) = Ok (k1', nv1, rep1) /\
  exists k2' nv2 rep2, iterate (sym_q (1/10)) sym_k = Ok (k2', nv2, rep2) /\ errorless rep2 /\
    forall i m, (i < 2)%nat -> (m < 2)%nat -> v_phis_comp k2' i m = sym_phi i m.
Proof.
  destruct case_C81_extend as (w & k1' & nv1 & rep1 & H1 & HE & HF). exists w, k1', nv1, rep1. split; [exact H1|].
  destruct (C81_restrict _ _ _ _ _ _ _ _ _ _ _ _ _ _ third_struck eq_refl (third_kept w) (third_idle w) sym_idle
    ltac:(cbn; lra) ltac:(cbn; lra) H1 HE) as (k2' & nv2 & rep2 & H2 & HE2 & HF2).
  exists k2', nv2, rep2. split; [exact H2|]. split; [exact HE2|]. intros i m Hi Hm. destruct (HF2 m Hm) as [_ F]. rewrite F by auto.
  destruct (HF m Hm) as [_ F']. destruct i as [|[|?]]; [now apply F'..|lia].
Qed.

(** Refuted: an absent component does not slow the solver down.  Whether a state
    counts as converged depends on the field of the absent component, although
    none of the fractions does. *)
Theorem C81_same_convergence_refuted :
  ~ (forall q1 q2 z n chis sh1 sh2 sizes x (k1 k2 k1' k2' : kstate nat cstate) nv1 nv2 rep1 rep2,
       struck q1 q2 z n chis sh1 sh2 sizes x -> x z = 0 -> kept q1 z n k1 k2 ->
       Forall idle (v_cons k1) -> Forall idle (v_cons k2) -> 0 <= q_thr q1 -> 0 < q_ub q1 -> 0 < q_ub q2 ->
       iterate q1 k1 = Ok (k1', nv1, rep1) -> iterate q2 k2 = Ok (k2', nv2, rep2) -> errorless rep2 -> errorless rep1).
Proof.
  intros HC. destruct case_C81_extend as (w & k' & nv & rep & H & HE & HF).
  destruct case_C12_stationary as (k2' & nv2 & rep2 & H2 & E1 & E2 & E3 & E4).
  set (w1 := fun m => w m + 1).
  destruct (total_of third_q (third_k w1) 3 sym_sizes third_x) as (k1' & nv1 & rep1 & H1); try reflexivity; try (cbn; lra).
  { now left. }
  { exists 0%nat. split; [cbn; lia|]. unfold alive; cbn; lra. }
  assert (HE1 : errorless rep1).
  { apply (HC third_q (sym_q (1/10)) 2%nat 2%nat third_chi (1/10) (1/10) sym_sizes third_x (third_k w1) sym_k k1' k2' nv1 nv2 rep1 rep2);
      auto using third_struck, third_kept, third_idle, sym_idle; try (cbn; lra). repeat split; auto. }
  destruct (C81_restrict _ _ _ _ _ _ _ _ _ _ _ _ _ _ third_struck eq_refl (third_kept w1) (third_idle w1) sym_idle
    ltac:(cbn; lra) ltac:(cbn; lra) H1 HE1) as (k2a & nva & repa & H2a & _ & Fa).
  rewrite H2 in H2a. injection H2a as <- <- <-.
  assert (L : alive (q_thr third_q) (fun _ : nat => 1) 0%nat) by (unfold alive; cbn; lra).
  pose proof (C81_field _ _ _ _ _ _ _ _ _ _ _ _ _ third_struck (third_idle w) H HE 0%nat 0%nat ltac:(cbn; lia) L ltac:(lia)) as A.
  pose proof (C81_field _ _ _ _ _ _ _ _ _ _ _ _ _ third_struck (third_idle w1) H1 HE1 0%nat 0%nat ltac:(cbn; lia) L ltac:(lia)) as B.
  assert (EF : forall s, (s < 3)%nat -> v_phis_comp k1' s 0%nat = v_phis_comp k' s 0%nat).
  { intros s Hs. destruct (Fa 0%nat ltac:(cbn; lia)) as [Z F]. destruct (HF 0%nat ltac:(lia)) as [Z' F'].
    destruct s as [|[|[|?]]]; [| | |lia].
    - rewrite F' by lia. transitivity (v_phis_comp k2' 0%nat 0%nat); [symmetry; apply (F 0%nat); lia|apply E4; lia].
    - rewrite F' by lia. transitivity (v_phis_comp k2' 1%nat 0%nat); [symmetry; apply (F 1%nat); lia|apply E4; lia].
    - congruence. }
  rewrite (rsum_ext 3 (fun s => third_chi 2%nat s * v_phis_comp k1' s 0%nat) (fun s => third_chi 2%nat s * v_phis_comp k' s 0%nat)) in B
    by (intros; now rewrite EF).
  rewrite (rsum_ext 3 (fun s => third_chi 0%nat s * v_phis_comp k1' s 0%nat) (fun s => third_chi 0%nat s * v_phis_comp k' s 0%nat)) in B
    by (intros; now rewrite EF).
  cbn [third_k v_omegas Nat.eqb] in A, B. unfold w1 in B. lra.
Qed.
