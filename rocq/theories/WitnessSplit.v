(** WitnessSplit.v -- concrete case for PropertiesSplit.v. *)

From Coq Require Import String Reals Lra Lia List Bool Arith ZArith.
From Verif Require Import Base ModelCommon ModelParts ModelKernel ModelPhases ModelFinder
  ProofsKernel ProofsParts ProofsSteps ProofsRun ProofsRun2 Spec Examples
  PropertiesKernel PropertiesFinder PropertiesRun WitnessFinder ProofsEquilibrium WitnessConsistency PropertiesSplit.
Import ListNotations.
Open Scope R_scope.

(** The second component (fraction 1/2, size 2) as two parts of fractions 1/3
    and 1/6 in a polydispersed entropy with one and two components per feature. *)
Definition part_sizes : vec := fun i => if Nat.eqb i 0 then 1 else 2.
Definition part_means : vec := fun i => if Nat.eqb i 0 then 1/2 else if Nat.eqb i 1 then 1/3 else 1/6.
Definition part_npf (r : nat) : nat := S r.

Example case_C74 : exists f1 ph1 f2 ph2,
  run ops0 (ex_finder 2 ones 0 1) (Some 6) (Some (1/10)) (Some 2) = (f1, Ok ph1) /\
  run ops0 (refine (ex_finder 2 ones 0 1) 3 (pg_compiled 3 2 part_npf part_sizes) (can_compiled 3 part_means) (fun _ _ => 7))
    (Some 6) (Some (1/10)) (Some 2) = (f2, Ok ph2) /\
  p_vol ph2 = p_vol ph1 /\ f_diag f2 = f_diag f1 /\
  (forall p, (p < 2)%nat -> frac ph2 p 0 = frac ph1 p 0 /\ frac ph2 p 1 = 2/3 * frac ph1 p 1 /\ frac ph2 p 2 = 1/3 * frac ph1 p 1).
Proof.
  set (f := ex_finder 2 ones 0 1).
  destruct (any_run f 6 (1/10) 2) as (f1 & ph1 & d & E & D); try reflexivity; try (cbn; lra).
  { eapply builtin_total_ig_can; reflexivity. }
  { exists O. cbn. unfold ones. split; [lia|lra]. }
  destruct (C74_split ops0 f (Some 6) (Some (1/10)) (Some 2) f1 ph1
    (pg_compiled 3 2 part_npf part_sizes) (can_compiled 3 part_means) (fun _ _ => 7) 3 2
    (fun i => if Nat.eqb i 0 then 0%nat else 1%nat) (fun i => i) (feature_of 2 part_npf) ex_sizes part_sizes ex_means part_means)
    as (f2 & ph2 & E2 & V & P & _ & DD & _); auto.
  - apply sized_plain.
  - apply (sized_poly 2 part_npf part_sizes). intros r _. unfold part_npf. lia.
  - left. split; reflexivity.
  - split.
    + intros i Hi. destruct i as [|[|[|i]]]; [| | |lia]; cbn; repeat split; lia.
    + intros j Hj. cbn in Hj. destruct j as [|[|j]]; [| |lia]; unfold fsum, part_means, ex_means; cbn; lra.
  - exists f1, ph1, f2, ph2. split; [exact E|]. split; [exact E2|]. split; [exact V|]. split; [exact DD|].
    intros p Hp.
    pose proof (P p 0%nat Hp ltac:(lia)) as P0. pose proof (P p 1%nat Hp ltac:(lia)) as P1. pose proof (P p 2%nat Hp ltac:(lia)) as P2.
    unfold part_means, ex_means in *. cbn [Nat.eqb] in *. lra.
Qed.
