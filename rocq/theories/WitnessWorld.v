(** WitnessWorld.v -- concrete cases for PropertiesWorld.v. *)

From Coq Require Import String Reals Lra Lia List Bool Arith ZArith.
From Verif Require Import Base ModelCommon ModelParts ModelKernel ModelPhases ModelFinder ModelHistory ModelWorld
  Spec Examples WitnessFinder PropertiesWorld.
Import ListNotations.
Open Scope R_scope.

Lemma int_part_unique x z : IZR z <= x < IZR z + 1 -> Int_part x = z.
Proof.
  intros H. pose proof (base_Int_part x) as (A & B).
  assert (IZR (Int_part x) < IZR (z + 1)) by (rewrite plus_IZR; lra).
  assert (IZR z < IZR (Int_part x + 1)) by (rewrite plus_IZR; lra).
  apply lt_IZR in H0, H1. lia.
Qed.

(** a generator whose numbers are visible *)
Definition ops_count : rng_ops nat :=
  {| g_uniform := fun g => (0, S g); g_integers := fun g k => (O, S g);
     g_normal := fun g mean std => (INR g, S g); g_beta := fun g b => (1/2, S g) |}.

Definition ex_setup : setup cstate :=
  {| x_inter := ex_inter; x_ent := ex_ent; x_ens := ex_ens; x_cons := CA_none; x_np := Some 1%nat; x_par := ex_par 0 1; x_kw := [] |}.
Definition world0 : world nat cstate := {| u_next := 1; u_gen := fun _ => O; u_fs := [] |}.
Notation ev := (happen_all ops_count no0 Z.to_nat).
Definition field (w : world nat cstate) n : option R := option_map (fun f => v_omegas (f_k f) 0%nat 0%nat) (see w n).

(** Two finders on the same generator: reinitialising the first one moves the
    fields drawn later by the second one. *)
Theorem C76_shared_refuted : exists w es1 es2,
  calls_on 1 es1 = calls_on 1 es2 /\ see (ev w es1) 1 <> see (ev w es2) 1 /\ gen_of w 0 = Some 0%nat /\ gen_of w 1 = Some 0%nat.
Proof.
  exists (ev world0 [ENew ex_setup (Some 0%nat) 0; ENew ex_setup (Some 0%nat) 0]),
    [ECall 0 CReinitRandom; ECall 1 CReinitRandom], [ECall 1 CReinitRandom].
  split; [reflexivity|]. split; [|split; reflexivity].
  intros H. apply (f_equal (option_map (fun f => v_omegas (f_k f) 0%nat 0%nat))) in H. cbn in H. injection H. intros E. lra.
Qed.

(** Default finders built at 3.25 s and 3.75 s; a third one on a generator of
    the user that is called in between. *)
Example case_C76_same_second :
  let es := [ECall 1 (CReinitRandom); ECall 0 (CReinitRandom); EUse 0 (fun g => (g + 5)%nat); ENew ex_setup (Some 0%nat) 9;
             ECall 2 CReinitRandom; ECall 0 CResetRevive; ECall 1 CResetRevive] in
  let w := ev world0 (ENew ex_setup None (13/4) :: ENew ex_setup None (15/4) :: es) in
  see w 0 = see w 1 /\ field w 0 = Some 5 /\ field w 2 = Some 7.
Proof.
  cbv zeta. assert (I1 : Int_part (13/4) = 3%Z) by (apply int_part_unique; lra).
  assert (I2 : Int_part (15/4) = 3%Z) by (apply int_part_unique; lra).
  split.
  - set (es := [ECall 1 _; _; _; _; _; _; _]).
    destruct (build ops_count no0 ex_setup (Z.to_nat (Int_part (13/4)))) as [f|e] eqn:EB; [|discriminate].
    destruct (C76_same_second ops_count no0 Z.to_nat world0 ex_setup (13/4) (15/4) f es EB) as (A & _); auto.
    + congruence.
    + intros m r Hm. cbn in Hm. destruct m; discriminate.
    + repeat constructor; cbn; auto.
    + repeat constructor; cbn; auto.
  - unfold field. cbn -[Int_part]. rewrite I1. cbn. change (Pos.to_nat 3) with 3%nat. cbn. split; f_equal; lra.
Qed.
