(** WitnessFlory.v -- concrete cases for C69. *)

From Coq Require Import Reals Lra Lia.
From Coquelicot Require Import Coquelicot.
From Coq Require Import List Bool Arith ZArith.
From Verif Require Import Base ModelCommon ModelParts ModelKernel ModelObjects ModelFreeEnergy ModelFlory
  PropertiesObjects WitnessObjects ProofsFreeEnergy PropertiesFreeEnergy PropertiesFlory.
Import ListNotations.
Open Scope R_scope.

Definition lop : mat := fun i j => if Nat.eqb i 0 then (if Nat.eqb j 1 then 3 else 0) else (if Nat.eqb j 0 then 1 else 0).
Definition lsz : vec := fun i => if Nat.eqb i 0 then 1 else 2.

(** asymmetric matrix, default sizes; sizes assigned; a random matrix; then
    the sizes again: the matrix is the random one, the sizes the last *)
Definition story : list (fe_call (G := nat)) :=
  [AssignSizes (fun _ => 5); CallUniform 7 true; CallRandom 0 1 false 4%nat; AssignSizes lsz].

Example case_C69 : exists so, created count_ops st0 2 so (fun i j => (lop i j + lop j i) / 2, fun _ => 1) /\
  Forall legal story /\
  let so' := do_calls count_ops so story in
  flory_chis (fst so) (snd so) 0%nat 1%nat = 2 /\ flory_sizes (fst so) (snd so) 1%nat = 1 /\
  flory_chis (fst so') (snd so') 0%nat 0%nat = 4 /\ flory_chis (fst so') (snd so') 1%nat 0%nat = 5 /\
  flory_chis (fst so') (snd so') 1%nat 1%nat = 6 /\ flory_sizes (fst so') (snd so') 1%nat = 2 /\
  independent_entries (fst so') (he_int (snd so')) = [4; 5; 6] /\
  free_energy_density (flory_now (fst so') (snd so')) (One [0; 1]) = Ok (Single (Fin 3)).
Proof.
  destruct (C69_creation count_ops st0 2 None) as (H & _). destruct (H lop) as [so E]. exists so.
  pose proof (ByMatrix count_ops st0 2 lop None so E) as HC. split; [exact HC|].
  assert (HL : Forall legal story) by (repeat constructor; cbn; lra). split; [exact HL|]. intros so'.
  destruct (C69_follows count_ops st0 2 so _ [] HC (Forall_nil _)) as (_ & C0 & S0 & _). cbn [do_calls fold_left] in C0, S0.
  destruct (C69_follows count_ops st0 2 so _ story HC HL) as (_ & C1 & S1 & _ & D1). cbv zeta in *. fold so' in C1, S1, D1.
  destruct (C69_independent count_ops st0 2 so _ story HC HL) as (L1 & E1 & _). cbv zeta in *. fold so' in L1, E1.
  assert (X00 : flory_chis (fst so') (snd so') 0%nat 0%nat = 4) by (rewrite C1 by lia; cbn; lra).
  assert (X01 : flory_chis (fst so') (snd so') 0%nat 1%nat = 5) by (rewrite C1 by lia; cbn; lra).
  assert (X10 : flory_chis (fst so') (snd so') 1%nat 0%nat = 5) by (rewrite C1 by lia; cbn; lra).
  assert (X11 : flory_chis (fst so') (snd so') 1%nat 1%nat = 6) by (rewrite C1 by lia; cbn; lra).
  repeat split; auto.
  - rewrite C0 by lia. cbn. lra.
  - rewrite S0 by lia. reflexivity.
  - rewrite S1 by lia. reflexivity.
  - destruct (independent_entries _ _) as [|a [|b [|c [|d e]]]]; cbn in L1; try lia.
    pose proof (E1 0%nat 0%nat ltac:(lia)) as Y1. pose proof (E1 0%nat 1%nat ltac:(lia)) as Y2. pose proof (E1 1%nat 1%nat ltac:(lia)) as Y3.
    rewrite X00 in Y1. rewrite X01 in Y2. rewrite X11 in Y3. cbn in Y1, Y2, Y3. now subst.
  - destruct (D1 ltac:(intros i Hi; unfold story; cbn; unfold lsz; destruct (Nat.eqb i 0); lra) (One [0; 1]) I eq_refl) as [F _].
    destruct F as ([f|] & -> & B); [unfold nonneg; repeat constructor; lra| |contradiction].
    cbn in B. do 2 f_equal. subst f. f_equal. unfold entries. cbn. rewrite ln_1. lra.
Qed.

(** writing [fe.chis[0, 1] = 7] *)
Example case_C69_in_place : exists so s' J v w, created count_ops st0 2 so (fun i j => (lop i j + lop j i) / 2, fun _ => 1) /\
  write (fst so) (fo_chis (he_int (snd so))) 0 1 7 = (s', None) /\
  jacobian (flory_now s' (snd so)) (One [1 / 4; 3 / 4]) None = Ok (Single J) /\ nth 1%nat J NaN = Fin v /\
  slope (fh 2 (flory_chis s' (snd so)) (flory_sizes s' (snd so))) (entries [1 / 4; 3 / 4]) (unit_vec 1) w /\ v <> w.
Proof.
  destruct (C69_creation count_ops st0 2 None) as (H & _). destruct (H lop) as [so E]. exists so.
  pose proof (ByMatrix count_ops st0 2 lop None so E) as HC.
  destruct (created_represents _ _ _ _ _ HC) as [[(N & _) C S Y T _ A] _]. cbn [fst snd] in *.
  assert (W : z_writeable (st_cell (fst so) (fo_chis (he_int (snd so)))) = true).
  { unfold flory_new, fh_new, fh_symmetric in E. destruct (convert_and_broadcast _ _) as [b|]; [|discriminate E]. cbn in E.
    injection E as <-. reflexivity. }
  assert (HW : exists s', write (fst so) (fo_chis (he_int (snd so))) 0 1 7 = (s', None)) by (unfold write; rewrite W; eauto).
  destruct HW as [s' HW].
  destruct (C69_in_place_refuted (fst so) (snd so) 0 1 7 s' [1 / 4; 3 / 4]) as (J & v & w & R); try rewrite N; auto.
  - intros k Hk. rewrite S by auto. cbn. lra.
  - intros a b Ha Hb. rewrite !C by auto. lra.
  - rewrite C by auto. cbn. lra.
  - repeat constructor; lra.
  - exists s', J, v, w. rewrite N in R. auto.
Qed.
