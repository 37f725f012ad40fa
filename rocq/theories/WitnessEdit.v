(** WitnessEdit.v -- concrete instances of C98. *)

From Coq Require Import String Reals List Bool Arith ZArith Lra Lia.
From Verif Require Import Base ModelCommon ModelParts ModelKernel ModelObjects ModelFreeEnergy ModelFlory
  PropertiesObjects WitnessObjects PropertiesEdit.
Import ListNotations.
Open Scope R_scope.

Lemma world0_editable block canon : editable (world0 block canon).
Proof.
  assert (A : forall a, a <> 2%nat -> accepts (u_store (world0 block canon)) a).
  { intros a Ha. apply flag_accepts. cbn. destruct (Nat.eqb_spec a 2); [congruence|]. now rewrite andb_false_r. }
  split; [destruct block; repeat constructor; apply A; discriminate|].
  split; [apply A; discriminate|]. split; [apply A; discriminate|]. split; [apply A; discriminate|].
  destruct canon; [apply flag_refuses|apply flag_accepts]; reflexivity.
Qed.

(** After assigning a new matrix, integer sizes and new means, the sizes still
    accept an entry and the means still refuse. *)
Example C98_case block (xs := [SetChis (scalar 3); SetSizes DInt (scalar 2); SetMeans DFloat (scalar (1 / 2))] : list (action (G := nat))) :
  editable (acts count_ops (world0 block true) xs).
Proof. apply C98_stays; [apply world0_ok|apply world0_editable]. Qed.

(** [sizes = [2, 2]] holds integers: writing 0.5 stores 0, writing 3 stores 3 *)
Example C98_integers_case (u := acts count_ops (world0 false true) [SetSizes DInt (scalar 2)]) (a := go_sizes (u_ent u)) :
  z_type (st_cell (u_store u) a) = DInt /\
  z_at (st_cell (fst (write (u_store u) a 0 1 (1 / 2))) a) 0%nat 1%nat = 0 /\
  z_at (st_cell (fst (write (u_store u) a 0 1 3)) a) 0%nat 1%nat = 3 /\
  z_at (st_cell (fst (write (u_store u) a 0 1 3)) a) 0%nat 0%nat = 2.
Proof.
  assert (T : z_type (st_cell (u_store u) a) = DInt) by reflexivity.
  assert (E : editable u) by (apply C98_stays; [apply world0_ok|apply world0_editable]).
  destruct E as (_ & A & _). fold a in A. split; [exact T|].
  destruct (A 0%nat 1%nat (1 / 2)) as (s1 & E1 & S1 & _). destruct (A 0%nat 1%nat 3) as (s2 & E2 & S2 & K2 & _).
  rewrite E1, E2. cbn [fst]. rewrite T in *. split; [|split].
  - apply (proj2 (C98_values DInt (1 / 2)) ltac:(lra) _ S1 eq_refl).
  - exact (proj1 (C98_values DInt 3) 3%Z eq_refl _ S2).
  - rewrite K2 by congruence. cbn. unfold upd. cbn. apply (proj1 (C98_values DInt 2) 2%Z eq_refl). apply cast_stores.
Qed.
