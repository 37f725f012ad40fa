(** WitnessArrays.v -- concrete cases for C89. *)

From Coq Require Import Reals Lra Lia List Bool Arith ZArith.
From Verif Require Import Base ModelCommon ModelFreeEnergy ModelNorm ModelArrays ProofsFreeEnergy PropertiesFreeEnergy
  PropertiesNorm PropertiesArrays.
Import ListNotations.
Open Scope R_scope.

(** two components, chi = 3, sizes 1 and 2 *)
Definition nd_fe : fe :=
  {| fe_nc := 2; fe_chis := fun i j => if Nat.eqb i j then 0 else 3; fe_sizes := fun i => if Nat.eqb i 0 then 1 else 2 |}.

Lemma nd_fe_wf : wf_fe nd_fe.
Proof.
  split.
  - intros i Hi. cbn. destruct (Nat.eqb i 0); lra.
  - intros i j _ _. cbn. now rewrite Nat.eqb_sym.
Qed.

(** shape (3, 2, 2): fraction of the first component 0, 1/4, 1/2 in the phases of
    the first column, 1/2 in those of the second *)
Definition nd_first (p s : nat) : R := match s with O => INR p / 4 | _ => 1 / 2 end.
Definition nd_c : arr R :=
  Build_arr [2; 2; 3]%nat (fun idx =>
    let x := nd_first (nth 2 idx O) (nth 1 idx O) in if Nat.eqb (nth 0 idx O) 0 then x else 1 - x).

Lemma nd_nonneg : nonneg_nd nd_c.
Proof.
  intros idx H. unfold entry_of. apply inside_rev in H. change (rev (shape_of nd_c)) with [2; 2; 3]%nat in H.
  remember (rev idx) as l. inversion H as [|i ? l1 ? Hi H1]; subst. inversion H1 as [|s ? l2 ? Hs H2]; subst.
  inversion H2 as [|p ? l3 ? Hp H3]; subst. cbn.
  assert (0 <= INR p <= 2) by (split; [apply pos_INR|apply (le_INR p 2); lia]).
  destruct (Nat.eqb i 0); unfold nd_first; destruct s; lra.
Qed.

(** the energy of the phase at position (2, 0): both fractions are 1/2 *)
Example case_C89 : exists r, free_energy_density_nd nd_fe nd_c = Ok r /\ shape_of r = [3; 2]%nat /\
  entry_of r [2; 0]%nat = Fin (3 / 4 + 3 / 4 * ln (1 / 2)) /\ entry_of r [0; 0]%nat = Fin 0.
Proof.
  destruct (C89_values nd_fe nd_c [3; 2]%nat nd_fe_wf eq_refl nd_nonneg) as (r & E & S & A).
  exists r. split; [exact E|]. split; [exact S|]. rewrite !A by (repeat constructor).
  unfold fh, entry_of. cbn. split; f_equal.
  - replace ((1 + 1) / 4) with (1 / 2) by lra. replace (1 - 1 / 2) with (1 / 2) by lra. lra.
  - replace (0 / 4) with 0 by lra. replace (1 - 0) with 1 by lra. rewrite ln_1. lra.
Qed.

(** shapes of the other results *)
Example case_C89_shapes :
  (exists r, jacobian_nd nd_fe nd_c (Some (-1)%Z) = Ok r /\ shape_of r = [3; 2; 1]%nat) /\
  (exists r, hessian_nd nd_fe nd_c None = Ok r /\ shape_of r = [3; 2; 2; 2]%nat) /\
  (exists r, chemical_potentials_nd nd_fe nd_c = Ok r /\ shape_of r = [3; 2; 2]%nat) /\
  jacobian_nd nd_fe nd_c (Some 2%Z) = Err IndexError /\
  free_energy_density_nd nd_fe (Build_arr [] (fun _ => 1)) = Err IndexError /\
  free_energy_density_nd nd_fe (Build_arr [3; 2]%nat (fun _ => 1)) = Err VolumeFractionError.
Proof.
  split; [|split; [|split; [|split; [|split]]]].
  - destruct (C89_jacobian nd_fe nd_c [3; 2]%nat eq_refl nd_nonneg (Some (-1)%Z) ltac:(cbn; lia)) as (r & E & S & _). eauto.
  - destruct (C89_hessian nd_fe nd_c [3; 2]%nat eq_refl nd_nonneg None I) as (r & E & S & _). eauto.
  - destruct (C89_potentials nd_fe nd_c [3; 2]%nat eq_refl nd_nonneg) as (r & E & S & _). eauto.
  - apply (C89_bad_index nd_fe nd_c [3; 2]%nat 2 eq_refl nd_nonneg). cbn. lia.
  - exact (proj1 (proj1 (C89_rejected nd_fe (Build_arr [] (fun _ => 1))) eq_refl)).
  - apply (proj2 (C89_rejected nd_fe (Build_arr [3; 2]%nat (fun _ => 1))) [2%nat] 3%nat eq_refl). left. cbn. lia.
Qed.

(** three phases of equal composition in the second column: no error there by
    component *)
Example case_C89_error smax smin : exists r, equilibration_error_nd smax smin nd_fe nd_c Onone ByComponent = Ok r /\
  shape_of r = [2; 2]%nat /\ entry_of r [1; 0]%nat = 0 /\
  equilibration_error_nd smax smin nd_fe nd_c Oinf ByBoth = Err ValueError /\
  exists q, equilibration_error_nd smax smin nd_fe nd_c Onone ByPhase = Ok q /\ shape_of q = [3; 2]%nat.
Proof.
  destruct (C89_by_component smax smin nd_fe nd_c 3 [2%nat] eq_refl nd_nonneg Onone) as (r & E & S & A).
  exists r. split; [exact E|]. split; [exact S|]. split; [|split].
  - specialize (A [1%nat] ltac:(repeat constructor)). unfold equilibration_error_ord in A.
    rewrite (slice_potentials nd_fe nd_c 3 [2%nat] eq_refl nd_nonneg [1%nat]) in A by (repeat constructor). cbn [bind] in A.
    rewrite slice_mus_length in A. injection A as A _. rewrite <- A.
    refine (vnorm_zero Onone 3 (fun p => dev_matrix 2 (slice_mus nd_fe nd_c 3 [1%nat]) p O) (or_introl I) _). intros p Hp.
    rewrite dev_entry by (rewrite slice_mus_length; auto). rewrite slice_mus_length.
    assert (K : forall q, (q < 3)%nat -> nth q (slice_mus nd_fe nd_c 3 [1%nat]) [] = nth 0 (slice_mus nd_fe nd_c 3 [1%nat]) []).
    { intros q Hq. destruct q as [|[|[|q]]]; try lia; reflexivity. }
    rewrite (rsum_ext 3 _ (fun _ => nan_to_num (nth 0 (nth 0 (slice_mus nd_fe nd_c 3 [1%nat]) []) NaN)))
      by (intros q Hq; now rewrite K).
    rewrite K by auto. rewrite rsum_const. cbn [INR]. lra.
  - apply (C89_by_both_order smax smin nd_fe nd_c 3 [2%nat] eq_refl nd_nonneg); discriminate.
  - destruct (C89_axis_one smax smin nd_fe nd_c 3 [2%nat] eq_refl nd_nonneg 2 [] Onone eq_refl) as (q & Eq & Sq & _). eauto.
Qed.
