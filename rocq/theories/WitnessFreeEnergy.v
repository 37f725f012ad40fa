(** WitnessFreeEnergy.v -- concrete cases for PropertiesFreeEnergy.v. *)

From Coquelicot Require Import Coquelicot.
From Coq Require Import Reals Lra Lia List Bool Arith ZArith.
From Verif Require Import Base ModelCommon ModelFreeEnergy ProofsFreeEnergy PropertiesFreeEnergy.
Import ListNotations.
Open Scope R_scope.

(** two components with chi = c and sizes 1 and s *)
Definition blend (c s : R) : fe :=
  {| fe_nc := 2; fe_chis := fun i j => if Nat.eqb i j then 0 else c; fe_sizes := fun i => if Nat.eqb i 0 then 1 else s |}.
Definition phiA : list R := [1 / 4; 3 / 4].
Definition phiB : list R := [1 / 2; 1 / 2].

Lemma blend_wf c s : s <> 0 -> wf_fe (blend c s).
Proof.
  intros H. split; cbn; intros.
  - destruct i as [|i]; cbn; [lra|auto].
  - now rewrite Nat.eqb_sym.
Qed.

Ltac pos := repeat constructor; lra.

Example case_C41 : comp_shaped (Many 2 [phiA; phiB; [0; 1]]) /\ nonneg (Many 2 [phiA; phiB; [0; 1]]) /\
  wf_fe (blend 3 2) /\ density (blend 3 2) (entries [0; 1]) = 0.
Proof.
  split; [repeat constructor|]. split; [unfold nonneg; cbn; pos|]. split; [apply blend_wf; lra|].
  unfold density, fh. cbn. unfold entries. cbn. rewrite ln_1. field.
Qed.

(** the value at the boundary of a run of the function itself *)
Example case_C41_value : free_energy_density (blend 3 2) (Many 2 [[0; 1]]) = Ok (Rows [Fin 0]).
Proof.
  destruct (C41_value (blend 3 2) (Many 2 [[0; 1]])) as (o & E & HB).
  - apply blend_wf; lra.
  - repeat constructor.
  - reflexivity.
  - unfold nonneg; cbn; pos.
  - rewrite E. destruct o as [|l]; [contradiction|]. cbn in HB. inversion HB; subst. inversion H3; subst.
    do 2 f_equal. f_equal. f_equal. unfold fh. cbn. unfold entries. cbn. rewrite ln_1. field.
Qed.

Example case_C41_rejected : free_energy_density (blend 3 2) (One [1; -1]) = Err VolumeFractionError /\
  free_energy_density (blend 3 2) (One [1; 0; 0]) = Err VolumeFractionError.
Proof.
  split; apply C41_rejected.
  - right. exists [1; -1], (-1). repeat split; [now left|right; now left|lra].
  - left. cbn. lia.
Qed.

Example case_C42 : comp_shaped (Many 2 [phiA; phiB]) /\ positive (Many 2 [phiA; phiB]) /\ wf_fe (blend 3 2) /\
  denotes 2 (-1)%Z 1 /\ denotes 2 0%Z 0.
Proof.
  split; [repeat constructor|]. split; [unfold positive; cbn; pos|]. split; [apply blend_wf; lra|]. split; (split; [lia|]); cbn; auto.
Qed.

(** the Jacobian is not constant: a swap of the components would be noticed *)
Example case_C42_value : jacobian (blend 3 2) (One phiB) None =
  Ok (Single [Fin (1 / 2 * 3 + (ln (1 / 2) + 1)); Fin (1 / 2 * 3 + (ln (1 / 2) + 1) / 2)]).
Proof.
  unfold jacobian. rewrite check_ok; [|reflexivity|unfold nonneg; cbn; pos]. cbn [bind each]. unfold listed. cbn [fe_nc blend seq map].
  rewrite !jacobian_fin; try (apply blend_wf; lra); try (cbn; lia); try (unfold entries, phiB; cbn; lra).
  do 3 f_equal; unfold dfh; cbn; unfold entries, phiB; cbn; [f_equal; field|]. f_equal. f_equal. field.
Qed.

Example case_C44 : exists m h, hessian (blend 3 2) (One phiB) None = Ok (Single m) /\ entry m 1 1 = Fin h /\
  ~ slope2 (density (blend 3 2)) (entries phiB) (unit_vec 1) (unit_vec 1) h.
Proof.
  apply C44_refuted; [apply blend_wf; lra|reflexivity|unfold phiB; pos|cbn; lia|cbn; lra|cbn; lra].
Qed.

(** ** Stability *)

(** eigenvalue of a 1 x 1 matrix *)
Definition eig1 (m : list (list xr)) : list xr := [entry m 0 0].

Lemma eig1_ok A : eig_ok eig1 1 (real_matrix 1 A).
Proof.
  exists A. split; [reflexivity|]. exists (fun _ => A O O), (fun _ _ => 1). split; [reflexivity|]. split.
  - intros i j Hi Hj. assert (i = O) by lia. assert (j = O) by lia. subst. cbn. lra.
  - intros k k' Hk Hk'. assert (k = O) by lia. assert (k' = O) by lia. subst. cbn. lra.
Qed.

Lemma blend_reduced c s phi : (forall i, (i < 2)%nat -> entries phi i <> 0) ->
  eig_ok eig1 1 (hessian_rows (blend c s) (Some O) (entries phi)).
Proof. intros H. rewrite reduced_rows by (auto; cbn; lia). apply eig1_ok. Qed.

Lemma phiB_pos : forall i, (i < 2)%nat -> entries phiB i <> 0.
Proof. intros i Hi. unfold entries, phiB. destruct i as [|[|i]]; cbn; lra || lia. Qed.

(** chi = 1: stable; chi = 5: unstable *)
Example case_C47 : is_stable eig1 (blend 1 1) (One phiB) true = Ok (Single true) /\
  is_stable eig1 (blend 5 1) (One phiB) true = Ok (Single false).
Proof.
  assert (G : forall c, is_stable eig1 (blend c 1) (One phiB) true = Ok (Single (Nat.eqb (length (filter xlt0 [Fin (4 - 2 * c)])) 0))).
  { intros c. unfold is_stable, num_unstable_modes, hessian. rewrite check_ok; [|reflexivity|unfold nonneg; cbn; pos].
    cbn [bind]. rewrite (axis_index_ok _ _ O) by (split; [cbn; lia|now left]). cbn [bind each omap].
    rewrite reduced_rows; [|cbn; lia|exact phiB_pos]. cbn [fe_nc blend]. unfold eig1.
    rewrite entry_listed by (cbn; lia). unfold full_h, skip. cbn. unfold entries, phiB. cbn.
    do 2 f_equal. f_equal. f_equal. f_equal. replace (0 + 1 / (1 / 2) - (c + 0) - (c + 0) + (0 + 1 / (1 / 2))) with (4 - 2 * c) by field.
    reflexivity. }
  rewrite !G. cbn. unfold Rltb. destruct (Rlt_dec (4 - 2 * 1) 0); [lra|]. destruct (Rlt_dec (4 - 2 * 5) 0); [|lra]. auto.
Qed.

Example case_C47_hypotheses c : wf_fe (blend c 1) /\ (forall i, (i < 2)%nat -> fe_sizes (blend c 1) i = 1) /\
  eig_ok eig1 1 (hessian_rows (blend c 1) (Some O) (entries phiB)).
Proof.
  split; [apply blend_wf; lra|]. split; [intros [|i] _; reflexivity|]. apply blend_reduced. exact phiB_pos.
Qed.

Example case_C47_refuted : eig_ok eig1 1 (hessian_rows {| fe_nc := 2; fe_chis := fun i j => if Nat.eqb i j then 0 else 2; fe_sizes := fun _ => 2 |}
  (Some O) (entries [1 / 2; 1 / 2])).
Proof. rewrite reduced_rows; [apply eig1_ok|cbn; lia|exact phiB_pos]. Qed.

(** three components: the reduced Hessian of the ideal mixture at equal fractions
    is [[6,3],[3,6]] with eigenvalues 9 and 3 *)
Example case_C47_three (eig := fun _ : list (list xr) => [Fin 9; Fin 3])
  (F := {| fe_nc := 3; fe_chis := fun _ _ => 0; fe_sizes := fun _ => 1 |}) (phi := [1 / 3; 1 / 3; 1 / 3]) :
  wf_fe F /\ eig_ok eig 2 (hessian_rows F (Some O) (entries phi)) /\ is_stable eig F (One phi) true = Ok (Single true).
Proof.
  assert (HP : forall i, (i < 3)%nat -> entries phi i <> 0).
  { intros i Hi. unfold entries, phi. destruct i as [|[|[|i]]]; cbn; lra || lia. }
  split; [split; cbn; intros; lra|]. split.
  - rewrite reduced_rows by (auto; cbn; lia).
    exists (fun i j => full_h F (entries phi) (skip 0 i) (skip 0 j) - full_h F (entries phi) 0 (skip 0 j)
                       - full_h F (entries phi) (skip 0 i) 0 + full_h F (entries phi) 0 0).
    split; [reflexivity|]. exists (fun k => if Nat.eqb k 0 then 9 else 3),
      (fun i k => if (Nat.eqb i 1 && Nat.eqb k 1)%bool then - / sqrt 2 else / sqrt 2).
    assert (S2 : / sqrt 2 * / sqrt 2 = 1 / 2).
    { rewrite <- Rinv_mult. rewrite sqrt_sqrt by lra. field. }
    split; [reflexivity|]. split.
    + intros i j Hi Hj. unfold full_h, skip, F, phi, entries. 
      destruct i as [|[|i]]; [| |lia]; (destruct j as [|[|j]]; [| |lia]); cbn;
        rewrite ?Rmult_assoc, ?Rmult_opp_opp, ?Ropp_mult_distr_r_reverse, ?Ropp_mult_distr_l_reverse, ?Rmult_opp_opp, ?S2;
        lra.
    + intros k k' Hk Hk'. destruct k as [|[|k]]; [| |lia]; (destruct k' as [|[|k']]; [| |lia]); cbn;
        rewrite ?Rmult_opp_opp, ?Ropp_mult_distr_r_reverse, ?Ropp_mult_distr_l_reverse, ?S2; lra.
  - unfold is_stable, num_unstable_modes, hessian. rewrite check_ok; [|reflexivity|unfold nonneg; cbn; pos].
    cbn [bind]. rewrite (axis_index_ok _ _ O) by (split; [cbn; lia|now left]). cbn. unfold Rltb.
    destruct (Rlt_dec 9 0); [lra|]. destruct (Rlt_dec 3 0); [lra|]. reflexivity.
Qed.

(** ** Equilibration error *)
Example case_C48 : positive (Many 2 [phiA; phiB]) /\
  exists m m', chemical_potentials (blend 0 1) (Many 2 [phiA; phiB]) = Ok [m; m'] /\ m <> m'.
Proof.
  split; [unfold positive; cbn; pos|].
  destruct (C48_zero (blend 0 1) (Many 2 [phiA; phiB])) as (e & mus & _ & EM & _);
    [apply blend_wf; lra|repeat constructor|reflexivity|unfold positive; cbn; pos|].
  unfold chemical_potentials. rewrite check_ok; [|reflexivity|unfold nonneg; cbn; pos].
  cbn [bind each rows_of map]. do 2 eexists. split; [reflexivity|].
  intros E. apply (f_equal (fun l => nth 0 l NaN)) in E. rewrite !listed_nth in E by (cbn; lia).
  rewrite !potential_fin in E; try (apply blend_wf; lra); try (cbn; lia); try (unfold entries, phiA, phiB; cbn; lra).
  2,3: intros j Hj; unfold entries, phiA, phiB; destruct j as [|[|j]]; cbn; try lra; cbn in Hj; lia.
  injection E as E. unfold mu_of, fh, dfh, entries, phiA, phiB in E. cbn in E.
  assert (L : ln (1 / 4) = 2 * ln (1 / 2)).
  { replace (1 / 4) with (1 / 2 * (1 / 2)) by field. rewrite ln_mult by lra. ring. }
  assert (N : ln (1 / 2) < 0) by (rewrite <- ln_1; apply ln_increasing; lra).
  rewrite L in E. lra.
Qed.

(** ** Relabelling *)
Example case_C58 : renamed_fe (fun i => 1 - i)%nat (blend 3 2)
  {| fe_nc := 2; fe_chis := fe_chis (blend 3 2); fe_sizes := fun i => if Nat.eqb i 0 then 2 else 1 |}.
Proof.
  split; [reflexivity|]. cbn [fe_nc blend]. split; [intros; lia|]. split; [intros; lia|]. split.
  - intros i j Hi Hj. destruct i as [|[|i]]; [| |lia]; (destruct j as [|[|j]]; [| |lia]); reflexivity.
  - intros i Hi. destruct i as [|[|i]]; [| |lia]; reflexivity.
Qed.
