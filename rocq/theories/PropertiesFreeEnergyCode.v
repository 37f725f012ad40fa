(** PropertiesFreeEnergyCode.v -- C41-C44 in terms of what [free_energy_density]
    itself returns instead of the formula of Flory and Huggins. *)

From Coquelicot Require Import Coquelicot.
From Coq Require Import Reals Lra Lia List Bool Arith ZArith.
From Verif Require Import Base ModelCommon ModelFreeEnergy ProofsFreeEnergy ProofsPhases PropertiesFreeEnergy.
Import ListNotations.
Open Scope R_scope.

(** C41: interaction and entropy are combined exactly if their numbers of components agree. *)
Theorem C41_constructor n chis m sizes :
  (n = m -> exists F, fe_new n chis m sizes = Ok F /\ fe_nc F = n /\ fe_chis F = chis /\ fe_sizes F = sizes) /\
  (n <> m -> fe_new n chis m sizes = Err ComponentNumberError).
Proof.
  unfold fe_new. destruct (Nat.eqb_spec n m); split; intros H; try congruence; try lia. eexists. split; [reflexivity|]. auto.
Qed.

(** The number returned by [free_energy_density] for a single composition. *)
Definition computed (F : fe) (v : vec) : R :=
  match free_energy_density F (One (listed (fe_nc F) v)) with
  | Ok (Single (Fin x)) => x
  | _ => 0
  end.

Lemma entries_listed n (v : vec) i : (i < n)%nat -> entries (listed n v) i = v i.
Proof. intros H. unfold entries. now rewrite listed_nth. Qed.

Lemma computed_ok F v : wf_fe F -> (forall i, (i < fe_nc F)%nat -> 0 <= v i) ->
  free_energy_density F (One (listed (fe_nc F) v)) = Ok (Single (Fin (density F v))).
Proof.
  intros WF HV. destruct (C41_value F (One (listed (fe_nc F) v)) WF I) as (o & E & H).
  - cbn. apply listed_length.
  - constructor; [|constructor]. apply Forall_forall. intros x Hx. unfold listed in Hx. apply in_map_iff in Hx.
    destruct Hx as (i & <- & Hi). apply in_seq in Hi. apply HV. lia.
  - rewrite E. destruct o as [x|]; [|contradiction]. cbn in H. rewrite H. f_equal. f_equal. f_equal. unfold density, fh. f_equal.
    + apply rsum_ext. intros i Hi. now rewrite entries_listed.
    + f_equal. apply rsum_ext. intros i Hi. apply rsum_ext. intros j Hj. now rewrite !entries_listed.
Qed.

(** The function is total on non-negative compositions: no default is used. *)
Theorem C41_total F v : wf_fe F -> (forall i, (i < fe_nc F)%nat -> 0 <= v i) ->
  free_energy_density F (One (listed (fe_nc F) v)) = Ok (Single (Fin (computed F v))).
Proof. intros WF HV. unfold computed. now rewrite (computed_ok F v WF HV). Qed.

Lemma computed_density F v : wf_fe F -> (forall i, (i < fe_nc F)%nat -> 0 <= v i) -> computed F v = density F v.
Proof. intros WF HV. unfold computed. now rewrite (computed_ok F v WF HV). Qed.

Lemma slope_computed F phi y v : wf_fe F -> (forall i, (i < fe_nc F)%nat -> 0 < phi i) ->
  slope (computed F) phi y v <-> slope (density F) phi y v.
Proof.
  intros WF HP. unfold slope.
  assert (L : locally 0 (fun t => computed F (along phi y t) = density F (along phi y t))).
  { generalize (along_pos (fe_nc F) phi y HP). apply filter_imp. intros t H. apply computed_density; auto.
    intros i Hi. left. auto. }
  split; intros H; (eapply is_derive_ext_loc; [|exact H]); [exact L|].
  revert L. apply filter_imp. auto.
Qed.

Lemma locally_both (P Q T : R -> Prop) : locally 0 P -> locally 0 Q -> (forall t, P t -> Q t -> T t) -> locally 0 T.
Proof.
  intros [d1 H1] [d2 H2] H. assert (D : 0 < Rmin d1 d2) by (apply Rmin_pos; [apply d1|apply d2]).
  exists (mkposreal _ D). intros t Ht. apply H.
  - apply H1. eapply ball_le; [|exact Ht]. apply Rmin_l.
  - apply H2. eapply ball_le; [|exact Ht]. apply Rmin_r.
Qed.

Lemma slope2_computed F phi y z v : wf_fe F -> (forall i, (i < fe_nc F)%nat -> 0 < phi i) ->
  slope2 (computed F) phi y z v <-> slope2 (density F) phi y z v.
Proof.
  intros WF HP. unfold slope2. pose proof (along_pos (fe_nc F) phi z HP) as HA. split.
  - intros (g & HL & HD). exists g. split; [|exact HD]. apply (locally_both _ _ _ HL HA).
    intros t H1 H2. exact (proj1 (slope_computed F (along phi z t) y (g t) WF H2) H1).
  - intros (g & HL & HD). exists g. split; [|exact HD]. apply (locally_both _ _ _ HL HA).
    intros t H1 H2. exact (proj2 (slope_computed F (along phi z t) y (g t) WF H2) H1).
Qed.

Lemma positive_row F phi : length phi = fe_nc F -> Forall (fun x => 0 < x) phi ->
  forall i, (i < fe_nc F)%nat -> 0 < entries phi i.
Proof. intros HL HP i Hi. apply positive_entries; [auto|lia]. Qed.

(** C42: jacobian returns the derivatives of what free_energy_density returns. *)
Theorem C42_of_computed F phi : wf_fe F -> length phi = fe_nc F -> Forall (fun x => 0 < x) phi ->
  exists j, jacobian F (One phi) None = Ok (Single j) /\ length j = fe_nc F /\
    forall i, (i < fe_nc F)%nat -> exists g, nth i j NaN = Fin g /\ slope (computed F) (entries phi) (unit_vec i) g.
Proof.
  intros WF HL HP. destruct (C42_gradient F (One phi) WF I HL) as (o & E & H); [repeat constructor; auto|].
  destruct o as [j|]; [|contradiction]. destruct H as (H1 & g & H2 & H3 & _). exists j. split; [exact E|]. split; [exact H1|].
  intros i Hi. exists (g i). split; [auto|]. apply slope_computed; auto; apply (positive_row F phi HL HP).
Qed.

(** C43: the same for the derivatives at constant total fraction. *)
Theorem C43_of_computed F phi z k : wf_fe F -> length phi = fe_nc F -> Forall (fun x => 0 < x) phi -> denotes (fe_nc F) z k ->
  exists j, jacobian F (One phi) (Some z) = Ok (Single j) /\ length j = (fe_nc F - 1)%nat /\
    forall a, (a < fe_nc F - 1)%nat -> exists v, nth a j NaN = Fin v /\
      slope (computed F) (entries phi) (exchange (skip k a) k) v.
Proof.
  intros WF HL HP HD. destruct (C43_conserved F (One phi) z k WF I HL) as (o & E & H); [repeat constructor; auto|auto|].
  destruct o as [j|]; [|contradiction]. destruct H as (H1 & H2). exists j. split; [exact E|]. split; [exact H1|].
  intros a Ha. destruct (H2 a Ha) as (v & Hv & HS). exists v. split; [auto|]. apply slope_computed; auto; apply (positive_row F phi HL HP).
Qed.

(** C44: the entries of the Hessian that are second derivatives of what
    free_energy_density returns. *)
Theorem C44_of_computed F phi : wf_fe F -> length phi = fe_nc F -> Forall (fun x => 0 < x) phi ->
  exists m, hessian F (One phi) None = Ok (Single m) /\
    forall i j, (i < fe_nc F)%nat -> (j < fe_nc F)%nat -> exists h, entry m i j = Fin h /\
      (slope2 (computed F) (entries phi) (unit_vec i) (unit_vec j) h <-> (i <> j \/ fe_sizes F i * fe_sizes F i = 1)).
Proof.
  intros WF HL HP. destruct (C44_when F (One phi) WF I HL) as (o & E & H); [repeat constructor; auto|].
  destruct o as [m|]; [|contradiction]. exists m. split; [exact E|]. intros i j Hi Hj.
  destruct (H i j Hi Hj) as (h & Eh & HI). exists h. split; [exact Eh|]. rewrite (slope2_computed F _ _ _ _ WF (positive_row F phi HL HP)). exact HI.
Qed.

Example case_C42_computed : exists j g,
  jacobian {| fe_nc := 2; fe_chis := fun i j => if Nat.eqb i j then 0 else 3; fe_sizes := fun i => INR (S i) |} (One [1/4; 1/2]) None
  = Ok (Single j) /\ nth 1 j NaN = Fin g /\
  slope (computed {| fe_nc := 2; fe_chis := fun i j => if Nat.eqb i j then 0 else 3; fe_sizes := fun i => INR (S i) |})
    (entries [1/4; 1/2]) (unit_vec 1) g.
Proof.
  destruct (C42_of_computed {| fe_nc := 2; fe_chis := fun i j => if Nat.eqb i j then 0 else 3; fe_sizes := fun i => INR (S i) |} [1/4; 1/2])
    as (j & E & _ & H).
  - split; cbn [fe_nc fe_sizes fe_chis].
    + intros i _. apply not_0_INR. lia.
    + intros i k _ _. now rewrite Nat.eqb_sym.
  - reflexivity.
  - repeat constructor; lra.
  - destruct (H 1%nat ltac:(cbn; lia)) as (g & Hg & HS). exists j, g. auto.
Qed.
