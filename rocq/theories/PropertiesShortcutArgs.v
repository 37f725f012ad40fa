(** PropertiesShortcutArgs.v -- C56: the keyword argument of the interaction and
    the arguments that find_coexisting_phases rejects. *)

From Coq Require Import String Reals Lra Lia List Bool Arith ZArith.
From Verif Require Import Base ModelCommon ModelParts ModelKernel ModelPhases ModelFinder ModelObjects PropertiesObjects
  ModelShortcut Examples WitnessKernel WitnessFinder PropertiesPhases WitnessPhases PropertiesShortcut WitnessShortcut.
Import ListNotations.
Open Scope R_scope.

Lemma bc_or a shape : (exists b, convert_and_broadcast a shape = Ok b) \/ convert_and_broadcast a shape = Err ValueError.
Proof. unfold convert_and_broadcast, broadcast_to. destruct (bc_ok _ _); eauto. Qed.

Section Args.
Context {G St : Type} (ops : rng_ops G) (no : nat -> cons_obj St).
Context (fcluster : list (list R) -> list nat) (argsort : list R -> list nat).

(** the value of [additional_chis_shift]: the keyword argument, or one *)
Definition shift_given (kw : dict) (s : R) : Prop :=
  match dict_get kw "additional_chis_shift" with Some v => s = v | None => s = 1 end.

(** C56: the step of the finder is scaled by the sum of the symmetrised matrix
    raised to a minimum of [additional_chis_shift], one unless it is given. *)
Theorem C56_shift nc chis means sizes cons np par kw g f s :
  shortcut_finder ops no nc chis means sizes cons np par kw g = Ok f ->
  nd_shape chis = [nc; nc] -> shift_given kw s ->
  exists A low,
    (forall r c, (r < nc)%nat -> (c < nc)%nat -> A r c = 1 / 2 * (nd_at chis [r; c] + nd_at chis [c; r])) /\
    (forall r c, (r < nc)%nat -> (c < nc)%nat -> low <= A r c) /\
    (exists r c, (r < nc)%nat /\ (c < nc)%nat /\ low = A r c) /\
    (forall phi m, i_coef (f_inter f) phi m = rsum nc (fun r => rsum nc (fun c => A r c - low + s))) /\
    (forall phi m, 0 < s -> s * INR nc * INR nc <= i_coef (f_inter f) phi m).
Proof.
  intros Ef0 HS HSh. unfold shortcut_finder in Ef0. apply bind_Ok in Ef0. destruct Ef0 as (A & EA & Ef0).
  apply bind_Ok in Ef0. destruct Ef0 as (l & El & Ef0). apply bind_Ok in Ef0. destruct Ef0 as (x & Ex & Ef0).
  assert (Hnc : (0 < nc)%nat).
  { unfold given_means in Ex. destruct (Nat.ltb_spec nc 1); [discriminate Ex|lia]. }
  unfold create in Ef0.
  assert (EI : compiled (fh_object nc A) kw = Ok (fh_compile nc A s)).
  { unfold shift_given in HSh. unfold compiled, py_call, filter_kwargs. cbn [fh_object a_params a_impl flat_map].
    destruct (dict_get kw "additional_chis_shift"); cbn; subst s; reflexivity. }
  rewrite EI in Ef0. cbn in Ef0. apply bind_Ok in Ef0. destruct Ef0 as (cs & _ & Ef0).
  apply bind_Ok in Ef0. destruct Ef0 as (_ & _ & Ef0). apply bind_Ok in Ef0. destruct Ef0 as (_ & _ & Ef0).
  apply bind_Ok in Ef0. destruct Ef0 as (_ & _ & Ef0). apply bind_Ok in Ef0. destruct Ef0 as (_ & _ & Ef0).
  injection Ef0 as Ef0. unfold reinitialize_random in Ef0. destruct (draw_normal _ _ _ _ _) as [w0 g0].
  assert (FI : f_inter f = fh_compile nc A s) by (rewrite <- Ef0; reflexivity). rewrite FI.
  assert (LO : forall r c, (r < nc)%nat -> (c < nc)%nat -> mat_min nc A <= A r c).
  { intros r c Hr Hc. unfold mat_min. eapply Rle_trans; [apply (vmin_le nc _ r Hr)|]. apply (vmin_le nc _ c Hc). }
  assert (CO : mat_sum nc A + (- mat_min nc A + s) * INR nc * INR nc = rsum nc (fun r => rsum nc (fun c => A r c - mat_min nc A + s))).
  { unfold mat_sum.
    rewrite (rsum_ext nc (fun r => rsum nc (fun c => A r c - mat_min nc A + s))
      (fun r => rsum nc (fun c => A r c) + (- mat_min nc A + s) * INR nc)).
    - rewrite rsum_plus. f_equal. rewrite rsum_const. apply Rmult_comm.
    - intros r Hr. rewrite (rsum_ext nc _ (fun c => A r c + (- mat_min nc A + s))) by (intros; ring).
      rewrite rsum_plus. f_equal. rewrite rsum_const. apply Rmult_comm. }
  exists A, (mat_min nc A). split; [|split; [exact LO|split; [|split]]].
  - intros r c Hr Hc. unfold given_chis in EA. apply bind_Ok in EA. destruct EA as (b & Eb & EA). injection EA as <-.
    destruct (proj1 (proj2 (proj2 (proj2 (proj2 (proj2 (proj2 (C34_matrix chis nc))))))) HS) as (b' & Eb' & _ & Hb).
    rewrite Eb in Eb'. injection Eb' as <-. unfold symmetrize, mat_of_nd.
    rewrite !Hb by (repeat constructor; auto). reflexivity.
  - unfold mat_min. destruct (vmin_in nc (fun r => vmin nc (fun s => A r s)) Hnc) as (r & Hr & ->).
    destruct (vmin_in nc (fun s => A r s) Hnc) as (c & Hc & ->). exists r, c. auto.
  - intros phi m. exact CO.
  - intros phi m H0. change (s * INR nc * INR nc <= mat_sum nc A + (- mat_min nc A + s) * INR nc * INR nc). rewrite CO.
    replace (s * INR nc * INR nc) with (rsum nc (fun _ : nat => rsum nc (fun _ : nat => s))) by (rewrite !rsum_const; ring).
    apply rsum_le. intros r Hr. apply rsum_le. intros c Hc. specialize (LO r c Hr Hc). lra.
Qed.

(** C56: no components, or a matrix, sizes or mean fractions that do not match
    the number of components, raise ValueError and nothing is computed. *)
Theorem C56_rejected nc chis means sizes cons np par kw g :
  (nc = 0%nat \/
   ~ In (nd_shape chis) [[]; [1%nat]; [nc]; [1%nat; 1%nat]; [1%nat; nc]; [nc; 1%nat]; [nc; nc]] \/
   (exists a, sizes = Some a /\ ~ In (nd_shape a) [[]; [1%nat]; [nc]]) \/
   (exists a, means = Some a /\ ~ In (nd_shape a) [[]; [1%nat]; [nc]])) ->
  find_coexisting_phases ops no fcluster argsort nc chis means sizes cons np par kw g = Err ValueError.
Proof.
  intros H. unfold find_coexisting_phases, shortcut_finder, given_chis, given_sizes, given_means.
  destruct (bc_or chis [nc; nc]) as [(b & E)|E].
  2: now rewrite E.
  rewrite E. cbn [bind].
  assert (V : forall a, ~ In (nd_shape a) [[]; [1%nat]; [nc]] -> convert_and_broadcast a [nc] = Err ValueError).
  { intros a N. apply (C34_vector a nc); intros K; apply N; rewrite K; cbn; auto. }
  destruct sizes as [a|].
  - destruct (bc_or a [nc]) as [(b1 & E1)|E1]; rewrite E1; cbn [bind]; [|reflexivity].
    destruct (Nat.ltb_spec nc 1); [reflexivity|].
    destruct H as [H|[H|[(a1 & [= <-] & H)|(a1 & -> & H)]]]; [lia| | |].
    + rewrite (proj2 (proj2 (proj2 (proj2 (proj2 (proj2 (proj2 (C34_matrix chis nc))))))) H) in E. discriminate E.
    + rewrite (V a H) in E1. discriminate E1.
    + rewrite (V a1 H). reflexivity.
  - cbn [bind]. destruct (Nat.ltb_spec nc 1); [reflexivity|].
    destruct H as [H|[H|[(a1 & [=] & H)|(a1 & -> & H)]]]; [lia| |].
    + rewrite (proj2 (proj2 (proj2 (proj2 (proj2 (proj2 (proj2 (C34_matrix chis nc))))))) H) in E. discriminate E.
    + rewrite (V a1 H). reflexivity.
Qed.
End Args.

(** The matrix of C56_case has entries 4 off the diagonal: the coefficient is
    1 + 5 + 5 + 1 with the default shift. *)
Example C56_shift_case f : shortcut_finder ops0 no0 2 chis2 (Some means2) None CA_none (Some 3%nat) (ex_par 0 2) [] O = Ok f ->
  i_coef (f_inter f) (fun _ _ => 0) O = 12.
Proof.
  intros E. destruct (C56_shift ops0 no0 2 chis2 (Some means2) None CA_none (Some 3%nat) (ex_par 0 2) [] O f 1 E eq_refl eq_refl)
    as (A & low & HA & HL & (r & c & Hr & Hc & Hlow) & HC & _).
  assert (A00 : A 0%nat 0%nat = 0) by (rewrite HA by lia; cbn; lra).
  assert (A01 : A 0%nat 1%nat = 4) by (rewrite HA by lia; cbn; lra).
  assert (A10 : A 1%nat 0%nat = 4) by (rewrite HA by lia; cbn; lra).
  assert (A11 : A 1%nat 1%nat = 0) by (rewrite HA by lia; cbn; lra).
  assert (L : low = 0).
  { pose proof (HL 0%nat 0%nat ltac:(lia) ltac:(lia)).
    destruct r as [|[|r]], c as [|[|c]]; try lia; lra. }
  rewrite HC. cbn [rsum]. rewrite A00, A01, A10, A11, L. lra.
Qed.

(** three mean fractions for two components *)
Example C56_rejected_case :
  find_coexisting_phases ops0 no0 fcluster3 argsort0 2 chis2 (Some {| nd_shape := [3%nat]; nd_at := fun _ => 1 / 3 |}) None CA_none
    (Some 3%nat) (ex_par 0 2) [] O = Err ValueError.
Proof.
  apply C56_rejected. do 3 right. eexists. split; [reflexivity|]. cbn. intros [H|[H|[H|[]]]]; discriminate H.
Qed.
