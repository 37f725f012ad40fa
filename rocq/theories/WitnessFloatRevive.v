(** WitnessFloatRevive.v -- revival in double precision: a case of C97. *)

From Flocq Require Import Core BinarySingleNaN.
From Coq Require Import Reals ZArith List Bool Arith Lia Lra.
From Verif Require Import Base ModelParts ModelKernel ModelFloat ModelFloatKernel ModelFloatParts PropertiesFloat
  ProofsKernel ProofsFloatKernel ProofsRounding PropertiesRounding ProofsFloatError PropertiesFloatError
  PropertiesFloatParts ProofsFloatRevive PropertiesFloatRevive WitnessFloatError.
Import ListNotations.
Open Scope R_scope.

Definition draw_pf : platform64 nat := {|
  pf_exp := exp64; pf_int := fun _ => 0%Z;
  pf_uniform := fun g => (half64, S g);
  pf_integers := fun g k => (Nat.modulo g k, S g)
|}.
Definition draw_ops : rng_ops nat := {|
  g_uniform := fun g => (/ 2, S g);
  g_integers := fun g k => (Nat.modulo g k, S g);
  g_normal := fun g a s => (a, S g);
  g_beta := fun g b => (1 / 2, S g)
|}.
Lemma draw_same : same_draws draw_pf draw_ops.
Proof. split; [reflexivity|]. intros g. split; [apply is_half|reflexivity]. Qed.
Lemma draw_contract : rng_contract draw_ops.
Proof. split; intros; cbn -[Nat.modulo]; try lra. apply Nat.mod_upper_bound. lia. Qed.

(** three compartments, the last one dead; fields 0, 3 and 1 *)
Definition r_J : vec64 := fun m => match m with O => one64 | 1%nat => ofZ64 2 | _ => zero64 end.
Definition r_t : mat64 := fun _ m => match m with O => zero64 | 1%nat => ofZ64 3 | _ => one64 end.

Lemma r_J_fin m : (m < 3)%nat -> fin (r_J m).
Proof. intros L. destruct m as [|[|[|m]]]; try reflexivity. Qed.
Lemma r_grain m : (m < 3)%nat -> 2 * B2R zero64 < B2R (r_J m) -> bpow radix2 (-1021 + Z.of_nat 3) <= B2R (r_J m).
Proof.
  intros L H. apply Rle_trans with (bpow radix2 0); [apply bpow_le; lia|].
  destruct m as [|[|m]]; cbn [r_J] in *; rewrite ?B2R_one, ?B2R_two in *; cbn in *; lra.
Qed.

(** copying, threshold 0 (the default): compartment 1 gives half of its volume (the
    generator is in state 1 and picks the second donor) *)
Example C97_copy_case : exists J' t' g',
  revive_copy64 draw_pf 3 r_J r_t zero64 1%nat = Ok (J', t', g') /\
  (forall m, (m < 3)%nat -> B2R (J' m) = 1) /\ B2R (t' O 2%nat) = 3 /\
  (forall m, (m < 3)%nat -> is_finite (J' m) = true /\ B2R zero64 < B2R (J' m)) /\
  rsum 3 (fun m => B2R (J' m)) = 3.
Proof.
  destruct (C97_copy_succeeds draw_pf draw_ops 3 zero64 r_J r_t 1%nat draw_same draw_contract eq_refl (Rle_refl _) r_J_fin
    (or_intror r_grain)) as [S _].
  destruct S as (J' & t' & g' & E).
  { cbn [rsum r_J]. rewrite B2R_one, B2R_two. cbn [B2R zero64]. repeat destruct (Rlt_dec _ _); lra. }
  assert (V : match revive_copy64 draw_pf 3 r_J r_t zero64 1%nat with
              | Ok (J, t, _) => B2R (J 0%nat) = 1 /\ B2R (J 1%nat) = 1 /\ B2R (J 2%nat) = 1 /\ B2R (t 0%nat 2%nat) = 3
              | Err _ => False end) by (vm_compute; repeat split; lra).
  rewrite E in V.
  exists J', t', g'. split; [exact E|].
  destruct (C97_copy draw_pf draw_ops 3 zero64 r_J r_t 1%nat J' t' g' draw_same draw_contract eq_refl (Rle_refl _) r_J_fin
    (or_intror r_grain) E) as (P1 & _ & P3 & _).
  split; [|split; [|split; [exact P1|]]].
  - intros m L. destruct m as [|[|[|m]]]; [apply V|apply V|apply V|lia].
  - apply V.
  - rewrite P3. cbn [rsum r_J]. rewrite B2R_one, B2R_two. cbn [B2R zero64]. repeat destruct (Rlt_dec _ _); lra.
Qed.

(** drawing: the field of the dead compartment is 3/2 + 3/2 * 1 * 1/2 = 9/4 up to
    rounding *)
Example C97_random_case :
  let '(c, J', t', g') := revive_random64 draw_pf 1 3 r_J r_t zero64 1%nat one64 in
  c = 1%nat /\ g' = 2%nat /\ B2R (J' 2%nat) = 1 /\ Rabs (B2R (t' O 2%nat) - 9 / 4) <= / 10 ^ 14.
Proof.
  pose proof (C97_random draw_pf draw_ops 1 3 zero64 r_J r_t one64 3 1 1%nat draw_same draw_contract ltac:(lia) eq_refl r_J_fin) as R.
  assert (H1 : forall i m, (i < 1)%nat -> (m < 3)%nat -> is_finite (r_t i m) = true /\ Rabs (B2R (r_t i m)) <= 3).
  { intros i m _ L. destruct m as [|[|m]]; cbn [r_t].
    - cbn. rewrite Rabs_R0. split; [reflexivity|lra].
    - destruct (B2R_ofZ 3) as [F ->]; [lia|]. rewrite Rabs_pos_eq by lra. split; [exact F|lra].
    - rewrite B2R_one, Rabs_R1. split; [reflexivity|lra]. }
  assert (H2 : is_finite one64 = true /\ Rabs (B2R one64) <= 1) by (rewrite B2R_one, Rabs_R1; split; [reflexivity|lra]).
  assert (H3 : 2 * (3 * 1) <= bpow radix2 1000).
  { apply Rle_trans with (bpow radix2 3); [cbn; lra|apply bpow_le; lia]. }
  specialize (R H1 H2 ltac:(lra) ltac:(lra) H3).
  destruct (revive_random64 draw_pf 1 3 r_J r_t zero64 1%nat one64) as [[[c J'] t'] g'].
  destruct (revive_by_random draw_ops 1 3 (fun m => B2R (r_J m)) (fun i m => B2R (r_t i m)) (B2R zero64) 1%nat (B2R one64))
    as [[[cr Jr] tr] gr] eqn:E.
  destruct R as (-> & -> & R3 & R4 & _).
  assert (Rleb 1 0 = false) as X by (apply Rleb_false; lra).
  assert (Rleb 2 0 = false) as Y by (apply Rleb_false; lra).
  assert (Rleb 0 0 = true) as Z by (apply Rleb_true; lra).
  unfold revive_by_random in E. do 3 (cbn [for_ r_J B2R zero64] in E; rewrite ?B2R_one, ?B2R_two, ?X, ?Y, ?Z in E).
  cbn [redraw_column for_ g_uniform draw_ops] in E. injection E as <- <- <- <-.
  split; [reflexivity|]. split; [reflexivity|]. split; [apply (R3 2%nat); lia|].
  destruct (R4 O 2%nat ltac:(lia) ltac:(lia)) as [_ R]; [cbn; lra|].
  cbn [upd2 Nat.eqb andb] in R. unfold target_center, target_width in R.
  assert (V : vmax 3 (fun m => B2R (r_t O m)) = 3 /\ vmin 3 (fun m => B2R (r_t O m)) = 0).
  { cbn [vmax vmin r_t]. rewrite B2R_one. destruct (B2R_ofZ 3) as [_ ->]; [lia|]. cbn [B2R zero64].
    split; unfold Rmax, Rmin; repeat destruct (Rle_dec _ _); lra. }
  destruct V as [V1 V2]. cbv beta in R. rewrite V1, V2 in R.
  replace (9 / 4) with ((3 + 0) * (1 / 2) + (3 - 0) * (1 / 2) * 1 * / 2) by lra.
  apply Rle_trans with (1 := R). lra.
Qed.
