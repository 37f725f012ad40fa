(** WitnessOwnership.v -- concrete cases for C70. *)

From Coq Require Import String Reals Lra Lia List Bool Arith ZArith.
From Verif Require Import Base ModelCommon ModelParts ModelKernel ModelPhases ModelFinder ModelHistory ModelOwnership
  ProofsKernel ProofsSteps ProofsRun Spec Examples WitnessFinder PropertiesOwnership.
Import ListNotations.
Open Scope R_scope.

Definition ow_J : vec := fun _ => 1.
Definition ow_f : finder nat cstate := ex_finder 2 ow_J 0 0.
Definition ow_no : nat -> cons_obj cstate := no0.
Definition ow : memory nat cstate :=
  {| y_next := 1; y_at := fun _ => field_array ow_f; y_f := ow_f; y_om := 0; y_held := [] |}.

Lemma ow_sound : sound ow.
Proof. split; [cbn; lia|constructor]. Qed.

(** A run, then writes into both arrays of the result, a second run and a
    write into the array detached by a reinitialisation: harmless. *)
Definition ow_story : list (deed cstate) :=
  [GetOmegas; Call (CRun (Some 1) (Some 0) (Some 1)); WriteTo 1 0 0 7; WriteTo 2 1 1 8; Call CReinitRandom; WriteTo 0 0 0 9].

Example case_C70 : exists f' ph,
  run ops0 (current ow) (Some 1) (Some 0) (Some 1) = (f', Ok ph) /\
  harmless ops0 ow_no ow ow_story /\
  calls ops0 ow_no ow ow_story = [CRun (Some 1) (Some 0) (Some 1); CReinitRandom] /\
  (let m := do_all ops0 ow_no ow ow_story in
   ar_at (y_at m 1%nat) 0%nat 0%nat = 7 /\ ar_at (y_at m 1%nat) 0%nat 1%nat = nth 1 (p_vol ph) 0 /\
   ar_at (y_at m 2%nat) 1%nat 1%nat = 8 /\ ar_at (y_at m 0%nat) 0%nat 0%nat = 9 /\
   y_om m = 3%nat /\ current m = reinitialize_random ops0 f').
Proof.
  destruct (ex_run 2 ow_J 1 1) as (f' & ph & E); [exists 0%nat; split; [lia|unfold ow_J; lra]|lra|lra|].
  assert (EC : current ow = ow_f) by reflexivity.
  exists f', ph. rewrite EC. split; [exact E|].
  set (m1 := do_deed ops0 ow_no ow GetOmegas).
  set (m2 := do_deed ops0 ow_no m1 (Call (CRun (Some 1) (Some 0) (Some 1)))).
  assert (E2 : m2 = add_result (store_in_place m1 f') ph).
  { unfold m2. cbn [do_deed call_of fold_left]. unfold call_on. change (current m1) with ow_f. unfold exec, ow_f. rewrite E. reflexivity. }
  set (m3 := do_deed ops0 ow_no m2 (WriteTo 1 0 0 7)).
  set (m4 := do_deed ops0 ow_no m3 (WriteTo 2 1 1 8)).
  set (m5 := do_deed ops0 ow_no m4 (Call CReinitRandom)).
  set (m6 := do_deed ops0 ow_no m5 (WriteTo 0 0 0 9)).
  assert (S2 : sound m2).
  { apply (deed_facts ops0 ow_no m1 _ 0%nat). apply (deed_facts ops0 ow_no ow _ 0%nat ow_sound). }
  assert (C2 : current m2 = f').
  { rewrite E2. unfold add_result. rewrite !current_add_array; [apply current_store_in_place| |];
      repeat apply sound_add_array; apply sound_in_place; apply (deed_facts ops0 ow_no ow _ 0%nat ow_sound). }
  assert (O2 : y_om m2 = 0%nat) by now rewrite E2.
  assert (O3 : y_om m3 = 0%nat) by (unfold m3; cbn [do_deed]; rewrite E2; reflexivity).
  assert (O4 : y_om m4 = 0%nat) by (unfold m4, m3; cbn [do_deed]; rewrite E2; reflexivity).
  assert (O5 : y_om m5 = 3%nat) by (unfold m5, m4, m3; cbn [do_deed]; rewrite E2; reflexivity).
  assert (H : harmless ops0 ow_no ow ow_story).
  { unfold ow_story. cbn [harmless]. fold m1. fold m2. fold m3. fold m4. fold m5. rewrite O2, O3, O5. cbn [writes].
    repeat split; intros K; try exact K; discriminate K. }
  split; [exact H|]. split; [reflexivity|].
  change (do_all ops0 ow_no ow ow_story) with m6. cbv zeta.
  split; [|split; [|split; [|split; [|split]]]].
  1-5: unfold m6, m5, m4, m3; cbn [do_deed]; rewrite E2; reflexivity.
  change m6 with (do_all ops0 ow_no ow ow_story).
  rewrite (C70_isolated ops0 ow_no ow ow_story ow_sound H). change (calls ops0 ow_no ow ow_story) with
    [CRun (St := cstate) (Some 1) (Some 0) (Some 1); CReinitRandom]. rewrite EC. cbn [exec_all exec].
  unfold ow_f. rewrite E. reflexivity.
Qed.

(** C70_copies: the user passes an array of the right shape, then changes it. *)
Definition ow_give : list (deed cstate) :=
  [NewArray {| ar_shape := [2; 2]%nat; ar_at := fun i j => INR (2 * i + j) |}; GiveOmegas 1; WriteTo 1 0 0 100].
Example case_C70_copies : let m := do_all ops0 ow_no ow ow_give in
  v_omegas (f_k (current m)) 0%nat 0%nat = 0 /\ v_omegas (f_k (current m)) 1%nat 1%nat = 3 /\
  ar_at (y_at m 1%nat) 0%nat 0%nat = 100.
Proof. cbn. repeat split; lra. Qed.

(** C70_omegas_refuted: with an initial entry 1, writing 5 is seen by the finder. *)
Example case_C70_omegas : v_omegas (f_k (current ow)) 0%nat 0%nat = 1 /\
  v_omegas (f_k (current (do_all ops0 ow_no ow [GetOmegas; WriteTo (y_om ow) 0 0 5]))) 0%nat 0%nat = 5.
Proof. split; reflexivity. Qed.

(** C70_detached: the fields obtained before a random reinitialisation stay. *)
Example case_C70_detached : let m := do_all ops0 ow_no ow [GetOmegas; Call CReinitRandom; Call CReinitRandom] in
  y_om m = 2%nat /\ ar_at (y_at m 0%nat) 0%nat 0%nat = 1 /\ In 0%nat (y_held m).
Proof.
  cbv zeta. pose proof (C70_detached ops0 ow_no (do_all ops0 ow_no ow [GetOmegas]) CReinitRandom
    (fst (exec ops0 ow_no (current (do_all ops0 ow_no ow [GetOmegas])) CReinitRandom))) as H.
  cbv zeta in H. destruct H as (_ & _ & _ & _ & H).
  - split; [cbn; lia|]. repeat constructor.
  - reflexivity.
  - specialize (H [Call CReinitRandom] ltac:(constructor; [intros X; exact X|constructor])).
    split; [reflexivity|]. split; [|left; reflexivity].
    transitivity (ar_at (y_at (do_all ops0 ow_no ow [GetOmegas]) 0%nat) 0%nat 0%nat); [|reflexivity].
    exact (f_equal (fun x => ar_at x 0%nat 0%nat) H).
Qed.

(** after all of it the live array still has two rows and two columns *)
Example case_C70_shapes : let m := do_all ops0 ow_no ow ow_story in ar_shape (y_at m (y_om m)) = [f_nf ow_f; f_np ow_f].
Proof. exact (proj1 (C70_shapes ops0 ow_no ow ow_story ow_sound eq_refl)). Qed.
