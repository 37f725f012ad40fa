(** WitnessObjects.v -- concrete cases for C33-C37 and C55, and the
    counterexamples of C55. *)

From Coq Require Import String Reals Lra Lia List Bool Arith ZArith.
From Verif Require Import Base ModelCommon ModelParts ModelKernel ModelObjects PropertiesObjects Examples.
Import ListNotations.
Open Scope R_scope.

(** C33: blocks of sizes 2, 0 and 1 *)
Example C33_case :
  make_square_blocks [[1; 2; 3]; [2; 5; 6]; [3; 6; 9]]%nat 3 [2; 0; 1]%nat
  = Ok [[1; 1; 3]; [1; 1; 3]; [3; 3; 9]]%nat
  /\ in_block [2; 0; 1]%nat 0 1 /\ in_block [2; 0; 1]%nat 2 2.
Proof. unfold in_block, offset. cbn. repeat split; lia. Qed.

(** C34: a column matrix is used for every column *)
Definition col2 : nd := {| nd_shape := [2; 1]%nat; nd_at := fun idx => INR (nth 0 idx O) |}.
Example C34_case : spread col2 [2; 2]%nat (fun idx => INR (nth 0 idx O)).
Proof.
  destruct (C34_matrix col2 2) as (_ & _ & _ & _ & _ & H & _).
  destruct (H eq_refl) as (b & E & S & HB). exists b. split; [exact E|]. split; [exact S|].
  intros idx Hi. rewrite HB by exact Hi. destruct (f2_2 idx 2 2 Hi) as (i & j & -> & _). reflexivity.
Qed.
Example C34_case_rejected : convert_and_broadcast {| nd_shape := [3]%nat; nd_at := fun _ => 0 |} [2; 2]%nat = Err ValueError.
Proof. reflexivity. Qed.

(** C35, C36: an asymmetric matrix, then an assignment, a failed draw and a draw *)
Definition st0 : store := {| st_next := 0; st_cell := fun _ => floats (fun _ _ => 0) |}.
Definition asym : nd := {| nd_shape := [3; 3]%nat; nd_at := fun idx => INR (nth 0 idx O) |}.
(** a generator whose n-th normal number is n *)
Definition count_ops : rng_ops nat :=
  {| g_uniform := fun g => (1/2, S g); g_integers := fun g k => (O, S g);
     g_normal := fun g mean std => (INR g, S g); g_beta := fun g b => (1/2, S g) |}.

Example C35_case : exists s1 o, fh_new st0 3 asym = Ok (s1, o) /\
  chis_of (s1, o) 0%nat 2%nat = 1 /\
  symmetric (chis_of (chi_run count_ops (s1, o) [OUniform DFloat (3 / 2) false; ORandom 0 (-1) true O; OChis asym])).
Proof.
  destruct (C35_stored st0 3 asym eq_refl) as (s1 & o & E & _ & H & _). exists s1, o. split; [exact E|]. split.
  - rewrite H by lia. cbn. lra.
  - exact (C35_symmetric count_ops st0 3 asym s1 o _ E).
Qed.

Example C36_case : exists s1 o, fh_new st0 3 asym = Ok (s1, o) /\
  let chis := chis_of (chi_do count_ops (chi_run count_ops (s1, o) [OUniform DFloat 2 true]) (ORandom 0 1 true 5%nat)) in
  chis 0%nat 1%nat = 5 /\ chis 0%nat 2%nat = 6 /\ chis 1%nat 2%nat = 7 /\ chis 2%nat 0%nat = 6.
Proof.
  destruct (C35_stored st0 3 asym eq_refl) as (s1 & o & E & _). exists s1, o. split; [exact E|].
  destruct (C36_draws count_ops st0 3 asym s1 o [OUniform DFloat 2 true] 0 1 true 5%nat E) as (_ & _ & H);
    [repeat constructor|lra|].
  cbv zeta in *. pose proof (H 0%nat 0%nat 1%nat eq_refl) as [H1 _]. pose proof (H 1%nat 0%nat 2%nat eq_refl) as [H2 H2'].
  pose proof (H 2%nat 1%nat 2%nat eq_refl) as [H3 _].
  rewrite H1, H2, H3, H2'. cbn. lra.
Qed.

Definition half_ops : rng_ops nat :=
  {| g_uniform := fun g => (1/2, S g); g_integers := fun g k => (O, S g);
     g_normal := fun g mean std => (1/2, S g); g_beta := fun g b => (1/2, S g) |}.
Example C36_refuted_case : exists s1 o,
  fh_new st0 2 (scalar 0) = Ok (s1, o) /\
  let so := chi_run half_ops (s1, o) [OUniform DInt 3 true] in
  chis_of (chi_do half_ops so (ORandom 0 1 true 0%nat)) 0%nat 1%nat = 0 /\ fst (normals half_ops 1 0 1 0%nat) = [1 / 2].
Proof. exact (C36_draws_refuted half_ops 0%nat (fun _ _ _ => eq_refl)). Qed.

(** C37: features with 2 and 1 components, chi = 3 between them *)
Definition feat2 : nd := {| nd_shape := [2; 2]%nat; nd_at := fun idx => if Nat.eqb (nth 0 idx O) (nth 1 idx O) then 0 else 3 |}.
Example C37_case : exists s1 o, block_new st0 2 feat2 [2; 1]%nat = Ok (s1, o) /\
  z_at (st_cell s1 (bo_chis o)) 1%nat 2%nat = 3 /\ z_at (st_cell s1 (bo_chis o)) 0%nat 1%nat = 0.
Proof.
  destruct (C37_constructor st0 2 feat2 [2; 1]%nat) as (s1 & o & E & _ & HF & HC); [reflexivity|reflexivity| |].
  - intros i j Hi Hj. unfold mat_of_nd. cbn. rewrite (Nat.eqb_sym j i).
    rewrite Rminus_diag_eq, Rabs_R0 by reflexivity. pose proof (Rabs_pos (if Nat.eqb i j then 0 else 3)). lra.
  - exists s1, o. split; [exact E|].
    rewrite (HC 1%nat 2%nat 0%nat 1%nat), (HC 0%nat 1%nat 0%nat 0%nat) by (unfold in_block, offset; cbn; lia).
    rewrite !HF by lia. cbn. lra.
Qed.
Example C37_asymmetric_case : block_new st0 2 {| nd_shape := [2; 2]%nat; nd_at := fun idx => INR (nth 0 idx O) |} [2; 1]%nat = Err AttributeError.
Proof.
  apply C37_asymmetric_refuted; [reflexivity|reflexivity|]. intros H. specialize (H 1%nat 0%nat ltac:(lia) ltac:(lia)).
  unfold mat_of_nd in H. cbn in H. rewrite Rminus_0_r, Rabs_R1, Rabs_R0 in H. lra.
Qed.

(* ------------------------------------------------------------------ *)
(** * C55 *)

(** arrays 0: chis (2 x 2), 1: sizes, 2: means or activities, 3: Cs, 4: Ts,
    5: expanded block matrix *)
Definition cells (canon : bool) (a : nat) : cell :=
  {| z_type := DFloat; z_writeable := negb (canon && Nat.eqb a 2);
     z_at := fun i j => if Nat.eqb a 0 then ex_chi i j else 1 |}.
Definition world0 (block canon : bool) : world :=
  {| u_store := {| st_next := 6; st_cell := cells canon |};
     u_int := if block then UBlock {| bo_nf := 2; bo_npf := [1; 1]%nat; bo_nc := 2; bo_feat := 0; bo_chis := 5 |}
              else UFH {| fo_nc := 2; fo_chis := 0 |};
     u_ent := {| go_nc := 2; go_npf := None; go_sizes := 1 |};
     u_ens := if canon then UCan {| co_nc := 2; co_means := 2 |} else UGC {| xo_nc := 2; xo_act := 2 |};
     u_lin := {| lo_cons := 1; lo_feat := 2; lo_Cs := 3; lo_Ts := 4 |};
     u_exposed := [0; 1; 2; 3; 4; 5]%nat |}.

Lemma world0_ok block canon : world_ok (world0 block canon).
Proof.
  split; cbn.
  - intuition lia.
  - destruct block; intros a; cbn; intuition lia.
  - destruct canon; intros a; cbn; intuition lia.
  - destruct block; intros f H; [discriminate H|]. injection H as <-. cbn. now rewrite andb_false_r.
  - destruct canon; intros f H; [|discriminate H]. injection H as <-. reflexivity.
Qed.

(** The interaction is unaffected by a write into the user's matrix, a
    reassignment and a random draw. *)
Example C55_case (xs := [Write 0 0 1 7; SetUniform DFloat 5 true; SetRandom 0 1 true O; Write 2 0 0 3] : list (action (G := nat))) :
  let '(u1, r) := compile_world (world0 false true) 0 in
  i_potential (seen_interaction (u_store (acts count_ops u1 xs)) r) (fun _ _ => 1) 0%nat 0%nat = 3 /\
  seen_ensemble (u_store (acts count_ops u1 xs)) r = can_compiled 2 (fun _ => 1).
Proof.
  destruct (compile_world (world0 false true) 0) as [u1 r] eqn:E. split.
  - rewrite (C55_interaction count_ops _ 0 u1 r {| fo_nc := 2; fo_chis := 0 |} xs (world0_ok false true) eq_refl E).
    cbn. unfold ex_chi. cbn. lra.
  - exact (C55_canonical count_ops _ 0 u1 r {| co_nc := 2; co_means := 2 |} xs (world0_ok false true) eq_refl E).
Qed.

(** False for grand-canonical ensembles: writing into [scaled_activity] after
    the finder was created changes the fractions it computes with. *)
Theorem C55_activity_refuted :
  let '(u1, r) := compile_world (world0 false false) 0 in
  let normal u := n_normalize (seen_ensemble (u_store u) r) (fun _ _ => 1) (fun _ => 1) (fun _ => 1) in
  exists before after, normal u1 = Ok before /\ normal (act count_ops u1 (Write 2 0 0 5)) = Ok after /\
    fst before 0%nat 0%nat = 1 /\ fst after 0%nat 0%nat = 5.
Proof.
  cbn. do 2 eexists. split; [reflexivity|]. split; [reflexivity|]. cbn. unfold upd2. cbn. split; ring.
Qed.

(** False for constraints: [Cs] and [Ts]. *)
Theorem C55_constraint_refuted :
  let '(u1, r) := compile_world (world0 false true) 0 in
  l_Ts (seen_constraint (u_store u1) r 1 1) 0%nat = 1 /\
  l_Ts (seen_constraint (u_store (act count_ops u1 (Write 4 0 0 5))) r 1 1) 0%nat = 5 /\
  l_Cs (seen_constraint (u_store u1) r 1 1) 0%nat 1%nat = 1 /\
  l_Cs (seen_constraint (u_store (act count_ops u1 (Write 3 0 1 5))) r 1 1) 0%nat 1%nat = 5.
Proof. cbn. unfold upd2. cbn. auto. Qed.

(** False for block interactions: writing into [chis_feat] changes the
    potential, while the coefficient of the incompressibility term stays the
    one of the old matrix. *)
Theorem C55_block_refuted :
  let '(u1, r) := compile_world (world0 true true) 0 in
  let u2 := act count_ops u1 (Write 0 0 1 7) in
  i_potential (seen_interaction (u_store u1) r) (fun _ _ => 1) 0%nat 0%nat = 3 /\
  i_potential (seen_interaction (u_store u2) r) (fun _ _ => 1) 0%nat 0%nat = 7 /\
  i_coef (seen_interaction (u_store u2) r) = i_coef (seen_interaction (u_store u1) r).
Proof. cbn. unfold upd2, ex_chi. cbn. repeat split; lra. Qed.
