(** WitnessBinary.v -- concrete cases for PropertiesBinary.v. *)

From Coquelicot Require Import Coquelicot.
From Coq Require Import Reals Lra Lia List Bool Arith ZArith.
From Verif Require Import Base ModelCommon ModelParts ModelKernel ModelPhases ModelFinder ProofsKernel ProofsParts ProofsSteps
  ProofsRun ProofsRun2 ModelFreeEnergy ProofsFreeEnergy Spec Examples PropertiesKernel PropertiesRun PropertiesFreeEnergy
  PropertiesConstraints ProofsEquilibrium PropertiesEquilibrium PropertiesConvex PropertiesBinary WitnessEquilibrium.
Import ListNotations.
Open Scope R_scope.

(** The symmetric blend (chi = 2 ln 3) in four compartments. *)
Definition quad_q : kernel :=
  {| q_inter := fh_compile 2 sym_chi (1 / 10); q_entropy := ig_compiled 2 sym_sizes; q_ensemble := can_compiled 2 (fun _ => 1 / 2);
     q_nf := 2; q_np := 4; q_acc_J := 1 / 5000; q_ub := 1 / 1000; q_acc_w := 1 / 500; q_thr := 1 / 10; q_scaler := 1 |}.
Definition quad_phi (i m : nat) : R := sym_phi i (m mod 2).
Definition quad_k : kstate nat cstate :=
  {| v_omegas := fun i m => sym_mu i - 1 / 1 - ln (quad_phi i m) / 1; v_Js := fun _ => 1;
     v_phis_comp := fun _ _ => 0; v_phis_feat := fun _ _ => 0; v_cons := [new_cons (no_class 2)]; v_g := 0%nat |}.

Lemma quad_settled : exists k', settled quad_q quad_k k' 2 (fun i => i) sym_chi (1 / 10) sym_sizes (fun _ => 1 / 2) /\
  forall m i, (m < 4)%nat -> (i < 2)%nat -> v_phis_comp k' i m = quad_phi i m.
Proof.
  destruct (C12_coexistence_stationary quad_q quad_k 2 sym_chi (1/10) sym_sizes (fun _ => 1 / 2) quad_phi sym_mu)
    as (k' & nv & rep & H & E1 & E2 & E3 & E4); try reflexivity.
  - apply sym_admissible. intros; lra.
  - cbn; lra.
  - cbn; lra.
  - apply sym_idle.
  - exists 0%nat. split; [cbn; lia|]. unfold alive; cbn; lra.
  - intros m Hm _. cbn in Hm. assert (M2 : (m mod 2 < 2)%nat) by (apply Nat.mod_upper_bound; lia).
    split; [intros; apply sym_phi_pos|]. split; [|split].
    + unfold quad_phi. destruct (m mod 2) as [|[|?]]; [| |lia]; cbn; unfold sym_phi; cbn; lra.
    + now apply sym_potentials.
    + intros i Hi. reflexivity.
  - intros i Hi. unfold wmean, living. cbn. destruct (Rlt_dec (1/10) 1); [|lra].
    destruct i as [|[|?]]; [| |lia]; unfold quad_phi, sym_phi; cbn; field.
  - exists k'. split.
    + constructor; [now constructor|now left|apply sym_admissible; intros; lra|cbn; lra|apply sym_idle|exists nv, rep; auto].
    + intros m i Hm Hi. apply E4; auto. unfold alive; cbn; lra.
Qed.

Lemma quad_lives m : (m < 4)%nat -> lives quad_q quad_k m.
Proof. intros H. split; [exact H|]. unfold alive; cbn; lra. Qed.

(** C91: compartments 0 and 1 are different, so 2 agrees with one of them;
    the mean composition lies in between; and no arrangement of the material
    has a lower free energy, e.g. the homogeneous one. *)
Example case_C91_demixed : exists k', settled quad_q quad_k k' 2 (fun i => i) sym_chi (1 / 10) sym_sizes (fun _ => 1 / 2) /\
  ~ same k' k' 0%nat 1%nat /\ (same k' k' 1%nat 2%nat \/ same k' k' 0%nat 2%nat) /\
  v_phis_comp k' 0%nat 1%nat < 1 / 2 < v_phis_comp k' 0%nat 0%nat /\
  exists e, (forall o, lives quad_q quad_k o -> energy_is (fe_of 2 (fun i => i) sym_chi sym_sizes) (fun i => v_phis_comp k' i o) (e o)) /\
    wmean 4 (living (1 / 10) (fun _ => 1)) e <= fh 2 sym_chi sym_sizes (fun _ => 1 / 2).
Proof.
  destruct quad_settled as (k' & H & E). exists k'.
  assert (N : ~ same k' k' 0%nat 1%nat).
  { intros S. specialize (S 0%nat ltac:(lia)). rewrite !E in S by lia. unfold quad_phi, sym_phi in S. cbn in S. lra. }
  split; [exact H|]. split; [exact N|]. split; [|split].
  - destruct (C91_two_phases _ _ _ _ _ _ _ _ _ H 0%nat 1%nat 2%nat) as [X|[X|X]]; auto using quad_lives; try (apply quad_lives; lia). contradiction.
  - assert (L : v_phis_comp k' 0%nat 1%nat < v_phis_comp k' 0%nat 0%nat).
    { rewrite !E by lia. unfold quad_phi, sym_phi. cbn. lra. }
    exact (C91_lever quad_q quad_k k' _ _ _ _ _ (fun _ => 1 / 2) eq_refl H 1%nat 0%nat (quad_lives 1 ltac:(lia)) (quad_lives 0 ltac:(lia)) L).
  - destruct (C91_optimal quad_q quad_k k' _ _ _ _ _ (fun _ => 1 / 2) eq_refl H 0%nat 1%nat (quad_lives 0 ltac:(lia)) (quad_lives 1 ltac:(lia)) N) as (e & HE & O).
    exists e. split; [exact HE|].
    specialize (O 1%nat (fun _ => 1) (fun _ _ => 1 / 2) (fun _ => fh 2 sym_chi sym_sizes (fun _ => 1 / 2))).
    cbn [rsum] in O. rewrite <- (Rplus_0_l (fh 2 sym_chi sym_sizes (fun _ => 1 / 2))), <- (Rmult_1_l (fh 2 sym_chi sym_sizes (fun _ => 1 / 2))). apply O; try (intros; cbn; lra).
    intros j Hj. apply (energy_value (fe_of 2 (fun i => i) sym_chi sym_sizes) (fun _ => 1 / 2)); [|intros; lra].
    split; cbn; intros; [unfold sym_sizes; lra|]. unfold sym_chi. now rewrite Nat.eqb_sym.
Qed.

(** The plane of its chemical potentials supports the free energy. *)
Example case_C91_stable : exists mu, forall p e, 0 <= p <= 1 ->
  energy_is (fe_of 2 (fun i => i) sym_chi sym_sizes) (fun i => if Nat.eqb i 0 then p else 1 - p) e -> p * mu 0%nat + (1 - p) * mu 1%nat <= e.
Proof.
  destruct case_C91_demixed as (k' & H & N & _).
  destruct (C91_stable _ _ _ _ _ _ _ _ _ H 0%nat 1%nat (quad_lives 0 ltac:(lia)) (quad_lives 1 ltac:(lia)) N) as (mu & _ & S).
  exists mu. intros p e Hp He. assert (Q := fun A B => S (fun i => if Nat.eqb i 0 then p else 1 - p) e A B He). cbn in Q. rewrite !Rplus_0_l in Q. apply Q; [|lra].
  intros i Hi. destruct (Nat.eqb i 0); lra.
Qed.

(** Every other demixed state of this blend, in any ensemble and for any
    numerical parameters, consists of (3/4, 1/4) and (1/4, 3/4). *)
Example case_C91_unique q (h h' : kstate nat cstate) sh x m n : settled q h h' 2 (fun i => i) sym_chi sh sym_sizes x ->
  lives q h m -> lives q h n -> ~ same h' h' m n ->
  (v_phis_comp h' 0%nat m = 3 / 4 /\ v_phis_comp h' 0%nat n = 1 / 4) \/ (v_phis_comp h' 0%nat m = 1 / 4 /\ v_phis_comp h' 0%nat n = 3 / 4).
Proof.
  intros H' Hm Hn N'. destruct quad_settled as (k' & H & E).
  assert (N : ~ same k' k' 0%nat 1%nat).
  { intros S. specialize (S 0%nat ltac:(lia)). rewrite !E in S by lia. unfold quad_phi, sym_phi in S. cbn in S. lra. }
  assert (V0 : v_phis_comp k' 0%nat 0%nat = 3 / 4) by (rewrite E by lia; reflexivity).
  assert (V1 : v_phis_comp k' 0%nat 1%nat = 1 / 4) by (rewrite E by lia; reflexivity).
  destruct (C91_unique _ _ _ _ _ _ _ _ _ _ _ _ _ _ _ _ _ _ H H' ltac:(auto) ltac:(auto) 0%nat 1%nat m n
    (quad_lives 0 ltac:(lia)) (quad_lives 1 ltac:(lia)) N Hm Hn N') as [(A & B)|(A & B)];
    specialize (A 0%nat ltac:(lia)); specialize (B 0%nat ltac:(lia)); [left|right]; split; lra.
Qed.

(** The same two components with chi = 1, below the critical value 2. *)
Definition weak_chi : mat := fun i j => if Nat.eqb i j then 0 else 1.
Definition weak_mu (i : nat) : R := mu_of (fe_of 2 (fun i => i) weak_chi sym_sizes) (fun _ => 1 / 2) i.
Definition weak_q : kernel :=
  {| q_inter := fh_compile 2 weak_chi (1 / 10); q_entropy := ig_compiled 2 sym_sizes; q_ensemble := can_compiled 2 (fun _ => 1 / 2);
     q_nf := 2; q_np := 2; q_acc_J := 1 / 5000; q_ub := 1 / 1000; q_acc_w := 1 / 500; q_thr := 1 / 10; q_scaler := 1 |}.
Definition weak_k : kstate nat cstate :=
  {| v_omegas := fun i _ => weak_mu i - 1 / 1 - ln (1 / 2) / 1; v_Js := fun _ => 1;
     v_phis_comp := fun _ _ => 0; v_phis_feat := fun _ _ => 0; v_cons := [new_cons (no_class 2)]; v_g := 0%nat |}.

Lemma sqrt_one_critical : critical_repulsion sym_sizes = 4.
Proof. unfold critical_repulsion, sym_sizes. rewrite sqrt_1. field. Qed.

Example case_C91_one_phase : repulsion weak_chi (fun i => i) = 2 /\
  (exists k', settled weak_q weak_k k' 2 (fun i => i) weak_chi (1 / 10) sym_sizes (fun _ => 1 / 2) /\ same k' k' 0%nat 1%nat) /\
  forall q (k k' : kstate nat cstate) sh x, settled q k k' 2 (fun i => i) weak_chi sh sym_sizes x ->
  forall m n, lives q k m -> lives q k n -> same k' k' m n.
Proof.
  assert (R2 : repulsion weak_chi (fun i => i) = 2) by (unfold repulsion, weak_chi; cbn; lra).
  assert (ALL : forall q (k k' : kstate nat cstate) sh x, settled q k k' 2 (fun i => i) weak_chi sh sym_sizes x ->
    forall m n, lives q k m -> lives q k n -> same k' k' m n).
  { intros q k k' sh x H. apply (C91_one_phase _ _ _ _ _ _ _ _ _ H). rewrite R2, sqrt_one_critical. lra. }
  split; [exact R2|]. split; [|exact ALL].
  assert (AD : admissible 2 2 weak_chi sym_sizes (fun _ => 1 / 2)).
  { split; [lia|]. split; [intros; unfold weak_chi; now rewrite Nat.eqb_sym|]. split; intros; unfold sym_sizes; lra. }
  destruct (C12_coexistence_stationary weak_q weak_k 2 weak_chi (1 / 10) sym_sizes (fun _ => 1 / 2) (fun _ _ => 1 / 2) weak_mu)
    as (k' & nv & rep & H & E1 & E2 & E3 & _); try reflexivity; try (cbn; lra).
  - exact AD.
  - apply sym_idle.
  - exists 0%nat. split; [cbn; lia|]. unfold alive; cbn; lra.
  - intros m Hm _. split; [intros; lra|]. split; [cbn; lra|]. split; [|intros; reflexivity].
    apply potentials_mu; [|intros; lra]. destruct AD as (_ & A & B & _).
    split; cbn; [intros i Hi; specialize (B i Hi); lra|auto].
  - intros i Hi. unfold wmean, living. cbn. destruct (Rlt_dec (1 / 10) 1); [|lra]. field.
  - assert (S : settled weak_q weak_k k' 2 (fun i => i) weak_chi (1 / 10) sym_sizes (fun _ => 1 / 2)).
    { constructor; [now constructor|now left|exact AD|cbn; lra|apply sym_idle|exists nv, rep; auto]. }
    exists k'. split; [exact S|]. apply (ALL _ _ _ _ _ S); (split; [cbn; lia|unfold alive; cbn; lra]).
Qed.

(** chi = 3 with sizes 1 and 4 (critical value 9/8): there is a gap, and a
    state inside it. *)
Definition long_chi : mat := fun i j => if Nat.eqb i j then 0 else 3.
Definition long_sizes : vec := fun i => if Nat.eqb i 0 then 1 else 4.

Lemma long_gap : critical_repulsion long_sizes < repulsion long_chi (fun i => i).
Proof.
  unfold critical_repulsion, repulsion, long_sizes, long_chi. cbn. rewrite sqrt_1.
  replace 4 with (2 * 2) by ring. rewrite sqrt_square by lra. lra.
Qed.

Example case_C91_diagram : exists a b, 0 < a /\ a < b /\ b < 1 /\
  (forall q (k k' : kstate nat cstate) sh pm, q_ensemble q = can_compiled 2 pm -> settled q k k' 2 (fun i => i) long_chi sh long_sizes pm -> pm 0%nat <= a ->
     forall m i, lives q k m -> (i < 2)%nat -> v_phis_comp k' i m = pm i) /\
  exists q (k k' : kstate nat cstate) pm, q_ensemble q = can_compiled 2 pm /\ settled q k k' 2 (fun i => i) long_chi 0 long_sizes pm /\ 
     v_phis_comp k' 0%nat 0%nat = a /\ v_phis_comp k' 0%nat 1%nat = b /\ ~ same k' k' 0%nat 1%nat.
Proof.
  destruct (@C91_diagram nat long_chi long_sizes (fun i => i)) as (a & b & A & B & C & _ & OUT & mu & IN).
  - unfold long_sizes; cbn; lra.
  - unfold long_sizes; cbn; lra.
  - reflexivity.
  - exact long_gap.
  - exists a, b. split; [exact A|]. split; [exact B|]. split; [exact C|]. split.
    { intros q k k' sh pm HE H L. apply (OUT q k k' 2%nat sh pm HE H). now left. }
    set (p := (a + b) / 2). set (pm := fun i : nat => if Nat.eqb i 0 then p else 1 - p).
    set (q := {| q_inter := fh_compile 2 long_chi 0; q_entropy := ig_compiled 2 long_sizes; q_ensemble := can_compiled 2 pm;
       q_nf := 2; q_np := 2; q_acc_J := 1 / 5000; q_ub := 1 / 1000; q_acc_w := 1 / 500; q_thr := 1 / 10; q_scaler := 1 |}).
    set (k := {| v_omegas := fun i m => mu i - 1 / long_sizes i - ln (if Nat.eqb i 0 then (if Nat.eqb m 0 then a else b) else (1 - if Nat.eqb m 0 then a else b)) / long_sizes i;
       v_Js := fun _ => 1; v_phis_comp := fun _ _ => 0; v_phis_feat := fun _ _ => 0; v_cons := [new_cons (no_class 2)]; v_g := 0%nat |} : kstate nat cstate).
    destruct (IN q k 0 pm) as (k' & S & Ea & Eb); try reflexivity; try (cbn; lra); try (cbn; unfold p; lra).
    + apply sym_idle.
    + cbn. unfold p. field. lra.
    + cbn. unfold p. field. lra.
    + exists q, k, k', pm. split; [reflexivity|]. split; [exact S|]. split; [exact Ea|]. split; [exact Eb|].
      intros X. specialize (X 0%nat ltac:(lia)). lra.
Qed.
