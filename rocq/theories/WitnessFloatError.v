(** WitnessFloatError.v -- a concrete step for C96: [np.exp] rounded correctly, two
    components with chi = 3, two compartments, a local and a global constraint. *)

From Flocq Require Import Core BinarySingleNaN.
From Coq Require Import Reals ZArith List Bool Arith Lia Lra.
From Verif Require Import Base ModelParts ModelKernel ProofsParts ProofsKernel ProofsBounds ProofsEquilibrium ProofsSteps
  ModelFloat ModelFloatKernel ModelFloatParts PropertiesFloat ProofsFloatKernel ProofsRounding PropertiesRounding
  ProofsFloatError PropertiesFloatError PropertiesFloatParts.
Import ListNotations.
Open Scope R_scope.

(** the binary64 number nearest to the exponential *)
Definition exp64 (x : f64) : f64 :=
  let y := exp (B2R x) in
  @binary_normalize prec64 emax64 prec64_ok prec64_lt mode_NE
    (ZnearestE (scaled_mantissa radix2 fexp64 y)) (cexp radix2 fexp64 y) false.
Definition exact_pf : platform64 unit := {|
  pf_exp := exp64; pf_int := fun _ => 0%Z; pf_uniform := fun g => (half64, g); pf_integers := fun g _ => (O, g)
|}.

#[local] Instance fexp64_w : Valid_exp fexp64 := fexp_correct prec64 emax64 prec64_ok.
Lemma exp_range150 x : Rabs x <= 150 -> bpow radix2 (-300) <= exp x <= bpow radix2 300.
Proof.
  intros H. apply Rabs_le_inv in H.
  assert (M : forall a b, a <= b -> exp a <= exp b).
  { intros a b L. destruct (Rle_lt_or_eq_dec _ _ L) as [L'| ->]; [left; apply exp_increasing; exact L'|lra]. }
  assert (E4 : forall n, 4 ^ n = bpow radix2 (2 * Z.of_nat n)).
  { induction n as [|n IH]; [reflexivity|]. replace (2 * Z.of_nat (S n))%Z with (2 + 2 * Z.of_nat n)%Z by lia.
    rewrite bpow_plus, <- IH. reflexivity. }
  assert (U : exp 150 <= bpow radix2 300).
  { replace 150 with (INR 150) by (rewrite INR_IZR_INZ; reflexivity). rewrite exp_INR.
    change 300%Z with (2 * Z.of_nat 150)%Z. rewrite <- E4. apply pow_incr. pose proof (exp_pos 1). pose proof exp_le_3. lra. }
  split.
  - replace x with (- - x) by ring. rewrite exp_Ropp. change (-300)%Z with (- (300))%Z. rewrite bpow_opp.
    apply Rinv_le_contravar; [apply exp_pos|]. apply Rle_trans with (2 := U). apply M. lra.
  - apply Rle_trans with (2 := U). apply M. lra.
Qed.
Lemma exp64_round x : Rabs (B2R x) <= 150 -> fin (exp64 x) /\ B2R (exp64 x) = RN (exp (B2R x)).
Proof.
  intros L. unfold exp64. pose proof (exp_range150 _ L) as Ly. set (y := exp (B2R x)) in *.
  pose proof (@binary_normalize_correct prec64 emax64 prec64_ok prec64_lt mode_NE
    (ZnearestE (scaled_mantissa radix2 fexp64 y)) (cexp radix2 fexp64 y) false) as C.
  assert (E : F2R (Float radix2 (ZnearestE (scaled_mantissa radix2 fexp64 y)) (cexp radix2 fexp64 y)) = RN y) by reflexivity.
  cbv zeta in C. rewrite E in C.
  assert (Ry : round radix2 fexp64 (round_mode mode_NE) (RN y) = RN y).
  { apply round_generic; auto with typeclass_instances. apply generic_format_round; auto with typeclass_instances. }
  rewrite Ry in C. rewrite Rlt_bool_true in C.
  - destruct C as (C1 & C2 & _). split; [exact C2|exact C1].
  - apply small_range. pose proof (bpow_gt_0 radix2 (-300)). rewrite Rabs_pos_eq by lra.
    assert (bpow radix2 300 <= B_top) by (apply bpow_le; lia). pose proof top_pos. lra.
Qed.
Lemma exact_exp : exp_accurate exact_pf 2.
Proof.
  intros x Fx L. destruct (exp64_round x L) as [F E]. cbn [pf_exp exact_pf]. split; [exact F|]. rewrite E.
  pose proof (exp_range150 _ L) as Ly. set (y := exp (B2R x)) in *. pose proof eps_pos. pose proof (bpow_gt_0 radix2 (-300)).
  destruct (RN_any y) as (d & e & Ld & Le & ->). fold tiny in Le.
  replace (y * (1 + d) + e - y) with (d * y + e) by ring. apply Rle_trans with (1 := Rabs_triang _ _).
  rewrite Rabs_mult, (Rabs_pos_eq y) by lra. change (INR 2) with 2.
  assert (T : tiny <= eps64 * (/ 4 * y)).
  { apply tiny_bot. apply Rle_trans with (2 := proj1 Ly). apply bpow_le. lia. }
  assert (Rabs d * y <= eps64 * y) by (apply Rmult_le_compat_r; lra).
  assert (0 <= eps64 * y) by (apply Rmult_le_pos; lra). lra.
Qed.

(* ------------------------------------------------------------------ *)
(** * A step *)

Definition w_lin64 : lin_par64 := {|
  n_cons := 1%nat; n_feat := 2%nat; n_Cs := fun _ r => if Nat.eqb r 0 then one64 else zero64; n_Ts := fun _ => half64;
  n_ratio := half64; n_elast := one64
|}.
Definition w_lin : lin_par := {|
  l_cons := 1%nat; l_feat := 2%nat; l_Cs := fun _ r => if Nat.eqb r 0 then 1 else 0; l_Ts := fun _ => / 2;
  l_ratio := / 2; l_elast := 1
|}.
Definition w_chis64 : mat64 := fun r t => if Nat.eqb r t then zero64 else ofZ64 3.
Definition w_chis : mat := fun r t => if Nat.eqb r t then 0 else 3.
Definition w_q64 : kernel64 := {|
  z_nf := 2%nat; z_np := 2%nat; z_nc := 2%nat;
  z_potential := fh64_potential dot_loop 2 w_chis64;
  z_coef := fun _ _ => ofZ64 6;
  z_ivd := fh64_vd 2;
  z_rho := fun i => i; z_sizes := fun _ => one64;
  z_feat := ig64_feat; z_svd := ig64_vd 2 (fun _ => one64);
  z_ensemble := Canonical64 (fun _ => half64);
  z_acc_J := half64; z_ub := half64; z_acc_w := half64; z_thr := half64; z_scaler := one64
|}.
Definition w_q : kernel := {|
  q_inter := fh_compiled 2 w_chis 0; q_entropy := ig_compiled 2 (fun _ => 1); q_ensemble := can_compiled 2 (fun _ => / 2);
  q_nf := 2%nat; q_np := 2%nat; q_acc_J := / 2; q_ub := / 2; q_acc_w := / 2; q_thr := / 2; q_scaler := 1
|}.
Definition w_c64 : cstate64 := {|
  d_mult := fun _ _ => zero64; d_res := fun _ _ => zero64; d_pot := fun _ _ => zero64; d_vold := fun _ => zero64
|}.
(** the fields are 0 except for that of the second feature in the second
    compartment *)
Definition w_k64 : state64 unit cstate64 := {|
  x_omegas := fun r m => if (Nat.eqb r 1 && Nat.eqb m 1)%bool then half64 else zero64;
  x_Js := fun _ => one64; x_comp := fun _ _ => zero64; x_featv := fun _ _ => zero64;
  x_cons := [(local_class64 dot_loop w_lin64 2, w_c64); (global_class64 dot_loop w_lin64 2, w_c64)]%nat; x_g := tt
|}.
Definition w_k : kstate unit cstate := {|
  v_omegas := fun r m => if (Nat.eqb r 1 && Nat.eqb m 1)%bool then / 2 else 0;
  v_Js := fun _ => 1; v_phis_comp := fun _ _ => 0; v_phis_feat := fun _ _ => 0;
  v_cons := [new_cons (local_class w_lin); new_cons (global_class w_lin)]; v_g := tt
|}.
Definition w_s : scales := {|
  s_w := 1; s_J := 1; s_phi := 1; s_feat := 2; s_pot := 12; s_coef := 6; s_ivd := 48; s_svd := 2;
  s_cpot := 21; s_cvd := 105; s_res := 40
|}.

Local Arguments B_top : simpl never.
Local Arguments half64 : simpl never.
Local Arguments one64 : simpl never.
Local Arguments ofZ64 : simpl never.
Lemma is_zero : is64 zero64 0. Proof. split; reflexivity. Qed.
Lemma is_one : is64 one64 1. Proof. split; [reflexivity|apply B2R_one]. Qed.
Lemma is_half : is64 half64 (/ 2). Proof. split; [apply fin_half|apply B2R_half]. Qed.
Lemma is_int z : (Z.abs z <= 2 ^ 53)%Z -> is64 (ofZ64 z) (IZR z).
Proof. intros L. destruct (B2R_ofZ z L). split; assumption. Qed.
Lemma R0a : Rabs 0 = 0. Proof. apply Rabs_R0. Qed.
Lemma pow700 : 1000000 <= bpow radix2 100 /\ bpow radix2 100 <= bpow radix2 300 /\ bpow radix2 300 <= B_top /\ bpow radix2 (-100) <= / 2.
Proof.
  repeat split; try (apply bpow_le; lia).
  - apply Rle_trans with (bpow radix2 20); [cbn; lra|apply bpow_le; lia].
  - change (/ 2) with (bpow radix2 (-1)). apply bpow_le. lia.
Qed.
Ltac two := match goal with H : (?i < _)%nat |- _ => destruct i as [|[|i]]; try (cbn in H; lia) end.

Lemma w_scales : scales_ok w_s. Proof. split; cbn; lra. Qed.
Lemma w_problem : same_problem w_q64 w_q.
Proof.
  split; try reflexivity; try apply is_half.
  - exists (fun i => i), (fun _ => 1). split; [apply gas_plain; reflexivity|]. intros i _. split; [reflexivity|apply is_one].
  - exists (fun _ => / 2). split.
    + intros i _. right. split.
      * change (/ 2) with (bpow radix2 (-1)). apply bpow_le. lia.
      * destruct pow700. lra.
    + cbn. split; [reflexivity|]. intros i _. apply is_half.
Qed.
Lemma w_lin_same : same_lin w_q64 w_lin64 w_lin 1 1 1.
Proof.
  split; try reflexivity; cbn.
  - intros a r _ _. destruct (Nat.eqb r 0); rewrite ?Rabs_R1, ?R0a; split; try lra; [apply is_one|apply is_zero].
  - intros a _. split; [apply is_half|]. rewrite Rabs_pos_eq; lra.
  - split; [apply is_one|]. rewrite Rabs_R1. lra.
Qed.
Lemma w_eps : 2 * 2 * eps64 * (2 * 1) <= / 2. Proof. unfold eps64. lra. Qed.
Lemma w_top : 48 + 2 <= B_top /\ 21 + 105 + 40 <= B_top. Proof. destruct pow700 as (A & B & C & _). lra. Qed.
Lemma w_cons : Forall2 (same_constraint dot_loop w_q64 w_s 36) (x_cons w_k64) (v_cons w_k).
Proof.
  destruct w_top as [_ T]. constructor; [|constructor; [|constructor]].
  - apply (sc_local dot_loop w_q64 w_s 36 w_lin64 w_lin 1 1 1 1 w_c64 cstate0); [apply w_lin_same| |].
    + split; try (cbn; lia); try apply w_scales; try lra; cbn; unfold S_res; cbn; lra.
    + intros a m _ _. cbn. rewrite R0a. split; [apply is_zero|lra].
  - apply (sc_global dot_loop w_q64 w_s 36 w_lin64 w_lin 1 1 1 1 w_c64 cstate0); [apply w_lin_same| |].
    + pose proof w_eps. split; try (cbn; lia); try apply w_scales; try lra; cbn; unfold S_tot, S_res; cbn; lra.
    + intros a m _ _. cbn. rewrite R0a. split; [apply is_zero|lra].
Qed.

Lemma w_flory : flory64 dot_loop w_q64 w_q w_s 36 w_chis64 (ofZ64 6) w_chis 0 3 (fun _ => 1%nat) (fun _ => 1).
Proof.
  split; try reflexivity.
  - left. repeat split.
  - intros r t _ _. unfold w_chis64, w_chis. destruct (Nat.eqb r t).
    + rewrite R0a. split; [apply is_zero|lra].
    + rewrite Rabs_pos_eq by lra. split; [apply is_int; lia|lra].
  - intros i _. split; [apply is_one|lra].
  - assert (E : mat_sum (z_nf w_q64) w_chis + 0 * INR (z_nf w_q64) * INR (z_nf w_q64) = 6) by (cbn; lra).
    rewrite E. apply near_mono with 6 0; [cbn; lra|lra|]. apply is64_near; [apply is_int; lia|rewrite Rabs_pos_eq; lra].
Qed.
Lemma w_fscales : flory_scales w_q64 w_s 36 3.
Proof. destruct w_top as [T _]. split; try apply w_scales; try (cbn; lia); cbn in *; lra. Qed.
Lemma w_tJ m : (m < 2)%nat -> t_J w_q w_k m = 1.
Proof.
  intros _. unfold t_J, t_masks. rewrite mask_alive by (cbn; lra). cbn. lra.
Qed.
Lemma w_state : same_state w_q64 w_k64 w_q w_k w_s 1.
Proof.
  split.
  - intros r m _ _. cbn. destruct (_ && _)%bool; rewrite ?R0a, ?(Rabs_pos_eq (/ 2)) by lra; split; try lra; [apply is_half|apply is_zero].
  - intros m _. cbn. rewrite Rabs_R1. split; [apply is_one|lra].
  - cbn. rewrite !w_tJ by lia. lra.
  - intros i m _ _. change (z_sizes w_q64 i) with one64. rewrite B2R_one, Rmult_1_r. cbn [x_omegas w_k64 INR].
    destruct (_ && _)%bool; [rewrite B2R_half, Rabs_pos_eq; lra|cbn; rewrite R0a; lra].
Qed.
Lemma w_limits : limits w_q64 w_k64 w_q w_s 2 1 36.
Proof.
  destruct pow700 as (A & B & C & D).
  split; try apply w_scales; try (cbn; lia); try (cbn; lra).
  - unfold k_volume, k_diff, k_energy, k_xi, k_pot, k_phi, k_top. cbn. lra.
  - unfold S_diff, S_energy, S_field, S_xi, S_incomp. cbn. lra.
Qed.

Lemma w_phis rk' nv rrep : iterate w_q w_k = Ok (rk', nv, rrep) -> phis_bounded w_q64 w_s (v_phis_comp rk').
Proof.
  intros H i m Li L. destruct (iterate_inv _ _ _ _ _ H) as (p0 & Q & phis & incomp & HP & HN & IF).
  rewrite (if_comp IF). cbn in Li, L.
  destruct (ig_partition_spec _ _ _ _ _ _ _ _ HP) as (_ & P1 & P2).
  destruct (can_normalize_spec _ _ _ _ _ _ _ HN) as (_ & N1 & _).
  rewrite N1, P2, P1 by exact Li. unfold t_masks. rewrite mask_alive by (cbn; lra).
  unfold ig_Q, boltzmann. cbn [q_np w_q rsum]. rewrite !w_tJ by lia.
  set (e0 := exp (- v_omegas w_k i 0%nat * 1)). set (e1 := exp (- v_omegas w_k i 1%nat * 1)).
  assert (0 < e0) by apply exp_pos. assert (0 < e1) by apply exp_pos.
  assert (Em : exp (- v_omegas w_k i m * 1) = e0 \/ exp (- v_omegas w_k i m * 1) = e1).
  { destruct m as [|[|m]]; [left; reflexivity|right; reflexivity|lia]. }
  assert (G : forall e, 0 < e <= e0 + e1 -> Rabs (/ 2 / ((0 + e0 * 1 + e1 * 1) / (0 + 1 + 1)) * e * 1) <= 1).
  { intros e He. replace (/ 2 / ((0 + e0 * 1 + e1 * 1) / (0 + 1 + 1)) * e * 1) with (e / (e0 + e1)) by (field; lra).
    assert (0 < / (e0 + e1)) by (apply Rinv_0_lt_compat; lra).
    assert (0 <= e / (e0 + e1)) by (apply Rmult_le_pos; lra). rewrite Rabs_pos_eq by lra.
    apply Rmult_le_reg_r with (e0 + e1); [lra|]. unfold Rdiv. rewrite Rmult_assoc, Rinv_l by lra. lra. }
  cbn [s_phi w_s]. destruct Em as [-> | ->]; apply G; lra.
Qed.

(** the step in binary64 arithmetic of the two components in two compartments under
    a local and a global constraint, with the exponential and the products rounded
    correctly, follows the step in exact arithmetic *)
Example C96_case : exists rk' nv rrep k' rep,
  iterate w_q w_k = Ok (rk', nv, rrep) /\ iterate64 exact_pf w_q64 w_k64 = Ok (k', nv, rep) /\
  (forall r m, (r < 2)%nat -> (m < 2)%nat ->
     fin (x_omegas k' r m) /\ Rabs (B2R (x_omegas k' r m) - v_omegas rk' r m) <= / 10 ^ 7 /\
     fin (x_comp k' r m) /\ Rabs (B2R (x_comp k' r m) - v_phis_comp rk' r m) <= / 10 ^ 14) /\
  (forall m, (m < 2)%nat -> fin (x_Js k' m) /\ Rabs (B2R (x_Js k' m) - v_Js rk' m) <= / 10 ^ 5) /\
  Rabs (B2R (r6_omega rep) - e_omega rrep) <= / 10 ^ 10.
Proof.
  destruct (iterate_total w_q w_k) as (rk' & nv & rrep & H).
  - apply (builtin_total_ig_can w_q 2 (fun _ => 1) (fun _ => / 2)); reflexivity.
  - cbn; lra.
  - cbn; lra.
  - exists 0%nat. cbn. split; [lia|lra].
  - destruct (C96_package exact_pf dot_loop w_q64 w_k64 w_q w_k w_s 2 1 36 w_chis64 (ofZ64 6) w_chis 0 3
      (fun _ => 1%nat) (fun _ => 1) rk' nv rrep exact_exp dot_loop_accurate w_flory w_fscales w_cons w_problem
      w_state w_limits H (w_phis _ _ _ H)) as (k' & rep & HI & FO).
    exists rk', nv, rrep, k', rep. split; [exact H|]. split; [exact HI|]. destruct FO as [F1 F2 F3 F4 F5 F6 F7 F8].
    split; [|split].
    + intros r m Lr Lm. destruct (F1 r m Lr Lm) as (A1 & _ & _ & A2). destruct (F3 r m Lr Lm) as (B1 & _ & _ & B2).
      split; [exact A1|]. split; [|split; [exact B1|]].
      * apply Rle_trans with (1 := A2).
        unfold k_omega, S_omega, k_volume, k_diff, k_energy, k_xi, k_pot, k_phi, S_volume, S_factor, S_diff, S_energy, S_field, S_xi, S_incomp, eps64.
        cbn. lra.
      * apply Rle_trans with (1 := B2). unfold k_phi, eps64. cbn. lra.
    + intros m Lm. destruct (F2 m Lm) as (A1 & _ & _ & A2). split; [exact A1|]. apply Rle_trans with (1 := A2).
      unfold S_Js, k_volume, k_diff, k_energy, k_xi, k_pot, k_phi, S_volume, S_factor, S_diff, S_energy, S_field, S_xi, S_incomp, eps64.
      cbn. lra.
    + destruct F6 as (_ & _ & _ & A2). apply Rle_trans with (1 := A2).
      unfold k_xi, k_pot, k_phi, S_field, S_xi, S_incomp, eps64. cbn. lra.
Qed.

Lemma w_mult : Forall2 (same_multiplier dot_loop w_q64 w_s 36 1 1) (x_cons w_k64) (v_cons w_k).
Proof.
  destruct w_top as [_ T]. constructor; [|constructor; [|constructor]].
  - apply (sm_local dot_loop w_q64 w_s 36 1 1 w_lin64 w_lin 1 1 1 w_c64 cstate0); [apply w_lin_same| | |].
    + split; try (cbn; lia); try apply w_scales; try lra; cbn; unfold S_res; cbn; lra.
    + intros a m _ _. cbn. rewrite R0a. split; [apply is_zero|lra].
    + split; [apply is_half|]. change (l_ratio w_lin) with (/ 2). rewrite Rabs_pos_eq; lra.
  - apply (sm_global dot_loop w_q64 w_s 36 1 1 w_lin64 w_lin 1 1 1 w_c64 cstate0); [apply w_lin_same| | |].
    + pose proof w_eps. split; try (cbn; lia); try apply w_scales; try lra; cbn; unfold S_tot, S_res; cbn; lra.
    + intros a m _ _. cbn. rewrite R0a. split; [apply is_zero|lra].
    + split; [apply is_half|]. change (l_ratio w_lin) with (/ 2). rewrite Rabs_pos_eq; lra.
Qed.

(** in the same step the multipliers of both constraints follow, too *)
Example C96_multipliers_case : exists rk' nv rrep k' rep,
  iterate w_q w_k = Ok (rk', nv, rrep) /\ iterate64 exact_pf w_q64 w_k64 = Ok (k', nv, rep) /\
  Forall2 (near_multiplier dot_loop 2 (10 ^ 5) (2 ^ 13)) (x_cons k') (v_cons rk').
Proof.
  destruct (iterate_total w_q w_k) as (rk' & nv & rrep & H).
  - apply (builtin_total_ig_can w_q 2 (fun _ => 1) (fun _ => / 2)); reflexivity.
  - cbn; lra.
  - cbn; lra.
  - exists 0%nat. cbn. split; [lia|lra].
  - destruct (C96_multipliers exact_pf dot_loop w_q64 w_k64 w_q w_k w_s 2 1 36 w_chis64 (ofZ64 6) w_chis 0 3
      (fun _ => 1%nat) (fun _ => 1) 1 1 rk' nv rrep exact_exp dot_loop_accurate w_flory w_fscales w_mult
      (Rle_refl 1) ltac:(destruct pow700 as (A & B & C & D); unfold S_factor, S_diff, S_energy, S_field, S_xi, S_incomp; cbn; lra) w_problem
      w_state w_limits H (w_phis _ _ _ H)) as (k' & rep & HI & FO & FM).
    exists rk', nv, rrep, k', rep. split; [exact H|]. split; [exact HI|].
    revert FM. apply Forall2_imp. 
    assert (LB : 1 + S_factor w_q64 w_k64 w_q w_s * q_acc_w w_q * 1 * s_res w_s <= 10 ^ 5).
    { unfold S_factor, S_diff, S_energy, S_field, S_xi, S_incomp, eps64. cbn. lra. }
    assert (Lk : 2 * k_diff w_q64 w_k64 2 1 36 <= 2 ^ 13).
    { unfold k_diff, k_energy, k_xi, k_pot, k_phi. cbn. lra. }
    intros o o' [p64 p st st' Hn|p64 p st st' Hn|n st st' Hn]; [apply nm_local|apply nm_global|apply nm_no; exact Hn]; intros; (eapply near_mono; [exact LB|exact Lk|apply Hn; assumption]).
Qed.
