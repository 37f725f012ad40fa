(** WitnessFloatConverge.v -- a concrete run for C101: two components with
    chi = 1/64, two compartments. *)

From Flocq Require Import Core BinarySingleNaN.
From Coq Require Import Reals ZArith String List Bool Arith Lia Lra.
From Verif Require Import Base ModelParts ModelKernel ModelFloat ModelFloatKernel ModelFloatParts PropertiesFloat ProofsFloatKernel
  PropertiesFloatKernel ProofsRounding PropertiesRounding ProofsFloatError PropertiesFloatError PropertiesFloatParts ProofsFloatRevive
  ProofsParts ProofsKernel ProofsSteps ProofsBounds ProofsEquilibrium PropertiesKernel PropertiesConstraints PropertiesEquilibrium
  PropertiesFeatures PropertiesBinary ProofsContract ProofsContractLoose PropertiesContract Spec WitnessFloatError PropertiesFloatConverge.
Import ListNotations.
Open Scope R_scope.

#[local] Instance fexp64_cw : Valid_exp fexp64 := fexp_correct prec64 emax64 prec64_ok.

(** the number [m * 2 ^ e] *)
Definition dy64 (m e : Z) : f64 := @binary_normalize prec64 emax64 prec64_ok prec64_lt mode_NE m e false.
Lemma is_dy m e : (Z.abs m < 2 ^ 53)%Z -> (-1000 <= e <= 900)%Z -> is64 (dy64 m e) (IZR m * bpow radix2 e).
Proof.
  intros Hm He. unfold dy64. pose proof (@binary_normalize_correct prec64 emax64 prec64_ok prec64_lt mode_NE m e false) as C. cbv zeta in C.
  assert (G : generic_format radix2 fexp64 (F2R (Float radix2 m e))).
  { change fexp64 with (FLT_exp (3 - emax64 - prec64) prec64). apply generic_format_FLT. exists (Float radix2 m e); [reflexivity|cbn; exact Hm|cbn; lia]. }
  assert (L : Rabs (F2R (Float radix2 m e)) < bpow radix2 emax64).
  { unfold F2R. cbn [Fnum Fexp]. rewrite Rabs_mult, (Rabs_pos_eq (bpow radix2 e)) by apply bpow_ge_0. rewrite <- abs_IZR.
    apply Rlt_le_trans with (bpow radix2 53 * bpow radix2 e).
    - apply Rmult_lt_compat_r; [apply bpow_gt_0|]. change (bpow radix2 53) with (IZR (2 ^ 53)). apply IZR_lt. exact Hm.
    - rewrite <- bpow_plus. apply bpow_le. lia. }
  assert (R : round radix2 fexp64 (round_mode mode_NE) (F2R (Float radix2 m e)) = F2R (Float radix2 m e)) by (apply round_generic; auto with typeclass_instances).
  change (SpecFloat.fexp prec64 emax64) with fexp64 in C. rewrite R in C. rewrite Rlt_bool_true in C by exact L. destruct C as (C1 & C2 & _). split; [exact C2|exact C1].
Qed.
Lemma is_dyv m e r : (Z.abs m < 2 ^ 53)%Z -> (-1000 <= e <= 900)%Z -> IZR m * bpow radix2 e = r -> is64 (dy64 m e) r.
Proof. intros H1 H2 <-. now apply is_dy. Qed.

Definition v_chis64 : mat64 := fun r t => if Nat.eqb r t then zero64 else dy64 1 (-6).
Definition v_chis : mat := fun r t => if Nat.eqb r t then 0 else / 64.
Definition v_shift : R := - mat_min 2 v_chis + / 4.
Definition v_q64 : kernel64 := {|
  z_nf := 2%nat; z_np := 2%nat; z_nc := 2%nat;
  z_potential := fh64_potential dot_loop 2 v_chis64;
  z_coef := fun _ _ => dy64 33 (-5);
  z_ivd := fh64_vd 2;
  z_rho := fun i => i; z_sizes := fun _ => one64;
  z_feat := ig64_feat; z_svd := ig64_vd 2 (fun _ => one64);
  z_ensemble := Canonical64 (fun _ => half64);
  z_acc_J := dy64 1 (-10); z_ub := one64; z_acc_w := dy64 1 (-2); z_thr := dy64 1 (-6); z_scaler := one64
|}.
Definition v_q : kernel := {|
  q_inter := fh_compile 2 v_chis (/ 4); q_entropy := ig_compiled 2 (fun _ => 1); q_ensemble := can_compiled 2 (fun _ => / 2);
  q_nf := 2%nat; q_np := 2%nat; q_acc_J := / 1024; q_ub := 1; q_acc_w := / 4; q_thr := / 64; q_scaler := 1
|}.
Definition v_c64 : cstate64 := {|
  d_mult := fun _ _ => zero64; d_res := fun _ _ => zero64; d_pot := fun _ _ => zero64; d_vold := fun _ => zero64
|}.
Definition v_k64 : state64 unit cstate64 := {|
  x_omegas := fun r m => if (Nat.eqb r 1 && Nat.eqb m 1)%bool then dy64 1 (-6) else zero64;
  x_Js := fun _ => one64; x_comp := fun _ _ => zero64; x_featv := fun _ _ => zero64;
  x_cons := [(no_class64, v_c64)]; x_g := tt
|}.
Definition v_s : scales := {|
  s_w := 4; s_J := 2; s_phi := 2; s_feat := 4; s_pot := 8; s_coef := 2; s_ivd := 64; s_svd := 4;
  s_cpot := 1; s_cvd := 1; s_res := 1
|}.
Local Arguments B_top : simpl never.
Local Arguments half64 : simpl never.
Local Arguments one64 : simpl never.
Local Arguments dy64 : simpl never.
Local Arguments bpow : simpl never.
Local Arguments mat_min : simpl never.

Lemma b6 : bpow radix2 (-6) = / 64. Proof. unfold bpow. cbn. lra. Qed.
Lemma v_min : mat_min 2 v_chis = 0.
Proof.
  apply smallest_min; [lia|]. split.
  - exists 0%nat, 0%nat. repeat split; lia.
  - intros r t _ _. unfold v_chis. destruct (Nat.eqb r t); lra.
Qed.
Lemma v_coef : mat_sum 2 v_chis + v_shift * INR 2 * INR 2 = 33 / 32.
Proof. unfold v_shift. rewrite v_min. cbn. lra. Qed.
Lemma v_scales : scales_ok v_s. Proof. split; cbn; lra. Qed.
Lemma v_problem : same_problem v_q64 v_q.
Proof.
  split; try reflexivity.
  - apply is_dyv; [cbn; lia|lia|]. rewrite b6. cbn. lra.
  - apply is_dyv; [cbn; lia|lia|]. cbn. unfold bpow. cbn. lra.
  - apply is_one.
  - apply is_dyv; [cbn; lia|lia|]. cbn. unfold bpow. cbn. lra.
  - exists (fun i => i), (fun _ => 1). split; [apply gas_plain; reflexivity|]. intros i _. split; [reflexivity|apply is_one].
  - exists (fun _ => / 2). split.
    + intros i _. right. split.
      * change (/ 2) with (bpow radix2 (-1)). apply bpow_le. lia.
      * destruct pow700. lra.
    + cbn. split; [reflexivity|]. intros i _. apply is_half.
Qed.
Lemma v_flory : flory64 dot_loop v_q64 v_q v_s 8 v_chis64 (dy64 33 (-5)) v_chis v_shift 1 (fun _ => 1%nat) (fun _ => 1).
Proof.
  split; try reflexivity.
  - left. repeat split.
  - intros r t _ _. unfold v_chis64, v_chis. destruct (Nat.eqb r t).
    + rewrite R0a. split; [apply is_zero|lra].
    + rewrite Rabs_pos_eq by lra. split; [|lra]. apply is_dyv; [cbn; lia|lia|]. rewrite b6. lra.
  - intros i _. split; [apply is_one|lra].
  - change (z_nf v_q64) with 2%nat. rewrite v_coef. apply near_mono with (33 / 32) 0; [cbn; lra|lra|].
    apply is64_near; [|rewrite Rabs_pos_eq; lra]. apply is_dyv; [cbn; lia|lia|]. unfold bpow. cbn. lra.
Qed.
Lemma v_fscales : flory_scales v_q64 v_s 8 1.
Proof. destruct w_top as [T _]. split; try apply v_scales; try (cbn; lia); cbn in *; try lra. destruct pow700 as (A & B & C & _). lra. Qed.
Lemma v_limits : limits v_q64 v_k64 v_q v_s 2 4 8.
Proof.
  destruct pow700 as (A & B & C & D). assert (F : bpow radix2 (-100) <= / 1024) by (replace (/ 1024) with (bpow radix2 (-10)) by (unfold bpow; cbn; lra); apply bpow_le; lia).
  split; try apply v_scales; try (cbn; lia); try (cbn; lra).
  - unfold k_volume, k_diff, k_energy, k_xi, k_pot, k_phi, k_top. cbn. lra.
  - unfold S_diff, S_energy, S_field, S_xi, S_incomp. cbn. lra.
Qed.
Lemma v_setting : setting64 exact_pf dot_loop v_q64 v_q v_k64 v_s 2 4 8 v_chis64 (dy64 33 (-5)) v_chis v_shift 1 (fun _ => 1%nat) (fun _ => 1)
  (fun i => i) (/ 4) (fun _ => / 2) (/ 64).
Proof.
  split.
  - apply exact_exp.
  - apply dot_loop_accurate.
  - apply v_flory.
  - apply v_fscales.
  - apply v_problem.
  - apply v_limits.
  - apply mix_plain; reflexivity.
  - reflexivity.
  - repeat split; cbn; try lia; try (intros; lra). intros r t _ _. unfold v_chis. rewrite (Nat.eqb_sym r t). reflexivity.
  - cbn. lra.
  - repeat constructor.
  - cbn. lia.
  - intros m _. apply is_one.
  - intros r m _ _. cbn. destruct (_ && _)%bool.
    + destruct (is_dyv 1 (-6) (/ 64)) as (F & ->); [cbn; lia|lia|rewrite b6; lra|]. split; [exact F|]. rewrite Rabs_pos_eq; lra.
    + split; [reflexivity|]. cbn. rewrite R0a. lra.
Qed.

(** ** the constants *)
Lemma v_exp : 1 <= exp (9 / 32) <= 7 / 5 /\ 23 / 32 <= exp (- (9 / 32)).
Proof.
  assert (H : 23 / 32 <= exp (- (9 / 32))) by (pose proof (exp_ineq1_le (- (9 / 32))); lra).
  split; [split|exact H].
  - pose proof (exp_ineq1_le (9 / 32)). lra.
  - pose proof (exp_pos (9 / 32)) as P. assert (E : exp (9 / 32) * exp (- (9 / 32)) = 1) by (rewrite <- exp_plus, Rplus_opp_r, exp_0; reflexivity). nra.
Qed.
Local Notation TH := (upper_size 2 (fun _ => 1) (fun _ => / 2) (9 / 32)).
Local Notation TL := (lower_size 2 (fun _ => 1) (fun _ => / 2) (9 / 32)).
Lemma v_TH : 1 <= TH <= 7 / 5 /\ 23 / 32 <= TL.
Proof.
  destruct v_exp as (E1 & E2). unfold upper_size, lower_size. cbn [rsum]. rewrite !Rmult_1_l, !Rmult_1_r. lra.
Qed.
Lemma v_c0 : coef_of v_q / INR 2 = 33 / 64.
Proof. change (coef_of v_q) with (mat_sum 2 v_chis + v_shift * INR 2 * INR 2). rewrite v_coef. cbn. lra. Qed.
Local Notation CL := (le_const v_q 2 2 (fun _ => 1) (fun _ => / 2) (9 / 32) (/ 64) 1).
Local Notation LB := (le_bound v_q 2 2 (fun _ => 1) (fun _ => / 2) (9 / 32) (/ 64) 1 4).
Lemma v_CL : 1 <= CL <= 5.
Proof. destruct v_TH as (T & _). unfold le_const. rewrite v_c0. set (t := TH) in *. nra. Qed.
Lemma v_LB : 0 <= LB <= 8.
Proof. destruct v_TH as (T & _). unfold le_bound. rewrite v_c0. set (t := TH) in *. nra. Qed.
Local Notation dw := (d_field v_q64 v_q v_k64 v_s 2 4 8).
Local Notation dJ := (d_volume v_q64 v_q v_k64 v_s 2 4 8).
Local Notation de := (d_error v_q64 v_k64 v_s 2 4 8).
Lemma v_d : 0 <= dw <= / 10 ^ 10 /\ 0 <= dJ <= / 10 ^ 10 /\ 0 <= de <= / 10 ^ 8.
Proof.
  unfold d_field, d_volume, d_error, S_Js, k_omega, S_omega, k_volume, k_diff, k_energy, k_xi, k_pot, k_phi, S_volume, S_factor, S_diff, S_energy, S_field, S_xi, S_incomp, eps64.
  cbn. lra.
Qed.
Local Notation shr := (shrink v_q64 v_q v_k64 v_s 2 4 8 (fun _ => 1) (fun _ => / 2) (3 / 16) (9 / 32) (/ 64) 1 (/ 8)).
Lemma v_shrink : 3 / 100 <= 1 - shr <= 1 / 32.
Proof.
  destruct v_d as (D1 & D2 & _). pose proof v_CL as C1. pose proof v_LB as L1. unfold shrink.
  change (z_nc v_q64) with 2%nat. change (z_nf v_q64) with 2%nat. change (s_w v_s) with 4. change (q_ub v_q) with 1. change (q_acc_J v_q) with (/ 1024). change (q_acc_w v_q) with (/ 4).
  set (e := (2 * CL * (3 / 16) + dJ * LB) * / 1024 + 1).
  assert (DL : 0 <= dJ * LB <= / 10 ^ 10 * 8) by (split; [apply Rmult_le_pos; lra|apply Rmult_le_compat; lra]).
  assert (He : 1 <= e <= 101 / 100) by (unfold e; lra).
  assert (Hi : 100 / 101 <= 1 / e <= 1).
  { split; apply (Rmult_le_reg_r e); try lra; unfold Rdiv; rewrite ?Rmult_1_l, ?(Rinv_l e) by lra; lra. }
  lra.
Qed.
Lemma v_weak : weak64 v_q64 v_q v_chis (fun _ => 1) (fun _ => / 2) (/ 64) (3 / 16) (9 / 32) (/ 64) (/ 64) 1 (/ 8).
Proof.
  destruct v_TH as (T1 & T2).
  split; change (z_nf v_q64) with 2%nat; change (z_nc v_q64) with 2%nat; try rewrite v_c0; change (q_acc_w v_q) with (/ 4); try lra.
  - intros r t u _ _ _. unfold v_chis. apply Rabs_le. destruct (Nat.eqb r u), (Nat.eqb t u); lra.
  - intros r t _ _. unfold v_chis. apply Rabs_le. destruct (Nat.eqb r t); lra.
  - intros i _. lra.
Qed.
Local Notation res := (residual v_q64 v_q v_k64 v_s 2 4 8 (fun _ => 1) (fun _ => / 2) (3 / 16) (9 / 32) (/ 64) 1 (/ 8)).
Local Notation path := (path_bound v_q64 v_q v_k64 v_s 2 4 8 (fun _ => 1) (fun _ => / 2) (3 / 16) (9 / 32) (/ 64) 1 (/ 8) 640).
Local Notation drift := (drift_bound v_q64 v_q v_k64 v_s 2 4 8 (fun _ => 1) (fun _ => / 2) (3 / 16) (9 / 32) (/ 64) 1 (/ 8) 640).
Lemma quot_le a b c : 0 < b -> a <= c * b -> a / b <= c.
Proof. intros Hb H. apply (Rmult_le_reg_r b); [exact Hb|]. unfold Rdiv. rewrite Rmult_assoc, Rinv_l by lra. lra. Qed.
Lemma v_640 : INR 640 = 640. Proof. rewrite INR_IZR_INZ. reflexivity. Qed.
Lemma v_res : 0 <= res <= / 10 ^ 7.
Proof.
  destruct v_d as (D1 & _). pose proof v_shrink as S1. unfold residual. split.
  - apply Rmult_le_pos; [lra|]. left. apply Rinv_0_lt_compat. lra.
  - apply quot_le; [lra|]. apply Rle_trans with (/ 10 ^ 7 * (3 / 100)); [lra|]. apply Rmult_le_compat_l; lra.
Qed.
Lemma v_path : 0 <= path <= 7.
Proof.
  destruct v_d as (D1 & _). pose proof v_shrink as S1. unfold path_bound. rewrite v_640. split.
  - apply Rmult_le_pos; [lra|]. left. apply Rinv_0_lt_compat. lra.
  - apply quot_le; [lra|]. apply Rle_trans with (7 * (3 / 100)); lra.
Qed.
Lemma v_drift : drift <= 1 / 4.
Proof.
  destruct v_d as (_ & D2 & _). pose proof v_path as P. pose proof v_CL as C1. pose proof v_LB as L1. unfold drift_bound. rewrite v_640.
  change (q_acc_J v_q) with (/ 1024). change (z_nc v_q64) with 2%nat. change (z_nf v_q64) with 2%nat. change (s_w v_s) with 4.
  assert (0 <= dJ * LB <= / 10 ^ 10 * 8) by (split; [apply Rmult_le_pos; lra|apply Rmult_le_compat; lra]).
  assert (CL * path <= 5 * 7) by (apply Rmult_le_compat; lra). lra.
Qed.
Lemma v_budget : budget64 v_q64 v_q v_k64 v_s 2 4 8 (fun _ => 1) (fun _ => / 2) (/ 64) (3 / 16) (9 / 32) (/ 64) (/ 64) 1 (/ 8) 640.
Proof.
  destruct v_TH as (T1 & T2). destruct v_d as (D1 & D2 & D3). pose proof v_res. pose proof v_path as P. pose proof v_drift.
  split; change (z_nf v_q64) with 2%nat; change (z_nc v_q64) with 2%nat; change (s_w v_s) with 4; change (s_phi v_s) with 2; change (s_J v_s) with 2;
    change (q_thr v_q) with (/ 64); try lra.
  - intros i _. cbn. lra.
  - unfold field_bound, c_field. rewrite v_640. change (z_nf v_q64) with 2%nat. change (z_nc v_q64) with 2%nat. rewrite v_c0. change (q_acc_w v_q) with (/ 4).
    set (cf := (33 / 64 + / 64) * (TH * (3 / 2)) + 1 / 4). assert (0 <= cf <= 3 / 2) by (unfold cf; lra).
    assert (cf * path <= 3 / 2 * 7) by (apply Rmult_le_compat; lra). lra.
Qed.
Lemma v_tol : is64 (dy64 1 (-16)) (/ 65536).
Proof. apply is_dyv; [cbn; lia|lia|]. unfold bpow. cbn. lra. Qed.
Lemma v_precision : precision64 v_q64 v_q v_k64 v_s 2 4 8 (fun _ => 1) (fun _ => / 2) (3 / 16) (9 / 32) (/ 64) (/ 64) 1 (/ 8) 639 < / 65536.
Proof.
  destruct v_TH as (T1 & T2). destruct v_d as (D1 & D2 & D3). pose proof v_res as R1. pose proof v_CL as C1. pose proof v_LB as L1. pose proof v_shrink as S1.
  unfold precision64. change (z_nc v_q64) with 2%nat. change (z_nf v_q64) with 2%nat. change (s_w v_s) with 4.
  assert (0 <= dJ * LB <= / 10 ^ 10 * 8) by (split; [apply Rmult_le_pos; lra|apply Rmult_le_compat; lra]).
  assert (HC : 0 <= c_report v_q64 v_q (fun _ => 1) (fun _ => / 2) (9 / 32) (/ 64) (/ 64) 1 <= 15).
  { unfold c_report. change (z_nc v_q64) with 2%nat. change (z_nf v_q64) with 2%nat. rewrite v_c0. lra. }
  assert (H32 : 0 <= shr ^ 32 <= 1 / 2).
  { split; [apply pow_le; lra|]. apply Rle_trans with ((97 / 100) ^ 32); [apply pow_incr; lra|]. lra. }
  assert (H639 : 0 <= shr ^ 639 <= (1 / 2) ^ 19).
  { split; [apply pow_le; lra|]. change 639%nat with (32 * 19 + 31)%nat. rewrite pow_add, pow_mult.
    apply Rle_trans with ((shr ^ 32) ^ 19 * 1); [apply Rmult_le_compat_l; [apply pow_le; lra|]|rewrite Rmult_1_r; apply pow_incr; lra].
    assert (H31 : shr ^ 31 <= 1 ^ 31) by (apply pow_incr; lra). rewrite pow1 in H31. exact H31. }
  assert (HP : 0 <= shr ^ 639 * (3 / 16) + res <= (1 / 2) ^ 19 * (3 / 16) + / 10 ^ 7) by lra.
  apply Rle_lt_trans with (15 * ((1 / 2) ^ 19 * (3 / 16) + / 10 ^ 7) + / 10 ^ 10 * 8 + / 10 ^ 8); [|lra].
  apply Rplus_le_compat; [|lra]. apply Rplus_le_compat; [|lra]. apply Rmult_le_compat; lra.
Qed.

(** In binary64 arithmetic, 640 steps at most bring a mixture with chi = 1/64 and a
    field off by 1/64 to the mixed state, within 2^-16. *)
Example C101_case : exists o J phis, run64 exact_pf v_q64 (dy64 1 (-16)) 640 1 0 v_k64 = Ok (o, J, phis) /\
  converged64 (dy64 1 (-16)) (oc_safe o) (oc_rep o) = true /\
  forall i m, (i < 2)%nat -> (m < 2)%nat -> fin (phis i m) /\ Rabs (B2R (phis i m) - / 2) <= / 65536.
Proof.
  destruct v_tol as (F & ET). pose proof v_precision as P.
  destruct (C101_run _ _ _ _ _ _ _ _ _ _ _ _ _ _ _ _ _ _ _ _ _ _ _ _ _ _ _ v_setting v_weak v_budget (dy64 1 (-16)) 640 1 0 1) as (o & J & phis & H1 & H2 & _ & _ & H3).
  - exact F.
  - lia.
  - lia.
  - lia.
  - rewrite ET. exact P.
  - exists o, J, phis. split; [exact H1|]. split; [exact H2|]. intros i m Hi Hm. destruct (H3 i m Hi Hm) as (A1 & A2). split; [exact A1|].
    change (640 - 1)%nat with 639%nat in A2. lra.
Qed.
