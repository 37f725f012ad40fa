(** ProofsFloatError.v -- a calculus of rounding errors for the binary64 kernel:
    which operations keep a number of binary64 near the exact one. *)

From Flocq Require Import Core BinarySingleNaN Plus_error Relative Mult_error.
From Coq Require Import Reals ZArith List Bool Arith Lia Lra.
From Verif Require Import Base ModelFloat ModelFloatKernel PropertiesFloat ProofsFloatKernel ProofsRounding
  PropertiesRounding.
Import ListNotations.
Open Scope R_scope.
#[local] Instance fexp64_valid : Valid_exp fexp64 := fexp_correct prec64 emax64 prec64_ok.

(** [x] is finite and differs from the exact value [r] by at most [k] units of
    2^-53 times the scale [B], and [r] is at most [B] *)
Definition near (B k : R) (x : f64) (r : R) : Prop :=
  fin x /\ Rabs r <= B /\ 0 <= k /\ Rabs (B2R x - r) <= k * eps64 * B.

(** limits of the calculus: error units and scales *)
Definition k_top : R := 2 ^ 20.
Definition B_top : R := bpow radix2 1000.
Definition B_bot : R := bpow radix2 (-900).

Lemma near_fin B k x r : near B k x r -> fin x. Proof. intros H. apply H. Qed.
Lemma near_scale B k x r : near B k x r -> 0 <= B.
Proof. intros (_ & H & _). pose proof (Rabs_pos r). lra. Qed.
Lemma near_mono B B' k k' x r : B <= B' -> k <= k' -> near B k x r -> near B' k' x r.
Proof.
  intros HB Hk N. pose proof (near_scale _ _ _ _ N). destruct N as (F & L & P & E). pose proof eps_pos.
  repeat split; try assumption; try lra. apply Rle_trans with (1 := E).
  apply Rmult_le_compat; try lra; [apply Rmult_le_pos; lra|apply Rmult_le_compat_r; lra].
Qed.
Lemma near_exact B x : fin x -> Rabs (B2R x) <= B -> near B 0 x (B2R x).
Proof. intros F L. repeat split; try assumption; try lra. rewrite Rminus_eq_0, Rabs_R0. lra. Qed.
Lemma near_abs_float B k x r : near B k x r -> Rabs (B2R x) <= B * (1 + k * eps64).
Proof.
  intros (F & L & P & E). replace (B2R x) with (r + (B2R x - r)) by ring.
  apply Rle_trans with (1 := Rabs_triang _ _). lra.
Qed.

Lemma k_eps k : 0 <= k <= k_top -> 0 <= k * eps64 <= / 2 ^ 33.
Proof.
  intros [P L]. pose proof eps_pos. split; [apply Rmult_le_pos; lra|].
  replace (/ 2 ^ 33) with (k_top * eps64) by (unfold k_top, eps64; lra). apply Rmult_le_compat_r; lra.
Qed.
Lemma top_pos : 0 < B_top. Proof. apply bpow_gt_0. Qed.
Lemma bot_pos : 0 < B_bot. Proof. apply bpow_gt_0. Qed.
Lemma tiny_bot B : B_bot <= B -> tiny <= eps64 * (/ 4 * B).
Proof.
  intros L. pose proof eps_pos.
  apply Rle_trans with (eps64 * (/ 4 * B_bot)); [|apply Rmult_le_compat_l; lra].
  assert (E4 : / 4 = bpow radix2 (-2)) by (cbn; lra).
  assert (E : eps64 = bpow radix2 (-53)).
  { unfold eps64. change (bpow radix2 (-53)) with (/ IZR (Z.pow_pos 2 53)). change (Z.pow_pos 2 53) with 9007199254740992%Z. lra. }
  rewrite E4, E. unfold B_bot, tiny. rewrite <- !bpow_plus. apply bpow_le. lia.
Qed.
Lemma small_range x : Rabs x <= 2 * B_top -> Rabs (RN x) < bpow radix2 emax64.
Proof.
  intros L. rewrite <- RN_abs. apply Rle_lt_trans with (bpow radix2 1001).
  - rewrite <- (RN_bpow 1001) by lia. apply RN_le. replace (bpow radix2 1001) with (2 * B_top); [exact L|].
    unfold B_top. change 1001%Z with (1 + 1000)%Z. rewrite bpow_plus. reflexivity.
  - apply bpow_lt. lia.
Qed.
Lemma minus_in_range x y : fin x -> fin y -> Rabs (RN (B2R x - B2R y)) < bpow radix2 emax64 -> fin (minus64 x y).
Proof.
  intros Fx Fy L. pose proof (@Bminus_correct prec64 emax64 prec64_ok prec64_lt mode_NE x y Fx Fy) as C.
  unfold RN in L. rewrite Rlt_bool_true in C by exact L. apply C.
Qed.
Lemma RN_minus (x y : f64) : exists d, Rabs d <= eps64 /\ RN (B2R x - B2R y) = (B2R x - B2R y) * (1 + d).
Proof.
  pose proof (RN_plus x (opp64 y)) as H. unfold opp64 in H. rewrite B2R_Bopp in H.
  replace (B2R x + - B2R y) with (B2R x - B2R y) in H by ring. exact H.
Qed.

(** a rounding with relative error after a perturbation *)
Lemma round_step (X Y d e B k : R) : Rabs Y <= B -> Rabs (X - Y) <= (k + / 4) * eps64 * B -> 0 <= k <= 3 * k_top ->
  Rabs d <= eps64 -> Rabs e <= eps64 * (/ 4 * B) -> Rabs (X * (1 + d) + e - Y) <= (k + 2) * eps64 * B.
Proof.
  intros LY LX Hk Ld Le. pose proof eps_pos as Pe. pose proof (Rabs_pos Y) as PY.
  assert (K : (k + / 4) * eps64 <= / 4).
  { apply Rle_trans with ((3 * k_top + / 4) * eps64); [apply Rmult_le_compat_r; lra|unfold k_top, eps64; lra]. }
  assert (LX2 : Rabs X <= B + / 4 * B).
  { replace X with (Y + (X - Y)) by ring. apply Rle_trans with (1 := Rabs_triang _ _).
    assert ((k + / 4) * eps64 * B <= / 4 * B) by (apply Rmult_le_compat_r; lra). lra. }
  replace (X * (1 + d) + e - Y) with ((X - Y) + (d * X + e)) by ring.
  apply Rle_trans with (1 := Rabs_triang _ _).
  apply Rle_trans with ((k + / 4) * eps64 * B + (eps64 * (B + / 4 * B) + eps64 * (/ 4 * B))).
  - apply Rplus_le_compat; [exact LX|]. apply Rle_trans with (1 := Rabs_triang _ _). apply Rplus_le_compat; [|exact Le].
    rewrite Rabs_mult. apply Rmult_le_compat; try apply Rabs_pos; assumption.
  - assert (0 <= eps64 * B) by (apply Rmult_le_pos; lra).
    replace ((k + / 4) * eps64 * B + (eps64 * (B + / 4 * B) + eps64 * (/ 4 * B)))
      with ((k + 2) * eps64 * B - / 4 * (eps64 * B)) by field. lra.
Qed.

Lemma near_add B1 B2 k x y r s : near B1 k x r -> near B2 k y s -> k <= k_top -> B1 + B2 <= B_top ->
  near (B1 + B2) (k + 2) (add64 x y) (r + s).
Proof.
  intros N1 N2 Lk LB. pose proof (near_scale _ _ _ _ N1). pose proof (near_scale _ _ _ _ N2).
  destruct N1 as (F1 & L1 & P & E1), N2 as (F2 & L2 & _ & E2). pose proof eps_pos as Pe.
  assert (LY : Rabs (r + s) <= B1 + B2) by (apply Rle_trans with (1 := Rabs_triang _ _); lra).
  assert (LX : Rabs (B2R x + B2R y - (r + s)) <= k * eps64 * (B1 + B2)).
  { replace (B2R x + B2R y - (r + s)) with ((B2R x - r) + (B2R y - s)) by ring.
    apply Rle_trans with (1 := Rabs_triang _ _). lra. }
  pose proof (k_eps k ltac:(lra)) as Ke.
  assert (F : fin (add64 x y)).
  { apply add_in_range; try assumption. apply small_range.
    replace (B2R x + B2R y) with ((r + s) + (B2R x + B2R y - (r + s))) by ring.
    apply Rle_trans with (1 := Rabs_triang _ _).
    assert (k * eps64 * (B1 + B2) <= 1 * (B1 + B2)) by (apply Rmult_le_compat_r; lra). lra. }
  split; [exact F|]. split; [exact LY|]. split; [lra|].
  rewrite add_round by exact F. destruct (RN_plus x y) as (d & Ld & ->).
  replace ((B2R x + B2R y) * (1 + d) - (r + s)) with ((B2R x + B2R y) * (1 + d) + 0 - (r + s)) by ring.
  assert (PB : 0 <= eps64 * (B1 + B2)) by (apply Rmult_le_pos; lra).
  apply round_step; try assumption; try lra.
  rewrite Rabs_R0. lra.
Qed.
Lemma near_minus B1 B2 k x y r s : near B1 k x r -> near B2 k y s -> k <= k_top -> B1 + B2 <= B_top ->
  near (B1 + B2) (k + 2) (minus64 x y) (r - s).
Proof.
  intros N1 N2 Lk LB. pose proof (near_scale _ _ _ _ N1). pose proof (near_scale _ _ _ _ N2).
  destruct N1 as (F1 & L1 & P & E1), N2 as (F2 & L2 & _ & E2). pose proof eps_pos as Pe.
  assert (LY : Rabs (r - s) <= B1 + B2).
  { unfold Rminus. apply Rle_trans with (1 := Rabs_triang _ _). rewrite Rabs_Ropp. lra. }
  assert (LX : Rabs (B2R x - B2R y - (r - s)) <= k * eps64 * (B1 + B2)).
  { replace (B2R x - B2R y - (r - s)) with ((B2R x - r) + - (B2R y - s)) by ring.
    apply Rle_trans with (1 := Rabs_triang _ _). rewrite Rabs_Ropp. lra. }
  pose proof (k_eps k ltac:(lra)) as Ke.
  assert (F : fin (minus64 x y)).
  { apply minus_in_range; try assumption. apply small_range.
    replace (B2R x - B2R y) with ((r - s) + (B2R x - B2R y - (r - s))) by ring.
    apply Rle_trans with (1 := Rabs_triang _ _).
    assert (k * eps64 * (B1 + B2) <= 1 * (B1 + B2)) by (apply Rmult_le_compat_r; lra). lra. }
  split; [exact F|]. split; [exact LY|]. split; [lra|].
  rewrite minus_round by exact F. destruct (RN_minus x y) as (d & Ld & ->).
  replace ((B2R x - B2R y) * (1 + d) - (r - s)) with ((B2R x - B2R y) * (1 + d) + 0 - (r - s)) by ring.
  assert (PB : 0 <= eps64 * (B1 + B2)) by (apply Rmult_le_pos; lra).
  apply round_step; try assumption; try lra.
  rewrite Rabs_R0. lra.
Qed.
Lemma near_mul B1 B2 k1 k2 x y r s : near B1 k1 x r -> near B2 k2 y s -> k1 <= k_top -> k2 <= k_top ->
  B_bot <= B1 * B2 <= B_top -> near (B1 * B2) (k1 + k2 + 2) (mul64 x y) (r * s).
Proof.
  intros N1 N2 Lk1 Lk2 LB. pose proof (near_scale _ _ _ _ N1) as Q1. pose proof (near_scale _ _ _ _ N2) as Q2.
  pose proof (near_abs_float _ _ _ _ N2) as A2.
  destruct N1 as (F1 & L1 & P1 & E1), N2 as (F2 & L2 & P2 & E2). pose proof eps_pos as Pe.
  pose proof (k_eps k1 ltac:(lra)) as Ke1. pose proof (k_eps k2 ltac:(lra)) as Ke2. pose proof bot_pos.
  assert (LY : Rabs (r * s) <= B1 * B2) by (rewrite Rabs_mult; apply Rmult_le_compat; auto using Rabs_pos).
  assert (K : k1 * k2 * eps64 <= / 4).
  { rewrite Rmult_assoc. apply Rle_trans with (k_top * / 2 ^ 33); [|unfold k_top; lra].
    apply Rmult_le_compat; lra. }
  assert (LX : Rabs (B2R x * B2R y - r * s) <= (k1 + k2 + / 4) * eps64 * (B1 * B2)).
  { replace (B2R x * B2R y - r * s) with ((B2R x - r) * B2R y + r * (B2R y - s)) by ring.
    apply Rle_trans with (1 := Rabs_triang _ _). rewrite !Rabs_mult.
    apply Rle_trans with (k1 * eps64 * B1 * (B2 * (1 + k2 * eps64)) + B1 * (k2 * eps64 * B2)).
    - apply Rplus_le_compat; apply Rmult_le_compat; auto using Rabs_pos.
    - assert (0 <= eps64 * (B1 * B2)) by (apply Rmult_le_pos; lra).
      replace (k1 * eps64 * B1 * (B2 * (1 + k2 * eps64)) + B1 * (k2 * eps64 * B2))
        with ((k1 + k2 + k1 * k2 * eps64) * (eps64 * (B1 * B2))) by ring.
      rewrite (Rmult_assoc _ eps64). apply Rmult_le_compat_r; lra. }
  assert (LZ : Rabs (B2R x * B2R y) <= 2 * B_top).
  { replace (B2R x * B2R y) with (r * s + (B2R x * B2R y - r * s)) by ring.
    apply Rle_trans with (1 := Rabs_triang _ _).
    assert ((k1 + k2 + / 4) * eps64 * (B1 * B2) <= 1 * (B1 * B2)).
    { apply Rmult_le_compat_r; [lra|]. unfold eps64 in *. lra. }
    lra. }
  assert (F : fin (mul64 x y)) by (apply mul_in_range; try assumption; apply small_range; exact LZ).
  split; [exact F|]. split; [exact LY|]. split; [lra|].
  rewrite mul_round by exact F. destruct (RN_any (B2R x * B2R y)) as (d & e & Ld & Le & ->). fold tiny in Le.
  apply round_step; try assumption; try lra.
  apply Rle_trans with (1 := Le). apply tiny_bot. lra.
Qed.
(** division by a number of at least one *)
Lemma near_div B k x y r : near B k x r -> fin y -> 1 <= B2R y -> k <= k_top -> B_bot <= B <= B_top ->
  near B (k + 2) (div64 x y) (r / B2R y).
Proof.
  intros N Fy Ly Lk LB. pose proof (near_scale _ _ _ _ N). destruct N as (F1 & L1 & P & E1).
  pose proof eps_pos as Pe. pose proof (k_eps k ltac:(lra)) as Ke.
  assert (I : 0 < / B2R y <= 1).
  { split; [apply Rinv_0_lt_compat; lra|]. rewrite <- Rinv_1. apply Rinv_le_contravar; lra. }
  assert (LY : Rabs (r / B2R y) <= B).
  { unfold Rdiv. rewrite Rabs_mult, (Rabs_pos_eq (/ _)) by lra. pose proof (Rabs_pos r).
    apply Rle_trans with (Rabs r * 1); [apply Rmult_le_compat_l; lra|lra]. }
  assert (LX : Rabs (B2R x / B2R y - r / B2R y) <= k * eps64 * B).
  { replace (B2R x / B2R y - r / B2R y) with ((B2R x - r) * / B2R y) by (unfold Rdiv; ring).
    rewrite Rabs_mult, (Rabs_pos_eq (/ _)) by lra. pose proof (Rabs_pos (B2R x - r)).
    apply Rle_trans with (Rabs (B2R x - r) * 1); [apply Rmult_le_compat_l; lra|lra]. }
  assert (F : fin (div64 x y)).
  { apply div_in_range; try assumption; [lra|]. apply small_range.
    replace (B2R x / B2R y) with (r / B2R y + (B2R x / B2R y - r / B2R y)) by ring.
    apply Rle_trans with (1 := Rabs_triang _ _).
    assert (k * eps64 * B <= 1 * B) by (apply Rmult_le_compat_r; lra). lra. }
  split; [exact F|]. split; [exact LY|]. split; [lra|].
  rewrite div_round by (try exact F; lra). destruct (RN_any (B2R x / B2R y)) as (d & e & Ld & Le & ->). fold tiny in Le.
  assert (0 <= eps64 * B) by (apply Rmult_le_pos; lra).
  apply round_step; try assumption; try lra.
  apply Rle_trans with (1 := Le). apply tiny_bot. lra.
Qed.

(** multiplication by a mask is exact *)
Definition mask_of (x : f64) (r : R) : Prop := (r = 1 /\ x = one64) \/ (r = 0 /\ exists s, x = B754_zero s).
Lemma near_mask B k x r m mr : near B k x r -> mask_of m mr -> near B k (mul64 x m) (r * mr).
Proof.
  intros N M. pose proof (near_scale _ _ _ _ N) as HB. destruct N as (F & L & P & E). pose proof eps_pos.
  destruct M as [[-> ->]|[-> [s ->]]].
  - rewrite Rmult_1_r. split; [apply mul_one_fin; exact F|]. rewrite mul_one by exact F. auto.
  - rewrite Rmult_0_r. split; [destruct x; try discriminate F; reflexivity|].
    rewrite mul_zero, Rminus_0_r, Rabs_R0. repeat split; try lra. apply Rmult_le_pos; [apply Rmult_le_pos; lra|lra].
Qed.
Lemma near_abs B k x r : near B k x r -> near B k (abs64 x) (Rabs r).
Proof.
  intros (F & L & P & E). split; [unfold abs64, fin; rewrite is_finite_Babs; exact F|].
  rewrite abs_B2R, Rabs_Rabsolu. repeat split; try assumption. apply Rle_trans with (2 := E). apply Rabs_triang_inv2.
Qed.
Lemma near_opp B k x r : near B k x r -> near B k (opp64 x) (- r).
Proof.
  intros (F & L & P & E). split; [unfold opp64, fin; rewrite is_finite_Bopp; exact F|].
  unfold opp64. rewrite B2R_Bopp, Rabs_Ropp. repeat split; try assumption.
  replace (- B2R x - - r) with (- (B2R x - r)) by ring. rewrite Rabs_Ropp. exact E.
Qed.
Lemma near_zero B k : 0 <= B -> 0 <= k -> near B k zero64 0.
Proof.
  intros. pose proof eps_pos. split; [reflexivity|]. cbn [B2R zero64]. rewrite Rminus_0_r, Rabs_R0. repeat split; try lra.
  apply Rmult_le_pos; [apply Rmult_le_pos; lra|lra].
Qed.
Lemma near_one k : 0 <= k -> near 1 k one64 1.
Proof.
  intros H. apply (near_mono 1 1 0); try lra. pose proof (near_exact 1 one64) as N. rewrite B2R_one, Rabs_R1 in N.
  apply N; [reflexivity|lra].
Qed.

(** maxima are exact *)
Lemma Rmax_dist a b c d e : Rabs (a - c) <= e -> Rabs (b - d) <= e -> Rabs (Rmax a b - Rmax c d) <= e.
Proof.
  intros H1 H2. apply Rabs_le_inv in H1. apply Rabs_le_inv in H2. apply Rabs_le.
  unfold Rmax. destruct (Rle_dec a b), (Rle_dec c d); lra.
Qed.
Lemma pymax_B2R x y : fin x -> fin y -> fin (pymax64 x y) /\ B2R (pymax64 x y) = Rmax (B2R x) (B2R y).
Proof.
  intros Fx Fy. unfold pymax64. destruct (lt64 x y) eqn:E.
  - apply lt_B2R in E; auto. split; [exact Fy|]. rewrite Rmax_right; lra.
  - apply nlt_B2R in E; auto. split; [exact Fx|]. rewrite Rmax_left; lra.
Qed.
Lemma near_pymax B k x y r s : near B k x r -> near B k y s -> near B k (pymax64 x y) (Rmax r s).
Proof.
  intros (F1 & L1 & P & E1) (F2 & L2 & _ & E2). destruct (pymax_B2R x y F1 F2) as [F E].
  split; [exact F|]. rewrite E. repeat split; try assumption.
  - apply Rabs_le_inv in L1. apply Rabs_le_inv in L2. apply Rabs_le. unfold Rmax. destruct (Rle_dec _ _); lra.
  - apply Rmax_dist; assumption.
Qed.
Lemma amax_step (acc v : f64) : fin acc -> fin v ->
  (if isnan64 acc then acc else if isnan64 v then v else if lt64 acc v then v else acc) = pymax64 acc v.
Proof.
  intros Fa Fv. unfold isnan64. replace (is_nan acc) with false by (destruct acc; try discriminate Fa; reflexivity).
  replace (is_nan v) with false by (destruct v; try discriminate Fv; reflexivity). reflexivity.
Qed.
Lemma near_amax B k n (v : vec64) (w : vec) : (1 <= n)%nat -> (forall i, (i < n)%nat -> near B k (v i) (w i)) ->
  near B k (amax64 n v) (vmax n w).
Proof.
  intros Ln H. destruct n as [|n]; [lia|]. clear Ln. unfold amax64. replace (S n - 1)%nat with n by lia.
  induction n as [|n IH].
  - apply (H O). lia.
  - cbn [for_]. specialize (IH ltac:(intros; apply H; lia)).
    rewrite amax_step by (first [apply (near_fin _ _ _ _ IH)|apply (near_fin _ _ _ _ (H (S n) ltac:(lia)))]).
    rewrite vmax_S. apply near_pymax; [exact IH|apply H; lia].
Qed.

(** running sums *)
Lemma near_loop B0 B k n (v : vec64) (w : vec) s r : near B0 k s r ->
  (forall i, (i < n)%nat -> near B k (v i) (w i)) -> 0 <= B -> k + 2 * INR n <= k_top -> B0 + INR n * B <= B_top ->
  near (B0 + INR n * B) (k + 2 * INR n) (for_ n (fun i acc => add64 acc (v i)) s) (r + rsum n w).
Proof.
  intros N0 H PB. induction n as [|n IH]; intros Lk LB.
  - cbn [for_ rsum INR]. rewrite Rmult_0_l, Rmult_0_r, !Rplus_0_r. exact N0.
  - cbn [for_ rsum]. rewrite S_INR in *. pose proof (pos_INR n).
    assert (IN : near (B0 + INR n * B) (k + 2 * INR n) (for_ n (fun i acc => add64 acc (v i)) s) (r + rsum n w))
      by (apply IH; [intros; apply H; lia|lra|lra]).
    replace (B0 + (INR n + 1) * B) with ((B0 + INR n * B) + B) by ring.
    replace (k + 2 * (INR n + 1)) with ((k + 2 * INR n) + 2) by ring.
    rewrite <- Rplus_assoc. apply near_add; try lra; [exact IN|].
    apply (near_mono B B k); try lra. apply H. lia.
Qed.
Lemma near_loop_minus B0 B k n (v : vec64) (w : vec) s r : near B0 k s r ->
  (forall i, (i < n)%nat -> near B k (v i) (w i)) -> 0 <= B -> k + 2 * INR n <= k_top -> B0 + INR n * B <= B_top ->
  near (B0 + INR n * B) (k + 2 * INR n) (for_ n (fun i acc => minus64 acc (v i)) s) (r - rsum n w).
Proof.
  intros N0 H PB. induction n as [|n IH]; intros Lk LB.
  - cbn [for_ rsum INR]. rewrite Rmult_0_l, Rmult_0_r, Rminus_0_r, !Rplus_0_r. exact N0.
  - cbn [for_ rsum]. rewrite S_INR in *. pose proof (pos_INR n).
    assert (IN : near (B0 + INR n * B) (k + 2 * INR n) (for_ n (fun i acc => minus64 acc (v i)) s) (r - rsum n w))
      by (apply IH; [intros; apply H; lia|lra|lra]).
    replace (B0 + (INR n + 1) * B) with ((B0 + INR n * B) + B) by ring.
    replace (k + 2 * (INR n + 1)) with ((k + 2 * INR n) + 2) by ring.
    replace (r - (rsum n w + w n)) with (r - rsum n w - w n) by ring.
    apply near_minus; try lra; [exact IN|].
    apply (near_mono B B k); try lra. apply H. lia.
Qed.
Lemma near_sum B k n (v : vec64) (w : vec) : (forall i, (i < n)%nat -> near B k (v i) (w i)) -> 0 <= B -> 0 <= k ->
  k + 2 * INR n <= k_top -> INR n * B <= B_top ->
  near (INR n * B) (k + 2 * INR n) (sum64 n v) (rsum n w).
Proof.
  intros H PB Pk Lk LB. unfold sum64. replace (rsum n w) with (0 + rsum n w) by ring.
  replace (INR n * B) with (0 + INR n * B) by ring. apply near_loop; try lra; [apply near_zero; lra|exact H].
Qed.

(* ------------------------------------------------------------------ *)
(** * Boltzmann factors and fractions *)

Lemma pow_exp k : (1 - eps64) ^ k <= exp (- (INR k * eps64)).
Proof.
  induction k as [|k IH]; [cbn; rewrite Rmult_0_l, Ropp_0, exp_0; lra|].
  rewrite S_INR. cbn [pow]. replace (- ((INR k + 1) * eps64)) with (- eps64 + - (INR k * eps64)) by ring.
  rewrite exp_plus. pose proof base_pos. apply Rmult_le_compat; [lra|apply pow_le; lra| |exact IH].
  pose proof (exp_ineq1_le (- eps64)). lra.
Qed.
Lemma exp_within k x y : Rabs (x - y) <= INR k * eps64 -> within k (exp x) (exp y).
Proof.
  intros H. apply Rabs_le_inv in H. pose proof (exp_pos x). pose proof (exp_pos y). pose proof (pow_exp k) as K.
  assert (T : forall a b, b - INR k * eps64 <= a -> exp b * (1 - eps64) ^ k <= exp a).
  { intros a b L. apply Rle_trans with (exp b * exp (- (INR k * eps64))).
    - apply Rmult_le_compat_l; [left; apply exp_pos|exact K].
    - rewrite <- exp_plus. destruct (Rle_lt_or_eq_dec _ _ L) as [L'|L'].
      + left. apply exp_increasing. lra.
      + right. f_equal. lra. }
  unfold within. repeat split; try lra; apply T; lra.
Qed.
Lemma dist_within k x y : 0 <= y -> INR k * eps64 <= / 2 -> Rabs (x - y) <= INR k * eps64 * y -> within (2 * k) x y.
Proof.
  intros Py Hk H. apply Rabs_le_inv in H. set (t := INR k * eps64) in *.
  assert (Pt : 0 <= t) by (apply Rmult_le_pos; [apply pos_INR|pose proof eps_pos; lra]).
  assert (K : (1 - eps64) ^ (2 * k) * (1 + 2 * t) <= 1).
  { pose proof (pow_exp (2 * k)) as K. rewrite mult_INR in K. cbn [INR] in K.
    replace ((1 + 1) * INR k * eps64) with (2 * t) in K by (unfold t; ring).
    pose proof (exp_ineq1_le (2 * t)) as X. assert (E : exp (- (2 * t)) * exp (2 * t) = 1).
    { rewrite <- exp_plus. replace (- (2 * t) + 2 * t) with 0 by ring. apply exp_0. }
    pose proof (exp_pos (- (2 * t))). pose proof base_pos.
    apply Rle_trans with (exp (- (2 * t)) * exp (2 * t)); [|lra]. apply Rmult_le_compat; try lra. apply pow_le. lra. }
  pose proof (pow_base (2 * k)) as B. set (u := (1 - eps64) ^ (2 * k)) in *.
  assert (T : t * y <= / 2 * y) by (apply Rmult_le_compat_r; lra).
  assert (u1 : u <= 1 - t).
  { apply Rmult_le_reg_r with (1 + 2 * t); [lra|]. apply Rle_trans with (1 := K).
    assert (0 <= t * (1 - 2 * t)) by (apply Rmult_le_pos; lra). lra. }
  assert (u2 : u * (1 + t) <= 1).
  { apply Rle_trans with (2 := K). apply Rmult_le_compat_l; lra. }
  assert (C1 : x * u <= y).
  { apply Rle_trans with ((1 + t) * y * u); [apply Rmult_le_compat_r; lra|].
    apply Rle_trans with (y * (u * (1 + t))); [lra|]. apply Rle_trans with (y * 1); [apply Rmult_le_compat_l; lra|lra]. }
  assert (C2 : y * u <= x).
  { apply Rle_trans with (y * (1 - t)); [apply Rmult_le_compat_l; lra|lra]. }
  unfold within. fold u. repeat split; try assumption; lra.
Qed.

(** [np.exp] is accurate to [k] units of 2^-53 on [-150, 150] *)
Definition exp_accurate {G} (pf : platform64 G) (k : nat) : Prop :=
  forall x, fin x -> Rabs (B2R x) <= 150 ->
    fin (pf_exp pf x) /\ Rabs (B2R (pf_exp pf x) - exp (B2R x)) <= INR k * eps64 * exp (B2R x).

Lemma exp_INR n : exp (INR n) = exp 1 ^ n.
Proof. induction n as [|n IH]; [apply exp_0|]. rewrite S_INR, exp_plus, IH. cbn [pow]. ring. Qed.
Lemma exp_range x : Rabs x <= 140 -> bpow radix2 (-280) <= exp x <= bpow radix2 280.
Proof.
  intros H. apply Rabs_le_inv in H.
  assert (M : forall a b, a <= b -> exp a <= exp b).
  { intros a b L. destruct (Rle_lt_or_eq_dec _ _ L) as [L'| ->]; [left; apply exp_increasing; exact L'|lra]. }
  assert (E4 : forall n, 4 ^ n = bpow radix2 (2 * Z.of_nat n)).
  { induction n as [|n IH]; [reflexivity|]. replace (2 * Z.of_nat (S n))%Z with (2 + 2 * Z.of_nat n)%Z by lia.
    rewrite bpow_plus, <- IH. reflexivity. }
  assert (U : exp 140 <= bpow radix2 280).
  { replace 140 with (INR 140) by (rewrite INR_IZR_INZ; reflexivity). rewrite exp_INR.
    change 280%Z with (2 * Z.of_nat 140)%Z. rewrite <- E4. apply pow_incr. pose proof (exp_pos 1). pose proof exp_le_3. lra. }
  split.
  - replace x with (- - x) by ring. rewrite exp_Ropp. change (-280)%Z with (- (280))%Z. rewrite bpow_opp.
    apply Rinv_le_contravar; [apply exp_pos|]. apply Rle_trans with (2 := U). apply M. lra.
  - apply Rle_trans with (2 := U). apply M. lra.
Qed.

Lemma tiny_eps : tiny <= eps64.
Proof.
  pose proof (tiny_bot 1) as T. pose proof eps_pos.
  assert (B_bot <= 1) by (change 1 with (bpow radix2 0); apply bpow_le; lia). specialize (T H0). lra.
Qed.

Lemma nat_eps (a : nat) : (Z.of_nat a <= 2 ^ 40)%Z -> INR a * eps64 <= / 4096.
Proof.
  intros L. pose proof eps_pos. apply Rle_trans with (2 ^ 40 * eps64); [|unfold eps64; lra].
  apply Rmult_le_compat_r; [lra|]. rewrite INR_IZR_INZ. replace (2 ^ 40) with (IZR (2 ^ 40)) by (cbn; lra). apply IZR_le. lia.
Qed.
Lemma small_k (a : nat) : (Z.of_nat a <= 2 ^ 40)%Z -> INR a * eps64 <= / 2.
Proof. intros L. pose proof (nat_eps a L). lra. Qed.

Section Boltzmann.
Context {G : Type} (pf : platform64 G) (kx E : nat).
Hypothesis acc : exp_accurate pf kx.
Hypothesis E_ok : (E <= 140)%nat.
Hypothesis kx_ok : (Z.of_nat kx <= 2 ^ 20)%Z.

Lemma boltz_near w l : fin w -> fin l -> Rabs (B2R w * B2R l) <= INR E ->
  let x := pf_exp pf (mul64 (opp64 w) l) in
  fin x /\ within (2 * kx + E + 1) (B2R x) (exp (- B2R w * B2R l)) /\
  bpow radix2 (-300) <= B2R x <= bpow radix2 300.
Proof using acc E_ok kx_ok.
  intros Fw Fl H x. pose proof eps_pos as Pe. pose proof tiny_eps as Te. pose proof tiny_pos as Pt.
  assert (LE : INR E <= 140) by (replace 140 with (INR 140) by (rewrite INR_IZR_INZ; reflexivity); apply le_INR; exact E_ok).
  assert (Fo : fin (opp64 w)) by (unfold opp64, fin; rewrite is_finite_Bopp; exact Fw).
  assert (Eo : B2R (opp64 w) = - B2R w) by (unfold opp64; apply B2R_Bopp).
  set (z := - B2R w * B2R l). assert (Lz : Rabs z <= INR E).
  { unfold z. rewrite Ropp_mult_distr_l_reverse, Rabs_Ropp. exact H. }
  assert (Fm : fin (mul64 (opp64 w) l)).
  { apply mul_in_range; auto. rewrite Eo. fold z. apply small_range. apply Rle_trans with (1 := Lz).
    apply Rle_trans with 140; [exact LE|]. apply Rle_trans with (2 * bpow radix2 8); [cbn; lra|].
    apply Rmult_le_compat_l; [lra|apply bpow_le; lia]. }
  assert (D : Rabs (B2R (mul64 (opp64 w) l) - z) <= INR (E + 1) * eps64).
  { rewrite mul_round by exact Fm. rewrite Eo. fold z. destruct (RN_any z) as (d & e & Ld & Le & ->). fold tiny in Le.
    replace (z * (1 + d) + e - z) with (d * z + e) by ring. apply Rle_trans with (1 := Rabs_triang _ _).
    rewrite Rabs_mult, plus_INR. cbn [INR].
    assert (Rabs d * Rabs z <= eps64 * INR E) by (apply Rmult_le_compat; auto using Rabs_pos). lra. }
  destruct (acc (mul64 (opp64 w) l) Fm) as [Fx Ax].
  { replace (B2R (mul64 (opp64 w) l)) with (z + (B2R (mul64 (opp64 w) l) - z)) by ring.
    apply Rle_trans with (1 := Rabs_triang _ _). pose proof (nat_eps (E + 1) ltac:(lia)). lra. }
  fold x in Fx, Ax. split; [exact Fx|].
  assert (W : within (2 * kx + (E + 1)) (B2R x) (exp z)).
  { apply (within_trans _ _ _ (exp (B2R (mul64 (opp64 w) l)))); [|apply exp_within; exact D].
    apply dist_within; [left; apply exp_pos| |exact Ax]. pose proof (nat_eps kx ltac:(lia)). lra. }
  split; [replace (2 * kx + E + 1)%nat with (2 * kx + (E + 1))%nat by lia; exact W|].
  refine (range_weaken _ (-280 - 1) (280 + 1) _ _ _ _ _); try lia.
  apply (range_within _ _ _ _ _ W); [pose proof (nat_eps (2 * kx + (E + 1)) ltac:(lia)); lra|apply exp_range; lra].
Qed.
End Boltzmann.

(** a non-negative number that is zero or of moderate size *)
Definition moderate (a b : Z) (x : R) : Prop := x = 0 \/ bpow radix2 a <= x <= bpow radix2 b.
Lemma moderate_nonneg a b x : moderate a b x -> 0 <= x.
Proof. pose proof (bpow_gt_0 radix2 a). intros [->|H']; lra. Qed.
Lemma moderate_le a b x : moderate a b x -> x <= bpow radix2 b.
Proof. pose proof (bpow_gt_0 radix2 b). intros [->|H']; lra. Qed.
Lemma moderate_within k x y a b : within k x y -> INR k * eps64 <= / 2 -> moderate a b y -> moderate (a - 1) (b + 1) x.
Proof.
  intros W L [->|H]; [left|right; exact (range_within _ _ _ _ _ W L H)].
  destruct (within_two _ _ _ W L). lra.
Qed.
Lemma moderate_weaken x a b a' b' : (a' <= a)%Z -> (b <= b')%Z -> moderate a b x -> moderate a' b' x.
Proof. intros La Lb [H|H]; [left; exact H|right; exact (range_weaken _ _ _ _ _ La Lb H)]. Qed.
Lemma moderate_mul x y a b c d : moderate a b x -> moderate c d y -> moderate (a + c) (b + d) (x * y).
Proof.
  intros [->|H] [->|H']; try (left; ring). right. apply range_mul; assumption.
Qed.

Section Fractions.
Variables (np kb : nat) (b Js : vec64) (br J : vec).
Hypothesis np_ok : (Z.of_nat np <= 2 ^ 20)%Z.
Hypothesis kb_ok : (Z.of_nat kb <= 2 ^ 20)%Z.
Hypothesis b_ok : forall m, (m < np)%nat ->
  fin (b m) /\ within kb (B2R (b m)) (br m) /\ bpow radix2 (-300) <= B2R (b m) <= bpow radix2 300.
Hypothesis J_ok : forall m, (m < np)%nat -> fin (Js m) /\ B2R (Js m) = J m /\ moderate (-100) 100 (J m).
Hypothesis some : exists m, (m < np)%nat /\ J m <> 0.

Definition num64 : f64 := sum64 np (fun m => mul64 (b m) (Js m)).
Definition den64 : f64 := sum64 np Js.
Definition mean_of : R := rsum np (fun m => br m * J m) / rsum np J.

Lemma mean_near : eq0_64 den64 = false /\ fin (div64 num64 den64) /\ 0 < B2R (div64 num64 den64) /\
  within (kb + 2 * np + 2) (B2R (div64 num64 den64)) mean_of /\
  bpow radix2 (-302) <= B2R (div64 num64 den64) <= bpow radix2 302.
Proof using np_ok kb_ok b_ok J_ok some.
  assert (prod : forall m, (m < np)%nat -> fin (mul64 (b m) (Js m)) /\
    within 1 (B2R (mul64 (b m) (Js m))) (B2R (b m) * J m) /\ 0 <= B2R (mul64 (b m) (Js m)) <= bpow radix2 401).
  { intros m L. destruct (J_ok m L) as (FJ & EJ & MJ). destruct (b_ok m L) as (Fb & _ & Rb).
    pose proof (moderate_nonneg _ _ _ MJ) as PJ. pose proof (bpow_gt_0 radix2 (-300)) as P3.
    pose proof (moderate_mul _ _ (-300) 300 (-100) 100 (or_intror Rb) MJ) as R. cbn [Z.add Z.opp Z.pos_sub Pos.add Pos.succ Pos.add_carry] in R.
    destruct (mul_within (b m) (Js m) Fb FJ) as [F W]; try rewrite EJ; try lra.
    { apply (moderate_weaken _ (-400) 400); [lia|lia|exact R]. }
    rewrite EJ in W. split; [exact F|split; [exact W|]]. split; [apply W|].
    exact (moderate_le _ _ _ (moderate_within _ _ _ (-400) 400 W (small_k 1 ltac:(lia)) R)). }
  destruct (sum_within np (fun m => mul64 (b m) (Js m)) 401 ltac:(lia) ltac:(lia)) as [Fnum Wnum].
  { intros m L. destruct (prod m L) as (F & _ & B). split; assumption. }
  destruct (sum_within np Js 100 ltac:(lia) ltac:(lia)) as [Fden Wden].
  { intros m L. destruct (J_ok m L) as (F & E & M). split; [exact F|]. rewrite E.
    split; [exact (moderate_nonneg _ _ _ M)|exact (moderate_le _ _ _ M)]. }
  fold num64 in Fnum, Wnum. fold den64 in Fden, Wden.
  rewrite (rsum_ext np (fun i => B2R (Js i)) J) in Wden by (intros m L; apply (J_ok m L)).
  assert (J_pos : forall m, (m < np)%nat -> 0 <= J m) by (intros m L; destruct (J_ok m L) as (_ & _ & M); exact (moderate_nonneg _ _ _ M)).
  set (T := rsum np J) in *. set (Bf := rsum np (fun m => B2R (b m) * J m)). set (Br := rsum np (fun m => br m * J m)).
  assert (Wf : within (np + 1) (B2R num64) Bf).
  { apply (within_trans np 1 _ _ _ Wnum). apply within_rsum. intros m L. apply (prod m L). }
  assert (Wbr : within kb Bf Br).
  { apply within_rsum. intros m L. apply (within_mono (kb + 0)); [lia|].
    apply within_mul; [apply (b_ok m L)|apply within_refl; auto]. }
  assert (PT : 0 < T).
  { destruct some as (m & L & N). apply rsum_pos; [exact J_pos|]. exists m. split; [exact L|]. specialize (J_pos m L). lra. }
  assert (RBf : bpow radix2 (-300) <= Bf / T <= bpow radix2 300).
  { assert (BB : bpow radix2 (-300) * T <= Bf <= bpow radix2 300 * T).
    { unfold Bf, T. rewrite <- !rsum_scal_l. split; apply rsum_le; intros m L; (apply Rmult_le_compat_r; [apply J_pos; exact L|]);
        apply (b_ok m L). }
    split; apply Rmult_le_reg_r with T; auto; unfold Rdiv; rewrite Rmult_assoc, Rinv_l, Rmult_1_r by lra; apply BB. }
  pose proof (within_pos _ _ _ Wden PT) as Pden.
  assert (Wr : within (2 * np + 1) (B2R num64 / B2R den64) (Bf / T)).
  { apply (within_mono (np + 1 + np)); [lia|]. apply within_mul; [exact Wf|]. apply within_inv; assumption. }
  pose proof (range_within _ _ _ _ _ Wr (small_k (2 * np + 1)%nat ltac:(lia)) RBf) as Rr.
  destruct (div_within num64 den64 Fnum ltac:(apply Wf) Pden) as [FQ WQ].
  { right. refine (range_weaken _ _ _ _ _ _ _ Rr); lia. }
  pose proof (range_within _ _ _ _ _ WQ (small_k 1%nat ltac:(lia)) Rr) as RQ.
  split; [|split; [exact FQ|split; [|split]]].
  - destruct den64 as [s|s| |s mm ee He]; try reflexivity. cbn in Pden. lra.
  - pose proof (bpow_gt_0 radix2 (-300 - 1 - 1)). lra.
  - apply (within_mono (1 + ((2 * np + 1) + kb))); [lia|]. apply (within_trans _ _ _ _ _ WQ).
    apply (within_trans _ _ _ _ _ Wr). unfold mean_of. fold Br T.
    apply (within_mono (kb + 0)); [lia|]. apply within_mul; [exact Wbr|].
    apply within_refl. left. apply Rinv_0_lt_compat. exact PT.
  - exact RQ.
Qed.
Lemma mean_pos : 0 < mean_of.
Proof using np_ok kb_ok b_ok J_ok some.
  destruct mean_near as (_ & _ & P & W & _). apply within_sym in W. exact (within_pos _ _ _ W P).
Qed.

(** the fractions of one component in both ensembles *)
Lemma fraction_near (f p : f64) m mr mask : fin p -> moderate (-200) 100 (B2R p) ->
  (f = p /\ mr = B2R p \/ f = div64 p (div64 num64 den64) /\ mr = B2R p / mean_of) ->
  (m < np)%nat -> forall mk, mask_of mask mk ->
  fin (mul64 (mul64 f (b m)) mask) /\ within (2 * kb + 2 * np + 4) (B2R (mul64 (mul64 f (b m)) mask)) (mr * br m * mk).
Proof using np_ok kb_ok b_ok J_ok some.
  intros Fp Mp Hf L mk Hm. pose proof mean_near as (_ & FQ & PQ & WQ & RQ). pose proof mean_pos as Pm.
  destruct (b_ok m L) as (Fb & Wb & Rb). pose proof (moderate_nonneg _ _ _ Mp) as Pp.
  assert (P3 : 0 < B2R (b m)) by (pose proof (bpow_gt_0 radix2 (-300)); lra).
  assert (F : fin f /\ within (kb + 2 * np + 3) (B2R f) mr /\ moderate (-503) 403 (B2R f)).
  { destruct Hf as [[-> ->]|[-> ->]].
    - split; [exact Fp|]. split; [apply (within_mono 0); [lia|]; apply within_refl; exact Pp|].
      apply (moderate_weaken _ (-200) 100); [lia|lia|exact Mp].
    - set (Q := div64 num64 den64) in *.
      assert (R : moderate (-502) 402 (B2R p / B2R Q)).
      { exact (moderate_mul _ _ (-200) 100 (-302) 302 Mp (or_intror (range_inv _ _ _ RQ))). }
      destruct (div_within p Q Fp Pp PQ) as [Ff Wf].
      { destruct Mp as [Mp|Mp]; [left; exact Mp|right].
        refine (range_weaken _ (-502) 402 _ _ _ _ (range_mul _ _ (-200) 100 (-302) 302 Mp (range_inv _ _ _ RQ))); lia. }
      split; [exact Ff|]. split.
      + apply (within_mono (1 + (0 + (kb + 2 * np + 2)))); [lia|]. apply (within_trans _ _ _ _ _ Wf).
        apply within_mul; [apply within_refl; exact Pp|]. apply within_inv; assumption.
      + exact (moderate_within _ _ _ _ _ Wf (small_k 1 ltac:(lia)) R). }
  destruct F as (Ff & Wf & Mf). pose proof (moderate_nonneg _ _ _ Mf) as Pf.
  destruct (mul_within f (b m) Ff Fb Pf ltac:(lra)) as [Fm Wm].
  { apply (moderate_weaken _ (-503 + -300) (403 + 300)); [lia|lia|]. apply moderate_mul; [exact Mf|right; exact Rb]. }
  destruct Hm as [[-> ->]|[-> [s ->]]].
  - split; [apply mul_one_fin; exact Fm|]. rewrite mul_one by exact Fm. rewrite Rmult_1_r.
    apply (within_mono (1 + ((kb + 2 * np + 3) + kb))); [lia|]. apply (within_trans _ _ _ _ _ Wm).
    apply within_mul; assumption.
  - split; [destruct (mul64 f (b m)); try discriminate Fm; reflexivity|].
    rewrite mul_zero, Rmult_0_r. apply within_zero.
Qed.
End Fractions.

Lemma near_div_to B k x y r d : near B k x r -> fin y -> B2R y = d -> 1 <= d -> k <= k_top -> B_bot <= B <= B_top ->
  near B (k + 2) (div64 x y) (r / d).
Proof. intros N F <- L. apply near_div; assumption. Qed.

(** the limiter of the volume changes *)
Lemma near_ratio S k x r y u : near S k x r -> fin y -> B2R y = u -> 0 < u -> k <= k_top -> 1 + S / u <= B_top ->
  near (1 + S / u) (k + 2) (div64 y (pymax64 x y)) (u / Rmax r u).
Proof.
  intros N Fy Ey Pu Lk LB. pose proof (near_scale _ _ _ _ N) as PS. destruct N as (Fx & Lr & P & D). pose proof eps_pos as Pe.
  destruct (pymax_B2R x y Fx Fy) as [FC EC]. rewrite Ey in EC. set (C := Rmax r u). set (c := pymax64 x y) in *.
  assert (LC : u <= C) by apply Rmax_r. assert (Lc : u <= B2R c) by (rewrite EC; apply Rmax_r).
  assert (DC : Rabs (B2R c - C) <= k * eps64 * S).
  { rewrite EC. apply Rmax_dist; [exact D|]. rewrite Rminus_eq_0, Rabs_R0. apply Rmult_le_pos; [apply Rmult_le_pos; lra|exact PS]. }
  assert (PSu : 0 <= S / u) by (apply Rmult_le_pos; [lra|left; apply Rinv_0_lt_compat; lra]).
  assert (LY : 0 < u / C <= 1).
  { split; [apply Rdiv_lt_0_compat; lra|]. apply (Rmult_le_reg_r C); [lra|]. unfold Rdiv. rewrite Rmult_assoc, Rinv_l by lra. lra. }
  assert (LZ : 0 < u / B2R c <= 1).
  { split; [apply Rdiv_lt_0_compat; lra|]. apply (Rmult_le_reg_r (B2R c)); [lra|]. unfold Rdiv. rewrite Rmult_assoc, Rinv_l by lra. lra. }
  assert (LX : Rabs (u / B2R c - u / C) <= k * eps64 * (S / u)).
  { replace (u / B2R c - u / C) with (- (((u / B2R c) * (u / C)) * ((B2R c - C) / u))) by (field; lra).
    rewrite Rabs_Ropp, Rabs_mult. rewrite (Rabs_pos_eq (_ * _)) by (apply Rmult_le_pos; lra).
    apply Rle_trans with (1 * Rabs ((B2R c - C) / u)).
    - apply Rmult_le_compat_r; [apply Rabs_pos|]. rewrite <- (Rmult_1_l 1). apply Rmult_le_compat; lra.
    - rewrite Rmult_1_l. unfold Rdiv at 1. rewrite Rabs_mult. pose proof (Rinv_0_lt_compat u Pu).
      rewrite (Rabs_pos_eq (/ u)) by lra. unfold Rdiv. rewrite <- Rmult_assoc. apply Rmult_le_compat_r; [lra|exact DC]. }
  assert (B1 : 1 <= B_top) by lra.
  assert (F : fin (div64 y c)).
  { apply div_in_range; try assumption; [lra|]. rewrite Ey. apply small_range. rewrite Rabs_pos_eq by lra. lra. }
  split; [exact F|]. split; [rewrite Rabs_pos_eq by lra; lra|]. split; [lra|].
  rewrite div_round by (try exact F; lra). rewrite Ey. destruct (RN_any (u / B2R c)) as (d & e & Ld & Le & ->). fold tiny in Le.
  assert (0 <= k * eps64) by (apply Rmult_le_pos; lra).
  assert (0 <= eps64 * (1 + S / u)) by (apply Rmult_le_pos; lra).
  apply round_step; try assumption; try lra.
  - rewrite Rabs_pos_eq by lra. lra.
  - apply Rle_trans with (1 := Le). apply tiny_bot. apply Rle_trans with 1; [|lra].
    change 1 with (bpow radix2 0). apply bpow_le. lia.
Qed.
