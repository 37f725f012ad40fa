(** ProofsRounding.v -- rounding errors of the binary64 kernel. *)

From Flocq Require Import Core BinarySingleNaN Plus_error Relative Mult_error.
From Coq Require Import Reals ZArith List Bool Arith Lia Lra.
From Verif Require Import Base ModelFloat ModelFloatKernel PropertiesFloat ProofsFloatKernel.
Import ListNotations.
Open Scope R_scope.
#[local] Instance fexp64_valid : Valid_exp fexp64 := fexp_correct prec64 emax64 prec64_ok.

(** unit roundoff of binary64 *)
Definition eps64 : R := / 2 ^ 53.
(** bound on the accumulated relative error of [n] additions *)
Definition gamma64 (n : nat) : R := (1 + eps64) ^ n - 1.

Lemma eps_pos : 0 < eps64. Proof. unfold eps64. apply Rinv_0_lt_compat. lra. Qed.
Lemma eps_small : eps64 <= / 1024.
Proof. unfold eps64. apply Rinv_le_contravar; lra. Qed.
Lemma eps_bpow : eps64 = / 2 * bpow radix2 (- prec64 + 1).
Proof. unfold eps64. change (bpow radix2 (- prec64 + 1)) with (/ 4503599627370496). lra. Qed.
Lemma gamma_0 : gamma64 0 = 0. Proof. unfold gamma64. cbn. ring. Qed.
Lemma gamma_S n : gamma64 (S n) = gamma64 n * (1 + eps64) + eps64.
Proof. unfold gamma64. cbn. ring. Qed.
Lemma gamma_pos n : 0 <= gamma64 n.
Proof.
  pose proof eps_pos. induction n as [|n IH]; [rewrite gamma_0; lra|]. rewrite gamma_S.
  assert (0 <= gamma64 n * (1 + eps64)) by (apply Rmult_le_pos; lra). lra.
Qed.
(** at most a million terms: less than twice the first-order bound *)
Lemma gamma_le n : INR n * eps64 <= / 2 -> gamma64 n <= 2 * (INR n * eps64).
Proof.
  pose proof eps_pos as E. intros H.
  assert (B : forall k, (k <= n)%nat -> gamma64 k * (1 - INR k * eps64) <= INR k * eps64).
  { induction k as [|k IH]; intros L; [rewrite gamma_0; cbn; lra|].
    rewrite gamma_S, S_INR. specialize (IH ltac:(lia)).
    pose proof (le_INR _ _ L) as Lk. rewrite S_INR in Lk. pose proof (pos_INR k) as Pk.
    pose proof (gamma_pos k) as Pg.
    assert (K : (INR k + 1) * eps64 <= / 2) by (apply Rle_trans with (INR n * eps64); [apply Rmult_le_compat_r; lra|lra]).
    assert (0 <= gamma64 k * (eps64 * eps64 * (INR k + 1))) by (apply Rmult_le_pos; [lra|apply Rmult_le_pos; [nra|lra]]).
    assert (0 <= eps64 * (INR k * eps64)) by (apply Rmult_le_pos; [lra|apply Rmult_le_pos; lra]).
    nra. }
  specialize (B n ltac:(lia)). pose proof (gamma_pos n). nra.
Qed.

(* ------------------------------------------------------------------ *)
(** * Single operations *)

Lemma overflow_sf (x : f64) s : B2SF x = binary_overflow prec64 emax64 mode_NE s -> fin x -> False.
Proof. intros H F. destruct x; discriminate. Qed.

Lemma add_round x y : fin (add64 x y) -> B2R (add64 x y) = RN (B2R x + B2R y).
Proof.
  intros F. destruct (add_fin _ _ F) as [Fx Fy].
  pose proof (@Bplus_correct prec64 emax64 prec64_ok prec64_lt mode_NE x y Fx Fy) as C.
  fold (add64 x y) in C. destruct (Rlt_bool _ _); [exact (proj1 C)|].
  destruct C as [C _]. destruct (overflow_sf _ _ C F).
Qed.
Lemma minus_round x y : fin (minus64 x y) -> B2R (minus64 x y) = RN (B2R x - B2R y).
Proof.
  intros F. destruct (minus_fin _ _ F) as [Fx Fy].
  pose proof (@Bminus_correct prec64 emax64 prec64_ok prec64_lt mode_NE x y Fx Fy) as C.
  fold (minus64 x y) in C. destruct (Rlt_bool _ _); [exact (proj1 C)|].
  destruct C as [C _]. destruct (overflow_sf _ _ C F).
Qed.
Lemma mul_round x y : fin (mul64 x y) -> B2R (mul64 x y) = RN (B2R x * B2R y).
Proof.
  intros F. pose proof (@Bmult_correct prec64 emax64 prec64_ok prec64_lt mode_NE x y) as C.
  fold (mul64 x y) in C. destruct (Rlt_bool _ _); [exact (proj1 C)|].
  destruct (overflow_sf _ _ C F).
Qed.
Lemma div_round x y : B2R y <> 0 -> fin (div64 x y) -> B2R (div64 x y) = RN (B2R x / B2R y).
Proof.
  intros Hy F. pose proof (@Bdiv_correct prec64 emax64 prec64_ok prec64_lt mode_NE x y Hy) as C.
  fold (div64 x y) in C. destruct (Rlt_bool _ _); [exact (proj1 C)|].
  destruct (overflow_sf _ _ C F).
Qed.
(** results within the range are finite *)
Lemma below_max x b : RN x = b -> Rabs b < bpow radix2 emax64 ->
  Rlt_bool (Rabs (round radix2 fexp64 (round_mode mode_NE) x)) (bpow radix2 emax64) = true.
Proof. intros E L. apply Rlt_bool_true. cbn [round_mode]. unfold RN in E. rewrite E. exact L. Qed.
Lemma mul_in_range x y : fin x -> fin y -> Rabs (RN (B2R x * B2R y)) < bpow radix2 emax64 -> fin (mul64 x y).
Proof.
  intros Fx Fy L. pose proof (@Bmult_correct prec64 emax64 prec64_ok prec64_lt mode_NE x y) as C.
  fold (mul64 x y) in C. erewrite below_max in C by (reflexivity || exact L).
  destruct C as (_ & C & _). unfold fin. rewrite C, Fx, Fy. reflexivity.
Qed.
Lemma div_in_range x y : fin x -> B2R y <> 0 -> Rabs (RN (B2R x / B2R y)) < bpow radix2 emax64 -> fin (div64 x y).
Proof.
  intros Fx Hy L. pose proof (@Bdiv_correct prec64 emax64 prec64_ok prec64_lt mode_NE x y Hy) as C.
  fold (div64 x y) in C. erewrite below_max in C by (reflexivity || exact L).
  destruct C as (_ & C & _). unfold fin. rewrite C. exact Fx.
Qed.
Lemma add_in_range x y : fin x -> fin y -> Rabs (RN (B2R x + B2R y)) < bpow radix2 emax64 -> fin (add64 x y).
Proof.
  intros Fx Fy L. pose proof (@Bplus_correct prec64 emax64 prec64_ok prec64_lt mode_NE x y Fx Fy) as C.
  fold (add64 x y) in C. erewrite below_max in C by (reflexivity || exact L). apply C.
Qed.

(** sums never underflow *)
Lemma RN_plus (x y : f64) : exists d, Rabs d <= eps64 /\ RN (B2R x + B2R y) = (B2R x + B2R y) * (1 + d).
Proof.
  destruct (FLT_plus_error_N_ex radix2 (SpecFloat.emin prec64 emax64) prec64 (fun x => negb (Z.even x))
              (B2R x) (B2R y) (format64 x) (format64 y)) as (d & L & E).
  exists d. split; [|exact E]. apply Rle_trans with (1 := L).
  apply Rle_trans with (1 := u_rod1pu_ro_le_u_ro _ _). unfold u_ro. rewrite eps_bpow. lra.
Qed.
Lemma add_rel x y : fin (add64 x y) ->
  exists d, Rabs d <= eps64 /\ B2R (add64 x y) = (B2R x + B2R y) * (1 + d).
Proof. intros F. rewrite (add_round _ _ F). apply RN_plus. Qed.
Lemma minus_rel x y : fin (minus64 x y) ->
  exists d, Rabs d <= eps64 /\ B2R (minus64 x y) = (B2R x - B2R y) * (1 + d).
Proof.
  intros F. rewrite (minus_round _ _ F). destruct (RN_plus x (opp64 y)) as (d & L & E).
  exists d. split; [exact L|]. unfold opp64 in E. rewrite B2R_Bopp in E. exact E.
Qed.
(** products and quotients neither, as long as they are normal *)
Lemma RN_rel x : bpow radix2 (-1022) <= Rabs x -> exists d, Rabs d <= eps64 /\ RN x = x * (1 + d).
Proof.
  intros H. destruct (relative_error_N_FLT_ex radix2 (SpecFloat.emin prec64 emax64) prec64 prec64_ok
    (fun x => negb (Z.even x)) x H) as (d & L & E).
  exists d. split; [rewrite eps_bpow; exact L|exact E].
Qed.
Lemma RN_any x : exists d e, Rabs d <= eps64 /\ Rabs e <= bpow radix2 (-1075) /\ RN x = x * (1 + d) + e.
Proof.
  destruct (error_N_FLT radix2 (SpecFloat.emin prec64 emax64) prec64 ltac:(lia)
    (fun x => negb (Z.even x)) x) as (d & e & Ld & Le & _ & E).
  exists d, e. split; [rewrite eps_bpow; exact Ld|]. split; [|exact E].
  apply Rle_trans with (1 := Le). change (SpecFloat.emin prec64 emax64) with (-1074)%Z.
  replace (-1075)%Z with (-1 + -1074)%Z by lia. rewrite bpow_plus. cbn [bpow]. change (Z.pow_pos radix2 1) with 2%Z. lra.
Qed.
Lemma RN_0 : RN 0 = 0. Proof. apply round_0. auto with typeclass_instances. Qed.
Lemma RN_id (x : f64) : RN (B2R x) = B2R x.
Proof. apply round_generic; [auto with typeclass_instances|apply format64]. Qed.
Lemma RN_opp x : RN (- x) = - RN x.
Proof. unfold RN. apply round_NE_opp. Qed.
Lemma RN_abs x : RN (Rabs x) = Rabs (RN x).
Proof. unfold RN. apply round_NE_abs. auto with typeclass_instances. Qed.

(** factors of one and zero *)
Lemma B2R_one : B2R one64 = 1. Proof. apply Bone_correct. Qed.
Lemma fin_below (x : f64) : Rabs (B2R x) < bpow radix2 emax64.
Proof. apply abs_B2R_lt_emax. Qed.
Lemma mul_one_fin x : fin x -> fin (mul64 x one64).
Proof.
  intros F. apply mul_in_range; [exact F|reflexivity|]. rewrite B2R_one, Rmult_1_r, RN_id. apply fin_below.
Qed.
Lemma mul_one x : fin x -> B2R (mul64 x one64) = B2R x.
Proof. intros F. rewrite mul_round by (apply mul_one_fin; exact F). rewrite B2R_one, Rmult_1_r. apply RN_id. Qed.
Lemma mul_zero x s : B2R (mul64 x (B754_zero s)) = 0. Proof. destruct x; reflexivity. Qed.
Lemma abs_B2R (x : f64) : B2R (abs64 x) = Rabs (B2R x). Proof. apply B2R_Babs. Qed.
Lemma lt_B2R x y : fin x -> fin y -> lt64 x y = true -> B2R x < B2R y.
Proof.
  intros Fx Fy H. unfold lt64 in H. rewrite (Bltb_correct _ _ _ _ Fx Fy) in H.
  destruct (Rlt_bool_spec (B2R x) (B2R y)); [assumption|discriminate].
Qed.
Lemma nlt_B2R x y : fin x -> fin y -> lt64 x y = false -> B2R y <= B2R x.
Proof.
  intros Fx Fy H. unfold lt64 in H. rewrite (Bltb_correct _ _ _ _ Fx Fy) in H.
  destruct (Rlt_bool_spec (B2R x) (B2R y)); [discriminate|assumption].
Qed.

(** the running maximum bounds every entry *)
Lemma amax_abs_ge n (v : vec64) : fin (amax64 n (fun m => abs64 (v m))) ->
  forall i, (i < n)%nat -> Rabs (B2R (v i)) <= B2R (amax64 n (fun m => abs64 (v m))).
Proof.
  intros H i L. pose proof (amax_abs_fin n v H) as A. unfold amax64 in *.
  set (body := fun i acc => if isnan64 acc then acc else if isnan64 (abs64 (v (S i))) then abs64 (v (S i))
      else if lt64 acc (abs64 (v (S i))) then abs64 (v (S i)) else acc) in *.
  assert (T : forall k, (k <= n - 1)%nat -> fin (for_ k body (abs64 (v O))) /\
    forall i, (i <= k)%nat -> Rabs (B2R (v i)) <= B2R (for_ k body (abs64 (v O)))).
  { induction k as [|k IH]; intros Lk; cbn [for_].
    - split; [apply abs_fin, A; lia|]. intros j Lj. replace j with O by lia. rewrite abs_B2R. lra.
    - destruct (IH ltac:(lia)) as [F B]. set (a := for_ k body (abs64 (v O))) in *.
      pose proof (proj2 (abs_fin (v (S k))) (A (S k) ltac:(lia))) as Fx. unfold body.
      destruct (isnan64 a) eqn:Na. { destruct a; discriminate. }
      destruct (isnan64 (abs64 (v (S k)))) eqn:Nx. { destruct (abs64 (v (S k))); discriminate. }
      destruct (lt64 a (abs64 (v (S k)))) eqn:E.
      + apply lt_B2R in E; auto. split; [exact Fx|]. intros j Lj.
        destruct (Nat.eq_dec j (S k)) as [->|N]; [rewrite abs_B2R; lra|]. specialize (B j ltac:(lia)). lra.
      + apply nlt_B2R in E; auto. split; [exact F|]. intros j Lj.
        destruct (Nat.eq_dec j (S k)) as [->|N]; [rewrite <- abs_B2R; exact E|]. apply B. lia. }
  apply T; lia.
Qed.

(* ------------------------------------------------------------------ *)
(** * Sums *)

(** adding [n] numbers one after the other *)
Lemma sum_error n (v : vec64) s : fin (for_ n (fun i acc => add64 acc (v i)) s) ->
  Rabs (B2R (for_ n (fun i acc => add64 acc (v i)) s) - (B2R s + rsum n (fun i => B2R (v i))))
    <= gamma64 n * (Rabs (B2R s) + rsum n (fun i => Rabs (B2R (v i)))).
Proof.
  pose proof eps_pos as Pe. induction n as [|n IH]; cbn [for_ rsum]; intros F.
  - rewrite gamma_0. replace (B2R s - (B2R s + 0)) with 0 by ring. rewrite Rabs_R0. lra.
  - set (a := for_ n _ s) in *. destruct (add_fin _ _ F) as [Fa Fv]. specialize (IH Fa).
    destruct (add_rel _ _ F) as (d & Ld & E). rewrite E.
    set (T := rsum n (fun i => B2R (v i))) in *. set (A := rsum n (fun i => Rabs (B2R (v i)))) in *.
    replace ((B2R a + B2R (v n)) * (1 + d) - (B2R s + (T + B2R (v n))))
      with ((B2R a - (B2R s + T)) * (1 + d) + (B2R s + T + B2R (v n)) * d) by ring.
    apply Rle_trans with (1 := Rabs_triang _ _). rewrite !Rabs_mult.
    assert (H1 : Rabs (1 + d) <= 1 + eps64).
    { apply Rle_trans with (1 := Rabs_triang _ _). rewrite Rabs_R1. lra. }
    assert (H2 : Rabs (B2R s + T + B2R (v n)) <= Rabs (B2R s) + A + Rabs (B2R (v n))).
    { apply Rle_trans with (1 := Rabs_triang _ _). apply Rplus_le_compat_r.
      apply Rle_trans with (1 := Rabs_triang _ _). apply Rplus_le_compat_l. apply rsum_Rabs. }
    assert (PA : 0 <= A) by (apply rsum_nonneg; intros; apply Rabs_pos).
    pose proof (gamma_pos n) as Pg. pose proof (Rabs_pos (B2R s)). pose proof (Rabs_pos (B2R (v n))).
    pose proof (Rabs_pos d). pose proof (Rabs_pos (B2R a - (B2R s + T))).
    rewrite gamma_S.
    apply Rle_trans with (gamma64 n * (Rabs (B2R s) + A) * (1 + eps64) + (Rabs (B2R s) + A + Rabs (B2R (v n))) * eps64).
    + apply Rplus_le_compat; apply Rmult_le_compat; try apply Rabs_pos; auto.
    + assert (0 <= gamma64 n * (1 + eps64) * Rabs (B2R (v n))).
      { apply Rmult_le_pos; [apply Rmult_le_pos|]; lra. }
      replace (Rabs (B2R s) + (A + Rabs (B2R (v n)))) with (Rabs (B2R s) + A + Rabs (B2R (v n))) by ring. nra.
Qed.

(* ------------------------------------------------------------------ *)
(** * Revival by copying *)

Lemma B2R_half : B2R half64 = / 2.
Proof. unfold half64. vm_compute. lra. Qed.
Lemma fin_half : fin half64. Proof. vm_compute. reflexivity. Qed.
Lemma B2R_two : B2R (ofZ64 2) = 2. Proof. vm_compute. lra. Qed.

(** halving is exact unless the result is subnormal *)
Lemma half_exact x : fin x -> bpow radix2 (-1021) <= Rabs (B2R x) ->
  fin (mul64 half64 x) /\ B2R (mul64 half64 x) = B2R x / 2.
Proof.
  intros F L.
  assert (E : RN (B2R half64 * B2R x) = B2R x / 2).
  { rewrite B2R_half. replace (/ 2 * B2R x) with (B2R x * bpow radix2 (-1)) by (cbn; change (Z.pow_pos 2 1) with 2%Z; lra).
    replace (B2R x / 2) with (B2R x * bpow radix2 (-1)) by (cbn; change (Z.pow_pos 2 1) with 2%Z; lra).
    apply round_generic; [auto with typeclass_instances|].
    apply (mult_bpow_exact_FLT radix2 (SpecFloat.emin prec64 emax64) prec64); [apply format64|].
    change (SpecFloat.emin prec64 emax64) with (-1074)%Z.
    assert (-1020 <= mag radix2 (B2R x))%Z; [|lia]. apply mag_ge_bpow. exact L. }
  assert (Fm : fin (mul64 half64 x)).
  { apply mul_in_range; [apply fin_half|exact F|]. rewrite E. pose proof (fin_below x).
    unfold Rdiv. rewrite Rabs_mult, (Rabs_pos_eq (/ 2)) by lra. pose proof (Rabs_pos (B2R x)). lra. }
  split; [exact Fm|]. rewrite mul_round by exact Fm. exact E.
Qed.

Definition nonneg64 (x : f64) : Prop := lt64 x zero64 = false.
Lemma nonneg_B2R x : fin x -> nonneg64 x -> 0 <= B2R x.
Proof. intros F H. apply (nlt_B2R x zero64 F) in H; [exact H|reflexivity]. Qed.

(** more than twice the threshold is not dead *)
Lemma two_thr_cases thr : fin thr -> nonneg64 thr ->
  two_thr thr = B754_infinity false \/ (fin (two_thr thr) /\ B2R thr <= B2R (two_thr thr)).
Proof.
  intros F P. pose proof (nonneg_B2R thr F P) as Pt. unfold two_thr.
  pose proof (@Bmult_correct prec64 emax64 prec64_ok prec64_lt mode_NE (ofZ64 2) thr) as C.
  fold (mul64 (ofZ64 2) thr) in C. destruct (Rlt_bool _ _) eqn:R in C.
  - right. destruct C as (E & Fm & _). rewrite F in Fm. split; [exact Fm|]. rewrite E.
    cbn [round_mode]. fold (RN (B2R (ofZ64 2) * B2R thr)). rewrite <- (RN_id thr) at 1. apply RN_le.
    rewrite B2R_two. lra.
  - left. assert (S : Bsign thr = false).
    { destruct thr as [s|s| |s m e B]; try discriminate F.
      - exfalso. rewrite Rmult_0_r, round_0, Rabs_R0, Rlt_bool_true in R; [discriminate R|apply bpow_gt_0|auto with typeclass_instances].
      - destruct s; [|reflexivity]. exfalso. cbv in P. discriminate P. }
    rewrite S in C. destruct (mul64 (ofZ64 2) thr); cbn in C; congruence.
Qed.
Lemma two_thr_alive thr J : nonneg64 thr -> lt64 (two_thr thr) J = true -> dead64 thr J = false.
Proof.
  intros P H. destruct (is_finite thr) eqn:F.
  - destruct (two_thr_cases thr F P) as [E|[F2 L]].
    + rewrite E in H. destruct J as [|[]| |[]]; discriminate H.
    + destruct (is_finite J) eqn:FJ.
      * apply lt_B2R in H; auto. unfold dead64. rewrite (Bleb_correct _ _ _ _ FJ F). apply Rle_bool_false. lra.
      * destruct J as [|[]| |]; try discriminate FJ.
        -- destruct (two_thr thr) as [|[]| |[]]; discriminate.
        -- destruct thr as [|[]| |[]]; try discriminate; reflexivity.
        -- destruct (two_thr thr) as [|[]| |[]]; discriminate.
  - destruct thr as [|[]| |]; try discriminate F.
    + cbv in P. discriminate P.
    + exfalso. destruct J as [|[]| |[]]; vm_compute in H; discriminate H.
    + unfold two_thr in H. rewrite mul_nan_r, lt_nan_l in H. discriminate H.
Qed.
(** above twice a normal threshold: halving is exact *)
Lemma two_thr_normal thr J : fin thr -> bpow radix2 (-1022) <= B2R thr -> fin J -> lt64 (two_thr thr) J = true ->
  bpow radix2 (-1021) <= Rabs (B2R J).
Proof.
  intros F L FJ H.
  assert (P : nonneg64 thr).
  { unfold nonneg64, lt64. rewrite (Bltb_correct _ _ _ _ F) by reflexivity. apply Rlt_bool_false. cbn [B2R zero64].
    pose proof (bpow_ge_0 radix2 (-1022)). lra. }
  destruct (two_thr_cases thr F P) as [E|[F2 _]]; [rewrite E in H; destruct J as [|[]| |[]]; discriminate H|].
  apply lt_B2R in H; auto. unfold two_thr in H, F2. rewrite mul_round in H by exact F2. rewrite B2R_two in H.
  assert (E : RN (bpow radix2 (-1021)) = bpow radix2 (-1021)).
  { apply round_generic; [auto with typeclass_instances|]. apply generic_format_bpow. cbv. congruence. }
  assert (bpow radix2 (-1021) <= RN (2 * B2R thr)).
  { rewrite <- E. apply RN_le. replace (-1021)%Z with (1 + -1022)%Z by lia. rewrite bpow_plus.
    change (bpow radix2 1) with 2. lra. }
  apply Rle_trans with (B2R J); [lra|apply Rle_abs].
Qed.

Section Copying.
Context {G : Type} (pf : platform64 G).
Variables (np : nat) (thr : f64).
Hypothesis thr_ok : nonneg64 thr.

Lemma find_donor_spec (Js : vec64) (Q : nat -> Prop) : forall lc living (g : G) ref l' lc' g',
  (forall p j, living p = Some j -> Q j) ->
  find_donor64 pf Js thr lc living g = Ok (ref, l', lc', g') ->
  Q ref /\ lt64 (two_thr thr) (Js ref) = true /\ forall p j, l' p = Some j -> Q j.
Proof.
  induction lc as [|lc IH]; intros living g ref l' lc' g' HL H; [discriminate|].
  cbn in H. destruct (pf_integers pf g (S lc)) as [pos g1]. destruct (living pos) as [j|] eqn:E; [|discriminate].
  destruct (lt64 _ _) eqn:Et.
  - injection H as <- <- <- <-. repeat split; eauto.
  - eapply IH in H; eauto. intros p j'. unfold upd. destruct (Nat.eqb p lc); [discriminate|].
    destruct (Nat.eqb p pos); eauto.
Qed.

Lemma classify_spec (Js : vec64) : let '(living, _, dead) := classify64 np Js thr in
  (forall p j, living p = Some j -> (j < np)%nat /\ ~ In j dead) /\ NoDup dead /\
  (forall d, In d dead <-> (d < np)%nat /\ dead64 thr (Js d) = true).
Proof.
  unfold classify64.
  apply (for_ind (fun n (s : (nat -> option nat) * nat * list nat) => let '(living, _, dead) := s in
    (forall p j, living p = Some j -> (j < n)%nat /\ ~ In j dead) /\ NoDup dead /\
    (forall d, In d dead <-> (d < n)%nat /\ dead64 thr (Js d) = true))).
  - split; [discriminate|]. split; [constructor|]. intros d. split; [intros []|intros [L _]; lia].
  - intros m [[l c] d] Lm (H1 & H2 & H3). destruct (lt64 _ _) eqn:E2; [|destruct (dead64 thr (Js m)) eqn:E].
    + assert (A : dead64 thr (Js m) = false) by (apply two_thr_alive; auto).
      split; [|split; [exact H2|]].
      * intros p j. unfold upd. destruct (Nat.eqb p c).
        -- intros Ej. injection Ej as <-. split; [lia|]. intros I. apply H3 in I. lia.
        -- intros Ej. apply H1 in Ej. split; [lia|apply Ej].
      * intros x. rewrite H3. split; intros [L Hx]; (split; [|exact Hx]); [lia|].
        destruct (Nat.eq_dec x m) as [->|N]; [congruence|lia].
    + split; [|split].
      * intros p j Ej. apply H1 in Ej. split; [lia|]. intros I. apply in_app_or in I.
        destruct I as [I|[<-|[]]]; [apply Ej; exact I|lia].
      * apply (Permutation.Permutation_NoDup (l := m :: d)); [apply Permutation.Permutation_cons_append|].
        constructor; [intros I; apply H3 in I; lia|exact H2].
      * intros x. rewrite in_app_iff, H3. cbn. split.
        -- intros [[L Hx]|[<-|[]]]; (split; [lia|auto]).
        -- intros [L Hx]. destruct (Nat.eq_dec x m) as [->|N]; [auto|left; split; [lia|auto]].
    + split; [|split; [exact H2|]].
      * intros p j Ej. apply H1 in Ej. split; [lia|apply Ej].
      * intros x. rewrite H3. split; intros [L Hx]; (split; [|exact Hx]); [lia|].
        destruct (Nat.eq_dec x m) as [->|N]; [congruence|lia].
Qed.

(** what remains true while the dead compartments are filled one by one *)
Lemma copy_all_spec (P : nat -> Prop) (t0 : mat64) : forall dead (s s' : copy_state64 (G := G)),
  NoDup dead -> (forall d, In d dead -> (d < np)%nat) ->
  (forall p j, y6_living s p = Some j -> (j < np)%nat /\ ~ In j dead) ->
  (forall m, (m < np)%nat -> ~ In m dead -> exists m', P m' /\ forall i, y6_t s i m = t0 i m') ->
  copy_all64 pf np thr dead s = Ok s' ->
  (forall m, (m < np)%nat -> exists m', P m' /\ forall i, y6_t s' i m = t0 i m') /\
  (fin thr -> bpow radix2 (-1022) <= B2R thr ->
   (forall m, (m < np)%nat -> fin (y6_Js s m)) ->
   (forall d, In d dead -> B2R (y6_Js s d) = 0) ->
   (forall m, (m < np)%nat -> fin (y6_Js s' m)) /\
   rsum np (fun m => B2R (y6_Js s' m)) = rsum np (fun m => B2R (y6_Js s m))).
Proof.
  induction dead as [|d dead IH]; intros s s' ND HD HL HT H; cbn in H.
  - injection H as <-. split; [intros m Lm; apply HT; auto|]. intros _ _ F _. split; [exact F|reflexivity].
  - unfold copy_one64 in H.
    destruct (find_donor64 pf (y6_Js s) thr (y6_lc s) (y6_living s) (y6_g s)) as [[[[ref l'] lc'] g']|] eqn:E; [|discriminate].
    cbn [bind] in H. destruct (negb (Nat.ltb lc' np)); [discriminate|]. cbn [bind] in H.
    apply (find_donor_spec _ (fun j => (j < np)%nat /\ ~ In j (d :: dead))) in E; [|exact HL].
    destruct E as ((Lr & Nr) & Er & HL'). inversion ND as [|? ? Nd ND']; subst.
    pose proof (HD d (or_introl eq_refl)) as Ld.
    assert (Ndr : ref <> d) by (intros ->; apply Nr; left; reflexivity).
    apply IH in H; cbn [y6_living y6_t y6_Js] in *.
    + destruct H as [H1 H2]. split; [exact H1|]. intros Ft Lt F0 Z0.
      destruct (half_exact (y6_Js s ref) (F0 ref Lr) (two_thr_normal _ _ Ft Lt (F0 ref Lr) Er)) as [Fh Eh].
      destruct H2 as [H2 H3]; auto.
      * intros m Lm. unfold upd. destruct (Nat.eqb m ref); [exact Fh|]. destruct (Nat.eqb m d); [exact Fh|auto].
      * intros d' I. unfold upd. destruct (Nat.eqb_spec d' ref) as [->|]; [exfalso; apply Nr; right; exact I|].
        destruct (Nat.eqb_spec d' d) as [->|]; [contradiction|]. apply Z0. right. exact I.
      * split; [exact H2|]. rewrite H3.
        rewrite (rsum_ext _ _ (upd (upd (fun m => B2R (y6_Js s m)) d (B2R (y6_Js s ref) / 2)) ref (B2R (y6_Js s ref) / 2))).
        2:{ intros m Lm. unfold upd. destruct (Nat.eqb m ref); [exact Eh|]. destruct (Nat.eqb m d); [exact Eh|reflexivity]. }
        rewrite !rsum_upd by assumption. rewrite upd_neq by exact Ndr. rewrite (Z0 d (or_introl eq_refl)). lra.
    + exact ND'.
    + intros d' I. apply HD. right. exact I.
    + intros p j. unfold upd. destruct (Nat.eqb p lc').
      * intros Ej. injection Ej as <-. split; assumption.
      * intros Ej. apply HL' in Ej. split; [apply Ej|]. intros I. apply Ej. right. exact I.
    + intros m Lm Nm. destruct (Nat.eqb_spec m d) as [->|N].
      * apply HT; assumption.
      * apply HT; [exact Lm|]. intros [->|I]; [apply N; reflexivity|contradiction].
Qed.

Lemma revive_copy_spec Js t g J' t' g' : revive_copy64 pf np Js t thr g = Ok (J', t', g') ->
  (forall m, (m < np)%nat -> exists m', ((m' < np)%nat /\ dead64 thr (Js m') = false) /\ forall i, t' i m = t i m') /\
  (fin thr -> bpow radix2 (-1022) <= B2R thr ->
   (forall m, (m < np)%nat -> fin (Js m)) ->
   (forall m, (m < np)%nat -> dead64 thr (Js m) = true -> B2R (Js m) = 0) ->
   (forall m, (m < np)%nat -> fin (J' m)) /\
   rsum np (fun m => B2R (J' m)) = rsum np (fun m => B2R (Js m))).
Proof.
  unfold revive_copy64. pose proof (classify_spec Js) as C.
  destruct (classify64 np Js thr) as [[l c] d]. destruct C as (C1 & C2 & C3).
  destruct (copy_all64 _ _ _ _ _) as [s|] eqn:E; [|discriminate]. cbn. intros H. injection H as <- <- <-.
  apply (copy_all_spec (fun m' => (m' < np)%nat /\ dead64 thr (Js m') = false) t) in E;
    cbn [y6_living y6_t y6_Js] in *; auto.
  - destruct E as [E1 E2]. split; [exact E1|]. intros Ft Lt F0 Z0. apply E2; auto.
    intros x I. apply C3 in I. apply Z0; apply I.
  - intros x I. apply C3 in I. apply I.
  - intros m Lm Nm. exists m. split; [|reflexivity]. split; [exact Lm|].
    destruct (dead64 thr (Js m)) eqn:Ed; [|reflexivity]. exfalso. apply Nm, C3. auto.
Qed.
End Copying.

(* ------------------------------------------------------------------ *)
(** * Relative errors of non-negative numbers *)

(** [x] and [y] differ by at most [k] roundings *)
Definition within (k : nat) (x y : R) : Prop :=
  0 <= x /\ 0 <= y /\ y * (1 - eps64) ^ k <= x /\ x * (1 - eps64) ^ k <= y.

Lemma base_pos : 0 < 1 - eps64 < 1.
Proof. pose proof eps_pos. pose proof eps_small. lra. Qed.
Lemma pow_base k : 0 < (1 - eps64) ^ k <= 1.
Proof.
  pose proof base_pos. split; [apply pow_lt; lra|]. induction k as [|k IH]; cbn [pow]; [lra|].
  pose proof (pow_lt (1 - eps64) k ltac:(lra)). nra.
Qed.
Lemma pow_base_ge k : 1 - INR k * eps64 <= (1 - eps64) ^ k.
Proof.
  pose proof base_pos. pose proof eps_pos. induction k as [|k IH]; cbn [pow]; [cbn; lra|]. rewrite S_INR.
  pose proof (pow_base k). pose proof (pos_INR k). nra.
Qed.
Lemma within_refl x : 0 <= x -> within 0 x x.
Proof. intros H. unfold within. cbn. lra. Qed.
Lemma within_sym k x y : within k x y -> within k y x.
Proof. unfold within. tauto. Qed.
Lemma within_mono k k' x y : (k <= k')%nat -> within k x y -> within k' x y.
Proof.
  intros L (Px & Py & H1 & H2). replace k' with (k + (k' - k))%nat by lia. unfold within. rewrite pow_add.
  pose proof (pow_base k). pose proof (pow_base (k' - k)).
  set (a := (1 - eps64) ^ k) in *. set (b := (1 - eps64) ^ (k' - k)) in *.
  repeat split; auto.
  - apply Rle_trans with (y * a); [|exact H1]. apply Rmult_le_compat_l; nra.
  - apply Rle_trans with (x * a); [|exact H2]. apply Rmult_le_compat_l; nra.
Qed.
Lemma within_trans a b x y z : within a x y -> within b y z -> within (a + b) x z.
Proof.
  intros (Px & Py & H1 & H2) (_ & Pz & H3 & H4). unfold within. rewrite pow_add.
  pose proof (pow_base a). pose proof (pow_base b).
  set (u := (1 - eps64) ^ a) in *. set (w := (1 - eps64) ^ b) in *. repeat split; auto.
  - apply Rle_trans with (y * u); [|exact H1]. replace (z * (u * w)) with (z * w * u) by ring.
    apply Rmult_le_compat_r; lra.
  - apply Rle_trans with (y * w); [|exact H4]. replace (x * (u * w)) with (x * u * w) by ring.
    apply Rmult_le_compat_r; lra.
Qed.
Lemma within_mul a b x y x' y' : within a x y -> within b x' y' -> within (a + b) (x * x') (y * y').
Proof.
  intros (Px & Py & H1 & H2) (Px' & Py' & H3 & H4). unfold within. rewrite pow_add.
  pose proof (pow_base a). pose proof (pow_base b).
  set (u := (1 - eps64) ^ a) in *. set (w := (1 - eps64) ^ b) in *.
  split; [apply Rmult_le_pos; auto|]. split; [apply Rmult_le_pos; auto|]. split.
  - replace (y * y' * (u * w)) with ((y * u) * (y' * w)) by ring. apply Rmult_le_compat; auto; apply Rmult_le_pos; lra.
  - replace (x * x' * (u * w)) with ((x * u) * (x' * w)) by ring. apply Rmult_le_compat; auto; apply Rmult_le_pos; lra.
Qed.
Lemma within_pos k x y : within k x y -> 0 < y -> 0 < x.
Proof. intros (Px & Py & H1 & H2) P. pose proof (pow_base k). assert (0 < y * (1 - eps64) ^ k) by (apply Rmult_lt_0_compat; lra). lra. Qed.
Lemma within_inv k x y : within k x y -> 0 < y -> within k (/ x) (/ y).
Proof.
  intros W P. pose proof (within_pos _ _ _ W P) as Q. destruct W as (Px & Py & H1 & H2).
  set (u := (1 - eps64) ^ k) in *. unfold within. fold u.
  split; [left; apply Rinv_0_lt_compat; lra|]. split; [left; apply Rinv_0_lt_compat; lra|]. split.
  - apply Rmult_le_reg_l with (x * y); [apply Rmult_lt_0_compat; lra|].
    replace (x * y * (/ y * u)) with (x * u) by (field; lra). replace (x * y * / x) with y by (field; lra). exact H2.
  - apply Rmult_le_reg_l with (x * y); [apply Rmult_lt_0_compat; lra|].
    replace (x * y * (/ x * u)) with (y * u) by (field; lra). replace (x * y * / y) with x by (field; lra). exact H1.
Qed.
Lemma within_plus k x y x' y' : within k x y -> within k x' y' -> within k (x + x') (y + y').
Proof. unfold within. intros (? & ? & ? & ?) (? & ? & ? & ?). repeat split; lra. Qed.
Lemma within_rsum k n f g : (forall i, (i < n)%nat -> within k (f i) (g i)) -> within k (rsum n f) (rsum n g).
Proof.
  induction n as [|n IH]; intros H; cbn [rsum].
  - apply (within_mono 0); [lia|]. apply within_refl. lra.
  - apply within_plus; [apply IH; intros; apply H; lia|apply H; lia].
Qed.
Lemma within_zero k : within k 0 0. Proof. unfold within. lra. Qed.
(** the distance *)
Lemma within_dist k x y : within k x y -> INR k * eps64 <= / 2 -> Rabs (x - y) <= 2 * (INR k * eps64) * y.
Proof.
  intros (Px & Py & H1 & H2) L. pose proof (pow_base_ge k) as B. pose proof (pow_base k).
  pose proof eps_pos. pose proof (pos_INR k) as Pk. set (u := (1 - eps64) ^ k) in *.
  set (t := INR k * eps64) in *. assert (0 <= t) by (apply Rmult_le_pos; lra).
  apply Rabs_le. split.
  - assert (y * (1 - t) <= x) by (apply Rle_trans with (y * u); [apply Rmult_le_compat_l; lra|exact H1]). nra.
  - assert (x * (1 - t) <= y) by (apply Rle_trans with (x * u); [apply Rmult_le_compat_l; lra|exact H2]).
    assert (x <= (1 + 2 * t) * y); [|lra]. apply Rmult_le_reg_r with (1 - t); [lra|].
    apply Rle_trans with (1 := H4). replace ((1 + 2 * t) * y * (1 - t)) with (y + y * t * (1 - 2 * t)) by ring.
    assert (0 <= y * t * (1 - 2 * t)) by (apply Rmult_le_pos; [apply Rmult_le_pos|]; lra). lra.
Qed.
(** a factor two at most *)
Lemma within_two k x y : within k x y -> INR k * eps64 <= / 2 -> y / 2 <= x <= 2 * y.
Proof.
  intros (Px & Py & H1 & H2) L. pose proof (pow_base_ge k) as B. set (u := (1 - eps64) ^ k) in *.
  assert (/ 2 <= u) by lra.
  assert (0 <= y * (u - / 2)) by (apply Rmult_le_pos; lra).
  assert (0 <= x * (u - / 2)) by (apply Rmult_le_pos; lra). split; lra.
Qed.

Lemma within_err x d : 0 <= x -> Rabs d <= eps64 -> within 1 (x * (1 + d)) x.
Proof.
  intros P L. pose proof base_pos. pose proof eps_pos. apply Rabs_le_inv in L. unfold within. cbn [pow].
  split; [apply Rmult_le_pos; lra|]. split; [exact P|]. split; [apply Rmult_le_compat_l; lra|].
  rewrite Rmult_1_r, Rmult_assoc. rewrite <- (Rmult_1_r x) at 2. apply Rmult_le_compat_l; [exact P|nra].
Qed.
Lemma RN_within x : bpow radix2 (-1022) <= x -> within 1 (RN x) x.
Proof.
  intros L. pose proof (bpow_gt_0 radix2 (-1022)).
  destruct (RN_rel x) as (d & Ld & E); [rewrite Rabs_pos_eq; lra|]. rewrite E. apply within_err; lra.
Qed.
Lemma RN_plus_within (x y : f64) : 0 <= B2R x -> 0 <= B2R y -> within 1 (RN (B2R x + B2R y)) (B2R x + B2R y).
Proof. intros Px Py. destruct (RN_plus x y) as (d & Ld & E). rewrite E. apply within_err; lra. Qed.
Lemma RN_bpow e : (-1074 <= e)%Z -> RN (bpow radix2 e) = bpow radix2 e.
Proof.
  intros L. apply round_generic; [auto with typeclass_instances|].
  change fexp64 with (FLT_exp (-1074) 53). apply generic_format_FLT_bpow; [reflexivity|exact L].
Qed.
Lemma RN_range x : 0 <= x -> x <= bpow radix2 1000 -> Rabs (RN x) < bpow radix2 emax64.
Proof.
  intros P L. rewrite <- RN_abs, Rabs_pos_eq by exact P. apply Rle_lt_trans with (bpow radix2 1000).
  - rewrite <- (RN_bpow 1000) by lia. apply RN_le. exact L.
  - apply bpow_lt. lia.
Qed.

Lemma mul_within x y : fin x -> fin y -> 0 <= B2R x -> 0 <= B2R y ->
  (B2R x * B2R y = 0 \/ bpow radix2 (-1022) <= B2R x * B2R y <= bpow radix2 1000) ->
  fin (mul64 x y) /\ within 1 (B2R (mul64 x y)) (B2R x * B2R y).
Proof.
  intros Fx Fy Px Py H.
  assert (L : B2R x * B2R y <= bpow radix2 1000) by (pose proof (bpow_gt_0 radix2 1000); destruct H; lra).
  assert (F : fin (mul64 x y)) by (apply mul_in_range; auto; apply RN_range; [apply Rmult_le_pos|]; auto).
  split; [exact F|]. rewrite mul_round by exact F. destruct H as [E|H].
  - rewrite E, RN_0. apply within_zero.
  - apply RN_within. apply H.
Qed.
Lemma div_within x y : fin x -> 0 <= B2R x -> 0 < B2R y ->
  (B2R x = 0 \/ bpow radix2 (-1022) <= B2R x / B2R y <= bpow radix2 1000) ->
  fin (div64 x y) /\ within 1 (B2R (div64 x y)) (B2R x / B2R y).
Proof.
  intros Fx Px Py H.
  assert (P : 0 <= B2R x / B2R y) by (apply Rmult_le_pos; [lra|left; apply Rinv_0_lt_compat; lra]).
  assert (L : B2R x / B2R y <= bpow radix2 1000).
  { pose proof (bpow_gt_0 radix2 1000). destruct H as [->|H]; [unfold Rdiv; rewrite Rmult_0_l; lra|lra]. }
  assert (F : fin (div64 x y)) by (apply div_in_range; auto; [lra|apply RN_range; auto]).
  split; [exact F|]. rewrite div_round by (auto; lra). destruct H as [->|H].
  - unfold Rdiv. rewrite Rmult_0_l, RN_0. apply within_zero.
  - apply RN_within. apply H.
Qed.
(** a sum of at most 2^53 non-negative numbers of moderate size *)
Lemma sum_within n (v : vec64) e : (Z.of_nat n <= 2 ^ 53)%Z -> (-1074 <= e <= 900)%Z ->
  (forall i, (i < n)%nat -> fin (v i) /\ 0 <= B2R (v i) <= bpow radix2 e) ->
  fin (sum64 n v) /\ within n (B2R (sum64 n v)) (rsum n (fun i => B2R (v i))).
Proof.
  intros L Le H.
  assert (T : forall k, (k <= n)%nat -> fin (sum64 k v) /\ B2R (sum64 k v) <= INR k * bpow radix2 e /\
            within k (B2R (sum64 k v)) (rsum k (fun i => B2R (v i)))).
  { pose proof (bpow_gt_0 radix2 e) as Pe. induction k as [|k IH]; intros Lk.
    - split; [reflexivity|]. split; [cbn; lra|apply within_zero].
    - destruct (IH ltac:(lia)) as (F & B & W). destruct (H k ltac:(lia)) as (Fv & Pv & Bv).
      unfold sum64 in *. cbn [for_ rsum]. set (a := for_ k _ zero64) in *.
      assert (Pa : 0 <= B2R a) by apply W.
      assert (U : RN (B2R a + B2R (v k)) <= INR (S k) * bpow radix2 e).
      { replace (INR (S k) * bpow radix2 e) with (RN (INR (S k) * bpow radix2 e)).
        - apply RN_le. rewrite S_INR. lra.
        - apply round_generic; [auto with typeclass_instances|].
          rewrite INR_IZR_INZ. change fexp64 with (FLT_exp (-1074) 53).
          destruct (Z.eq_dec (Z.of_nat (S k)) (2 ^ 53)) as [E|N].
          + rewrite E. replace (IZR (2 ^ 53)) with (bpow radix2 53) by (rewrite <- IZR_Zpower by lia; reflexivity).
            rewrite <- bpow_plus. apply generic_format_FLT_bpow; [reflexivity|lia].
          + apply generic_format_FLT. exists (Float radix2 (Z.of_nat (S k)) e); cbn [Fnum Fexp]; [reflexivity| |lia].
            change (radix2 ^ 53)%Z with (2 ^ 53)%Z. lia. }
      assert (S1 : 0 <= RN (B2R a + B2R (v k))) by (apply RN_plus_within; lra).
      assert (Fs : fin (add64 a (v k))).
      { apply add_in_range; auto. rewrite Rabs_pos_eq by exact S1. apply Rle_lt_trans with (1 := U).
        apply Rle_lt_trans with (bpow radix2 53 * bpow radix2 900).
        - apply Rmult_le_compat; [apply pos_INR|apply bpow_ge_0| |apply bpow_le; lia].
          rewrite INR_IZR_INZ. replace (bpow radix2 53) with (IZR (2 ^ 53)) by (rewrite <- IZR_Zpower by lia; reflexivity).
          apply IZR_le. lia.
        - rewrite <- bpow_plus. apply bpow_lt. lia. }
      split; [exact Fs|]. rewrite add_round by exact Fs. split; [exact U|].
      replace (S k) with (1 + k)%nat by lia. apply (within_trans 1 k _ (B2R a + B2R (v k))).
      + apply RN_plus_within; lra.
      + apply within_plus; [exact W|]. apply (within_mono 0); [lia|]. apply within_refl. exact Pv. }
  destruct (T n ltac:(lia)) as (A & _ & B). auto.
Qed.
