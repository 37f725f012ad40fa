(** PropertiesFloat.v -- decisions taken in binary64 arithmetic (C60, C61). *)

From Flocq Require Import Core BinarySingleNaN Plus_error.
From Coq Require Import Reals ZArith List Lra Lia Bool.
From Verif Require Import Base ModelFinder ProofsKernel ProofsRun ModelFloat.
Import ListNotations.
Open Scope R_scope.

#[local] Instance fexp64_ok : Valid_exp fexp64 := fexp_correct prec64 emax64 prec64_ok.
#[local] Instance fexp64_mon : Monotone_exp fexp64 := fexp_monotone prec64 emax64.
#[local] Instance fexp64_ftz : Exp_not_FTZ fexp64 := monotone_exp_not_FTZ _.

Lemma format64 (x : f64) : generic_format radix2 fexp64 (B2R x).
Proof. apply generic_format_B2R. Qed.

Lemma sign_B2R (x : f64) : if Bsign x then B2R x <= 0 else 0 <= B2R x.
Proof.
  destruct x as [s|s| |s m e B]; try destruct s; cbn; try lra.
  - apply F2R_le_0. cbn. lia.
  - apply F2R_ge_0. cbn. lia.
Qed.

Lemma pos64 (x : f64) : is_finite x = true -> 0 < B2R x -> sign64 x = one64.
Proof.
  intros F H. pose proof (sign_B2R x) as S. destruct x as [s|s| |s m e B]; try discriminate F; [cbn in H; lra|].
  destruct s; [cbn [Bsign] in S; lra|reflexivity].
Qed.
Lemma neg64 (x : f64) : is_finite x = true -> B2R x < 0 -> sign64 x = Bopp one64.
Proof.
  intros F H. pose proof (sign_B2R x) as S. destruct x as [s|s| |s m e B]; try discriminate F; [cbn in H; lra|].
  destruct s; [reflexivity|cbn [Bsign] in S; lra].
Qed.
Lemma null64 (x : f64) : is_finite x = true -> B2R x = 0 -> exists s, x = B754_zero s.
Proof.
  intros F H. destruct x as [s|s| |s m e B]; try discriminate F; eauto. exfalso. cbn in H.
  apply eq_0_F2R in H. destruct s; discriminate H.
Qed.

(** the sign of a rounded difference is the sign of the difference *)
Lemma diff_sign (x y : f64) : is_finite x = true -> is_finite y = true ->
  (B2R y < B2R x -> sign64 (minus64 x y) = one64) /\
  (B2R x < B2R y -> sign64 (minus64 x y) = Bopp one64) /\
  (B2R x = B2R y -> exists s, sign64 (minus64 x y) = B754_zero s).
Proof.
  intros Fx Fy. pose proof (@Bminus_correct prec64 emax64 prec64_ok prec64_lt mode_NE x y Fx Fy) as H.
  fold (minus64 x y) in H. cbn [round_mode] in H.
  assert (NZ : B2R x - B2R y <> 0 -> round radix2 fexp64 ZnearestE (B2R x - B2R y) <> 0).
  { intros N. unfold Rminus. apply round_plus_neq_0; auto with typeclass_instances.
    - apply format64.
    - apply generic_format_opp, format64. }
  destruct (Rlt_bool_spec (Rabs (round radix2 fexp64 ZnearestE (B2R x - B2R y))) (bpow radix2 emax64)) as [L|L].
  - destruct H as (HR & HF & _). split; [|split]; intros C.
    + apply pos64; auto. rewrite HR. assert (0 <= round radix2 fexp64 ZnearestE (B2R x - B2R y)).
      { rewrite <- (round_0 radix2 fexp64 ZnearestE). apply round_le; auto with typeclass_instances. lra. }
      specialize (NZ ltac:(lra)). lra.
    + apply neg64; auto. rewrite HR. assert (round radix2 fexp64 ZnearestE (B2R x - B2R y) <= 0).
      { rewrite <- (round_0 radix2 fexp64 ZnearestE). apply round_le; auto with typeclass_instances. lra. }
      specialize (NZ ltac:(lra)). lra.
    + destruct (null64 (minus64 x y)) as [s Hs]; auto.
      * rewrite HR, C, Rminus_diag_eq by reflexivity. apply round_0; auto with typeclass_instances.
      * exists s. now rewrite Hs.
  - destruct H as (HS & HN). pose proof (sign_B2R x) as Sx. pose proof (sign_B2R y) as Sy.
    assert (ND : B2R x <> B2R y).
    { intros E. rewrite E, Rminus_diag_eq, round_0, Rabs_R0 in L by auto with typeclass_instances.
      pose proof (bpow_gt_0 radix2 emax64). lra. }
    destruct (minus64 x y) as [s|s| |s m e B]; cbn in HS; try discriminate HS. injection HS as ->.
    cbn [sign64]. destruct (Bsign x), (Bsign y); try discriminate HN; split; [|split| |split]; intros C; try lra; auto.
Qed.

(** C60: for all finite doubles the mask of a compartment is one if it is counted
    as living and zero otherwise, and it is treated as dead exactly when it is not
    counted. *)
Theorem C60_masks (thr J : f64) : is_finite thr = true -> is_finite J = true ->
  (B2R thr < B2R J -> mask64 thr J = one64) /\
  (B2R J <= B2R thr -> exists s, mask64 thr J = B754_zero s) /\
  (lt64 thr J = true <-> B2R thr < B2R J) /\
  (dead64 thr J = true <-> B2R J <= B2R thr).
Proof.
  intros Ft FJ. destruct (diff_sign J thr FJ Ft) as (H1 & H2 & H3).
  assert (L1 : lt64 one64 zero64 = false).
  { unfold lt64. rewrite Bltb_correct by (try reflexivity; apply is_finite_Bone). apply Rlt_bool_false.
    unfold one64. rewrite Bone_correct. cbn. lra. }
  assert (L2 : lt64 (Bopp one64) zero64 = true).
  { unfold lt64. rewrite Bltb_correct by (try reflexivity; rewrite is_finite_Bopp; apply is_finite_Bone). apply Rlt_bool_true.
    unfold one64. rewrite B2R_Bopp, Bone_correct. cbn. lra. }
  unfold mask64, clip64. split; [|split; [|split]].
  - intros C. rewrite (H1 C), L1. reflexivity.
  - intros [C|C].
    + rewrite (H2 C), L2. eexists. reflexivity.
    + destruct (H3 C) as [s ->]. replace (lt64 (B754_zero s) zero64) with false by (destruct s; reflexivity). eauto.
  - unfold lt64. rewrite Bltb_correct by auto. destruct (Rlt_bool_spec (B2R thr) (B2R J)); split; try easy; lra.
  - unfold dead64. rewrite Bleb_correct by auto. destruct (Rle_bool_spec (B2R J) (B2R thr)); split; try easy; lra.
Qed.

(** C60: the masks add up to the count. *)
Theorem C60_count (thr : f64) (Js : list f64) : is_finite thr = true ->
  (forall J, In J Js -> is_finite J = true) ->
  lsum (masks64 thr Js) B2R = INR (count64 thr Js).
Proof.
  intros Ft. unfold masks64, count64. induction Js as [|J Js IH]; intros HF; [reflexivity|].
  cbn [map lsum filter]. rewrite IH by (intros; apply HF; now right).
  destruct (C60_masks thr J Ft (HF J (or_introl eq_refl))) as (H1 & H2 & H3 & _).
  destruct (lt64 thr J) eqn:E.
  - rewrite H1 by (now apply H3). unfold one64. rewrite Bone_correct. cbn [length]. rewrite S_INR. ring.
  - assert (C : B2R J <= B2R thr) by (apply Rnot_lt_le; intros C; apply H3 in C; congruence).
    destruct (H2 C) as [s ->]. cbn [B2R]. ring.
Qed.

(** outside the finite numbers the two disagree: a NaN volume is not counted, but
    its mask is not zero *)
Theorem C60_nan (thr : f64) : mask64 thr B754_nan = B754_nan /\ lt64 thr B754_nan = false /\ dead64 thr B754_nan = false.
Proof. destruct thr as [s|s| |s m e B]; try destruct s; repeat split. Qed.

(* ------------------------------------------------------------------ *)

Lemma format_int (n : Z) : (Z.abs n <= 2 ^ 53)%Z -> generic_format radix2 fexp64 (IZR n).
Proof.
  intros H. change fexp64 with (FLT_exp (-1074) 53). destruct (Z.eq_dec (Z.abs n) (2 ^ 53)) as [E|E].
  - assert (G : generic_format radix2 (FLT_exp (-1074) 53) (IZR (2 ^ 53))).
    { change (2 ^ 53)%Z with (radix2 ^ 53)%Z. rewrite IZR_Zpower by lia. apply generic_format_bpow. now compute. }
    destruct (Z.abs_spec n) as [[_ A]|[_ A]]; [replace n with (2 ^ 53)%Z by lia; exact G|].
    replace n with (- (2 ^ 53))%Z by lia. rewrite opp_IZR. now apply generic_format_opp.
  - apply generic_format_FLT. apply FLT_spec with (Float radix2 n 0).
    + unfold F2R. cbn. ring.
    + cbn [Fnum]. change (radix2 ^ 53)%Z with (2 ^ 53)%Z. lia.
    + cbn. lia.
Qed.

Lemma RN_int n : (Z.abs n <= 2 ^ 53)%Z -> RN (IZR n) = IZR n.
Proof. intros H. apply round_generic; auto with typeclass_instances. now apply format_int. Qed.
Lemma RN_le x y : x <= y -> RN x <= RN y.
Proof. intros. apply round_le; auto with typeclass_instances. Qed.

(** A quotient of two integers that lies above an integer is rounded above it. *)
Lemma quotient_above (a b k : Z) : (0 < a < 2 ^ 53)%Z -> (0 < b < 2 ^ 1000)%Z -> (0 <= k)%Z ->
  IZR k < IZR a / IZR b -> IZR k < RN (IZR a / IZR b).
Proof.
  intros Ha Hb Hk H. assert (Bp : 0 < IZR b) by (apply (IZR_lt 0); lia).
  assert (Ap : 0 < IZR a) by (apply (IZR_lt 0); lia).
  set (x := IZR a / IZR b) in *.
  destruct (Z.eq_dec k 0) as [->|K].
  - assert (X : bpow radix2 (-1000) <= x).
    { unfold x. change (-1000)%Z with (- (1000))%Z. rewrite (bpow_opp radix2 1000), <- (IZR_Zpower radix2) by lia. change (radix2 ^ 1000)%Z with (2 ^ 1000)%Z.
      apply Rle_trans with (/ IZR b).
      - apply Rinv_le; auto. apply IZR_le. lia.
      - unfold Rdiv. rewrite <- (Rmult_1_l (/ IZR b)) at 1. apply Rmult_le_compat_r; [left; now apply Rinv_0_lt_compat|].
        apply IZR_le. lia. }
    apply RN_le in X. unfold RN at 1 in X. rewrite round_generic in X; auto with typeclass_instances.
    + eapply Rlt_le_trans; [|exact X]. apply bpow_gt_0.
    + apply generic_format_bpow. now compute.
  - assert (Kp : 1 <= IZR k) by (apply (IZR_le 1); lia).
    destruct (mag radix2 (IZR k)) as [e He]. specialize (He ltac:(lra)). rewrite Rabs_pos_eq in He by lra.
    assert (E1 : (1 <= e)%Z).
    { apply Z.lt_pred_le. apply (lt_bpow radix2). cbn [Z.pred Z.add Z.pos_sub]. change (bpow radix2 0) with 1. lra. }
    destruct (Rle_lt_dec (bpow radix2 e) x) as [L|L].
    + apply RN_le in L. unfold RN at 1 in L. rewrite round_generic in L; auto with typeclass_instances; [lra|].
      apply generic_format_bpow. change fexp64 with (FLT_exp (-1074) 53). unfold FLT_exp. lia.
    + assert (M : mag_val radix2 x (mag radix2 x) = e).
      { apply mag_unique_pos. lra. }
      pose proof (error_le_half_ulp radix2 fexp64 (fun n => negb (Z.even n)) x) as ER.
      fold (RN x) in ER. rewrite ulp_neq_0 in ER by lra. unfold cexp in ER. rewrite M in ER.
      assert (FE : fexp64 e = (e - 53)%Z) by (change fexp64 with (FLT_exp (-1074) 53); unfold FLT_exp; lia).
      rewrite FE in ER.
      assert (HB : bpow radix2 (e - 1 - 53) < / IZR b).
      { assert (Q : IZR k * IZR b < IZR a).
        { apply (Rmult_lt_compat_r (IZR b)) in H; auto. unfold x, Rdiv in H. rewrite Rmult_assoc, Rinv_l, Rmult_1_r in H by lra. exact H. }
        assert (A53 : IZR a < bpow radix2 53).
        { rewrite <- (IZR_Zpower radix2) by lia. apply IZR_lt. change (radix2 ^ 53)%Z with (2 ^ 53)%Z. lia. }
        apply Rmult_lt_reg_r with (IZR b); auto. rewrite Rinv_l by lra.
        replace (e - 1 - 53)%Z with (e - 1 + - (53))%Z by lia. rewrite bpow_plus, bpow_opp.
        apply Rmult_lt_reg_r with (bpow radix2 53); [apply bpow_gt_0|].
        replace (bpow radix2 (e - 1) * / bpow radix2 53 * IZR b * bpow radix2 53) with (bpow radix2 (e - 1) * IZR b)
          by (field; apply Rgt_not_eq, bpow_gt_0).
        assert (bpow radix2 (e - 1) * IZR b <= IZR k * IZR b) by (apply Rmult_le_compat_r; lra). lra. }
      assert (HX : IZR k + / IZR b <= x).
      { assert (Q : (k * b + 1 <= a)%Z).
        { assert (k * b < a)%Z; [|lia]. apply lt_IZR. rewrite mult_IZR.
          apply (Rmult_lt_compat_r (IZR b)) in H; auto. unfold x, Rdiv in H. rewrite Rmult_assoc, Rinv_l, Rmult_1_r in H by lra. exact H. }
        apply IZR_le in Q. rewrite plus_IZR, mult_IZR in Q. unfold x.
        apply Rmult_le_reg_r with (IZR b); auto. replace ((IZR k + / IZR b) * IZR b) with (IZR k * IZR b + 1) by (field; lra).
        replace (IZR a / IZR b * IZR b) with (IZR a) by (field; lra). exact Q. }
      replace (e - 1 - 53)%Z with (- 1 + (e - 53))%Z in HB by lia. rewrite bpow_plus in HB. change (bpow radix2 (-1)) with (/ 2) in HB.
      apply Rabs_le_inv in ER. lra.
Qed.

(** C61: rounding does not change the integer ceiling. *)
Theorem C61_ceiling (a b : Z) : (0 < a < 2 ^ 53)%Z -> (0 < b < 2 ^ 1000)%Z ->
  exists n : Z, (b * (n - 1) < a <= b * n)%Z /\ zceil (RN (IZR a / IZR b)) = n.
Proof.
  intros Ha Hb. assert (Bp : 0 < IZR b) by (apply (IZR_lt 0); lia).
  exists (zceil (IZR a / IZR b)). set (x := IZR a / IZR b). pose proof (zceil_spec x) as [S1 S2]. set (n := zceil x) in *.
  assert (Q : x * IZR b = IZR a) by (unfold x; field; lra).
  assert (L : (b * (n - 1) < a)%Z).
  { apply lt_IZR. rewrite mult_IZR, minus_IZR. nra. }
  assert (U : (a <= b * n)%Z).
  { apply le_IZR. rewrite mult_IZR. nra. }
  split; [lia|]. assert (N1 : (1 <= n)%Z) by nia. assert (N2 : (n <= a)%Z) by nia.
  apply zceil_unique. split.
  - rewrite <- minus_IZR. apply quotient_above; auto; [lia|]. rewrite minus_IZR. exact S1.
  - rewrite <- (RN_int n) by lia. now apply RN_le.
Qed.

(** C61: hence the schedule of a run, number of metasteps and steps per metastep,
    is the one computed with exact numbers. *)
Theorem C61_schedule (a b : Z) : (0 < a < 2 ^ 53)%Z -> (0 < b < 2 ^ 1000)%Z ->
  schedule64 a b = schedule (IZR a) (IZR b) /\
  exists tracker inner, schedule64 a b = Ok (tracker, inner) /\
    (b * (Z.of_nat tracker - 1) < a <= b * Z.of_nat tracker)%Z /\ (1 <= inner)%nat /\
    (Z.of_nat (tracker * inner) <= Z.max a (Z.of_nat tracker))%Z /\ (a < Z.of_nat (tracker * (inner + 1)))%Z.
Proof.
  intros Ha Hb. destruct (C61_ceiling a b Ha Hb) as (n & Hn & En).
  assert (Bp : 0 < IZR b) by (apply (IZR_lt 0); lia).
  assert (N1 : (1 <= n)%Z) by nia.
  assert (EX : zceil (IZR a / IZR b) = n).
  { apply zceil_unique. destruct Hn as [L U]. apply IZR_lt in L. apply IZR_le in U. rewrite mult_IZR in L, U. rewrite minus_IZR in L.
    split.
    - apply Rmult_lt_reg_r with (IZR b); auto. replace (IZR a / IZR b * IZR b) with (IZR a) by (field; lra). lra.
    - apply Rmult_le_reg_r with (IZR b); auto. replace (IZR a / IZR b * IZR b) with (IZR a) by (field; lra). lra. }
  assert (E : schedule64 a b = Ok (Z.to_nat n, Z.to_nat (Z.max 1 (a / n)))).
  { unfold schedule64. rewrite (proj2 (Z.eqb_neq b 0)), En, (proj2 (Z.eqb_neq n 0)), RN_int by lia.
    rewrite (zceil_unique (IZR a) a) by lra. reflexivity. }
  split.
  - rewrite E. unfold schedule. rewrite (proj2 (Reqb_false (IZR b) 0)) by lra. rewrite EX, (proj2 (Z.eqb_neq n 0)) by lia.
    rewrite (zceil_unique (IZR a) a) by lra. reflexivity.
  - exists (Z.to_nat n), (Z.to_nat (Z.max 1 (a / n))). split; [exact E|].
    pose proof (Z.div_mod a n ltac:(lia)) as DM. pose proof (Z.mod_pos_bound a n ltac:(lia)) as MB.
    rewrite !Nat2Z.inj_mul, !Nat2Z.inj_add, !Z2Nat.id by lia. change (Z.of_nat 1) with 1%Z.
    split; [lia|]. split; [lia|]. split; nia.
Qed.

(** Both bounds are needed: one step is lost for max_steps = 2^53 + 1, and an
    extreme interval makes the quotient underflow, after which the run divides
    by zero. *)
Theorem C61_large_refuted : exists a : Z, (0 < a)%Z /\ zceil (RN (IZR a / IZR 1)) = (a - 1)%Z.
Proof.
  exists (2 ^ 53 + 1)%Z. split; [lia|]. replace (IZR (2 ^ 53 + 1) / IZR 1) with (IZR (2 ^ 53 + 1)) by field.
  assert (Mg : mag_val radix2 _ (mag radix2 (IZR (2 ^ 53 + 1))) = 54%Z).
  { apply mag_unique_pos. change (54 - 1)%Z with 53%Z. rewrite <- !(IZR_Zpower radix2) by lia. split; [apply IZR_le|apply IZR_lt]; now compute. }
  replace (RN (IZR (2 ^ 53 + 1))) with (IZR (2 ^ 53)).
  - apply zceil_unique. replace (2 ^ 53 + 1 - 1)%Z with (2 ^ 53)%Z by reflexivity. lra.
  - symmetry. unfold RN, round, F2R, scaled_mantissa, cexp. rewrite Mg. change (fexp64 54) with 1%Z. cbn [Fnum Fexp].
    replace (IZR (2 ^ 53 + 1) * bpow radix2 (- (1))) with (IZR (2 ^ 52) + / 2).
    + assert (Fl : Zfloor (IZR (2 ^ 52) + / 2) = (2 ^ 52)%Z).
      { apply Zfloor_imp. rewrite plus_IZR. lra. }
      unfold Znearest. rewrite Fl. replace (IZR (2 ^ 52) + / 2 - IZR (2 ^ 52)) with (/ 2) by ring.
      rewrite Rcompare_Eq by reflexivity. replace (negb (Z.even (2 ^ 52))) with false by reflexivity.
      change (bpow radix2 1) with 2. rewrite <- mult_IZR. reflexivity.
    + change (bpow radix2 (- (1))) with (/ 2). rewrite plus_IZR. replace (2 ^ 53)%Z with (2 ^ 52 * 2)%Z by reflexivity. rewrite mult_IZR. field.
Qed.

Theorem C61_interval_refuted : exists a b, (0 < a < 2 ^ 53)%Z /\ (0 < b)%Z /\ schedule64 a b = Err ZeroDivisionError.
Proof.
  exists 1%Z, (2 ^ 1100)%Z. split; [lia|]. split; [lia|].
  assert (Z0 : RN (IZR 1 / IZR (2 ^ 1100)) = 0).
  { apply round_N_small_pos with (-1099)%Z; auto with typeclass_instances; [|now compute].
    replace (IZR 1 / IZR (2 ^ 1100)) with (bpow radix2 (- (1100))).
    - split; [apply bpow_le|apply bpow_lt]; lia.
    - rewrite bpow_opp, <- (IZR_Zpower radix2) by lia. change (radix2 ^ 1100)%Z with (2 ^ 1100)%Z.
      field. apply not_0_IZR. lia. }
  unfold schedule64. rewrite (proj2 (Z.eqb_neq (2 ^ 1100) 0)) by lia. rewrite Z0, (zceil_unique 0 0) by lra. reflexivity.
Qed.

(** C60, C61: cases *)
Example C61_case : schedule64 1000000 10000 = schedule 1000000 10000 /\
  exists n, zceil (RN (1000000 / 3)) = n /\ n = 333334%Z.
Proof.
  split; [apply C61_schedule; lia|]. destruct (C61_ceiling 1000000 3) as (n & Hn & En); try lia. exists n. split; [exact En|lia].
Qed.

(** the smallest positive double above a threshold of the same size: the
    difference is subnormal and still seen *)
Definition tiny (n : positive) (H : SpecFloat.bounded prec64 emax64 n (-1074) = true) : f64 := B754_finite false n (-1074) H.
Example C60_case : mask64 (tiny 6 eq_refl) (tiny 7 eq_refl) = one64 /\
  count64 (tiny 6 eq_refl) [tiny 7 eq_refl; tiny 6 eq_refl; tiny 5 eq_refl] = 1%nat.
Proof.
  split; [|reflexivity]. apply C60_masks; try reflexivity. unfold tiny, B2R. apply F2R_lt. cbn. lia.
Qed.
