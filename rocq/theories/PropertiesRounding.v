(** PropertiesRounding.v -- what the conservation laws and the reported errors are
    worth in binary64 arithmetic (C85). *)

From Flocq Require Import Core BinarySingleNaN.
From Coq Require Import Reals ZArith List Bool Arith Lia Lra.
From Verif Require Import Base ModelFloat ModelFloatKernel PropertiesFloat ProofsFloatKernel
  PropertiesFloatKernel ProofsRounding.
Import ListNotations.
Open Scope R_scope.

(* ------------------------------------------------------------------ *)
(** * Non-negative numbers *)

Lemma nonneg_sign x : nonneg64 x -> x = NaN \/ (exists s, x = B754_zero s) \/ Bsign x = false.
Proof. unfold nonneg64. destruct x as [s|[]| |[] m e B]; cbn; eauto; discriminate. Qed.
Lemma sign_nonneg x : x = NaN \/ (exists s, x = B754_zero s) \/ Bsign x = false -> nonneg64 x.
Proof. intros [->|[[s ->]|H]]; try reflexivity. destruct x as [s|s| |s m e B]; cbn in H; try subst s; reflexivity. Qed.
Lemma nonneg_mul x y : nonneg64 x -> nonneg64 y -> nonneg64 (mul64 x y).
Proof.
  intros Hx Hy. apply sign_nonneg. apply nonneg_sign in Hx, Hy.
  destruct Hx as [->|[[s ->]|Hx]]; [left; apply mul_nan_l|destruct y; cbn; eauto|].
  destruct Hy as [->|[[s ->]|Hy]]; [left; apply mul_nan_r|destruct x; cbn; eauto|].
  pose proof (@Bmult_correct prec64 emax64 prec64_ok prec64_lt mode_NE x y) as C.
  fold (mul64 x y) in C. rewrite Hx, Hy in C. destruct (Rlt_bool _ _).
  - destruct C as (_ & _ & C). destruct (mul64 x y); auto; right; right; apply C; reflexivity.
  - right; right. destruct (mul64 x y); cbn in C; try discriminate C. injection C as ->. reflexivity.
Qed.
Lemma nonneg_div x y : eq0_64 y = false -> nonneg64 x -> nonneg64 y -> nonneg64 (div64 x y).
Proof.
  intros Z Hx Hy. apply sign_nonneg. apply nonneg_sign in Hx, Hy.
  destruct Hy as [->|[[s ->]|Hy]]; [left; apply div_nan_r|discriminate Z|].
  destruct Hx as [->|[[s ->]|Hx]]; [left; apply div_nan_l|destruct y; cbn; eauto; discriminate Z|].
  destruct y as [sy|sy| |sy my ey By]; [discriminate Z| |left; apply div_nan_r|].
  - destruct x; cbn; eauto.
  - set (y := B754_finite sy my ey By : f64) in *.
    assert (Ny : B2R y <> 0) by (destruct sy; cbn; apply F2R_neq_0; discriminate).
    pose proof (@Bdiv_correct prec64 emax64 prec64_ok prec64_lt mode_NE x y Ny) as C.
    fold (div64 x y) in C. rewrite Hx, Hy in C. destruct (Rlt_bool _ _).
    + destruct C as (_ & _ & C). destruct (div64 x y); auto; right; right; apply C; reflexivity.
    + right; right. destruct (div64 x y); cbn in C; try discriminate C. injection C as ->. reflexivity.
Qed.
Lemma nonneg_add x y : nonneg64 x -> nonneg64 y -> nonneg64 (add64 x y).
Proof.
  intros Hx Hy. destruct (is_finite x) eqn:Fx.
  2:{ apply nonneg_sign in Hx. apply nonneg_sign in Hy. apply sign_nonneg.
      destruct Hx as [->|[[s ->]|Hx]]; [left; apply add_nan_l|discriminate Fx|].
      destruct x as [|[]| |]; try discriminate.
      - destruct Hy as [->|[[s ->]|Hy]]; [left; reflexivity|right; right; reflexivity|].
        destruct y as [|[]| |[]]; try discriminate; cbn; auto.
      - left. apply add_nan_l. }
  destruct (is_finite y) eqn:Fy.
  2:{ apply nonneg_sign in Hy. apply sign_nonneg.
      destruct Hy as [->|[[s ->]|Hy]]; [left; apply add_nan_r|discriminate Fy|].
      destruct y as [|[]| |]; try discriminate.
      - destruct x as [| | |]; try discriminate; cbn; auto.
      - left. apply add_nan_r. }
  pose proof (nonneg_B2R x Fx Hx) as Px. pose proof (nonneg_B2R y Fy Hy) as Py.
  pose proof (@Bplus_correct prec64 emax64 prec64_ok prec64_lt mode_NE x y Fx Fy) as C.
  fold (add64 x y) in C. destruct (Rlt_bool _ _).
  - destruct C as (E & F & S). unfold nonneg64, lt64. rewrite (Bltb_correct _ _ _ _ F) by reflexivity.
    apply Rlt_bool_false. rewrite E. cbn [round_mode B2R zero64]. rewrite <- RN_0. apply RN_le. lra.
  - destruct C as (C & E). apply sign_nonneg. right; right.
    assert (S : Bsign x = false).
    { destruct (Bsign x) eqn:Sx; [exfalso|reflexivity]. symmetry in E.
      destruct (nonneg_sign _ Hx) as [->|[[s ->]|K]]; [discriminate Fx| |congruence].
      destruct (nonneg_sign _ Hy) as [->|[[s' ->]|K]]; [discriminate Fy| |congruence].
      cbn in Sx, E. subst s s'. discriminate C. }
    rewrite S in C. destruct (add64 x y); cbn in C; try discriminate C. injection C as ->. reflexivity.
Qed.
Lemma nonneg_sum n (v : vec64) : (forall i, (i < n)%nat -> nonneg64 (v i)) -> nonneg64 (sum64 n v).
Proof. intros H. unfold sum64. apply (for_ind (fun _ x => nonneg64 x)); [reflexivity|]. intros i a L Ha. apply nonneg_add; auto. Qed.

(** the arithmetic of [volumes_bound] *)
Lemma volumes_arith X np N W g e t T S Q H :
  0 < e <= / 1024 -> 0 <= np -> 0 < N -> 0 <= W -> 0 <= g <= 2 * (np * e) -> np * e <= / 8192 -> 0 < t <= e ->
  Rabs T <= N * W ->
  Rabs (X - (T + N * H)) <= N * (e * (W + Rabs H)) -> Rabs (S - T) <= g * (N * W) ->
  Rabs (Q - S / N) <= e * (Rabs S / N) + t -> Rabs (H - (1 - Q)) <= e * Rabs (1 - Q) ->
  Rabs (X - N) <= N * ((np + 4) * (W / 2 + 3 / 4) * (4 * e)).
Proof.
  intros He Hnp HN HW Hg Hne Ht BT X1 X2 X3 X4.
  set (s := Rabs S / N) in *. set (x := Rabs (1 - Q)) in *. set (h := Rabs H) in *.
  assert (Ps : 0 <= s) by (apply Rmult_le_pos; [apply Rabs_pos|left; apply Rinv_0_lt_compat; lra]).
  assert (NW : 0 <= N * W) by (apply Rmult_le_pos; lra).
  assert (gW : g * W <= 2 * (np * e) * W) by (apply Rmult_le_compat_r; lra).
  assert (Bs : s <= W * (4097 / 4096)).
  { apply Rmult_le_reg_r with N; [lra|]. unfold s, Rdiv at 1. rewrite Rmult_assoc, Rinv_l, Rmult_1_r by lra.
    replace S with (T + (S - T)) by ring. apply Rle_trans with (1 := Rabs_triang _ _).
    assert (g * (N * W) <= / 4096 * (N * W)) by (apply Rmult_le_compat_r; lra). lra. }
  assert (es : e * s <= / 1024 * s) by (apply Rmult_le_compat_r; lra).
  assert (BQ : Rabs Q <= s + / 1024 * s + / 1024).
  { replace Q with (S / N + (Q - S / N)) by ring. apply Rle_trans with (1 := Rabs_triang _ _).
    assert (Rabs (S / N) = s) by (unfold s, Rdiv; rewrite Rabs_mult, (Rabs_pos_eq (/ N)); [reflexivity|left; apply Rinv_0_lt_compat; lra]).
    lra. }
  assert (Bx : x <= 1 + Rabs Q).
  { unfold x, Rminus. apply Rle_trans with (1 := Rabs_triang _ _). rewrite Rabs_R1, Rabs_Ropp. lra. }
  assert (Px : 0 <= x) by apply Rabs_pos. assert (Ph : 0 <= h) by apply Rabs_pos.
  assert (ex : e * x <= / 1024 * x) by (apply Rmult_le_compat_r; lra).
  assert (Bh : h <= x + / 1024 * x).
  { unfold h. replace H with ((1 - Q) + (H - (1 - Q))) by ring. apply Rle_trans with (1 := Rabs_triang _ _).
    fold x. lra. }
  replace (X - N) with ((X - (T + N * H)) + ((T - S) + (- (N * (Q - S / N)) + N * (H - (1 - Q))))) by (field; lra).
  apply Rle_trans with (N * (e * (W + h)) + (g * (N * W) + (N * (e * s + t) + N * (e * x)))).
  - apply Rle_trans with (1 := Rabs_triang _ _). apply Rplus_le_compat; [exact X1|].
    apply Rle_trans with (1 := Rabs_triang _ _). apply Rplus_le_compat; [rewrite Rabs_minus_sym; exact X2|].
    apply Rle_trans with (1 := Rabs_triang _ _). rewrite Rabs_Ropp, !Rabs_mult, (Rabs_pos_eq N) by lra.
    apply Rplus_le_compat; apply Rmult_le_compat_l; lra.
  - replace (N * (e * (W + h)) + (g * (N * W) + (N * (e * s + t) + N * (e * x))))
      with (N * (e * (W + h) + g * W + (e * s + t) + e * x)) by ring.
    apply Rmult_le_compat_l; [lra|].
    apply Rle_trans with (e * (W + h) + 2 * (np * e) * W + (e * s + e) + e * x); [lra|].
    replace (e * (W + h) + 2 * (np * e) * W + (e * s + e) + e * x) with (e * (W + h + 2 * np * W + s + 1 + x)) by ring.
    replace ((np + 4) * (W / 2 + 3 / 4) * (4 * e)) with (e * ((np + 4) * (2 * W + 3))) by field.
    apply Rmult_le_compat_l; [lra|]. replace ((np + 4) * (2 * W + 3)) with (2 * np * W + 8 * W + 3 * np + 12) by ring. lra.
Qed.

(** products, quotients and halves of powers of two *)
Lemma range_mul x y a b c d : bpow radix2 a <= x <= bpow radix2 b -> bpow radix2 c <= y <= bpow radix2 d ->
  bpow radix2 (a + c) <= x * y <= bpow radix2 (b + d).
Proof.
  intros [A B] [C D]. pose proof (bpow_gt_0 radix2 a). pose proof (bpow_gt_0 radix2 c).
  rewrite !bpow_plus. split; apply Rmult_le_compat; lra.
Qed.
Lemma range_inv x a b : bpow radix2 a <= x <= bpow radix2 b -> bpow radix2 (- b) <= / x <= bpow radix2 (- a).
Proof.
  intros [A B]. pose proof (bpow_gt_0 radix2 a). rewrite !bpow_opp.
  split; apply Rinv_le_contravar; lra.
Qed.
Lemma range_within k x y a b : within k x y -> INR k * eps64 <= / 2 ->
  bpow radix2 a <= y <= bpow radix2 b -> bpow radix2 (a - 1) <= x <= bpow radix2 (b + 1).
Proof.
  intros W L [A B]. destruct (within_two k x y W L) as [C D].
  replace (a - 1)%Z with (a + - 1)%Z by lia. rewrite !bpow_plus.
  change (bpow radix2 (-1)) with (/ 2). change (bpow radix2 1) with 2. lra.
Qed.
Lemma range_weaken x a b a' b' : (a' <= a)%Z -> (b <= b')%Z -> bpow radix2 a <= x <= bpow radix2 b ->
  bpow radix2 a' <= x <= bpow radix2 b'.
Proof.
  intros La Lb [A B]. split; [apply Rle_trans with (bpow radix2 a); [apply bpow_le; exact La|exact A]|].
  apply Rle_trans with (bpow radix2 b); [exact B|apply bpow_le; exact Lb].
Qed.

(* ------------------------------------------------------------------ *)
(** * One iteration *)

Section Step.
Context {G St : Type} (pf : platform64 G).
Variables (q : kernel64) (k k' : state64 G St) (n : Z) (rep : report64).
Hypothesis V : values64 pf q k k' n rep.
Local Notation np := (z_np q).
Local Notation nc := (z_nc q).
Local Notation masks := (vl_masks _ _ _ _ _ _ V).
Local Notation phis := (vl_phis _ _ _ _ _ _ V).

Lemma mask_cases m : fin (masks m) -> (exists s, masks m = B754_zero s) \/ masks m = one64.
Proof.
  intros F. rewrite (vl_masks_eq _ _ _ _ _ _ V m) in *.
  destruct (mask_values (z_thr q) (x_Js k m)) as [N|[Z|O]]; auto. rewrite N in F. discriminate F.
Qed.
(** the incompressibility error of a living compartment, before and after rounding *)
Lemma incomp_bound m : fin (r6_incomp rep) -> (m < np)%nat -> masks m = one64 ->
  Rabs (rsum nc (fun i => B2R (phis i m)) - 1)
    <= B2R (r6_incomp rep) + gamma64 nc * (1 + rsum nc (fun i => Rabs (B2R (phis i m)))).
Proof.
  intros F L M. rewrite (vl_e_incomp _ _ _ _ _ _ V) in *.
  pose proof (amax_abs_fin _ _ F m L) as Fi. pose proof (amax_abs_ge _ _ F m L) as B.
  set (e := B2R (amax64 np _)) in *.
  rewrite (vl_incomp_eq _ _ _ _ _ _ V m), M in Fi, B.
  destruct (mul_fin _ _ Fi) as [Fs _]. rewrite mul_one in B by exact Fs.
  pose proof (sum_error nc (fun i => phis i m) (opp64 one64) Fs) as S.
  set (s := B2R (for_ nc _ (opp64 one64))) in *.
  assert (E1 : B2R (opp64 one64) = -1) by (unfold opp64; rewrite B2R_Bopp, B2R_one; reflexivity).
  rewrite E1 in S. replace (Rabs (-1)) with 1 in S by (rewrite Rabs_left; lra).
  set (T := rsum nc (fun i => B2R (phis i m))) in *.
  replace (T - 1) with (s - (s - (-1 + T))) by ring.
  apply Rle_trans with (1 := Rabs_triang s (- (s - (-1 + T)))). rewrite Rabs_Ropp. lra.
Qed.

(** signs of the fractions *)
Lemma mask_one thr J : fin thr -> mask64 thr J = one64 -> J = B754_infinity false \/ (fin J /\ B2R thr < B2R J).
Proof.
  intros Ft E. destruct (is_finite J) eqn:FJ.
  - right. split; [exact FJ|]. destruct (C60_masks thr J Ft FJ) as (_ & H & _).
    destruct (Rle_or_lt (B2R J) (B2R thr)) as [L|L]; [|exact L]. destruct (H L) as [s Hs].
    rewrite Hs in E. discriminate E.
  - destruct J as [|[]| |]; try discriminate FJ; [|left; reflexivity|rewrite mask_nan in E; discriminate E].
    destruct thr; try discriminate Ft; discriminate E.
Qed.
Lemma Js_nonneg : fin (z_thr q) -> nonneg64 (z_thr q) -> (forall m, (m < np)%nat -> fin (masks m)) ->
  forall m, (m < np)%nat -> nonneg64 (vl_Js _ _ _ _ _ _ V m).
Proof.
  intros Ft Ht Fm m L. rewrite (vl_Js_eq _ _ _ _ _ _ V m). destruct (mask_cases m (Fm m L)) as [[s E]|E].
  - rewrite E. apply sign_nonneg. destruct (x_Js k m); cbn; eauto.
  - rewrite E. apply nonneg_mul; [|reflexivity]. rewrite (vl_masks_eq _ _ _ _ _ _ V m) in E.
    destruct (mask_one _ _ Ft E) as [->|[FJ HJ]]; [reflexivity|].
    unfold nonneg64, lt64. rewrite (Bltb_correct _ _ _ _ FJ) by reflexivity. apply Rlt_bool_false.
    pose proof (nonneg_B2R _ Ft Ht). cbn [B2R zero64]. lra.
Qed.
Lemma phis_nonneg i m :
  (forall x, nonneg64 (pf_exp pf x)) -> fin (z_thr q) -> nonneg64 (z_thr q) ->
  match z_ensemble q with Canonical64 p => nonneg64 (p i) | GrandCanonical64 a => nonneg64 (a i) end ->
  (forall m, (m < np)%nat -> fin (masks m)) ->
  (i < nc)%nat -> (m < np)%nat -> nonneg64 (phis i m).
Proof.
  intros Hexp Ft Ht He Fm Li Lm. pose proof (Js_nonneg Ft Ht Fm) as HJ.
  rewrite (vl_phis_eq _ _ _ _ _ _ V). apply nonneg_mul; [apply nonneg_mul|].
  - pose proof (vl_f_eq _ _ _ _ _ _ V i Li) as Ef. destruct (z_ensemble q) as [p|a]; cbn [prefactor64] in Ef.
    + unfold sdiv64 in Ef. destruct (eq0_64 (vl_Qs _ _ _ _ _ _ V i)) eqn:Z; [discriminate|]. injection Ef as <-.
      apply nonneg_div; [exact Z|exact He|]. rewrite (vl_Qs_eq _ _ _ _ _ _ V). apply nonneg_div.
      * apply (vl_total _ _ _ _ _ _ V). lia.
      * apply nonneg_sum. intros m' L'. apply nonneg_mul; [apply Hexp|auto].
      * apply nonneg_sum. exact HJ.
    + injection Ef as <-. exact He.
  - apply Hexp.
  - destruct (mask_cases m (Fm m Lm)) as [[s ->]| ->]; reflexivity.
Qed.

(* ------------------------------------------------------------------ *)
(** ** The new volumes *)

Local Notation Js := (vl_Js _ _ _ _ _ _ V).
Local Notation Js1 := (vl_Js1 _ _ _ _ _ _ V).
Local Notation dJ := (vl_dJ _ _ _ _ _ _ V).
Local Notation factor := (vl_factor _ _ _ _ _ _ V).
Definition alive (m : nat) : bool := negb (eq0_64 (masks m)).
Local Notation N := (INR (ncount np alive)).

Definition tiny : R := bpow radix2 (-1075).
Lemma tiny_pos : 0 < tiny. Proof. apply bpow_gt_0. Qed.
Lemma tiny_small x : Rabs x < bpow radix2 emax64 -> tiny * Rabs x <= / 2 ^ 51.
Proof.
  intros H. replace (/ 2 ^ 51) with (tiny * bpow radix2 emax64).
  - apply Rmult_le_compat_l; [pose proof tiny_pos; lra|lra].
  - unfold tiny. rewrite <- bpow_plus. change (-1075 + emax64)%Z with (-51)%Z.
    change (bpow radix2 (-51)) with (/ IZR (Z.pow_pos 2 51)). change (Z.pow_pos 2 51) with 2251799813685248%Z. lra.
Qed.
Lemma RN_upper x : 0 <= x -> RN x <= x * (1 + eps64) + tiny.
Proof.
  intros P. destruct (RN_any x) as (d & e & Ld & Le & ->). fold tiny in Le.
  apply Rabs_le_inv in Ld, Le. assert (x * d <= x * eps64) by (apply Rmult_le_compat_l; lra). lra.
Qed.
Lemma RN_lower x : 0 <= x -> x * (1 - eps64) - tiny <= RN x.
Proof.
  intros P. destruct (RN_any x) as (d & e & Ld & Le & ->). fold tiny in Le.
  apply Rabs_le_inv in Ld, Le. assert (x * - eps64 <= x * d) by (apply Rmult_le_compat_l; lra). lra.
Qed.
Lemma RN_nonneg x : 0 <= x -> 0 <= RN x. Proof. intros H. rewrite <- RN_0. apply RN_le. exact H. Qed.
Lemma RN_abs_le x y : Rabs x <= y -> Rabs (RN x) <= RN y.
Proof. intros H. rewrite <- RN_abs. apply RN_le. exact H. Qed.

(** the step length: no volume moves by much more than the bound [z_ub] *)
Lemma step_bound m : fin (r6_Js rep) -> fin (z_ub q) -> 0 < B2R (z_ub q) -> fin (z_acc_J q) -> 0 < B2R (z_acc_J q) ->
  fin (mul64 (mul64 factor (z_acc_J q)) (dJ m)) -> (m < np)%nat ->
  Rabs (B2R (mul64 (mul64 factor (z_acc_J q)) (dJ m))) <= 2 * B2R (z_ub q) + / 4.
Proof.
  intros FD Fu Pu Fa Pa Fs L.
  assert (HD : Rabs (B2R (dJ m)) <= B2R (r6_Js rep)).
  { rewrite (vl_e_Js _ _ _ _ _ _ V) in *. apply amax_abs_ge; auto. }
  set (D := B2R (r6_Js rep)) in *. set (u := B2R (z_ub q)) in *. set (c := B2R (z_acc_J q)) in *.
  assert (PD : 0 <= D) by (pose proof (Rabs_pos (B2R (dJ m))); lra).
  destruct (mul_fin _ _ Fs) as [Fg Fd]. destruct (mul_fin _ _ Fg) as [Ff _].
  rewrite mul_round by exact Fs. rewrite mul_round in * by exact Fg. fold c.
  pose proof (vl_factor_eq _ _ _ _ _ _ V) as Ef. unfold sdiv64 in Ef.
  destruct (eq0_64 (pymax64 _ _)) eqn:Z; [discriminate|]. injection Ef as Ef.
  set (a := mul64 (r6_Js rep) (z_acc_J q)) in *.
  pose proof eps_pos as Pe. pose proof eps_small as Se. pose proof tiny_pos as Pt.
  destruct (is_finite a) eqn:Fa'.
  - assert (Ea : B2R a = RN (D * c)) by (apply mul_round; exact Fa').
    assert (Pa' : 0 <= B2R a) by (rewrite Ea; apply RN_nonneg, Rmult_le_pos; lra).
    unfold pymax64 in *. destruct (lt64 a (z_ub q)) eqn:Elt.
    + apply lt_B2R in Elt; auto. fold u in Elt.
      assert (E1 : B2R factor = 1).
      { rewrite <- Ef in Ff |- *. rewrite div_round by (auto; unfold u in Pu; lra). fold u.
        unfold Rdiv. rewrite Rinv_r by lra. rewrite <- B2R_one. apply RN_id. }
      rewrite E1, Rmult_1_l. unfold c at 1. rewrite RN_id. fold c.
      apply Rle_trans with (RN (D * c)); [|lra]. apply RN_abs_le.
      rewrite Rabs_mult, (Rabs_pos_eq c), Rmult_comm by lra. apply Rmult_le_compat_r; lra.
    + apply nlt_B2R in Elt; auto. fold u in Elt.
      assert (Ef' : B2R factor = RN (u / B2R a)).
      { rewrite <- Ef in Ff |- *. rewrite div_round by (auto; lra). reflexivity. }
      set (A := B2R a) in *. assert (PA : 0 < A) by lra.
      assert (Pq : 0 <= u / A <= 1).
      { split; [apply Rmult_le_pos; [lra|left; apply Rinv_0_lt_compat; lra]|].
        apply Rmult_le_reg_r with A; [lra|]. unfold Rdiv. rewrite Rmult_assoc, Rinv_l by lra. lra. }
      rewrite Ef'. set (f := RN (u / A)).
      assert (Pf : 0 <= f) by (apply RN_nonneg; lra).
      assert (Uf : f <= 1) by (unfold f; rewrite <- B2R_one, <- (RN_id one64); apply RN_le; rewrite B2R_one; lra).
      assert (TA : tiny * A <= / 2 ^ 51).
      { rewrite <- (Rabs_pos_eq A) by lra. apply tiny_small. unfold A. apply fin_below. }
      assert (TD : tiny * D <= / 2 ^ 51).
      { rewrite <- (Rabs_pos_eq D) by lra. apply tiny_small. unfold D. apply fin_below. }
      assert (H1 : f * A <= u * (1 + eps64) + / 2 ^ 51).
      { pose proof (RN_upper (u / A) ltac:(lra)) as H. fold f in H.
        apply Rle_trans with ((u / A * (1 + eps64) + tiny) * A); [apply Rmult_le_compat_r; lra|].
        replace ((u / A * (1 + eps64) + tiny) * A) with (u * (1 + eps64) + tiny * A) by (field; lra). lra. }
      assert (T1 : tiny <= / 2 ^ 51).
      { apply Rle_trans with (tiny * Rabs (B2R one64)); [rewrite B2R_one, Rabs_R1; lra|]. apply tiny_small, fin_below. }
      assert (H2 : f * (D * c) * (1 - eps64) <= u * (1 + eps64) + 2 * / 2 ^ 51).
      { pose proof (RN_lower (D * c) ltac:(apply Rmult_le_pos; lra)) as H. rewrite <- Ea in H. fold A in H.
        apply Rle_trans with (f * (A + tiny)); [rewrite Rmult_assoc; apply Rmult_le_compat_l; lra|].
        assert (f * tiny <= 1 * tiny) by (apply Rmult_le_compat_r; lra). lra. }
      assert (Pg : 0 <= RN (f * c)) by (apply RN_nonneg, Rmult_le_pos; lra).
      assert (H3 : RN (f * c) * D <= f * (D * c) * (1 + eps64) + / 2 ^ 51).
      { pose proof (RN_upper (f * c) ltac:(apply Rmult_le_pos; lra)) as H.
        apply Rle_trans with ((f * c * (1 + eps64) + tiny) * D); [apply Rmult_le_compat_r; lra|]. lra. }
      apply Rle_trans with (RN (RN (f * c) * D)).
      { apply RN_abs_le. rewrite Rabs_mult, (Rabs_pos_eq (RN (f * c))) by lra. apply Rmult_le_compat_l; lra. }
      apply Rle_trans with (1 := RN_upper (RN (f * c) * D) ltac:(apply Rmult_le_pos; lra)).
      assert (X : / 2 ^ 51 <= / 1024) by (apply Rinv_le_contravar; lra).
      set (y := f * (D * c)) in *. assert (Py : 0 <= y) by (apply Rmult_le_pos; [lra|apply Rmult_le_pos; lra]).
      set (z := RN (f * c) * D) in *. assert (Pz : 0 <= z) by (apply Rmult_le_pos; lra).
      assert (y * (1023 / 1024) <= u * (1025 / 1024) + 2 / 1024).
      { assert (y * eps64 <= y * / 1024) by (apply Rmult_le_compat_l; lra).
        assert (u * eps64 <= u * / 1024) by (apply Rmult_le_compat_l; lra). lra. }
      assert (z <= y * (1025 / 1024) + / 1024).
      { assert (y * eps64 <= y * / 1024) by (apply Rmult_le_compat_l; lra). lra. }
      assert (z * eps64 <= z * / 1024) by (apply Rmult_le_compat_l; lra). lra.
  - assert (Ea : a = B754_infinity false).
    { pose proof (@Bmult_correct prec64 emax64 prec64_ok prec64_lt mode_NE (r6_Js rep) (z_acc_J q)) as C.
      fold (mul64 (r6_Js rep) (z_acc_J q)) in C. fold a in C. destruct (Rlt_bool _ _) eqn:R in C.
      - destruct C as (_ & C & _). unfold fin in FD, Fa. rewrite FD, Fa in C. cbn in C. congruence.
      - pose proof (sign_B2R (r6_Js rep)) as S1. pose proof (sign_B2R (z_acc_J q)) as S2.
        fold D in S1. fold c in S2. destruct (Bsign (z_acc_J q)); [lra|].
        destruct (Bsign (r6_Js rep)).
        + exfalso. replace (B2R (r6_Js rep)) with 0 in R by (fold D; lra).
          rewrite Rmult_0_l, round_0, Rabs_R0, Rlt_bool_true in R; [discriminate R|apply bpow_gt_0|auto with typeclass_instances].
        + destruct a; cbn in C; congruence. }
    assert (E0 : B2R factor = 0).
    { rewrite <- Ef, Ea. unfold pymax64. destruct (z_ub q) as [|[]| |[]]; try discriminate Fu; reflexivity. }
    rewrite E0, Rmult_0_l, RN_0, Rmult_0_l, RN_0, Rabs_R0. lra.
Qed.

Definition ind (m : nat) : R := if alive m then 1 else 0.
Lemma ind_sum : rsum np ind = N.
Proof. unfold ind. rewrite <- ncount_rsum. reflexivity. Qed.
Lemma alive_cases m : fin (masks m) ->
  (alive m = true /\ masks m = one64) \/ (alive m = false /\ exists s, masks m = B754_zero s).
Proof.
  intros F. unfold alive. destruct (mask_cases m F) as [[s E]|E]; [right|left]; rewrite E; eauto.
Qed.
Lemma count_alive : (Z.of_nat np <= 2 ^ 53)%Z -> (forall m, (m < np)%nat -> fin (masks m)) ->
  n = Z.of_nat (ncount np alive).
Proof.
  intros L F. destruct (masks_sum masks np L (fun m Lm => mask_cases m (F m Lm))) as [Fs Es].
  rewrite (vl_n _ _ _ _ _ _ V). apply int_exact; [exact Fs|]. rewrite Es, INR_IZR_INZ. reflexivity.
Qed.
Lemma B2R_ofZ z : (Z.abs z <= 2 ^ 53)%Z -> fin (ofZ64 z) /\ B2R (ofZ64 z) = IZR z.
Proof.
  intros L. unfold ofZ64.
  pose proof (binary_normalize_correct prec64 emax64 prec64_ok prec64_lt mode_NE z 0 false) as C. cbv zeta in C.
  replace (F2R (Float radix2 z 0)) with (IZR z) in C by (unfold F2R; cbn; ring).
  rewrite round_generic in C; [|auto with typeclass_instances|apply format_int; exact L].
  rewrite Rlt_bool_true in C.
  - destruct C as (C1 & C2 & _). split; [exact C2|exact C1].
  - rewrite <- abs_IZR. apply Rle_lt_trans with (IZR (2 ^ 53)); [apply IZR_le; exact L|].
    rewrite <- (IZR_Zpower radix2) by (cbv; congruence). apply IZR_lt. reflexivity.
Qed.

(** the volumes after a step add up to the number of living compartments *)
Lemma volumes_bound V0 : (Z.of_nat np <= 2 ^ 40)%Z ->
  fin (r6_Js rep) -> fin (z_ub q) -> 0 < B2R (z_ub q) -> fin (z_acc_J q) -> 0 < B2R (z_acc_J q) ->
  fin (z_thr q) -> nonneg64 (z_thr q) ->
  (forall m, (m < np)%nat -> masks m = one64 -> B2R (x_Js k m) <= V0) ->
  (forall m, (m < np)%nat -> fin (x_Js k' m)) ->
  Rabs (rsum np (fun m => B2R (x_Js k' m)) - N)
    <= N * ((INR np + 4) * (V0 + 2 * B2R (z_ub q) + 1) * (4 * eps64)).
Proof.
  intros Lnp FD Fu Pu Fa Pa Ft Ht HV FJ'.
  pose proof (fin_Js pf _ _ _ _ _ V FD) as FA.
  assert (FM : forall m, (m < np)%nat -> fin (masks m)) by (intros m L; apply (FA m L)).
  pose proof (count_alive ltac:(lia) FM) as En.
  pose proof (ncount_le np alive) as Lc.
  assert (Pc : (0 < ncount np alive)%nat) by (pose proof (vl_n_pos _ _ _ _ _ _ V); lia).
  destruct (B2R_ofZ n ltac:(lia)) as [Fn Bz].
  assert (Bn : B2R (ofZ64 n) = N) by (rewrite Bz, INR_IZR_INZ, <- En; reflexivity).
  pose proof (INR_pos _ Pc) as PN. set (u := B2R (z_ub q)) in *.
  set (W := 2 * (V0 + 2 * u) + / 2).
  set (S := sum64 np Js1). set (Q := div64 S (ofZ64 n)). set (H := minus64 one64 Q).
  assert (E' : forall m, x_Js k' m = mul64 (add64 (Js1 m) H) (masks m)) by (intros m; exact (vl_Js' _ _ _ _ _ _ V m)).
  assert (FH : fin H).
  { specialize (FJ' O ltac:(lia)). rewrite E' in FJ'. destruct (mul_fin _ _ FJ') as [F1 _]. apply (add_fin _ _ F1). }
  assert (FQ : fin Q) by apply (minus_fin _ _ FH). assert (FS : fin S) by apply (div_fin _ _ FQ).
  (* the single volumes *)
  assert (A : forall m, (m < np)%nat ->
    Rabs (B2R (Js1 m)) <= ind m * W /\
    Rabs (B2R (x_Js k' m) - (B2R (Js1 m) + ind m * B2R H)) <= ind m * (eps64 * (W + Rabs (B2R H)))).
  { intros m L. specialize (FJ' m L). rewrite E' in FJ' |- *. unfold ind.
    destruct (mul_fin _ _ FJ') as [Fad _]. destruct (add_fin _ _ Fad) as [F1 _].
    rewrite (vl_Js1_eq _ _ _ _ _ _ V m) in F1, Fad, FJ' |- *.
    destruct (alive_cases m (FM m L)) as [[-> Em]|[-> [s Em]]]; rewrite Em in *.
    2:{ rewrite !mul_zero. rewrite !Rmult_0_l. replace (0 - (0 + 0)) with 0 by ring. rewrite Rabs_R0. lra. }
    destruct (mul_fin _ _ F1) as [F2 _]. destruct (add_fin _ _ F2) as [FJ Fst].
    rewrite mul_one in * by exact F2. rewrite mul_one by exact Fad.
    pose proof (step_bound m FD Fu Pu Fa Pa Fst L) as B. fold u in B.
    assert (BJ : Rabs (B2R (Js m)) <= V0).
    { pose proof (nonneg_B2R _ FJ (Js_nonneg Ft Ht FM m L)) as P. rewrite Rabs_pos_eq by exact P.
      specialize (HV m L Em). pose proof (vl_Js_eq _ _ _ _ _ _ V m) as EJ. rewrite Em in EJ. rewrite EJ.
      rewrite mul_one by apply (FA m L). exact HV. }
    set (st := mul64 (mul64 factor (z_acc_J q)) (dJ m)) in *.
    destruct (add_rel _ _ F2) as (d & Ld & Ed). destruct (add_rel _ _ Fad) as (d' & Ld' & Ed').
    pose proof eps_small as Se. pose proof eps_pos as Pe.
    assert (B1 : Rabs (B2R (add64 (Js m) st)) <= W).
    { rewrite Ed, Rabs_mult.
      apply Rle_trans with ((V0 + (2 * u + / 4)) * 2); [|unfold W; lra].
      apply Rmult_le_compat; try apply Rabs_pos.
      - apply Rle_trans with (1 := Rabs_triang _ _). lra.
      - apply Rle_trans with (1 := Rabs_triang _ _). rewrite Rabs_R1. lra. }
    split; [lra|]. rewrite !Rmult_1_l, Ed', mul_one by exact F2. set (a := B2R (add64 (Js m) st)) in *.
    replace ((a + B2R H) * (1 + d') - (a + B2R H)) with (d' * (a + B2R H)) by ring.
    rewrite Rabs_mult. apply Rmult_le_compat; try apply Rabs_pos; [exact Ld'|].
    apply Rle_trans with (1 := Rabs_triang _ _). lra. }
  (* the sums *)
  assert (PV : 0 <= W).
  { apply ncount_pos in Pc. destruct Pc as (m & L & Hm). destruct (A m L) as [A1 _].
    unfold ind in A1. rewrite Hm in A1. pose proof (Rabs_pos (B2R (Js1 m))). lra. }
  set (T := rsum np (fun m => B2R (Js1 m))).
  assert (BA : rsum np (fun m => Rabs (B2R (Js1 m))) <= N * W).
  { rewrite <- ind_sum, <- rsum_scal_r. apply rsum_le. intros m L. apply A. exact L. }
  assert (X1 : Rabs (rsum np (fun m => B2R (x_Js k' m)) - (T + N * B2R H)) <= N * (eps64 * (W + Rabs (B2R H)))).
  { rewrite <- ind_sum at 1. rewrite <- rsum_scal_r. unfold T. rewrite <- rsum_plus, <- rsum_minus.
    apply Rle_trans with (1 := rsum_Rabs _ _). rewrite <- ind_sum, <- rsum_scal_r. apply rsum_le.
    intros m L. apply A. exact L. }
  assert (X2 : Rabs (B2R S - T) <= gamma64 np * (N * W)).
  { pose proof (sum_error np Js1 zero64 FS) as E. cbn [B2R zero64] in E. rewrite Rabs_R0, !Rplus_0_l in E.
    apply Rle_trans with (1 := E). apply Rmult_le_compat_l; [apply gamma_pos|exact BA]. }
  assert (X3 : Rabs (B2R Q - B2R S / N) <= eps64 * (Rabs (B2R S) / N) + tiny).
  { unfold Q. rewrite div_round by (auto; rewrite Bn; lra). rewrite Bn.
    destruct (RN_any (B2R S / N)) as (d & e & Ld & Le & ->). fold tiny in Le.
    replace (B2R S / N * (1 + d) + e - B2R S / N) with (d * (B2R S / N) + e) by ring.
    apply Rle_trans with (1 := Rabs_triang _ _). apply Rplus_le_compat; [|exact Le].
    rewrite Rabs_mult. unfold Rdiv. rewrite (Rabs_mult (B2R S)), (Rabs_pos_eq (/ N)) by (left; apply Rinv_0_lt_compat; lra).
    apply Rmult_le_compat_r; [apply Rmult_le_pos; [apply Rabs_pos|left; apply Rinv_0_lt_compat; lra]|exact Ld]. }
  assert (X4 : Rabs (B2R H - (1 - B2R Q)) <= eps64 * Rabs (1 - B2R Q)).
  { destruct (minus_rel _ _ FH) as (d & Ld & EH). fold H in EH. rewrite EH, B2R_one.
    replace ((1 - B2R Q) * (1 + d) - (1 - B2R Q)) with (d * (1 - B2R Q)) by ring. rewrite Rabs_mult.
    apply Rmult_le_compat_r; [apply Rabs_pos|exact Ld]. }
  pose proof eps_pos as Pe. pose proof eps_small as Se. pose proof (pos_INR np) as Pnp.
  assert (Hnp : INR np * eps64 <= / 8192).
  { replace (/ 8192) with (2 ^ 40 * eps64) by (unfold eps64; lra). apply Rmult_le_compat_r; [lra|].
    rewrite INR_IZR_INZ. replace (2 ^ 40) with (IZR (2 ^ 40)) by (cbn; lra). apply IZR_le. exact Lnp. }
  pose proof (gamma_le np ltac:(lra)) as Hg. pose proof (gamma_pos np) as Pg.
  assert (BT : Rabs T <= N * W) by (apply Rle_trans with (2 := BA); apply rsum_Rabs).
  assert (Ht1 : tiny <= eps64).
  { replace eps64 with (bpow radix2 (-53)).
    - apply bpow_le. lia.
    - unfold eps64. change (bpow radix2 (-53)) with (/ IZR (Z.pow_pos 2 53)). change (Z.pow_pos 2 53) with 9007199254740992%Z. lra. }
  pose proof tiny_pos as Pt.
  replace (V0 + 2 * u + 1) with (W / 2 + 3 / 4) by (unfold W; lra).
  apply (volumes_arith _ (INR np) N W (gamma64 np) eps64 tiny T (B2R S) (B2R Q) (B2R H)); auto; lra.
Qed.

(* ------------------------------------------------------------------ *)
(** ** The mean fractions of the canonical ensemble *)

(** the volumes that enter the step, without the dead compartments *)
Definition entering (m : nat) : R := ind m * B2R (x_Js k m).

Lemma entering_Js m : (m < np)%nat -> fin (masks m) -> (alive m = true -> fin (x_Js k m)) ->
  (alive m = true -> fin (Js m)) /\ B2R (Js m) = entering m.
Proof.
  intros L F FJ. unfold entering, ind. rewrite (vl_Js_eq _ _ _ _ _ _ V m).
  destruct (alive_cases m F) as [[A E]|[A [s E]]]; rewrite A, E.
  - split; [intros _; apply mul_one_fin; auto|]. rewrite mul_one by auto. ring.
  - split; [discriminate|]. rewrite mul_zero. ring.
Qed.

Lemma canonical_bound p i : (Z.of_nat np <= 2 ^ 40)%Z ->
  z_ensemble q = Canonical64 p -> (i < nc)%nat -> fin (p i) ->
  (B2R (p i) = 0 \/ bpow radix2 (-200) <= B2R (p i) <= bpow radix2 100) ->
  fin (z_thr q) -> bpow radix2 (-100) <= B2R (z_thr q) ->
  (forall m, (m < np)%nat -> fin (x_Js k m) /\ B2R (x_Js k m) <= bpow radix2 100) ->
  (forall m, (m < np)%nat -> fin (boltz64 pf q (x_omegas k) i m) /\
     bpow radix2 (-300) <= B2R (boltz64 pf q (x_omegas k) i m) <= bpow radix2 300) ->
  Rabs (rsum np (fun m => B2R (phis i m) * entering m) - B2R (p i) * rsum np entering)
    <= (INR np + 2) * (4 * eps64) * (B2R (p i) * rsum np entering).
Proof.
  intros Lnp He Li Fp Hp Ft Ht HJ Hb.
  assert (FM : forall m, (m < np)%nat -> fin (masks m)).
  { intros m L. rewrite (vl_masks_eq _ _ _ _ _ _ V m). destruct (HJ m L) as [FJ _].
    destruct (C60_masks _ _ Ft FJ) as (H1 & H2 & _). destruct (Rle_or_lt (B2R (x_Js k m)) (B2R (z_thr q))) as [C|C].
    - destruct (H2 C) as [s ->]. reflexivity.
    - rewrite (H1 C). reflexivity. }
  set (b := fun m => boltz64 pf q (x_omegas k) i m) in *.
  set (J := entering). set (mu := B2R (p i)) in *.
  assert (J_ok : forall m, (m < np)%nat -> fin (Js m) /\ B2R (Js m) = J m /\
    (alive m = true -> bpow radix2 (-100) <= J m <= bpow radix2 100) /\ (alive m = false -> J m = 0)).
  { intros m L. destruct (HJ m L) as [FJ UJ].
    destruct (entering_Js m L (FM m L) (fun _ => FJ)) as [F1 E1].
    split; [|split; [exact E1|]].
    - rewrite (vl_Js_eq _ _ _ _ _ _ V m). destruct (alive_cases m (FM m L)) as [[_ ->]|[_ [s ->]]].
      + apply mul_one_fin. exact FJ.
      + destruct (x_Js k m); try discriminate FJ; reflexivity.
    - unfold J, entering, ind. destruct (alive_cases m (FM m L)) as [[A E]|[A _]]; rewrite A; [|split; [discriminate|intros; ring]].
      split; [intros _|discriminate]. rewrite Rmult_1_l. split; [|exact UJ].
      rewrite (vl_masks_eq _ _ _ _ _ _ V m) in E. destruct (mask_one _ _ Ft E) as [E'|[_ H]]; [rewrite E' in FJ; discriminate FJ|lra]. }
  assert (J_pos : forall m, (m < np)%nat -> 0 <= J m <= bpow radix2 100).
  { intros m L. destruct (J_ok m L) as (_ & _ & A & D). pose proof (bpow_gt_0 radix2 (-100)). pose proof (bpow_gt_0 radix2 100).
    destruct (alive m); [specialize (A eq_refl); lra|rewrite D by reflexivity; lra]. }
  assert (small : forall a : nat, (a <= 2 * np + 4)%nat -> INR a * eps64 <= / 2).
  { intros a La. pose proof eps_pos. apply Rle_trans with (2 ^ 42 * eps64); [|unfold eps64; lra].
    apply Rmult_le_compat_r; [lra|]. rewrite INR_IZR_INZ. replace (2 ^ 42) with (IZR (2 ^ 42)) by (cbn; lra). apply IZR_le. lia. }
  assert (b_pos : forall m, (m < np)%nat -> 0 < B2R (b m)).
  { intros m L. pose proof (bpow_gt_0 radix2 (-300)). destruct (Hb m L) as [_ Hbm]. lra. }
  (* numerator *)
  assert (prod : forall m, (m < np)%nat -> fin (mul64 (b m) (Js m)) /\
    within 1 (B2R (mul64 (b m) (Js m))) (B2R (b m) * J m) /\ 0 <= B2R (mul64 (b m) (Js m)) <= bpow radix2 401).
  { intros m L. destruct (J_ok m L) as (FJ & EJ & A & D). destruct (Hb m L) as [Fb Bb].
    pose proof (b_pos m L) as Pb. pose proof (J_pos m L) as PJ.
    assert (R : B2R (b m) * J m = 0 \/ bpow radix2 (-400) <= B2R (b m) * J m <= bpow radix2 400).
    { destruct (alive m).
      - right. exact (range_mul _ _ (-300) 300 (-100) 100 Bb (A eq_refl)).
      - left. rewrite D by reflexivity. ring. }
    destruct (mul_within (b m) (Js m) Fb FJ) as [F W]; try rewrite EJ; try lra.
    { destruct R as [R|R]; [left; exact R|right; refine (range_weaken _ _ _ _ _ _ _ R); lia]. }
    rewrite EJ in W. split; [exact F|split; [exact W|]]. split; [apply W|].
    destruct R as [R|R].
    - destruct (within_two _ _ _ W (small 1%nat ltac:(lia))) as [_ U]. rewrite R in U.
      pose proof (bpow_gt_0 radix2 401). lra.
    - apply (range_within _ _ _ _ _ W (small 1%nat ltac:(lia)) R). }
  destruct (sum_within np (fun m => mul64 (b m) (Js m)) 401 ltac:(lia) ltac:(lia)) as [Fnum Wnum].
  { intros m L. destruct (prod m L) as (F & _ & B). split; assumption. }
  destruct (sum_within np Js 100 ltac:(lia) ltac:(lia)) as [Fden Wden].
  { intros m L. destruct (J_ok m L) as (F & E & _). split; [exact F|]. rewrite E. apply J_pos. exact L. }
  set (num := sum64 np (fun m => mul64 (b m) (Js m))) in *. set (den := sum64 np Js) in *.
  rewrite (rsum_ext np (fun i => B2R (Js i)) J) in Wden by (intros m L; apply (J_ok m L)).
  set (B := rsum np (fun m => B2R (b m) * J m)). set (T := rsum np J) in *.
  assert (Wnum' : within (np + 1) (B2R num) B).
  { apply (within_trans np 1 _ _ _ Wnum). apply within_rsum. intros m L. apply (prod m L). }
  assert (PT : 0 < T).
  { pose proof (count_alive ltac:(lia) FM) as En.
    assert (Pc : (0 < ncount np alive)%nat) by (pose proof (vl_n_pos _ _ _ _ _ _ V); lia).
    apply ncount_pos in Pc. destruct Pc as (m & L & A). apply rsum_pos.
    - intros j Lj. apply J_pos. exact Lj.
    - exists m. split; [exact L|]. destruct (J_ok m L) as (_ & _ & H & _). specialize (H A).
      pose proof (bpow_gt_0 radix2 (-100)). lra. }
  assert (RB : bpow radix2 (-300) <= B / T <= bpow radix2 300).
  { assert (BB : bpow radix2 (-300) * T <= B <= bpow radix2 300 * T).
    { unfold B, T. rewrite <- !rsum_scal_l. split; apply rsum_le; intros m L; (apply Rmult_le_compat_r; [apply J_pos; exact L|]);
        apply (Hb m L). }
    split; apply Rmult_le_reg_r with T; auto; unfold Rdiv; rewrite Rmult_assoc, Rinv_l, Rmult_1_r by lra; apply BB. }
  pose proof (within_pos _ _ _ Wden PT) as Pden.
  assert (Wr : within (2 * np + 1) (B2R num / B2R den) (B / T)).
  { apply (within_mono (np + 1 + np)); [lia|]. apply within_mul; [exact Wnum'|]. apply within_inv; assumption. }
  pose proof (range_within _ _ _ _ _ Wr (small (2 * np + 1)%nat ltac:(lia)) RB) as Rr.
  assert (Fn' : fin num) by exact Fnum.
  destruct (div_within num den Fn' ltac:(apply Wnum') Pden) as [FQ WQ].
  { right. refine (range_weaken _ _ _ _ _ _ _ Rr); lia. }
  set (Q := div64 num den) in *.
  assert (WQ' : within (2 * np + 2) (B2R Q) (B / T)).
  { apply (within_mono (1 + (2 * np + 1))); [lia|]. exact (within_trans _ _ _ _ _ WQ Wr). }
  pose proof (range_within _ _ _ _ _ WQ' (small (2 * np + 2)%nat ltac:(lia)) RB) as RQ.
  assert (PQ : 0 < B2R Q) by (pose proof (bpow_gt_0 radix2 (-300 - 1)); lra).
  assert (PB : 0 < B / T) by (pose proof (bpow_gt_0 radix2 (-300)); lra).
  (* prefactor *)
  pose proof (vl_f_eq _ _ _ _ _ _ V i Li) as Ef. rewrite He in Ef. cbn [prefactor64] in Ef.
  rewrite (vl_Qs_eq _ _ _ _ _ _ V) in Ef.
  change (div64 _ _) with Q in Ef at 1. unfold sdiv64 in Ef.
  destruct (eq0_64 Q) eqn:ZQ; [discriminate|]. injection Ef as Ef.
  assert (Pmu : 0 <= mu) by (pose proof (bpow_gt_0 radix2 (-200)); destruct Hp; lra).
  assert (Rf : mu = 0 \/ bpow radix2 (-501) <= mu / B2R Q <= bpow radix2 401).
  { destruct Hp as [Hp|Hp]; [left; exact Hp|right]. exact (range_mul _ _ (-200) 100 (-301) 301 Hp (range_inv _ _ _ RQ)). }
  destruct (div_within (p i) Q Fp Pmu PQ) as [Ff Wf].
  { destruct Rf as [Rf|Rf]; [left; exact Rf|right; refine (range_weaken _ _ _ _ _ _ _ Rf); lia]. }
  fold mu in Wf. rewrite Ef in Ff, Wf. set (f := vl_f _ _ _ _ _ _ V i) in *.
  assert (Wf' : within (2 * np + 3) (B2R f) (mu / (B / T))).
  { apply (within_mono (1 + (0 + (2 * np + 2)))); [lia|]. apply (within_trans _ _ _ _ _ Wf).
    apply within_mul; [apply within_refl; exact Pmu|]. apply within_inv; assumption. }
  assert (Rf' : B2R f = 0 \/ bpow radix2 (-502) <= B2R f <= bpow radix2 402).
  { destruct Rf as [Rf|Rf].
    - left. destruct Wf as (P1 & _ & _ & H2). rewrite Rf in H2. unfold Rdiv in H2. rewrite Rmult_0_l in H2.
      pose proof (pow_base 1). set (z := (1 - eps64) ^ 1) in *. nra.
    - right. exact (range_within _ _ _ _ _ Wf (small 1%nat ltac:(lia)) Rf). }
  assert (Pf : 0 <= B2R f) by apply Wf.
  (* fractions *)
  assert (Wphi : forall m, (m < np)%nat -> within (2 * np + 4) (B2R (phis i m) * J m) (mu / (B / T) * (B2R (b m) * J m))).
  { intros m L. destruct (J_ok m L) as (_ & _ & A & D). destruct (Hb m L) as [Fb Bb]. pose proof (b_pos m L) as Pb.
    destruct (alive_cases m (FM m L)) as [[Am Em]|[Am _]].
    2:{ rewrite D by exact Am. rewrite !Rmult_0_r. apply within_zero. }
    rewrite (vl_phis_eq _ _ _ _ _ _ V i m), Em. fold f. change (boltz64 pf q (x_omegas k) i m) with (b m).
    destruct (mul_within f (b m) Ff Fb Pf ltac:(lra)) as [Fm Wm].
    { destruct Rf' as [Rf'|Rf']; [left; rewrite Rf'; ring|right].
      refine (range_weaken _ _ _ _ _ _ _ (range_mul _ _ (-502) 402 (-300) 300 Rf' Bb)); lia. }
    rewrite mul_one by exact Fm.
    replace (mu / (B / T) * (B2R (b m) * J m)) with (mu / (B / T) * B2R (b m) * J m) by ring.
    apply (within_mono (2 * np + 4 + 0)); [lia|]. apply within_mul; [|apply within_refl, J_pos; exact L].
    apply (within_mono (1 + (2 * np + 3 + 0))); [lia|]. apply (within_trans _ _ _ _ _ Wm).
    apply within_mul; [exact Wf'|apply within_refl; lra]. }
  assert (WS : within (2 * np + 4) (rsum np (fun m => B2R (phis i m) * J m)) (mu * T)).
  { replace (mu * T) with (rsum np (fun m => mu / (B / T) * (B2R (b m) * J m))).
    - apply within_rsum. exact Wphi.
    - rewrite rsum_scal_l. fold B. field. split; [lra|]. intros E. rewrite E in PB. unfold Rdiv in PB. lra. }
  pose proof (within_dist _ _ _ WS (small (2 * np + 4)%nat ltac:(lia))) as Hd.
  replace ((INR np + 2) * (4 * eps64)) with (2 * (INR (2 * np + 4) * eps64)).
  - exact Hd.
  - rewrite plus_INR, mult_INR. cbn [INR]. ring.
Qed.

(** the flag of a safe metastep: exactly the compartments that were alive still are *)
Lemma safe_alive : (Z.of_nat np <= 2 ^ 53)%Z -> nonneg64 (z_thr q) -> (forall m, (m < np)%nat -> fin (masks m)) ->
  n = Z.of_nat (count_valid64 np (x_Js k') (z_thr q)) ->
  count_valid64 np (x_Js k') (z_thr q) = ncount np alive /\
  forall m, (m < np)%nat -> lt64 (z_thr q) (x_Js k' m) = alive m.
Proof.
  intros L53 Ht FM En. rewrite (count_alive L53 FM) in En. apply Nat2Z.inj in En. split; [auto|].
  apply ncount_same; [|symmetry; exact En]. intros m L Hl.
  destruct (alive_cases m (FM m L)) as [[A _]|[_ [s E]]]; [exact A|]. exfalso.
  rewrite (vl_Js' _ _ _ _ _ _ V), E in Hl. revert Hl.
  assert (K : forall b, lt64 (z_thr q) (B754_zero b) = false).
  { intros b. rewrite <- Ht. destruct (z_thr q) as [t|t| |t ? ? ?]; reflexivity. }
  match goal with |- lt64 _ (mul64 ?x _) = true -> _ => destruct x as [a|a| |a ma ea B] end;
    cbn; try (rewrite lt_nan_r; discriminate); rewrite K; discriminate.
Qed.
(** a compartment that was dead is dead *)
Lemma dead_stays m : nonneg64 (z_thr q) -> fin (masks m) -> alive m = false -> fin (x_Js k' m) ->
  dead64 (z_thr q) (x_Js k' m) = true /\ B2R (x_Js k' m) = 0.
Proof.
  intros Ht F A FJ. destruct (alive_cases m F) as [[A' _]|[_ [s E]]]; [congruence|].
  assert (NT : z_thr q <> NaN).
  { intros N. rewrite (vl_masks_eq _ _ _ _ _ _ V m), N in F. destruct (x_Js k m); discriminate F. }
  rewrite (vl_Js' _ _ _ _ _ _ V), E in FJ |- *. split; [|apply mul_zero].
  match goal with |- dead64 _ (mul64 ?x _) = true => destruct x as [a|a| |a ma ea B] end; try discriminate FJ;
    cbn; unfold nonneg64 in Ht; destruct (z_thr q) as [t|t| |t ? ? ?]; try congruence; try reflexivity;
    destruct t; try discriminate Ht; reflexivity.
Qed.
End Step.

(* ------------------------------------------------------------------ *)
(** * C85 *)

Section Runs.
Context {G St : Type} (pf : platform64 G) (q : kernel64).
Local Notation np := (z_np q).
Local Notation nf := (z_nf q).
Local Notation nc := (z_nc q).

Lemma run64_inv tol inner tr left (k : state64 G St) o J phis :
  run64 pf q tol inner tr left k = Ok (o, J, phis) ->
  exists k1 n g', iterate64 pf q k1 = Ok (oc_k o, n, oc_rep o) /\
    oc_safe o = Z.eqb n (Z.of_nat (count_valid64 np (x_Js (oc_k o)) (z_thr q))) /\
    revive_copy64 pf np (x_Js (oc_k o)) (x_comp (oc_k o)) (z_thr q) (x_g (oc_k o)) = Ok (J, phis, g').
Proof.
  intros H. destruct (run64_last pf q _ _ _ _ _ _ _ _ H) as [(k1 & n & I & E) _].
  unfold run64 in H. destruct (loop64 pf q tol inner tr k left None) as [o'|]; [|discriminate]. cbn [bind] in H.
  destruct (revive_copy64 _ _ _ _ _ _) as [[[J' phis'] g']|] eqn:C; [|discriminate]. cbn [bind] in H.
  injection H as <- <- <-. exists k1, n, g'. auto.
Qed.

(** Incompressibility.  In every returned phase the fractions add up to one within
    the reported error, plus the rounding error of the sum. *)
Theorem C85_incompressible tol inner tr left (k : state64 G St) o J phis :
  nonneg64 (z_thr q) ->
  run64 pf q tol inner tr left k = Ok (o, J, phis) ->
  is_finite (r6_incomp (oc_rep o)) = true ->
  (forall m, (m < np)%nat -> is_finite (x_Js (oc_k o) m) = true) ->
  forall m, (m < np)%nat ->
  Rabs (rsum nc (fun i => B2R (phis i m)) - 1)
    <= B2R (r6_incomp (oc_rep o)) + ((1 + / 2 ^ 53) ^ nc - 1) * (1 + rsum nc (fun i => Rabs (B2R (phis i m)))).
Proof.
  intros Ht H F FJ m L. apply run64_inv in H. destruct H as (k1 & n & g' & I & _ & C).
  pose proof (iterate64_inv pf _ _ _ _ _ I) as V.
  destruct (revive_copy_spec pf np (z_thr q) Ht _ _ _ _ _ _ C) as [Cc _].
  destruct (Cc m L) as (m' & [L' A] & E).
  pose proof (proj1 (fin_incomp pf _ _ _ _ _ V F m' L')) as Fm.
  assert (M : vl_masks _ _ _ _ _ _ V m' = one64).
  { destruct (alive_cases _ _ _ _ _ _ V m' Fm) as [[_ M]|[D _]]; [exact M|].
    destruct (dead_stays _ _ _ _ _ _ V m' Ht Fm D (FJ m' L')) as [D' _]. congruence. }
  pose proof (incomp_bound _ _ _ _ _ _ V m' F L' M) as B.
  rewrite <- (vl_comp' _ _ _ _ _ _ V) in B.
  rewrite (rsum_ext nc (fun i => B2R (phis i m)) (fun i => B2R (x_comp (oc_k o) i m'))) by (intros; rewrite E; reflexivity).
  rewrite (rsum_ext nc (fun i => Rabs (B2R (phis i m))) (fun i => Rabs (B2R (x_comp (oc_k o) i m')))) by (intros; rewrite E; reflexivity).
  exact B.
Qed.

(** With an [exp] that is never negative and non-negative means or activities all
    fractions are non-negative, and the rounding errors are at most [nc * 2^-50]. *)
Theorem C85_fractions tol inner tr left (k : state64 G St) o J phis :
  nonneg64 (z_thr q) -> is_finite (z_thr q) = true -> (Z.of_nat nc <= 2 ^ 20)%Z ->
  (forall x, nonneg64 (pf_exp pf x)) ->
  (forall i, (i < nc)%nat ->
     match z_ensemble q with Canonical64 p => nonneg64 (p i) | GrandCanonical64 a => nonneg64 (a i) end) ->
  run64 pf q tol inner tr left k = Ok (o, J, phis) ->
  is_finite (r6_incomp (oc_rep o)) = true -> B2R (r6_incomp (oc_rep o)) <= 1 ->
  (forall m, (m < np)%nat -> is_finite (x_Js (oc_k o) m) = true) ->
  forall m, (m < np)%nat ->
  (forall i, (i < nc)%nat -> 0 <= B2R (phis i m)) /\
  Rabs (rsum nc (fun i => B2R (phis i m)) - 1) <= B2R (r6_incomp (oc_rep o)) + INR nc / 2 ^ 50.
Proof.
  intros Ht Ft Lc Hexp He H F Fe FJ m L.
  pose proof (C85_incompressible _ _ _ _ _ _ _ _ Ht H F FJ m L) as B.
  assert (P : forall i, (i < nc)%nat -> 0 <= B2R (phis i m)).
  { intros i Li. apply run64_inv in H. destruct H as (k1 & n & g' & I & _ & C).
    pose proof (iterate64_inv pf _ _ _ _ _ I) as V.
    destruct (revive_copy_spec pf np (z_thr q) Ht _ _ _ _ _ _ C) as [Cc _].
    destruct (Cc m L) as (m' & [L' _] & E). rewrite E, (vl_comp' _ _ _ _ _ _ V).
    destruct (fin_incomp pf _ _ _ _ _ V F m' L') as [_ Fp]. apply nonneg_B2R; [apply Fp; exact Li|].
    refine (phis_nonneg _ _ _ _ _ _ V i m' Hexp Ft Ht (He i Li) _ Li L'). intros m'' L''. exact (proj1 (fin_incomp pf _ _ _ _ _ V F m'' L'')). }
  split; [exact P|].
  rewrite (rsum_ext nc (fun i => Rabs (B2R (phis i m))) (fun i => B2R (phis i m))) in B
    by (intros; apply Rabs_pos_eq; auto).
  fold eps64 in B. fold (gamma64 nc) in B.
  pose proof (rsum_nonneg nc (fun i => B2R (phis i m)) P) as PS. set (S := rsum nc _) in *.
  pose proof eps_pos as Pe. pose proof (pos_INR nc) as Pn.
  assert (Hn : INR nc * eps64 <= / 1024).
  { apply Rle_trans with (2 ^ 20 * eps64); [|unfold eps64; lra]. apply Rmult_le_compat_r; [lra|].
    rewrite INR_IZR_INZ. replace (2 ^ 20) with (IZR (2 ^ 20)) by (cbn; lra). apply IZR_le. exact Lc. }
  pose proof (gamma_le nc ltac:(lra)) as Hg. pose proof (gamma_pos nc) as Pg. set (g := gamma64 nc) in *.
  replace (INR nc / 2 ^ 50) with (8 * (INR nc * eps64)) by (unfold eps64; field).
  assert (S <= 3).
  { apply Rabs_le_inv in B. assert (g * S <= / 512 * S) by (apply Rmult_le_compat_r; lra). lra. }
  assert (g * (1 + S) <= g * 4) by (apply Rmult_le_compat_l; lra). lra.
Qed.

(** Volumes.  After every step the volumes add up to the number of compartments
    that were alive in it, up to rounding; [V0] bounds the volumes that entered. *)
Theorem C85_volumes_step (k k' : state64 G St) n rep V0 :
  (Z.of_nat np <= 2 ^ 40)%Z ->
  is_finite (z_thr q) = true -> nonneg64 (z_thr q) ->
  is_finite (z_ub q) = true -> 0 < B2R (z_ub q) ->
  is_finite (z_acc_J q) = true -> 0 < B2R (z_acc_J q) ->
  iterate64 pf q k = Ok (k', n, rep) ->
  is_finite (r6_Js rep) = true ->
  (forall m, (m < np)%nat -> is_finite (x_Js k' m) = true) ->
  (forall m, (m < np)%nat -> B2R (x_Js k m) <= V0) ->
  let N := INR (count_valid64 np (x_Js k) (z_thr q)) in
  Rabs (rsum np (fun m => B2R (x_Js k' m)) - N)
    <= N * ((INR np + 4) * (V0 + 2 * B2R (z_ub q) + 1)) / 2 ^ 51.
Proof.
  intros Lnp Ft Ht Fu Pu Fa Pa I FD FJ HV N. unfold N.
  pose proof (iterate64_inv pf _ _ _ _ _ I) as V.
  pose proof (volumes_bound _ _ _ _ _ _ V V0 Lnp FD Fu Pu Fa Pa Ft Ht (fun m L _ => HV m L) FJ) as B.
  assert (Ec : count_valid64 np (x_Js k) (z_thr q) = ncount np (alive _ _ _ _ _ _ V)).
  { apply ncount_ext. intros m L. unfold alive. rewrite (vl_masks_eq _ _ _ _ _ _ V m).
    destruct (fin_Js pf _ _ _ _ _ V FD m L) as [FJm _].
    destruct (C60_masks _ _ Ft FJm) as (H1 & H2 & H3 & _).
    destruct (lt64 (z_thr q) (x_Js k m)) eqn:E.
    - rewrite H1 by (apply H3; reflexivity). reflexivity.
    - destruct H2 as [s ->]; [|reflexivity]. apply Rnot_lt_le. intros A. apply H3 in A. discriminate. }
  rewrite Ec. set (c := INR (ncount np _)) in *. set (W := V0 + _ + 1) in *.
  replace (c * ((INR np + 4) * W) / 2 ^ 51) with (c * ((INR np + 4) * W * (4 * eps64))) by (unfold eps64; field).
  exact B.
Qed.

(** Volumes.  When the last metastep was safe the returned volumes add up to the
    number of living compartments, up to rounding: [V0] bounds the volumes that
    entered the last step.  Filling the dead compartments does not change the sum
    at all. *)
Theorem C85_volumes tol inner tr left (k : state64 G St) o J phis :
  (Z.of_nat np <= 2 ^ 40)%Z ->
  is_finite (z_thr q) = true -> bpow radix2 (-1022) <= B2R (z_thr q) ->
  is_finite (z_ub q) = true -> 0 < B2R (z_ub q) ->
  is_finite (z_acc_J q) = true -> 0 < B2R (z_acc_J q) ->
  run64 pf q tol inner tr left k = Ok (o, J, phis) ->
  oc_safe o = true ->
  is_finite (r6_Js (oc_rep o)) = true ->
  (forall m, (m < np)%nat -> is_finite (x_Js (oc_k o) m) = true) ->
  rsum np (fun m => B2R (J m)) = rsum np (fun m => B2R (x_Js (oc_k o) m)) /\
  exists (k1 : state64 G St) n, iterate64 pf q k1 = Ok (oc_k o, n, oc_rep o) /\
    forall V0, (forall m, (m < np)%nat -> B2R (x_Js k1 m) <= V0) ->
    let N := INR (count_valid64 np (x_Js (oc_k o)) (z_thr q)) in
    Rabs (rsum np (fun m => B2R (J m)) - N)
      <= N * ((INR np + 4) * (V0 + 2 * B2R (z_ub q) + 1)) / 2 ^ 51.
Proof.
  intros Lnp Ft Lt Fu Pu Fa Pa H Hs FD FJ.
  assert (Ht : nonneg64 (z_thr q)).
  { unfold nonneg64, lt64. rewrite (Bltb_correct _ _ _ _ Ft) by reflexivity. apply Rlt_bool_false. cbn [B2R zero64].
    pose proof (bpow_ge_0 radix2 (-1022)). lra. }
  apply run64_inv in H. destruct H as (k1 & n & g' & I & Es & C).
  pose proof (iterate64_inv pf _ _ _ _ _ I) as V.
  rewrite Hs in Es. symmetry in Es. apply Z.eqb_eq in Es.
  assert (FM : forall m, (m < np)%nat -> fin (vl_masks _ _ _ _ _ _ V m)) by (intros m L; apply (fin_Js pf _ _ _ _ _ V FD m L)).
  destruct (safe_alive _ _ _ _ _ _ V ltac:(lia) Ht FM Es) as [Ec Ea].
  destruct (revive_copy_spec pf np (z_thr q) Ht _ _ _ _ _ _ C) as [_ Cv].
  destruct (Cv Ft Lt FJ) as [_ Ev].
  { intros m L D. destruct (alive _ _ _ _ _ _ V m) eqn:A.
    - rewrite <- Ea in A by exact L. exfalso. destruct (C60_masks _ _ Ft (FJ m L)) as (_ & _ & H1 & H2).
      apply H1 in A. apply H2 in D. lra.
    - apply (dead_stays _ _ _ _ _ _ V m Ht (FM m L) A (FJ m L)). }
  split; [exact Ev|]. exists k1, n. split; [exact I|]. intros V0 HV N. unfold N. rewrite Ec, Ev.
  pose proof (volumes_bound _ _ _ _ _ _ V V0 Lnp FD Fu Pu Fa Pa Ft Ht (fun m L _ => HV m L) FJ) as B.
  set (c := INR (ncount np _)) in *. set (W := V0 + _ + 1) in *.
  replace (c * ((INR np + 4) * W) / 2 ^ 51) with (c * ((INR np + 4) * W * (4 * eps64))) by (unfold eps64; field).
  exact B.
Qed.

(** Conservation.  In the canonical ensemble the fractions computed in a step,
    averaged with the volumes that entered it (dead compartments do not count),
    agree with the prescribed means up to a relative error of [(np + 2) * 2^-51],
    if Boltzmann factors, volumes and means are within wide ranges. *)
Theorem C85_canonical_step (k k' : state64 G St) n rep p i :
  (Z.of_nat np <= 2 ^ 40)%Z ->
  is_finite (z_thr q) = true -> bpow radix2 (-100) <= B2R (z_thr q) ->
  z_ensemble q = Canonical64 p -> (i < nc)%nat -> is_finite (p i) = true ->
  (B2R (p i) = 0 \/ bpow radix2 (-200) <= B2R (p i) <= bpow radix2 100) ->
  iterate64 pf q k = Ok (k', n, rep) ->
  (forall m, (m < np)%nat -> is_finite (x_Js k m) = true /\ B2R (x_Js k m) <= bpow radix2 100) ->
  (forall m, (m < np)%nat ->
     let b := pf_exp pf (mul64 (opp64 (x_omegas k (z_rho q i) m)) (z_sizes q i)) in
     is_finite b = true /\ bpow radix2 (-300) <= B2R b <= bpow radix2 300) ->
  let vol m := if lt64 (z_thr q) (x_Js k m) then B2R (x_Js k m) else 0 in
  Rabs (rsum np (fun m => B2R (x_comp k' i m) * vol m) - B2R (p i) * rsum np vol)
    <= (INR np + 2) / 2 ^ 51 * (B2R (p i) * rsum np vol).
Proof.
  intros Lnp Ft Lt He Li Fp Hp I HJ Hb vol.
  pose proof (iterate64_inv pf _ _ _ _ _ I) as V.
  assert (Ev : forall m, (m < np)%nat -> entering _ _ _ _ _ _ V m = vol m).
  { intros m L. destruct (HJ m L) as [FJ _]. unfold entering, ind, alive, vol.
    rewrite (vl_masks_eq _ _ _ _ _ _ V m). destruct (C60_masks _ _ Ft FJ) as (H1 & H2 & H3 & _).
    destruct (lt64 (z_thr q) (x_Js k m)) eqn:E.
    - rewrite H1 by (apply H3; reflexivity). change (eq0_64 one64) with false. cbn [negb]. ring.
    - destruct H2 as [s ->]; [|cbn [eq0_64 negb]; ring]. apply Rnot_lt_le. intros A. apply H3 in A. discriminate. }
  pose proof (canonical_bound _ _ _ _ _ _ V p i Lnp He Li Fp Hp Ft Lt HJ Hb) as B.
  rewrite (rsum_ext np (entering _ _ _ _ _ _ V) vol Ev) in B.
  rewrite (rsum_ext np _ (fun m => B2R (x_comp k' i m) * vol m)) in B.
  2:{ intros m L. rewrite (Ev m L), (vl_comp' _ _ _ _ _ _ V). reflexivity. }
  replace ((INR np + 2) / 2 ^ 51) with ((INR np + 2) * (4 * eps64)) by (unfold eps64; field). exact B.
Qed.
End Runs.
