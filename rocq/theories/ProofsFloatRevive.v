(** ProofsFloatRevive.v -- revival in binary64 arithmetic follows revival in exact
    arithmetic. *)

From Flocq Require Import Core BinarySingleNaN Mult_error.
From Coq Require Import Reals ZArith List Bool Arith Lia Lra.
From Verif Require Import Base ModelParts ModelKernel ModelFloat ModelFloatKernel ModelFloatParts PropertiesFloat
  ProofsKernel ProofsFloatKernel ProofsRounding PropertiesRounding ProofsFloatError PropertiesFloatError PropertiesFloatParts.
Import ListNotations.
Open Scope R_scope.
#[local] Instance fexp64_valid_r : Valid_exp fexp64 := fexp_correct prec64 emax64 prec64_ok.

(** the same random numbers in both arithmetics *)
Record same_draws {G} (pf : platform64 G) (ops : rng_ops G) : Prop := {
  sd_integers : forall g k, pf_integers pf g k = g_integers ops g k;
  sd_uniform : forall g, is64 (fst (pf_uniform pf g)) (fst (g_uniform ops g)) /\
                         snd (pf_uniform pf g) = snd (g_uniform ops g)
}.

(** values of arrays *)
Definition val1 (v : vec64) : vec := fun m => B2R (v m).
Definition val2 (A : mat64) : mat := fun i m => B2R (A i m).

Section Tests.
Variable thr : f64.
Hypothesis Ft : fin thr.
Hypothesis Pt : 0 <= B2R thr.

Lemma dead_test J : fin J -> dead64 thr J = Rleb (B2R J) (B2R thr).
Proof using Ft.
  intros F. unfold dead64. rewrite (Bleb_correct _ _ _ _ F Ft). unfold Rleb.
  destruct (Rle_dec _ _); [apply Rle_bool_true|apply Rle_bool_false]; lra.
Qed.
Lemma alive_test J : fin J -> lt64 thr J = Rltb (B2R thr) (B2R J).
Proof using Ft.
  intros F. unfold lt64. rewrite (Bltb_correct _ _ _ _ Ft F). unfold Rltb.
  destruct (Rlt_dec _ _); [apply Rlt_bool_true|apply Rlt_bool_false]; lra.
Qed.
(** comparing with twice the threshold is exact, even if the double overflows *)
Lemma double_test J : fin J -> lt64 (two_thr thr) J = Rltb (2 * B2R thr) (B2R J).
Proof using Ft Pt.
  intros F. unfold two_thr.
  assert (E : RN (B2R (ofZ64 2) * B2R thr) = 2 * B2R thr).
  { rewrite B2R_two. replace (2 * B2R thr) with (B2R thr * bpow radix2 1) by (cbn; change (Z.pow_pos 2 1) with 2%Z; lra).
    apply round_generic; [auto with typeclass_instances|].
    apply (mult_bpow_pos_exact_FLT radix2 (SpecFloat.emin prec64 emax64) prec64); [apply format64|lia]. }
  pose proof (@Bmult_correct prec64 emax64 prec64_ok prec64_lt mode_NE (ofZ64 2) thr) as C.
  cbn [round_mode] in C. fold (RN (B2R (ofZ64 2) * B2R thr)) in C. rewrite E in C.
  fold (mul64 (ofZ64 2) thr) in C. destruct (Rlt_bool_spec (Rabs (2 * B2R thr)) (bpow radix2 emax64)) as [L|L].
  - destruct C as (C1 & C2 & _). rewrite Ft in C2. unfold lt64. rewrite (Bltb_correct _ _ _ _ C2 F), C1. unfold Rltb.
    destruct (Rlt_dec _ _); [apply Rlt_bool_true|apply Rlt_bool_false]; lra.
  - pose proof (fin_below J) as B. apply Rabs_lt_inv in B. rewrite Rabs_pos_eq in L by lra.
    assert (S : Bsign thr = false).
    { destruct thr as [s|s| |s m e H]; try discriminate Ft.
      - exfalso. cbn in L. pose proof (bpow_gt_0 radix2 emax64). cbn in *. lra.
      - destruct s; [|reflexivity]. exfalso. revert Pt. cbn. unfold F2R. cbn. intros P.
        pose proof (bpow_gt_0 radix2 e). assert (IZR (Z.neg m) < 0) by (apply IZR_lt; lia). nra. }
    rewrite S in C. assert (EM : mul64 (ofZ64 2) thr = B754_infinity false) by (destruct (mul64 (ofZ64 2) thr); cbn in C; congruence).
    rewrite EM. assert (Rltb (2 * B2R thr) (B2R J) = false) as -> by (apply Rltb_false; lra).
    destruct J as [|[]| |[]]; reflexivity.
Qed.
End Tests.

(* ------------------------------------------------------------------ *)
(** * Copying *)

Section Copy.
Context {G : Type} (pf : platform64 G) (ops : rng_ops G).
Variables (np : nat) (thr : f64).
Hypothesis SD : same_draws pf ops.
Hypothesis Ft : fin thr.
Hypothesis Pt : 0 <= B2R thr.

(** halving a donor [n] times is exact *)
Definition grain (n : nat) (J : vec64) : Prop :=
  bpow radix2 (-1022) <= B2R thr \/
  forall m, (m < np)%nat -> 2 * B2R thr < B2R (J m) -> bpow radix2 (-1021 + Z.of_nat n) <= B2R (J m).
Definition finite_to (J : vec64) : Prop := forall m, (m < np)%nat -> fin (J m).

Lemma grain_half n J m : grain n J -> finite_to J -> (m < np)%nat -> 2 * B2R thr < B2R (J m) ->
  fin (mul64 half64 (J m)) /\ B2R (mul64 half64 (J m)) = 1 / 2 * B2R (J m).
Proof using Pt.
  intros Gr F L H. assert (Q : fin (mul64 half64 (J m)) /\ B2R (mul64 half64 (J m)) = B2R (J m) / 2).
  { apply half_exact; [apply F, L|]. rewrite Rabs_pos_eq by lra. destruct Gr as [T|D].
    - replace (-1021)%Z with (1 + -1022)%Z by lia. rewrite bpow_plus. change (bpow radix2 1) with 2. lra.
    - apply Rle_trans with (2 := D m L H). apply bpow_le. lia. }
  destruct Q as [Q1 Q2]. split; [exact Q1|]. rewrite Q2. lra.
Qed.

(** donors are compartments *)
Definition donors_ok (living : nat -> option nat) : Prop := forall p r, living p = Some r -> (r < np)%nat.

Lemma donors_upd living p x : donors_ok living -> (forall r, x = Some r -> (r < np)%nat) -> donors_ok (upd living p x).
Proof using. intros H Hx p' r. unfold upd. destruct (Nat.eqb p' p); [apply Hx|apply H]. Qed.

Lemma donor_sim J (Jr : vec) : finite_to J -> (forall m, Jr m = B2R (J m)) ->
  forall lc living g, donors_ok living ->
    find_donor64 pf J thr lc living g = find_donor ops Jr (B2R thr) lc living g /\
    forall r l' lc' g', find_donor64 pf J thr lc living g = Ok (r, l', lc', g') ->
      (r < np)%nat /\ 2 * B2R thr < B2R (J r) /\ donors_ok l'.
Proof using SD Ft Pt.
  intros F E. induction lc as [|lc IH]; intros living g D.
  - split; [reflexivity|discriminate].
  - cbn [find_donor64 find_donor]. rewrite (sd_integers _ _ SD). destruct (g_integers ops g (S lc)) as [pos g'].
    destruct (living pos) as [r|] eqn:EL; [|split; [reflexivity|discriminate]].
    assert (Lr : (r < np)%nat) by (apply D with (1 := EL)).
    rewrite (double_test thr Ft Pt) by (apply F, Lr). rewrite E.
    destruct (Rltb (2 * B2R thr) (B2R (J r))) eqn:T.
    + split; [reflexivity|]. intros r' l' lc' g'' H. injection H as <- <- <- <-. apply Rltb_true in T. repeat split; assumption.
    + apply IH. apply donors_upd; [|discriminate]. apply donors_upd; [exact D|]. intros x Hx. apply D with (1 := Hx).
Qed.

(** the state of the loop in both arithmetics *)
Record same_copy (n : nat) (s : @copy_state64 G) (sr : @copy_state G) : Prop := {
  sc_J : forall m, y_Js sr m = B2R (y6_Js s m);
  sc_t : forall i m, y_targets sr i m = B2R (y6_t s i m);
  sc_living : y_living sr = y6_living s;
  sc_lc : y_lc sr = y6_lc s;
  sc_g : y_g sr = y6_g s;
  sc_fin : finite_to (y6_Js s);
  sc_grain : grain n (y6_Js s);
  sc_donors : donors_ok (y6_living s)
}.

Lemma copy_one_sim n d s sr : (d < np)%nat -> same_copy (S n) s sr ->
  match copy_one64 pf np thr d s with
  | Ok s' => exists sr', copy_one ops np (B2R thr) d sr = Ok sr' /\ same_copy n s' sr' /\ y_count sr' = S (y_count sr)
  | Err e => copy_one ops np (B2R thr) d sr = Err e
  end.
Proof using SD Ft Pt.
  intros Ld [EJ Et EL Ec Eg F Gr D].
  destruct (donor_sim (y6_Js s) (y_Js sr) F EJ (y6_lc s) (y6_living s) (y6_g s) D) as [E1 E2].
  unfold copy_one64, copy_one. rewrite EL, Ec, Eg, <- E1.
  destruct (find_donor64 pf (y6_Js s) thr (y6_lc s) (y6_living s) (y6_g s)) as [[[[r l'] lc'] g']|e]; [|reflexivity].
  destruct (E2 _ _ _ _ eq_refl) as (Lr & T & D'). cbn [bind].
  destruct (negb (Nat.ltb lc' np)); [reflexivity|].
  destruct (grain_half _ _ _ Gr F Lr T) as [H1 H2].
  eexists. split; [reflexivity|]. split; [|reflexivity].
  split; cbn [y_Js y6_Js y_targets y6_t y_living y6_living y_lc y6_lc y_g y6_g]; try reflexivity.
  - intros m. rewrite EJ. unfold upd. destruct (Nat.eqb m r); [symmetry; exact H2|].
    destruct (Nat.eqb m d); [symmetry; exact H2|apply EJ].
  - intros i m. destruct (Nat.eqb m d); apply Et.
  - intros m L. unfold upd. destruct (Nat.eqb m r); [exact H1|]. destruct (Nat.eqb m d); [exact H1|apply F, L].
  - destruct Gr as [Gr|Gr]; [left; exact Gr|right].
    assert (B : bpow radix2 (-1021 + Z.of_nat n) <= 1 / 2 * B2R (y6_Js s r)).
    { specialize (Gr r Lr T). replace (-1021 + Z.of_nat (S n))%Z with (1 + (-1021 + Z.of_nat n))%Z in Gr by lia.
      rewrite bpow_plus in Gr. change (bpow radix2 1) with 2 in Gr. lra. }
    intros m L. unfold upd. destruct (Nat.eqb m r); [rewrite H2; intros _; exact B|].
    destruct (Nat.eqb m d); [rewrite H2; intros _; exact B|]. intros H.
    apply Rle_trans with (2 := Gr m L H). apply bpow_le. lia.
  - apply donors_upd; [exact D'|]. intros x Hx. injection Hx as <-. exact Ld.
Qed.

Lemma copy_all_sim : forall dead s sr, (forall d, In d dead -> (d < np)%nat) -> same_copy (length dead) s sr ->
  match copy_all64 pf np thr dead s with
  | Ok s' => exists sr', copy_all ops np (B2R thr) dead sr = Ok sr' /\ same_copy 0 s' sr' /\
      y_count sr' = (y_count sr + length dead)%nat
  | Err e => copy_all ops np (B2R thr) dead sr = Err e
  end.
Proof using SD Ft Pt.
  induction dead as [|d dead IH]; intros s sr Ld R.
  - cbn. exists sr. repeat split; try apply R. lia.
  - cbn [copy_all64 copy_all]. pose proof (copy_one_sim (length dead) d s sr (Ld d (or_introl eq_refl)) R) as H1.
    destruct (copy_one64 pf np thr d s) as [s1|e]; [|rewrite H1; reflexivity].
    destruct H1 as (sr1 & -> & R1 & C1). cbn [bind].
    specialize (IH s1 sr1 (fun x I => Ld x (or_intror I)) R1).
    destruct (copy_all64 pf np thr dead s1) as [s2|e]; [|exact IH].
    destruct IH as (sr2 & E2 & R2 & C2). exists sr2. split; [exact E2|]. split; [exact R2|]. rewrite C2, C1. cbn [length]. lia.
Qed.

Lemma classify_sim J : finite_to J ->
  classify64 np J thr = classify np (val1 J) (B2R thr) /\
  let '(l, c, d) := classify64 np J thr in donors_ok l /\ (forall x, In x d -> (x < np)%nat) /\ (length d <= np)%nat.
Proof using Ft Pt.
  unfold classify64, classify, donors_ok, finite_to. revert J. induction np as [|n IH]; intros J F.
  - cbn. repeat split; try lia; try discriminate.
  - cbn [for_]. destruct (IH J ltac:(intros; apply F; lia)) as [E1 E2]. rewrite <- E1.
    destruct (for_ n _ _) as [[l c] d]. destruct E2 as (D1 & D2 & D3).
    rewrite (double_test thr Ft Pt), (dead_test thr Ft) by (apply F; lia). fold (val1 J n).
    split; [reflexivity|]. destruct (Rltb _ _); [|destruct (Rleb _ _)].
    + repeat split; [|intros x I; apply D2 in I; lia|lia]. intros p r. unfold upd.
      destruct (Nat.eqb p c); [intros H; injection H as <-; lia|intros H; apply D1 in H; lia].
    + repeat split; [intros p r H; apply D1 in H; lia| |rewrite app_length; cbn; lia].
      intros x I. apply in_app_iff in I. destruct I as [I|[<-|[]]]; [apply D2 in I; lia|lia].
    + repeat split; [intros p r H; apply D1 in H; lia|intros x I; apply D2 in I; lia|lia].
Qed.

Lemma copy_sim J t g : finite_to J -> grain np J ->
  match revive_copy64 pf np J t thr g with
  | Ok (J', t', g') => finite_to J' /\
      exists n Jr tr, revive_by_copy ops np (val1 J) (val2 t) (B2R thr) g = Ok (n, Jr, tr, g') /\
        (forall m, Jr m = B2R (J' m)) /\ (forall i m, tr i m = B2R (t' i m))
  | Err e => revive_by_copy ops np (val1 J) (val2 t) (B2R thr) g = Err e
  end.
Proof using SD Ft Pt.
  intros F Gr. unfold revive_copy64, revive_by_copy. destruct (classify_sim J F) as [E C]. rewrite <- E. clear E.
  destruct (classify64 np J thr) as [[l c] d]. destruct C as (C1 & C2 & C3).
  pose proof (copy_all_sim d {| y6_Js := J; y6_t := t; y6_living := l; y6_lc := c; y6_g := g |}
    {| y_Js := val1 J; y_targets := val2 t; y_living := l; y_lc := c; y_g := g; y_count := O |} C2) as H.
  assert (R : same_copy (length d) {| y6_Js := J; y6_t := t; y6_living := l; y6_lc := c; y6_g := g |}
    {| y_Js := val1 J; y_targets := val2 t; y_living := l; y_lc := c; y_g := g; y_count := O |}).
  { split; try reflexivity; try assumption.
    - destruct Gr as [Gr|Gr]; [left; exact Gr|right]. intros m L T. apply Rle_trans with (2 := Gr m L T). apply bpow_le. lia. }
  specialize (H R). destruct (copy_all64 _ _ _ _ _) as [s|e]; [|rewrite H; reflexivity].
  destruct H as (sr & -> & R' & Ec). cbn [bind]. split; [apply R'|].
  exists (y_count sr), (y_Js sr), (y_targets sr). split; [rewrite (sc_g _ _ _ R'); reflexivity|].
  split; apply R'.
Qed.
End Copy.

(* ------------------------------------------------------------------ *)
(** * Drawing *)

Lemma amin_B2R x y : fin x -> fin y ->
  (if isnan64 x then x else if isnan64 y then y else if lt64 y x then y else x) = (if lt64 y x then y else x).
Proof.
  intros F1 F2. unfold isnan64. replace (is_nan x) with false by (destruct x; try discriminate F1; reflexivity).
  replace (is_nan y) with false by (destruct y; try discriminate F2; reflexivity). reflexivity.
Qed.
Lemma amin_exact n (v : vec64) : (1 <= n)%nat -> (forall i, (i < n)%nat -> fin (v i)) ->
  is64 (amin64 n v) (vmin n (val1 v)).
Proof.
  intros Ln H. destruct n as [|n]; [lia|]. clear Ln. unfold amin64. replace (S n - 1)%nat with n by lia.
  induction n as [|n IH].
  - split; [apply H; lia|reflexivity].
  - cbn [for_]. destruct (IH ltac:(intros; apply H; lia)) as [F E].
    rewrite amin_B2R by (first [exact F|apply H; lia]). rewrite vmin_S, <- E. clear IH E. revert F.
    generalize (for_ n (fun i acc => if isnan64 acc then acc else if isnan64 (v (S i)) then v (S i)
      else if lt64 (v (S i)) acc then v (S i) else acc) (v O)). intros z F. unfold lt64.
    rewrite (Bltb_correct _ _ _ _ (H (S n) ltac:(lia)) F). unfold val1.
    destruct (Rlt_bool_spec (B2R (v (S n))) (B2R z)) as [L|L].
    + split; [apply H; lia|]. rewrite Rmin_right; lra.
    + split; [exact F|]. rewrite Rmin_left; lra.
Qed.
Lemma amax_exact n (v : vec64) : (1 <= n)%nat -> (forall i, (i < n)%nat -> fin (v i)) ->
  is64 (amax64 n v) (vmax n (val1 v)).
Proof.
  intros Ln H. destruct n as [|n]; [lia|]. clear Ln. unfold amax64. replace (S n - 1)%nat with n by lia.
  induction n as [|n IH].
  - split; [apply H; lia|reflexivity].
  - cbn [for_]. destruct (IH ltac:(intros; apply H; lia)) as [F E].
    rewrite amax_step by (first [exact F|apply H; lia]). rewrite vmax_S, <- E.
    apply (pymax_B2R _ _ F (H (S n) ltac:(lia))).
Qed.

Section Draw.
Context {G : Type} (pf : platform64 G) (ops : rng_ops G).
Variables (nf np : nat) (thr : f64) (J : vec64) (t : mat64) (scaler : f64) (B S : R).
Hypothesis SD : same_draws pf ops.
Hypothesis RC : rng_contract ops.
Hypothesis Ft : fin thr.
Hypothesis FJ : forall m, (m < np)%nat -> fin (J m).
Hypothesis FT : forall i m, (i < nf)%nat -> (m < np)%nat -> fin (t i m) /\ Rabs (B2R (t i m)) <= B.
Hypothesis FS : fin scaler /\ Rabs (B2R scaler) <= S.
Hypothesis HB : 1 <= B.
Hypothesis HS : 1 <= S.
Hypothesis HT : 2 * (B * S) <= B_top.

Lemma draw_scales : B <= B * S /\ B_bot <= B /\ B_bot <= / 2 /\ B_bot <= B * S.
Proof using HB HS.
  assert (B_bot <= / 2) by (change (/ 2) with (bpow radix2 (-1)); apply bpow_le; lia).
  assert (B <= B * S) by (rewrite <- (Rmult_1_r B) at 1; apply Rmult_le_compat_l; lra). lra.
Qed.

Lemma extremes i : (1 <= np)%nat -> (i < nf)%nat ->
  near B 0 (amax64 np (t i)) (vmax np (val1 (t i))) /\ near B 0 (amin64 np (t i)) (vmin np (val1 (t i))).
Proof using FT.
  intros Ln Li. destruct (vmax_in np (val1 (t i)) Ln) as (a & La & Ea). destruct (vmin_in np (val1 (t i)) Ln) as (b & Lb & Eb).
  split; apply is64_near.
  - apply amax_exact; [exact Ln|]. intros m L. apply FT; assumption.
  - rewrite Ea. apply FT; assumption.
  - apply amin_exact; [exact Ln|]. intros m L. apply FT; assumption.
  - rewrite Eb. apply FT; assumption.
Qed.

Lemma kt0 : 0 <= k_top. Proof using. unfold k_top. lra. Qed.
Lemma draw_near i u ur : (1 <= np)%nat -> (i < nf)%nat -> is64 u ur -> Rabs ur <= 1 ->
  near (B + B * S) 10 (add64 (center64 np t i) (mul64 (mul64 (width64 np t i) scaler) u))
    (target_center np (val2 t) i + target_width np (val2 t) i * B2R scaler * ur).
Proof using FT FS HB HS HT.
  intros Ln Li Hu Lu. destruct (extremes i Ln Li) as [N1 N2]. destruct draw_scales as (D1 & D2 & D3 & D4).
  change (val2 t i) with (val1 (t i)). unfold center64, width64, target_center, target_width.
  change (fun m => B2R (t i m)) with (val1 (t i)). change (val2 t i) with (val1 (t i)).
  assert (K : 10 <= k_top) by (unfold k_top; lra).
  assert (C : near B 4 (mul64 (add64 (amax64 np (t i)) (amin64 np (t i))) half64)
    ((vmax np (val1 (t i)) + vmin np (val1 (t i))) * (1 / 2))).
  { replace B with ((B + B) * / 2) by lra. replace 4 with (0 + 2 + 0 + 2) by lra.
    apply near_mul; [apply near_add; try assumption; lra|apply half_near|lra|lra|].
    replace ((B + B) * / 2) with B by lra. lra. }
  assert (W : near B 4 (mul64 (minus64 (amax64 np (t i)) (amin64 np (t i))) half64)
    ((vmax np (val1 (t i)) - vmin np (val1 (t i))) * (1 / 2))).
  { replace B with ((B + B) * / 2) by lra. replace 4 with (0 + 2 + 0 + 2) by lra.
    apply near_mul; [apply near_minus; try assumption; lra|apply half_near|lra|lra|].
    replace ((B + B) * / 2) with B by lra. lra. }
  replace 10 with (8 + 2) by lra. apply near_add; [apply near_mono with B 4; [lra|lra|exact C]| |lra|lra].
  replace (B * S) with (B * S * 1) by lra. replace 8 with (4 + 0 + 2 + 0 + 2) by lra.
  apply near_mul; [apply near_mul; [exact W|apply near_exact; apply FS|lra|lra|lra]|apply is64_near; assumption|lra|lra|lra].
Qed.

(** one column *)
Lemma redraw_sim m : (1 <= np)%nat -> forall n a ar g, (n <= nf)%nat ->
  let '(a', g') := for_ n (fun i '(t1, g) =>
     let '(u, g') := pf_uniform pf g in
     (set64 t1 i m (add64 (center64 np t i) (mul64 (mul64 (width64 np t i) scaler) u)), g')) (a, g) in
  let '(ar', gr') := for_ n (fun i '(t1, g) =>
     let '(u, g') := g_uniform ops g in
     (upd2 t1 i m (target_center np (val2 t) i + target_width np (val2 t) i * B2R scaler * u), g')) (ar, g) in
  g' = gr' /\ (forall i, (i < n)%nat -> near (B + B * S) 10 (a' i m) (ar' i m)) /\
  (forall i m', m' <> m -> a' i m' = a i m' /\ ar' i m' = ar i m').
Proof using SD RC FT FS HB HS HT.
  intros Ln. induction n as [|n IH]; intros a ar g Lf.
  - cbn. repeat split; try lia.
  - cbn [for_]. specialize (IH a ar g ltac:(lia)).
    destruct (for_ n _ (a, g)) as [a1 g1]. destruct (for_ n _ (ar, g)) as [ar1 gr1]. destruct IH as (<- & I2 & I3).
    destruct (sd_uniform _ _ SD g1) as [U1 U2]. pose proof (uniform_range _ RC g1) as U3.
    destruct (pf_uniform pf g1) as [u g2]. destruct (g_uniform ops g1) as [ur gr2]. cbn [fst snd] in *. subst gr2.
    split; [reflexivity|]. split.
    + intros i Li. unfold set64, upd2. rewrite Nat.eqb_refl, andb_true_r. destruct (Nat.eqb_spec i n) as [->|N].
      * apply draw_near; [exact Ln|lia|exact U1|apply Rabs_le; lra].
      * apply I2. lia.
    + intros i m' N. unfold set64, upd2. destruct (Nat.eqb_spec m' m) as [->|_]; [contradiction|]. rewrite andb_false_r. apply I3, N.
Qed.

Lemma random_sim g : (1 <= np)%nat ->
  let '(c, J', t', g') := revive_random64 pf nf np J t thr g scaler in
  let '(cr, Jr, tr, gr) := revive_by_random ops nf np (val1 J) (val2 t) (B2R thr) g (B2R scaler) in
  c = cr /\ g' = gr /\
  (forall m, (m < np)%nat -> is64 (J' m) (Jr m)) /\
  (forall i m, (i < nf)%nat -> (m < np)%nat -> B2R (J m) <= B2R thr -> near (B + B * S) 10 (t' i m) (tr i m)) /\
  (forall i m, (m < np)%nat -> B2R thr < B2R (J m) -> t' i m = t i m /\ tr i m = B2R (t i m)).
Proof using SD RC Ft FJ FT FS HB HS HT.
  intros Ln. unfold revive_random64, revive_by_random.
  assert (I : forall n, (n <= np)%nat ->
    let '(c, J', t', g') := for_ n (fun m '(count, J, t', g) =>
      if dead64 thr (J m) then
        let '(t'', g') := redraw64 pf nf np t scaler m (t', g) in (Datatypes.S count, upd J m one64, t'', g')
      else (count, J, t', g)) (O, J, t, g) in
    let '(cr, Jr, tr, gr) := for_ n (fun m '(count, J, t1, g) =>
      if Rleb (J m) (B2R thr) then
        let '(t', g') := redraw_column ops nf np (val2 t) (B2R scaler) m (t1, g) in (Datatypes.S count, upd J m 1, t', g')
      else (count, J, t1, g)) (O, val1 J, val2 t, g) in
    c = cr /\ g' = gr /\ (forall m, (m < np)%nat -> is64 (J' m) (Jr m)) /\
    (forall m, (n <= m)%nat -> J' m = J m) /\
    (forall i m, (i < nf)%nat -> (m < n)%nat -> B2R (J m) <= B2R thr -> near (B + B * S) 10 (t' i m) (tr i m)) /\
    (forall i m, (m < np)%nat -> (n <= m)%nat \/ B2R thr < B2R (J m) -> t' i m = t i m /\ tr i m = B2R (t i m))).
  { induction n as [|n IH]; intros L.
    - cbn. repeat split; try reflexivity; try lia. apply FJ. assumption.
    - cbn [for_]. specialize (IH ltac:(lia)).
      match goal with |- context [for_ n ?f (O, J, t, g)] => destruct (for_ n f (O, J, t, g)) as [[[c J1] t1] g1] end.
      match goal with |- context [for_ n ?f (O, val1 J, val2 t, g)] => destruct (for_ n f (O, val1 J, val2 t, g)) as [[[cr Jr] tr] gr] end.
      destruct IH as (<- & <- & I3 & I4 & I5 & I6).
      assert (EJ : J1 n = J n) by (apply I4; lia).
      destruct (I3 n ltac:(lia)) as [F3 E3]. rewrite <- E3, EJ, (dead_test thr Ft) by (apply FJ; lia).
      destruct (Rleb (B2R (J n)) (B2R thr)) eqn:T.
      + pose proof (redraw_sim n Ln nf t1 tr g1 (Nat.le_refl _)) as R. unfold redraw64, redraw_column.
        destruct (for_ nf _ (t1, g1)) as [t2 g2]. destruct (for_ nf _ (tr, g1)) as [tr2 gr2]. destruct R as (<- & R2 & R3).
        split; [reflexivity|]. split; [reflexivity|]. split; [|split; [|split]].
        * intros m Lm. unfold upd. destruct (Nat.eqb m n); [split; [reflexivity|apply B2R_one]|apply I3; assumption].
        * intros m Lm. unfold upd. destruct (Nat.eqb_spec m n); [lia|apply I4; lia].
        * intros i m Li Lm H. destruct (Nat.eq_dec m n) as [->|N]; [apply R2, Li|].
          destruct (R3 i m N) as [-> ->]. apply I5; [exact Li|lia|exact H].
        * intros i m Lm H. apply Rleb_true in T. destruct (Nat.eq_dec m n) as [->|N]; [destruct H; [lia|lra]|].
          destruct (R3 i m N) as [-> ->]. apply I6; [exact Lm|destruct H; [left; lia|right; assumption]].
      + apply Rleb_false in T. split; [reflexivity|]. split; [reflexivity|]. split; [exact I3|]. split; [|split].
        * intros m Lm. apply I4. lia.
        * intros i m Li Lm H. destruct (Nat.eq_dec m n) as [->|N]; [lra|]. apply I5; [exact Li|lia|exact H].
        * intros i m Lm H. apply I6; [exact Lm|].
          destruct (Nat.eq_dec m n) as [->|N]; [right; exact T|destruct H; [left; lia|right; assumption]]. }
  specialize (I np (Nat.le_refl _)).
  match goal with |- context [for_ np ?f (O, J, t, g)] => destruct (for_ np f (O, J, t, g)) as [[[c J1] t1] g1] end.
  match goal with |- context [for_ np ?f (O, val1 J, val2 t, g)] => destruct (for_ np f (O, val1 J, val2 t, g)) as [[[cr Jr] tr] gr] end.
  destruct I as (I1 & I2 & I3 & _ & I5 & I6). split; [exact I1|]. split; [exact I2|]. split; [exact I3|]. split; [exact I5|].
  intros i m Lm H. apply I6; [exact Lm|right; exact H].
Qed.
End Draw.
