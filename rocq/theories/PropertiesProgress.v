(** PropertiesProgress.v -- C87: what the progress bars show. *)

From Coq Require Import String Reals Lra Lia List Bool Arith ZArith.
From Flocq Require Import Core.
From Verif Require Import Base ModelCommon ModelParts ModelKernel ModelPhases ModelFinder ModelProgress
  ProofsRun ProofsRun2 Spec PropertiesFinder.
Import ListNotations.
Open Scope R_scope.

Lemma ln10_pos : 0 < ln 10.
Proof. rewrite <- ln_1. apply ln_increasing; lra. Qed.

Lemma log10_le x y : 0 < x -> x <= y -> log10 x <= log10 y.
Proof.
  intros Hx H. unfold log10. apply Rmult_le_compat_r; [left; apply Rinv_0_lt_compat, ln10_pos|].
  destruct (Req_dec x y) as [->|N]; [lra|]. left. apply ln_increasing; lra.
Qed.

Lemma log10_pow n : log10 (/ 10 ^ n) = - INR n.
Proof.
  unfold log10. rewrite ln_Rinv by (apply pow_lt; lra). rewrite ln_pow by lra.
  field. pose proof ln10_pos; lra.
Qed.

Lemma round1_near x : Rabs (round1 x - x) <= 1 / 20.
Proof.
  unfold round1. pose proof (Znearest_half (fun z => negb (Z.even z)) (10 * x)) as H.
  replace (IZR (ZnearestE (10 * x)) / 10 - x) with (- (10 * x - IZR (ZnearestE (10 * x))) / 10) by field.
  unfold Rdiv. rewrite Rabs_mult, Rabs_Ropp, (Rabs_pos_eq (/ 10)) by lra. lra.
Qed.

Lemma round1_le x y : x <= y -> round1 x <= round1 y.
Proof.
  intros H. unfold round1. apply Rmult_le_compat_r; [lra|]. apply IZR_le.
  apply (@Zrnd_le ZnearestE (valid_rnd_N _)). lra.
Qed.

Lemma round1_tenth z : round1 (IZR z / 10) = IZR z / 10.
Proof.
  unfold round1. replace (10 * (IZR z / 10)) with (IZR z) by field.
  now rewrite (@Zrnd_IZR ZnearestE (valid_rnd_N _)).
Qed.

(** Number of decimal digits of an error shown by a bar (errors below 1e-100
    count as 1e-100). *)
Definition digits (a : R) : R := - log10 (Rmax a (/ 10 ^ 100)).

Lemma floor_pos a : 0 < Rmax a (/ 10 ^ 100).
Proof. eapply Rlt_le_trans; [|apply Rmax_r]. apply Rinv_0_lt_compat, pow_lt. lra. Qed.

Lemma digits_le100 a : digits a <= 100.
Proof.
  unfold digits. pose proof (log10_le (/ 10 ^ 100) (Rmax a (/ 10 ^ 100)) ltac:(apply Rinv_0_lt_compat, pow_lt; lra) (Rmax_r _ _)).
  rewrite log10_pow in H. replace (INR 100) with 100 in H by (rewrite INR_IZR_INZ; reflexivity). lra.
Qed.

Lemma digits_anti a b : a <= b -> digits b <= digits a.
Proof.
  intros H. unfold digits. apply Ropp_le_contravar, log10_le; [apply floor_pos|].
  apply Rle_max_compat_r. exact H.
Qed.

(** A bar lies between 0 and its maximum, is never longer for a larger error
    and shows the number of digits up to 0.05. *)
Theorem C87_range tol a b : 0 < tol <= 1 -> a <= b ->
  0 <= bar_val tol b <= bar_val tol a /\ bar_val tol a <= - log10 tol /\ bar_val tol a <= 100 /\
  (0 <= digits a <= - log10 tol -> Rabs (bar_val tol a - digits a) <= 1 / 20).
Proof.
  intros Ht Hab. unfold bar_val, bar_max. rewrite (proj2 (Rltb_true _ _)) by lra.
  fold (digits a). fold (digits b).
  assert (Hm : 0 <= - log10 tol).
  { pose proof (log10_le tol (/ 10 ^ 0) ltac:(lra) ltac:(simpl; lra)) as X. rewrite log10_pow in X. simpl in X. lra. }
  pose proof (round1_le _ _ (digits_anti _ _ Hab)) as HR.
  split; [split; [apply Rmax_l|]|].
  - apply Rle_max_compat_l. apply Rle_min_compat_r. exact HR.
  - split; [apply Rmax_lub; [exact Hm|apply Rmin_r]|].
    split.
    + apply Rmax_lub; [lra|]. eapply Rle_trans; [apply Rmin_l|].
      pose proof (round1_le _ _ (digits_le100 a)) as X. replace 100 with (IZR 1000 / 10) in X by lra.
      rewrite round1_tenth in X. lra.
    + intros [H0 H1]. pose proof (round1_near (digits a)) as X.
      assert (R0 : 0 <= round1 (digits a)).
      { pose proof (round1_le _ _ H0) as Y. replace 0 with (IZR 0 / 10) in Y at 1 by (simpl; lra).
        rewrite round1_tenth in Y. simpl in Y. lra. }
      rewrite Rmax_right by (apply Rmin_glb; lra).
      unfold Rmin. destruct (Rle_dec _ _); [exact X|].
      apply Rabs_le_inv in X. apply Rabs_le. lra.
Qed.

(** A full bar means that the error is below 1.13 times the tolerance. *)
Theorem C87_full tol a : 0 < tol < 1 -> bar_val tol a = - log10 tol -> a < 113 / 100 * tol.
Proof.
  intros [Ht H1] H. unfold bar_val, bar_max in H.
  rewrite (proj2 (Rltb_true _ _)) in H by assumption. fold (digits a) in H. pose proof ln10_pos as T.
  assert (Hm : 0 < - log10 tol).
  { unfold log10. assert (ln tol < 0) by (rewrite <- ln_1; apply ln_increasing; lra).
    replace (- (ln tol / ln 10)) with (- ln tol * / ln 10) by (field; lra).
    apply Rmult_lt_0_compat; [lra|now apply Rinv_0_lt_compat]. }
  pose proof (round1_near (digits a)) as X. apply Rabs_le_inv in X.
  assert (L : log10 (Rmax a (/ 10 ^ 100)) <= log10 tol + 1 / 20).
  { unfold digits in *. revert H. unfold Rmax at 1, Rmin. destruct (Rle_dec _ _); destruct (Rle_dec _ _); lra. }
  assert (B : ln 10 < 20 * ln (113 / 100)).
  { replace (20 * ln (113 / 100)) with (INR 20 * ln (113 / 100)) by (rewrite INR_IZR_INZ; reflexivity).
    rewrite <- ln_pow by lra. apply ln_increasing; lra. }
  unfold log10 in L. apply Rmult_le_compat_r with (r := ln 10) in L; [|lra].
  replace (ln (Rmax a (/ 10 ^ 100)) / ln 10 * ln 10) with (ln (Rmax a (/ 10 ^ 100))) in L by (field; lra).
  replace ((ln tol / ln 10 + 1 / 20) * ln 10) with (ln tol + ln 10 / 20) in L by (field; lra).
  apply Rle_lt_trans with (Rmax a (/ 10 ^ 100)); [apply Rmax_l|].
  apply ln_lt_inv; [apply floor_pos|lra|]. rewrite ln_mult by lra. lra.
Qed.

(** If the tolerance is a power of ten, errors below it fill the bar. *)
Theorem C87_converged n a : (n <= 100)%nat -> a < / 10 ^ n -> bar_val (/ 10 ^ n) a = INR n.
Proof.
  intros Hn Ha. unfold bar_val, bar_max.
  assert (P : forall k, 0 < / 10 ^ k) by (intros; apply Rinv_0_lt_compat, pow_lt; lra).
  rewrite (proj2 (Rltb_true _ _)) by apply P. fold (digits a). rewrite log10_pow, Ropp_involutive.
  assert (D : INR n <= digits a).
  { unfold digits. pose proof (log10_le (Rmax a (/ 10 ^ 100)) (/ 10 ^ n) (floor_pos _)) as X.
    rewrite log10_pow in X. apply Ropp_le_cancel. rewrite Ropp_involutive. apply X.
    apply Rmax_lub; [lra|]. apply Rinv_le_contravar; [apply pow_lt; lra|]. apply Rle_pow; [lra|lia]. }
  apply round1_le in D. replace (INR n) with (IZR (10 * Z.of_nat n) / 10) in D at 1
    by (rewrite mult_IZR, <- INR_IZR_INZ; field).
  rewrite round1_tenth, mult_IZR, <- INR_IZR_INZ in D.
  rewrite Rmin_right by lra. apply Rmax_right, pos_INR.
Qed.

(** After a converged run with such a tolerance all four bars are full. *)
Theorem C87_run {G St} (ops : rng_ops G) (f f' : finder G St) a i ph d n tr inner :
  0 <= m_thr (f_par f) -> (n <= 100)%nat ->
  run ops f a (Some (/ 10 ^ n)) i = (f', Ok ph) -> f_diag f' = Some d ->
  schedule (opt a (m_max_steps (f_par f))) (opt i (m_interval (f_par f))) = Ok (tr, inner) ->
  d_steps d <> Z.of_nat (tr * inner) ->
  bars (/ 10 ^ n) {| e_incomp := d_incomp d; e_omega := d_omega d; e_Js := d_Js d; e_cons := d_cons d |}
  = (INR n, INR n, INR n, INR n).
Proof.
  intros Ht Hn H HD HS HN. destruct (C14_convergence_sound ops f a _ i f' ph Ht H) as (d' & tr' & inner' & HD' & HS' & _ & C).
  rewrite HD in HD'. injection HD' as <-. rewrite HS in HS'. injection HS' as <- <-.
  destruct C as [C|(C1 & C2 & C3 & C4 & _)]; [contradiction|]. simpl in C1, C2, C3, C4.
  unfold bars. cbn [e_incomp e_omega e_Js e_cons]. rewrite !C87_converged by assumption. reflexivity.
Qed.

(** The bars "Incompressibility", "Field Error", "Volume Error" and "Constraint
    Residue" (finder.py:573-576) show the errors with these names. *)
Theorem C87_bars tol rep b1 b2 b3 b4 : 0 < tol <= 1 -> bars tol rep = (b1, b2, b3, b4) ->
  forall b e, In (b, e) [(b1, e_incomp rep); (b2, e_omega rep); (b3, e_Js rep); (b4, e_cons rep)] ->
  0 <= digits e <= - log10 tol -> Rabs (b - digits e) <= 1 / 20.
Proof.
  intros Ht H b e HI HD. unfold bars in H. injection H as <- <- <- <-.
  repeat destruct HI as [HI|HI]; try (injection HI as <- <-; apply (C87_range tol _ _ Ht (Rle_refl _)); exact HD). destruct HI.
Qed.

(** The third bar shows the change of the volumes. *)
Example case_C87_bars b1 b2 b3 b4 : bars (/ 10 ^ 5) {| e_incomp := / 10 ^ 1; e_omega := / 10 ^ 2; e_Js := / 10 ^ 3; e_cons := / 10 ^ 4 |} = (b1, b2, b3, b4) ->
  Rabs (b3 - 3) <= 1 / 20.
Proof.
  intros H. assert (P : 0 < / 10 ^ 5 <= 1).
  { split; [apply Rinv_0_lt_compat, pow_lt; lra|]. simpl. lra. }
  assert (D : digits (/ 10 ^ 3) = 3).
  { unfold digits. rewrite Rmax_left by (apply Rinv_le_contravar; [apply pow_lt; lra|apply Rle_pow; [lra|lia]]).
    rewrite log10_pow. simpl. ring. }
  rewrite <- D. apply (C87_bars (/ 10 ^ 5) _ _ _ _ _ P H).
  - right. right. left. reflexivity.
  - rewrite D, log10_pow. simpl. lra.
Qed.

(** Full bars do not mean convergence: with the default tolerance 1e-5 the error
    1.1e-5 also fills its bar. *)
Theorem C87_full_means_converged_refuted : exists a, / 10 ^ 5 < a /\ bar_val (/ 10 ^ 5) a = INR 5.
Proof.
  exists (11 / 10 * / 10 ^ 5). assert (P : 0 < / 10 ^ 5) by (apply Rinv_0_lt_compat, pow_lt; lra).
  split; [lra|]. unfold bar_val, bar_max. rewrite (proj2 (Rltb_true _ _)) by exact P.
  rewrite log10_pow, Ropp_involutive.
  assert (Q : / 10 ^ 100 <= / 10 ^ 5) by (apply Rinv_le_contravar; [apply pow_lt; lra|apply Rle_pow; [lra|lia]]).
  assert (Q' : / 10 ^ 100 <= 11 / 10 * / 10 ^ 5) by (eapply Rle_trans; [exact Q|]; clear Q; lra).
  rewrite (Rmax_left _ _ Q').
  assert (E : log10 (11 / 10 * / 10 ^ 5) = log10 (11 / 10) - INR 5).
  { rewrite <- (Ropp_involutive (INR 5)), <- (log10_pow 5). unfold log10. rewrite ln_mult by lra. pose proof ln10_pos. field. lra. }
  rewrite E.
  assert (L : 0 < log10 (11 / 10) < 1 / 20).
  { unfold log10. assert (0 < ln (11 / 10)) by (rewrite <- ln_1; apply ln_increasing; lra). pose proof ln10_pos as T.
    split; [apply Rmult_lt_0_compat; [lra|now apply Rinv_0_lt_compat]|].
    apply Rmult_lt_reg_r with (ln 10); [exact T|]. unfold Rdiv. rewrite Rmult_assoc, Rinv_l, Rmult_1_r by lra.
    apply Rmult_lt_reg_l with 20; [lra|].
    replace (20 * ln (11 * / 10)) with (INR 20 * ln (11 * / 10)) by (rewrite INR_IZR_INZ; reflexivity).
    rewrite <- ln_pow by lra. replace (20 * (1 * / 20 * ln 10)) with (ln 10) by field.
    apply ln_increasing; [apply pow_lt; lra|]. lra. }
  assert (R : round1 (- (log10 (11 / 10) - INR 5)) = INR 5).
  { unfold round1. replace (ZnearestE (10 * - (log10 (11 / 10) - INR 5))) with 50%Z.
    - rewrite INR_IZR_INZ. change (Z.of_nat 5) with 5%Z. lra.
    - symmetry. apply Znearest_imp. rewrite INR_IZR_INZ. change (Z.of_nat 5) with 5%Z. apply Rabs_lt. lra. }
  rewrite R. rewrite Rmin_left by lra. apply Rmax_right, pos_INR.
Qed.
