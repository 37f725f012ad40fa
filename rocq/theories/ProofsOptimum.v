(** ProofsOptimum.v -- arrangements of a given amount of material with the least
    free energy: they exist, and their phases coexist. *)

From Coquelicot Require Import Coquelicot.
From Coq Require Import Reals Lra Lia List Bool Arith ZArith Classical FunctionalExtensionality.
From Verif Require Import Base ModelCommon ModelFreeEnergy ProofsFreeEnergy Spec PropertiesFreeEnergy ProofsEquilibrium PropertiesEquilibrium
  PropertiesConvex ProofsCompact PropertiesAccuracy.
Import ListNotations.
Open Scope R_scope.

(* ------------------------------------------------------------------ *)
(** * x ln x *)

Definition xl (x : R) : R := x * ln x.

Lemma ln_nonpos x : x <= 0 -> ln x = 0.
Proof. intros H. unfold ln. destruct (Rlt_dec 0 x); [exfalso; lra|reflexivity]. Qed.

Lemma xl_zero : xl 0 = 0.
Proof. unfold xl. ring. Qed.

Lemma xl_small x : 0 < x <= 1 -> Rabs (xl x) <= 2 * sqrt x.
Proof.
  intros (H & H1). assert (S : 0 < sqrt x) by now apply sqrt_lt_R0. pose proof (sqrt_sqrt x ltac:(lra)) as Q.
  assert (L : ln x = 2 * ln (sqrt x)).
  { rewrite <- Q at 1. rewrite ln_mult by exact S. ring. }
  assert (N : ln x <= 0) by (rewrite <- ln_1; apply ln_le; lra).
  assert (U : - ln (sqrt x) <= / sqrt x).
  { rewrite <- ln_Rinv by exact S. pose proof (ln_le_sub (/ sqrt x) ltac:(now apply Rinv_0_lt_compat)). lra. }
  unfold xl. rewrite Rabs_mult, (Rabs_right x), (Rabs_left1 (ln x)) by lra. rewrite L. rewrite <- Q at 1.
  replace (2 * sqrt x) with (sqrt x * sqrt x * (2 * / sqrt x)) by (field; lra). apply Rmult_le_compat_l; [nra|]. lra.
Qed.

Lemma xl_cont x : 0 <= x -> continuity_pt xl x.
Proof.
  intros [H| <-].
  - apply derivable_continuous_pt. exists (ln x + 1). apply is_derive_Reals. unfold xl. auto_derive; [exact H|]. field. lra.
  - intros e He. exists (Rmin 1 ((e / 2) * (e / 2))). split; [apply Rmin_glb_lt; nra|].
    intros y ((_ & Hy) & D). cbn in D. unfold R_dist in D. rewrite Rminus_0_r in D. cbn. unfold R_dist. rewrite xl_zero, Rminus_0_r.
    destruct (Rle_dec y 0) as [N|N].
    + unfold xl. rewrite ln_nonpos by exact N. rewrite Rmult_0_r, Rabs_R0. exact He.
    + rewrite (Rabs_right y) in D by lra. pose proof (Rmin_l 1 (e / 2 * (e / 2))). pose proof (Rmin_r 1 (e / 2 * (e / 2))).
      eapply Rle_lt_trans; [apply xl_small; lra|].
      assert (sqrt y < sqrt (e / 2 * (e / 2))) by (apply sqrt_lt_1; nra). rewrite sqrt_square in H1 by lra. lra.
Qed.

(** tangent of a convex function *)
Lemma xl_tangent m y : 0 < m -> 0 <= y -> xl m + (ln m + 1) * (y - m) <= xl y.
Proof.
  intros Hm [Hy| <-].
  - unfold xl. assert (L : ln m - ln y <= m / y - 1).
    { rewrite <- ln_div by lra. apply ln_le_sub. now apply Rdiv_lt_0_compat. }
    assert (y * (ln m - ln y) <= y * (m / y - 1)) by (apply Rmult_le_compat_l; lra).
    replace (y * (m / y - 1)) with (m - y) in H by (field; lra). nra.
  - rewrite xl_zero. unfold xl. nra.
Qed.

Lemma xl_lower x : 0 <= x -> x - 1 <= xl x.
Proof. intros H. pose proof (xl_tangent 1 x ltac:(lra) H) as T. unfold xl in T at 1. rewrite ln_1 in T. lra. Qed.

Lemma xl_convex a b t : 0 <= a -> 0 <= b -> 0 <= t <= 1 -> xl ((1 - t) * a + t * b) <= (1 - t) * xl a + t * xl b.
Proof.
  intros Ha Hb Ht. set (m := (1 - t) * a + t * b). assert (A0 : 0 <= (1 - t) * a) by nra. assert (B0 : 0 <= t * b) by nra.
  assert (M : 0 <= m) by (unfold m; lra). destruct M as [M|M].
  - pose proof (xl_tangent m a M Ha) as T1. pose proof (xl_tangent m b M Hb) as T2.
    assert (U1 : (1 - t) * (xl m + (ln m + 1) * (a - m)) <= (1 - t) * xl a) by (apply Rmult_le_compat_l; lra).
    assert (U2 : t * (xl m + (ln m + 1) * (b - m)) <= t * xl b) by (apply Rmult_le_compat_l; lra).
    assert (E : (1 - t) * (xl m + (ln m + 1) * (a - m)) + t * (xl m + (ln m + 1) * (b - m)) = xl m) by (unfold m; ring). lra.
  - assert (E1 : (1 - t) * a = 0) by (unfold m in M; lra). assert (E2 : t * b = 0) by (unfold m in M; lra).
    rewrite <- M, xl_zero. unfold xl. rewrite <- !Rmult_assoc, E1, E2. lra.
Qed.

(** leaving zero: the slope is infinite *)
Lemma xl_start b t : 0 < b -> 0 < t -> xl (t * b) = t * xl b + t * b * ln t.
Proof. intros Hb Ht. unfold xl. rewrite ln_mult by lra. ring. Qed.

(* ------------------------------------------------------------------ *)
(** * The energy along curves *)

(* ------------------------------------------------------------------ *)
(** * Finitely many numbers and vectors *)
Lemma least_or n (P : nat -> Prop) : (forall p, P p \/ ~ P p) -> (exists p, (p < n)%nat /\ P p) \/ forall p, (p < n)%nat -> ~ P p.
Proof.
  intros D. induction n as [|n [(p & A & B)|N]]; [right; intros; lia|left; exists p; split; [lia|exact B]|].
  destruct (D n) as [Y|Y]; [left; exists n; split; [lia|exact Y]|]. right. intros p Hp. destruct (Nat.eq_dec p n) as [->|X]; [exact Y|]. apply N. lia.
Qed.

Lemma least_arg n (P : nat -> Prop) (g : nat -> R) : (forall p, P p \/ ~ P p) ->
  (exists p, (p < n)%nat /\ P p /\ forall q, (q < n)%nat -> P q -> g p <= g q) \/ forall p, (p < n)%nat -> ~ P p.
Proof.
  intros D. induction n as [|n [(p & A & B & L)|N]]; [right; intros; lia| |].
  - left. destruct (D n) as [Y|Y]; [destruct (Rle_dec (g p) (g n)) as [G|G]|].
    + exists p. split; [lia|]. split; [exact B|]. intros q Hq Q. destruct (Nat.eq_dec q n) as [->|X]; [exact G|]. apply L; [lia|exact Q].
    + exists n. split; [lia|]. split; [exact Y|]. intros q Hq Q. destruct (Nat.eq_dec q n) as [->|X]; [lra|]. specialize (L q ltac:(lia) Q). lra.
    + exists p. split; [lia|]. split; [exact B|]. intros q Hq Q. destruct (Nat.eq_dec q n) as [->|X]; [easy|]. apply L; [lia|exact Q].
  - destruct (D n) as [Y|Y].
    + left. exists n. split; [lia|]. split; [exact Y|]. intros q Hq Q. destruct (Nat.eq_dec q n) as [->|X]; [lra|]. exfalso. apply (N q); [lia|exact Q].
    + right. intros p Hp. destruct (Nat.eq_dec p n) as [->|X]; [exact Y|]. apply N. lia.
Qed.

Lemma rsum_nonneg_zero n (g : vec) : (forall p, (p < n)%nat -> 0 <= g p) -> rsum n g = 0 -> forall p, (p < n)%nat -> g p = 0.
Proof. intros P S p Hp. apply Rle_antisym; [|auto]. rewrite <- S. now apply one_le. Qed.

(** [n + 1] vectors of [n] entries are dependent. *)
Lemma dependent n : forall a : nat -> vec, exists la : vec, (exists p, (p < S n)%nat /\ la p <> 0) /\
  forall i, (i < n)%nat -> rsum (S n) (fun p => la p * a p i) = 0.
Proof.
  induction n as [|n IH]; intros a.
  - exists (fun _ => 1). split; [exists 0%nat; split; [lia|lra]|intros; lia].
  - destruct (least_or (S (S n)) (fun q => a q n <> 0)) as [(q & Hq & Q)|Z].
    + intros p. destruct (Req_dec (a p n) 0); auto.
    + destruct (IH (fun p i => a (skip q p) i - a (skip q p) n / a q n * a q i)) as (la & (p1 & Hp1 & LP) & LZ).
      set (g := - rsum (S n) (fun p => la p * (a (skip q p) n / a q n))).
      set (lb := fun p => if Nat.eqb p q then g else if Nat.ltb p q then la p else la (p - 1)%nat).
      assert (LB : forall p, lb (skip q p) = la p).
      { intros p. unfold lb, skip. destruct (Nat.ltb_spec p q).
        - destruct (Nat.eqb_spec p q); [lia|]. destruct (Nat.ltb_spec p q); [reflexivity|lia].
        - destruct (Nat.eqb_spec (S p) q); [lia|]. destruct (Nat.ltb_spec (S p) q); [lia|]. f_equal. lia. }
      assert (LQ : lb q = g) by (unfold lb; now rewrite Nat.eqb_refl).
      exists lb. split.
      * exists (skip q p1). split; [apply skip_lt; lia|]. now rewrite LB.
      * intros i Hi. rewrite (rsum_skip (S (S n)) q _ Hq). replace (S (S n) - 1)%nat with (S n) by lia. rewrite LQ.
        rewrite (rsum_ext (S n) (fun p => lb (skip q p) * a (skip q p) i) (fun p => la p * a (skip q p) i)) by (intros; now rewrite LB).
        destruct (Nat.eq_dec i n) as [->|NI].
        -- unfold g. rewrite (rsum_ext (S n) (fun p => la p * a (skip q p) n) (fun p => a q n * (la p * (a (skip q p) n / a q n)))) by (intros; now field).
           rewrite rsum_scal_l. ring.
        -- specialize (LZ i ltac:(lia)). cbv beta in LZ.
           rewrite (rsum_ext (S n) _ (fun p => la p * a (skip q p) i - a q i * (la p * (a (skip q p) n / a q n)))) in LZ by (intros; ring).
           rewrite rsum_minus, rsum_scal_l in LZ. unfold g. lra.
    + destruct (IH a) as (la & (p1 & Hp1 & LP) & LZ). exists (fun p => if Nat.ltb p (S n) then la p else 0). split.
      * exists p1. split; [lia|]. destruct (Nat.ltb_spec p1 (S n)); [exact LP|lia].
      * intros i Hi. destruct (Nat.eq_dec i n) as [->|NI].
        -- apply rsum_zero. intros p Hp. destruct (Req_dec (a p n) 0) as [->|X]; [ring|]. exfalso. now apply (Z p Hp).
        -- cbn [rsum]. destruct (Nat.ltb_spec (S n) (S n)); [lia|]. rewrite Rmult_0_l, Rplus_0_r.
           change (rsum (S n) (fun p => (if Nat.ltb p (S n) then la p else 0) * a p i) = 0).
           rewrite <- (LZ i ltac:(lia)). apply rsum_ext. intros p Hp. destruct (Nat.ltb_spec p (S n)); [reflexivity|lia].
Qed.

(* ------------------------------------------------------------------ *)
Section Optimum.
Variables (nc : nat) (C : mat) (l : vec).
Hypothesis (Hl : forall i, (i < nc)%nat -> 0 < l i) (Hsym : forall i j, (i < nc)%nat -> (j < nc)%nat -> C i j = C j i).
Notation f := (fh nc C l).
Notation df := (dfh nc C l).
(** chemical potentials *)
Definition cp (u : vec) (i : nat) : R := f u - rsum nc (fun k => u k * df u k) + df u i.

Lemma fh_curve (x : R -> vec) (y : vec) t : (forall i, (i < nc)%nat -> is_derive (fun s => x s i) t (y i)) ->
  (forall i, (i < nc)%nat -> 0 < x t i) -> is_derive (fun s => f (x s)) t (rsum nc (fun i => df (x t) i * y i)).
Proof using Hl Hsym.
  intros D P. unfold fh, dfh.
  replace (rsum nc (fun i => ((ln (x t i) + 1) / l i + rsum nc (fun j => C i j * x t j)) * y i)) with
    (rsum nc (fun i => (ln (x t i) + 1) * y i / l i) + 1 / 2 * rsum nc (fun i => rsum nc (fun j => C i j * (y i * x t j + x t i * y j)))).
  - apply (is_derive_plus (fun s => rsum nc (fun i => x s i * ln (x s i) / l i)) (fun s => 1 / 2 * rsum nc (fun i => rsum nc (fun j => C i j * x s i * x s j)))).
    + apply (is_derive_rsum nc (fun i s => x s i * ln (x s i) / l i)). intros i Hi.
      pose proof (D i Hi) as Di. pose proof (P i Hi) as Pi. pose proof (Hl i Hi) as Li.
      assert (X : is_derive (fun z => z * ln z / l i) (x t i) ((ln (x t i) + 1) / l i)).
      { auto_derive; [exact Pi|]. field. lra. }
      pose proof (is_derive_comp (fun z => z * ln z / l i) (fun s => x s i) t _ _ X Di) as Y. 
      replace ((ln (x t i) + 1) * y i / l i) with (scal (y i) ((ln (x t i) + 1) / l i)); [exact Y|]. unfold scal. cbn. unfold mult. cbn. field. lra.
    + apply (is_derive_scal (fun s => rsum nc (fun i => rsum nc (fun j => C i j * x s i * x s j))) t (1 / 2)).
      apply (is_derive_rsum nc (fun i s => rsum nc (fun j => C i j * x s i * x s j))). intros i Hi.
      apply (is_derive_rsum nc (fun j s => C i j * x s i * x s j)). intros j Hj.
      apply is_derive_ext with (fun s => C i j * (x s i * x s j)); [intros s; change (C i j * (x s i * x s j) = C i j * x s i * x s j); ring|].
      apply (is_derive_scal (fun s => x s i * x s j) t (C i j)). apply (is_derive_mult (fun s => x s i) (fun s => x s j)); auto. intros; apply Rmult_comm.
  - rewrite (rsum_ext nc (fun i => ((ln (x t i) + 1) / l i + rsum nc (fun j => C i j * x t j)) * y i)
      (fun i => (ln (x t i) + 1) * y i / l i + rsum nc (fun j => C i j * (y i * x t j)))).
    2: { intros i Hi. rewrite Rmult_plus_distr_r, <- rsum_scal_r. f_equal; [field; specialize (Hl i Hi); lra|]. apply rsum_ext. intros; ring. }
    rewrite rsum_plus. f_equal.
    assert (E : rsum nc (fun i => rsum nc (fun j => C i j * (x t i * y j))) = rsum nc (fun i => rsum nc (fun j => C i j * (y i * x t j)))).
    { rewrite rsum_swap. apply rsum_ext. intros i Hi. apply rsum_ext. intros j Hj. rewrite (Hsym j i) by auto. ring. }
    rewrite (rsum_ext nc (fun i => rsum nc (fun j => C i j * (y i * x t j + x t i * y j)))
      (fun i => rsum nc (fun j => C i j * (y i * x t j)) + rsum nc (fun j => C i j * (x t i * y j)))).
    2: { intros i Hi. rewrite <- rsum_plus. apply rsum_ext. intros; ring. }
    rewrite rsum_plus, E. field.
Qed.

(** adding [s * y] to amount [w] of a phase *)
Lemma phase_derive w u y : w <> 0 -> (forall c, (c < nc)%nat -> 0 < u c) ->
  is_derive (fun s => (w + s * rsum nc y) * f (fun c => (w * u c + s * y c) / (w + s * rsum nc y))) 0 (rsum nc (fun i => cp u i * y i)).
Proof using Hl Hsym.
  intros Hw P. set (g := rsum nc y).
  assert (E : (fun c => (w * u c + 0 * y c) / (w + 0 * g)) = u).
  { apply functional_extensionality. intros c. field. lra. }
  assert (X : is_derive (fun s => f (fun c => (w * u c + s * y c) / (w + s * g))) 0 (rsum nc (fun c => df u c * ((y c - g * u c) / w)))).
  { pose proof (fh_curve (fun s c => (w * u c + s * y c) / (w + s * g)) (fun c => (y c - g * u c) / w) 0) as Y. cbv beta in Y.
    rewrite E in Y. apply Y.
    - intros c Hc. auto_derive; [rewrite Rmult_0_l; lra|]. field. rewrite ?Rmult_0_l; lra.
    - intros c Hc. rewrite (f_equal (fun h => h c) E : (w * u c + 0 * y c) / (w + 0 * g) = u c). auto. }
  assert (Z : is_derive (fun s => w + s * g) 0 g) by (auto_derive; [exact I|ring]).
  pose proof (is_derive_mult (fun s => w + s * g) (fun s => f (fun c => (w * u c + s * y c) / (w + s * g))) 0 _ _ Z X
    ltac:(intros; apply Rmult_comm)) as Y.
  cbv beta in Y. rewrite E in Y.
  replace (rsum nc (fun i => cp u i * y i)) with (plus (mult g (f u)) (mult (w + 0 * g) (rsum nc (fun c => df u c * ((y c - g * u c) / w))))); [exact Y|].
  unfold plus, mult. cbn.
  rewrite (rsum_ext nc (fun c => df u c * ((y c - g * u c) / w)) (fun c => (1 / w) * (df u c * y c - g * (u c * df u c)))).
  2: { intros c Hc. field. lra. }
  rewrite (rsum_ext nc (fun i => cp u i * y i) (fun i => (f u - rsum nc (fun k => u k * df u k)) * y i + df u i * y i)).
  2: { intros i Hi. unfold cp. ring. }
  rewrite rsum_plus, !rsum_scal_l, rsum_minus, rsum_scal_l. fold g. field. lra.
Qed.

Lemma cp_energy u : rsum nc u = 1 -> rsum nc (fun i => cp u i * u i) = f u.
Proof using.
  intros S. rewrite (rsum_ext nc _ (fun i => (f u - rsum nc (fun k => u k * df u k)) * u i + u i * df u i)) by (intros; unfold cp; ring).
  rewrite rsum_plus, rsum_scal_l, S. ring.
Qed.

(* ------------------------------------------------------------------ *)
(** * Existence *)

(** [N] phases with relative volumes [w] and compositions [u] made of [pm] *)
Definition arrangement (N : nat) (pm w : vec) (u : nat -> vec) : Prop :=
  (forall p, (p < N)%nat -> 0 <= w p) /\ rsum N w = 1 /\
  (forall p, (p < N)%nat -> (forall c, (c < nc)%nat -> 0 <= u p c) /\ rsum nc (u p) = 1) /\
  forall c, (c < nc)%nat -> rsum N (fun p => w p * u p c) = pm c.
Definition energy (N : nat) (w : vec) (u : nat -> vec) : R := rsum N (fun p => w p * f (u p)).
Definition optimal (N : nat) (pm w : vec) (u : nat -> vec) : Prop :=
  arrangement N pm w u /\ forall w' u', arrangement N pm w' u' -> energy N w u <= energy N w' u'.

Lemma form_cont n (at_ : nat -> nat) t : (forall c, (c < nc)%nat -> (at_ c < n)%nat) ->
  cont n (fun z => rsum nc (fun i => rsum nc (fun j => C i j * z (at_ i) * z (at_ j)))) t.
Proof using.
  intros HB. apply (cont_rsum n nc (fun i z => rsum nc (fun j => C i j * z (at_ i) * z (at_ j)))). intros i Hi.
  apply (cont_rsum n nc (fun j z => C i j * z (at_ i) * z (at_ j))). intros j Hj.
  apply (cont_mult n (fun z => C i j * z (at_ i)) (fun z => z (at_ j))); [apply cont_scal|]; apply cont_proj; auto.
Qed.

Lemma energy_cont n (at_ : nat -> nat) t : (forall c, (c < nc)%nat -> (at_ c < n)%nat) -> (forall c, (c < nc)%nat -> 0 <= t (at_ c)) ->
  cont n (fun z => f (fun c => z (at_ c))) t.
Proof using.
  intros HB HP. unfold fh. apply cont_plus.
  - apply (cont_rsum n nc (fun i z => z (at_ i) * ln (z (at_ i)) / l i)). intros i Hi.
    apply (cont_div n (fun z => z (at_ i) * ln (z (at_ i)))). apply (cont_comp n (fun z => z (at_ i)) xl); [apply cont_proj; auto|].
    apply xl_cont. auto.
  - apply (cont_scal n (1 / 2) (fun z => rsum nc (fun i => rsum nc (fun j => C i j * z (at_ i) * z (at_ j))))). now apply form_cont.
Qed.

Lemma energy_bound : exists B, forall u : vec, (forall c, (c < nc)%nat -> 0 <= u c <= 1) -> - B <= f u.
Proof using Hl.
  exists (rsum nc (fun i => 1 / l i) + 1 / 2 * rsum nc (fun i => rsum nc (fun j => Rabs (C i j)))). intros u P. unfold fh.
  assert (A : - rsum nc (fun i => 1 / l i) <= rsum nc (fun i => u i * ln (u i) / l i)).
  { rewrite <- rsum_opp. apply rsum_le. intros i Hi. pose proof (xl_lower (u i) (proj1 (P i Hi))) as L. unfold xl in L. specialize (P i Hi).
    unfold Rdiv. rewrite Ropp_mult_distr_l. apply Rmult_le_compat_r; [left; now apply Rinv_0_lt_compat, Hl|lra]. }
  assert (B : - rsum nc (fun i => rsum nc (fun j => Rabs (C i j))) <= rsum nc (fun i => rsum nc (fun j => C i j * u i * u j))).
  { rewrite <- rsum_opp. apply rsum_le. intros i Hi. rewrite <- rsum_opp. apply rsum_le. intros j Hj.
    pose proof (Rle_abs (- C i j)) as L. rewrite Rabs_Ropp in L. pose proof (Rabs_pos (C i j)). pose proof (P i Hi). pose proof (P j Hj).
    assert (0 <= u i * u j <= 1) by nra. rewrite Rmult_assoc. set (z := u i * u j) in *. nra. }
  lra.
Qed.

Lemma arrangement_box N pm w u : arrangement N pm w u -> (forall p, (p < N)%nat -> 0 <= w p <= 1) /\
  forall p c, (p < N)%nat -> (c < nc)%nat -> 0 <= u p c <= 1.
Proof using.
  intros (W & W1 & U & _). split.
  - intros p Hp. split; [auto|]. rewrite <- W1. now apply one_le.
  - intros p c Hp Hc. destruct (U p Hp) as (U0 & U1). split; [auto|]. rewrite <- U1. now apply one_le.
Qed.

Lemma optimum N pm : (0 < N)%nat -> (forall c, (c < nc)%nat -> 0 <= pm c) -> rsum nc pm = 1 -> exists w u, optimal N pm w u.
Proof using Hl.
  intros HN P S. set (F := fe_of nc (fun i => i) C l). destruct energy_bound as (B & HB).
  assert (START : arrangement N pm (unit_vec 0) (fun _ => pm)).
  { assert (E : rsum N (unit_vec 0) = 1).
    { rewrite (rsum_single N _ 0%nat); [reflexivity|exact HN|]. intros j Hj X. unfold unit_vec. now destruct (Nat.eqb_spec j 0). }
    split; [intros p Hp; unfold unit_vec; destruct (Nat.eqb p 0); lra|]. split; [exact E|]. split; [auto|].
    intros c Hc. rewrite rsum_scal_r, E. ring. }
  assert (LOW : forall w u, arrangement N pm w u -> - B <= energy N w u).
  { intros w u A. destruct (arrangement_box _ _ _ _ A) as (_ & U). destruct A as (W & W1 & _).
    replace (- B) with (rsum N (fun p => w p * - B)) by (rewrite rsum_scal_r, W1; ring).
    apply rsum_le. intros p Hp. apply Rmult_le_compat_l; [auto|]. apply HB. auto. }
  destruct (completeness (fun e => exists w u, arrangement N pm w u /\ e = - energy N w u)) as (m & UB & LUB).
  { exists B. intros e (w & u & A & ->). specialize (LOW w u A). lra. }
  { eexists. exists (unit_vec 0), (fun _ => pm). split; [exact START|reflexivity]. }
  set (en := fun z : vec => rsum N (fun p => z (at_ F p nc) * f (fun c => z (at_ F p c)))).
  set (E := fun g : vec -> R => g = (fun z => rsum N (fun p => z (at_ F p nc)) - 1) \/
    (exists p, (p < N)%nat /\ g = fun z => rsum nc (fun c => z (at_ F p c)) - 1) \/
    (exists c, (c < nc)%nat /\ g = fun z => rsum N (fun p => z (at_ F p nc) * z (at_ F p c)) - pm c) \/
    g = (fun z => en z - - m)).
  assert (AB : forall p c, (p < N)%nat -> (c <= nc)%nat -> (at_ F p c < N * Datatypes.S nc)%nat) by (intros; now apply (at_bound F)).
  destruct (approximate (N * Datatypes.S nc) (fun _ => 0) (fun _ => 1) E) with (e := 1) as (d & D & AP); [|lra|].
  { intros g t Hg Ht. destruct Hg as [->|[(p & Hp & ->)|[(c & Hc & ->)| ->]]]; apply cont_minus; try apply cont_const.
    - apply (cont_rsum _ N (fun p z => z (at_ F p nc))). intros p Hp. apply cont_proj. auto.
    - apply (cont_rsum _ nc (fun c z => z (at_ F p c))). intros c Hc. apply cont_proj. apply AB; [exact Hp|lia].
    - apply (cont_rsum _ N (fun p z => z (at_ F p nc) * z (at_ F p c))). intros p Hp. apply cont_mult; apply cont_proj; apply AB; auto; lia.
    - apply (cont_rsum _ N (fun p z => z (at_ F p nc) * f (fun c => z (at_ F p c)))). intros p Hp.
      apply cont_mult; [apply cont_proj; auto|]. apply (energy_cont _ (at_ F p)); [intros c Hc; apply AB; [exact Hp|lia]|].
      intros c Hc. apply Ht. apply AB; [exact Hp|lia]. }
  assert (X : exists w u, arrangement N pm w u /\ energy N w u <= - m + d).
  { apply NNPP. intros NX. assert (m <= m - d); [|lra]. apply LUB. intros e (w & u & A & ->).
    apply Rnot_lt_le. intros L. apply NX. exists w, u. split; [exact A|lra]. }
  destruct X as (w0 & u0 & A0 & E0).
  assert (EN : en (store F u0 w0) = energy N w0 u0).
  { unfold en, energy. apply rsum_ext. intros p Hp. rewrite (store_vol F u0 w0 p : store F u0 w0 (at_ F p nc) = w0 p). f_equal.
    unfold fh. f_equal; [|f_equal]; apply rsum_ext; intros i Hi; [now rewrite store_frac|]. apply rsum_ext. intros j Hj. now rewrite !store_frac. }
  destruct (AP (store F u0 w0)) as (t & T1 & _ & T3).
  - intros k Hk. destruct (index_cases F N k Hk) as (p & c & Hp & Hc & ->). destruct (arrangement_box _ _ _ _ A0) as (BW & BU).
    cbn [F fe_of fe_nc] in Hc. destruct (Nat.eq_dec c nc) as [->|NE].
    + rewrite (store_vol F u0 w0 p : store F u0 w0 (at_ F p nc) = w0 p). auto.
    + rewrite store_frac by (cbn; lia). apply BU; [exact Hp|lia].
  - destruct A0 as (W0 & W1 & U0 & M0). pose proof (UB (- energy N w0 u0) ltac:(exists w0, u0; repeat split; auto; apply U0; auto)) as LB.
    intros g [->|[(p & Hp & ->)|[(c & Hc & ->)| ->]]].
    + rewrite (rsum_ext N _ w0); [|intros p Hp; apply (store_vol F)]. rewrite W1, Rminus_diag_eq, Rabs_R0 by reflexivity. lra.
    + rewrite (rsum_ext nc _ (u0 p)); [|intros c Hc; now apply (store_frac F)]. rewrite (proj2 (U0 p Hp)), Rminus_diag_eq, Rabs_R0 by reflexivity. lra.
    + rewrite (rsum_ext N _ (fun p => w0 p * u0 p c)); [rewrite M0, Rminus_diag_eq, Rabs_R0 by auto; lra|]. intros p Hp.
      rewrite (store_vol F u0 w0 p : store F u0 w0 (at_ F p nc) = w0 p). now rewrite (store_frac F).
    + rewrite EN. apply Rabs_le. lra.
  - exists (fun p => t (at_ F p nc)), (fun p c => t (at_ F p c)).
    assert (AR : arrangement N pm (fun p => t (at_ F p nc)) (fun p c => t (at_ F p c))).
    { split; [intros p Hp; apply T1; auto|]. split; [|split].
      - assert (Q := T3 _ (or_introl eq_refl)). cbv beta in Q. lra.
      - intros p Hp. split; [intros c Hc; apply T1, AB; [exact Hp|lia]|].
        assert (Q := T3 _ (or_intror (or_introl (ex_intro _ p (conj Hp eq_refl))))). cbv beta in Q. lra.
      - intros c Hc. assert (Q := T3 _ (or_intror (or_intror (or_introl (ex_intro _ c (conj Hc eq_refl)))))). cbv beta in Q. lra. }
    split; [exact AR|]. intros w' u' A'.
    assert (Q := T3 _ (or_intror (or_intror (or_intror eq_refl)))). cbv beta in Q.
    apply Rle_trans with (en t); [right; reflexivity|].
    pose proof (UB (- energy N w' u') ltac:(exists w', u'; auto)). lra.
Qed.

(* ------------------------------------------------------------------ *)
(** * Phases of an optimal arrangement *)

(** every component is present in every phase *)
Lemma optimal_positive N pm w u : (forall c, (c < nc)%nat -> 0 < pm c) -> rsum nc pm = 1 -> optimal N pm w u ->
  forall p c, (p < N)%nat -> (c < nc)%nat -> 0 < w p -> 0 < u p c.
Proof using Hl.
  intros PP PS (A & O) p c Hp Hc Hw. destruct A as (W & W1 & U & M). apply Rnot_le_lt. intros Z.
  assert (Z0 : u p c = 0) by (pose proof (proj1 (U p Hp) c Hc); lra).
  set (v := fun t r i => (1 - t) * u r i + t * pm i).
  (* interactions *)
  set (G := fun r => rsum nc (fun i => rsum nc (fun j => C i j * (pm i - u r i) * u r j + C i j * u r i * (pm j - u r j)))).
  set (H := fun r => rsum nc (fun i => rsum nc (fun j => C i j * (pm i - u r i) * (pm j - u r j)))).
  assert (FORM : forall r t, rsum nc (fun i => rsum nc (fun j => C i j * v t r i * v t r j)) =
    rsum nc (fun i => rsum nc (fun j => C i j * u r i * u r j)) + t * G r + t * t * H r).
  { intros r t. unfold G, H. rewrite <- !rsum_scal_l, <- !rsum_plus. apply rsum_ext. intros i _. rewrite <- !rsum_scal_l, <- !rsum_plus. apply rsum_ext. intros j _. unfold v. ring. }
  set (K := fun r => rsum nc (fun i => (xl (pm i) - xl (u r i)) / l i) + 1 / 2 * (Rabs (G r) + Rabs (H r))).
  assert (B : forall r t, (r < N)%nat -> 0 < t <= 1 -> f (v t r) <= f (u r) + t * K r + (if Nat.eqb r p then t * pm c * ln t / l c else 0)).
  { intros r t Hr Ht. unfold fh. rewrite FORM.
    assert (Q : 1 / 2 * (t * G r + t * t * H r) <= t * (1 / 2 * (Rabs (G r) + Rabs (H r)))).
    { pose proof (Rle_abs (G r)). pose proof (Rle_abs (H r)). pose proof (Rabs_pos (H r)).
      assert (t * t * H r <= t * Rabs (H r)); [|nra]. apply Rle_trans with (t * t * Rabs (H r)); [apply Rmult_le_compat_l; nra|].
      apply Rmult_le_compat_r; nra. }
    assert (E : rsum nc (fun i => v t r i * ln (v t r i) / l i) <=
      rsum nc (fun i => u r i * ln (u r i) / l i + t * ((xl (pm i) - xl (u r i)) / l i) + (if Nat.eqb i c then (if Nat.eqb r p then t * pm c * ln t / l c else 0) else 0))).
    { apply rsum_le. intros i Hi. change (v t r i * ln (v t r i)) with (xl (v t r i)). change (u r i * ln (u r i)) with (xl (u r i)).
      pose proof (Hl i Hi) as Li. pose proof (proj1 (U r Hr) i Hi) as Ui. pose proof (PP i Hi) as Pi.
      assert (IL : 0 < / l i) by now apply Rinv_0_lt_compat.
      assert (CV : xl (v t r i) <= (1 - t) * xl (u r i) + t * xl (pm i)) by (apply xl_convex; lra).
      assert (GEN : xl (v t r i) / l i <= xl (u r i) / l i + t * ((xl (pm i) - xl (u r i)) / l i) + 0).
      { replace (xl (u r i) / l i + t * ((xl (pm i) - xl (u r i)) / l i) + 0) with (((1 - t) * xl (u r i) + t * xl (pm i)) / l i) by (field; lra).
        apply Rmult_le_compat_r; lra. }
      destruct (Nat.eqb_spec i c) as [->|]; [|exact GEN]. destruct (Nat.eqb_spec r p) as [->|]; [|exact GEN].
      unfold v. rewrite Z0, Rmult_0_r, Rplus_0_l, xl_start, xl_zero by lra. right. field. lra. }
    rewrite !rsum_plus, rsum_scal_l in E.
    rewrite (rsum_single nc (fun i => if Nat.eqb i c then _ else 0) c), Nat.eqb_refl in E; [|exact Hc|].
    2: { intros j _ NE. now destruct (Nat.eqb_spec j c). }
    unfold K. lra. }
  set (KK := rsum N (fun r => w r * K r)).
  assert (T : forall t, 0 < t <= 1 -> 0 <= t * (KK + w p * pm c * ln t / l c)).
  { intros t Ht. assert (AR : arrangement N pm w (v t)).
    { split; [exact W|]. split; [exact W1|]. split.
      - intros r Hr. destruct (U r Hr) as (U0 & U1). split.
        + intros i Hi. unfold v. specialize (U0 i Hi). specialize (PP i Hi). nra.
        + unfold v. rewrite rsum_plus, !rsum_scal_l, U1, PS. ring.
      - intros i Hi. unfold v. rewrite (rsum_ext N _ (fun r => (1 - t) * (w r * u r i) + t * (w r * pm i))) by (intros; ring).
        rewrite rsum_plus, !rsum_scal_l, rsum_scal_r, W1, M by exact Hi. ring. }
    specialize (O w (v t) AR). unfold energy in O.
    assert (L : rsum N (fun r => w r * f (v t r)) <= rsum N (fun r => w r * f (u r) + t * (w r * K r) + (if Nat.eqb r p then w p * (t * pm c * ln t / l c) else 0))).
    { apply rsum_le. intros r Hr. specialize (B r t Hr Ht). specialize (W r Hr).
      apply Rle_trans with (w r * (f (u r) + t * K r + (if Nat.eqb r p then t * pm c * ln t / l c else 0))); [now apply Rmult_le_compat_l|].
      right. destruct (Nat.eqb_spec r p) as [->|]; ring. }
    rewrite !rsum_plus, rsum_scal_l in L.
    rewrite (rsum_single N (fun r => if Nat.eqb r p then _ else 0) p), Nat.eqb_refl in L; [|exact Hp|].
    2: { intros j _ NE. now destruct (Nat.eqb_spec j p). }
    fold KK in L. replace (t * (KK + w p * pm c * ln t / l c)) with (t * KK + w p * (t * pm c * ln t / l c)) by (field; specialize (Hl c Hc); lra). lra. }
  set (q := w p * pm c / l c). assert (Q : 0 < q) by (apply Rdiv_lt_0_compat; [apply Rmult_lt_0_compat; auto|auto]).
  set (t := exp (- (Rabs KK + 1) / q)). pose proof (Rabs_pos KK) as AK. pose proof (Rle_abs KK) as AK2.
  assert (Ht : 0 < t <= 1).
  { split; [apply exp_pos|]. rewrite <- exp_0. assert (0 < (Rabs KK + 1) / q) by (apply Rdiv_lt_0_compat; lra).
    left. apply exp_increasing. unfold Rdiv in *. rewrite <- Ropp_mult_distr_l. lra. }
  specialize (T t Ht). assert (LT : ln t = - (Rabs KK + 1) / q) by (unfold t; apply ln_exp).
  assert (V : w p * pm c * ln t / l c = - (Rabs KK + 1)).
  { rewrite LT. replace (w p * pm c * (- (Rabs KK + 1) / q) / l c) with (q * (- (Rabs KK + 1) / q)) by (unfold q at 1; field; pose proof (Hl c Hc); repeat split; lra). field. lra. }
  rewrite V in T. nra.
Qed.

Lemma rsum_two N p r (g : vec) : (p < N)%nat -> (r < N)%nat -> p <> r ->
  rsum N g = g p + g r + rsum N (fun a => if (Nat.eqb a p || Nat.eqb a r)%bool then 0 else g a).
Proof using.
  intros Hp Hr NE. rewrite (rsum_remove N g p Hp), (rsum_remove N (fun a => if Nat.eqb a p then 0 else g a) r Hr).
  destruct (Nat.eqb_spec r p); [congruence|]. rewrite Rplus_assoc. f_equal. f_equal. apply rsum_ext. intros a _.
  destruct (Nat.eqb a p), (Nat.eqb a r); reflexivity.
Qed.

(** a phase and its change *)
Definition mixed (w : R) (u y : vec) (s : R) : vec := fun c => (w * u c + s * y c) / (w + s * rsum nc y).

(** Moving [s * y] from phase [r] to phase [p]. *)
Lemma optimal_move N pm w u : optimal N pm w u -> forall p r y s v, (p < N)%nat -> (r < N)%nat -> p <> r ->
  0 < w p + s * rsum nc y -> 0 < w r - s * rsum nc y -> (forall c, (c < nc)%nat -> 0 <= w p * u p c + s * y c) -> (forall c, (c < nc)%nat -> 0 <= w r * u r c - s * y c) ->
  (forall c, (c < nc)%nat -> (w p + s * rsum nc y) * v c = w p * u p c + s * y c) ->
  w p * f (u p) + w r * f (u r) <= (w p + s * rsum nc y) * f v + (w r - s * rsum nc y) * f (mixed (w r) (u r) (fun c => - y c) s).
Proof using.
  intros ((W & W1 & U & M) & O) p r y s v Hp Hr NE P1 P2 P3 P4 HV. set (g := rsum nc y) in *.
  assert (EG : rsum nc (fun c => - y c) = - g) by apply rsum_opp.
  set (w' := fun a => if Nat.eqb a p then w p + s * g else if Nat.eqb a r then w r - s * g else w a).
  set (u' := fun a => if Nat.eqb a p then v else if Nat.eqb a r then mixed (w r) (u r) (fun c => - y c) s else u a).
  assert (MR : forall c, (w r - s * g) * mixed (w r) (u r) (fun c => - y c) s c = w r * u r c - s * y c).
  { intros c. unfold mixed. rewrite EG. field. replace (w r + s * - g) with (w r - s * g) by ring. lra. }
  assert (RP : Nat.eqb r p = false) by (apply Nat.eqb_neq; congruence).
  assert (GEN : forall h h' : vec, (forall a, a <> p -> a <> r -> h' a = h a) -> rsum N h' = rsum N h - h p - h r + h' p + h' r).
  { intros h h' HH. rewrite (rsum_two N p r h Hp Hr NE), (rsum_two N p r h' Hp Hr NE).
    rewrite (rsum_ext N (fun a => if (Nat.eqb a p || Nat.eqb a r)%bool then 0 else h' a) (fun a => if (Nat.eqb a p || Nat.eqb a r)%bool then 0 else h a)); [ring|].
    intros a _. destruct (Nat.eqb_spec a p), (Nat.eqb_spec a r); cbn; auto. }
  assert (OTHER : forall a, a <> p -> a <> r -> w' a = w a /\ u' a = u a).
  { intros a A B. unfold w', u'. apply Nat.eqb_neq in A, B. now rewrite A, B. }
  assert (VP : w' p = w p + s * g /\ u' p = v) by (unfold w', u'; now rewrite Nat.eqb_refl).
  assert (VR : w' r = w r - s * g /\ u' r = mixed (w r) (u r) (fun c => - y c) s) by (unfold w', u'; now rewrite RP, Nat.eqb_refl).
  assert (AR : arrangement N pm w' u').
  { split; [|split; [|split]].
    - intros a Ha. unfold w'. destruct (Nat.eqb a p); [lra|]. destruct (Nat.eqb a r); [lra|auto].
    - rewrite (GEN w w') by (intros; now apply OTHER). rewrite (proj1 VP), (proj1 VR), W1. ring.
    - intros a Ha. unfold u'. destruct (Nat.eqb_spec a p) as [->|]; [|destruct (Nat.eqb_spec a r) as [->|]; [|auto]].
      + split.
        * intros c Hc. apply (Rmult_le_reg_l (w p + s * g)); [exact P1|]. rewrite Rmult_0_r, HV; auto.
        * apply (Rmult_eq_reg_l (w p + s * g)); [|lra]. rewrite <- rsum_scal_l, (rsum_ext nc _ (fun c => w p * u p c + s * y c)) by auto.
          rewrite rsum_plus, !rsum_scal_l, (proj2 (U p Hp)). fold g. ring.
      + split.
        * intros c Hc. apply (Rmult_le_reg_l (w r - s * g)); [exact P2|]. rewrite Rmult_0_r, MR; auto.
        * apply (Rmult_eq_reg_l (w r - s * g)); [|lra]. rewrite <- rsum_scal_l, (rsum_ext nc _ (fun c => w r * u r c - s * y c)) by auto.
          rewrite rsum_minus, !rsum_scal_l, (proj2 (U r Hr)). fold g. ring.
    - intros c Hc. rewrite (GEN (fun a => w a * u a c) (fun a => w' a * u' a c)) by (intros a A B; destruct (OTHER a A B) as (-> & ->); reflexivity).
      rewrite (proj1 VP), (proj2 VP), (proj1 VR), (proj2 VR), M, HV, MR by exact Hc. ring. }
  specialize (O w' u' AR). unfold energy in O.
  rewrite (GEN (fun a => w a * f (u a)) (fun a => w' a * f (u' a))) in O by (intros a A B; destruct (OTHER a A B) as (-> & ->); reflexivity).
  rewrite (proj1 VP), (proj2 VP), (proj1 VR), (proj2 VR) in O. lra.
Qed.

(** a minimum at the end of an interval *)
Lemma slope_nonneg g d v e : is_derive g 0 d -> 0 < e -> g 0 = v -> (forall s, 0 < s < e -> v <= g s) -> 0 <= d.
Proof using.
  intros D He G0 H. apply Rnot_lt_le. intros N. apply is_derive_Reals in D. destruct (D (- d / 2) ltac:(lra)) as (del & X).
  set (s := Rmin (del / 2) (e / 2)). assert (S0 : 0 < s) by (apply Rmin_glb_lt; destruct del; cbn in *; lra).
  assert (S1 : s <= del / 2) by apply Rmin_l. assert (S2 : s <= e / 2) by apply Rmin_r. pose proof (cond_pos del) as DP.
  specialize (X s ltac:(lra) ltac:(rewrite Rabs_right; lra)). rewrite Rplus_0_l, G0 in X. specialize (H s ltac:(lra)).
  apply Rabs_def2 in X. assert (Y : 0 <= (g s - v) / s) by (apply Rmult_le_pos; [lra|left; now apply Rinv_0_lt_compat]). lra.
Qed.

(** Living phases have the same chemical potentials. *)
Lemma optimal_balanced N pm w u : (forall c, (c < nc)%nat -> 0 < pm c) -> rsum nc pm = 1 -> optimal N pm w u ->
  forall p r i, (p < N)%nat -> (r < N)%nat -> (i < nc)%nat -> 0 < w p -> 0 < w r -> cp (u p) i = cp (u r) i.
Proof using Hl Hsym.
  intros PP PS O.
  assert (LE : forall p r i, (p < N)%nat -> (r < N)%nat -> (i < nc)%nat -> 0 < w p -> 0 < w r -> cp (u r) i <= cp (u p) i).
  { intros p r i Hp Hr Hi Wp Wr. destruct (Nat.eq_dec p r) as [->|NE]; [lra|].
    assert (POS : forall a, (a < N)%nat -> 0 < w a -> forall c, (c < nc)%nat -> 0 < u a c) by (intros; eapply optimal_positive; eauto).
    assert (SU : forall sg c, rsum nc (fun c => sg * unit_vec i c) = sg /\ (c <> i -> unit_vec i c = 0) /\ unit_vec i i = 1).
    { intros sg c. unfold unit_vec. rewrite Nat.eqb_refl. split; [|split; [|reflexivity]].
      - rewrite rsum_scal_l, (rsum_single nc _ i), Nat.eqb_refl; [ring|exact Hi|]. intros j _ X. now destruct (Nat.eqb_spec j i).
      - intros X. now destruct (Nat.eqb_spec c i). }
    set (e := Rmin (w p) (w r * u r i)). assert (EP : 0 < e) by (apply Rmin_glb_lt; [exact Wp|apply Rmult_lt_0_compat; auto]).
    assert (E1 : e <= w p) by apply Rmin_l. assert (E2 : e <= w r * u r i) by apply Rmin_r.
    assert (UR : u r i <= 1) by (apply (proj2 (arrangement_box _ _ _ _ (proj1 O))); auto).
    set (y := unit_vec i). assert (SY : rsum nc y = 1).
    { unfold y. rewrite (rsum_ext nc _ (fun c => 1 * unit_vec i c)) by (intros; ring). apply (SU 1 0%nat). }
    pose proof (phase_derive (w p) (u p) y ltac:(lra) (POS p Hp Wp)) as D1.
    pose proof (phase_derive (w r) (u r) (fun c => - y c) ltac:(lra) (POS r Hr Wr)) as D2.
    pose proof (is_derive_plus _ _ _ _ _ D1 D2) as D. cbv beta in D.
    apply slope_nonneg with (v := w p * f (u p) + w r * f (u r)) (e := e) in D.
    - unfold plus in D. cbn in D.
      assert (V1 : rsum nc (fun c => cp (u p) c * y c) = cp (u p) i).
      { rewrite (rsum_single nc _ i); [unfold y, unit_vec; rewrite Nat.eqb_refl; ring|exact Hi|]. intros j _ X. unfold y. rewrite (proj1 (proj2 (SU 1 j))); [ring|exact X]. }
      assert (V2 : rsum nc (fun c => cp (u r) c * - y c) = - cp (u r) i).
      { rewrite (rsum_single nc _ i); [unfold y, unit_vec; rewrite Nat.eqb_refl; ring|exact Hi|]. intros j _ X. unfold y. rewrite (proj1 (proj2 (SU 1 j))); [ring|exact X]. }
      rewrite V1, V2 in D. lra.
    - exact EP.
    - unfold plus. cbn. rewrite !Rmult_0_l, !Rplus_0_r. f_equal; f_equal; f_equal; apply functional_extensionality; intros c; field; lra.
    - intros s Hs. unfold plus. cbn. rewrite rsum_opp, SY. 
      pose proof (optimal_move N pm w u O p r y s (mixed (w p) (u p) y s) Hp Hr NE) as X. rewrite SY in X.
      assert (WR : 0 < w r - s * 1) by nra.
      eapply Rle_trans; [apply X|].
      + lra.
      + exact WR.
      + intros c Hc. assert (0 <= y c) by (unfold y, unit_vec; destruct (Nat.eqb c i); lra). pose proof (POS p Hp Wp c Hc). nra.
      + intros c Hc. pose proof (POS r Hr Wr c Hc). destruct (Nat.eq_dec c i) as [->|NI].
        * unfold y. rewrite (proj2 (proj2 (SU 1 0%nat))). lra.
        * unfold y. rewrite (proj1 (proj2 (SU 1 c)) NI). nra.
      + intros c Hc. unfold mixed. rewrite SY. field. lra.
      + right. unfold mixed. rewrite rsum_opp, SY. replace (w r + s * - (1)) with (w r - s * 1) by ring. reflexivity. }
  intros p r i Hp Hr Hi Wp Wr. apply Rle_antisym; apply LE; auto.
Qed.

(** If a phase is absent, the plane of the chemical potentials supports the
    free energy. *)
Lemma optimal_support N pm w u : (forall c, (c < nc)%nat -> 0 < pm c) -> rsum nc pm = 1 -> optimal N pm w u ->
  forall z r y, (z < N)%nat -> (r < N)%nat -> w z = 0 -> 0 < w r -> (forall c, (c < nc)%nat -> 0 <= y c) -> rsum nc y = 1 ->
  rsum nc (fun i => cp (u r) i * y i) <= f y.
Proof using Hl Hsym.
  intros PP PS O z r y Hz Hr Wz Wr Y0 SY. assert (NE : z <> r) by (intros ->; lra).
  assert (POS : forall c, (c < nc)%nat -> 0 < u r c) by (intros; eapply optimal_positive; eauto).
  assert (E : exists e, 0 < e /\ forall c, (c < nc)%nat -> e <= w r * u r c).
  { clear - POS Wr. induction nc as [|n IH]; [exists 1; split; [lra|intros; lia]|].
    destruct IH as (e & E0 & E1); [intros; apply POS; lia|]. exists (Rmin e (w r * u r n)). split.
    - apply Rmin_glb_lt; [exact E0|]. apply Rmult_lt_0_compat; [exact Wr|]. apply POS; lia.
    - intros c Hc. destruct (Nat.eq_dec c n) as [->|X]; [apply Rmin_r|]. eapply Rle_trans; [apply Rmin_l|]. apply E1. lia. }
  destruct E as (e0 & E0 & E1). set (e := Rmin e0 (w r)). assert (EP : 0 < e) by (apply Rmin_glb_lt; lra).
  assert (E2 : e <= e0) by apply Rmin_l. assert (E3 : e <= w r) by apply Rmin_r.
  assert (Y1 : forall c, (c < nc)%nat -> y c <= 1) by (intros c Hc; rewrite <- SY; now apply one_le).
  pose proof (phase_derive (w r) (u r) (fun c => - y c) ltac:(lra) POS) as D2.
  assert (D1 : is_derive (fun s => s * f y) 0 (f y)) by (auto_derive; [exact I|ring]).
  pose proof (is_derive_plus _ _ _ _ _ D1 D2) as D. cbv beta in D.
  apply slope_nonneg with (v := w r * f (u r)) (e := e) in D.
  - unfold plus in D. cbn in D. rewrite (rsum_ext nc (fun i => cp (u r) i * - y i) (fun i => - (cp (u r) i * y i))), rsum_opp in D by (intros; ring). lra.
  - exact EP.
  - unfold plus. cbn. rewrite !Rmult_0_l, !Rplus_0_r, Rplus_0_l. f_equal; f_equal; apply functional_extensionality; intros c; field; lra.
  - intros s Hs. unfold plus. cbn. pose proof (optimal_move N pm w u O z r y s y Hz Hr NE) as X. rewrite SY, Wz in X.
    assert (Q : 0 * f (u z) + w r * f (u r) <= (0 + s * 1) * f y + (w r - s * 1) * f (mixed (w r) (u r) (fun c => - y c) s)).
    { apply X.
      - lra.
      - lra.
      - intros c Hc. specialize (Y0 c Hc). nra.
      - intros c Hc. specialize (Y0 c Hc). specialize (Y1 c Hc). specialize (E1 c Hc). nra.
      - intros c Hc. ring. }
    unfold mixed in Q. rewrite rsum_opp, SY in *. replace (w r - s * 1) with (w r + s * - (1)) in Q by ring. lra.
Qed.

(** Among optimal arrangements of more phases than components there is one
    without one of its phases: Gibbs' phase rule. *)
Lemma optimal_fewer pm : (forall c, (c < nc)%nat -> 0 < pm c) -> rsum nc pm = 1 ->
  exists w u z, optimal (S nc) pm w u /\ (z < S nc)%nat /\ w z = 0.
Proof using Hl Hsym.
  intros PP PS. destruct (optimum (S nc) pm ltac:(lia) ltac:(intros; left; auto) PS) as (w & u & O).
  destruct (least_or (S nc) (fun p => w p = 0)) as [(z & Hz & W0)|NZ].
  { intros p. destruct (Req_dec (w p) 0); auto. }
  { exists w, u, z. auto. }
  destruct O as ((W & W1 & U & M) & O).
  assert (WP : forall p, (p < S nc)%nat -> 0 < w p).
  { intros p Hp. destruct (W p Hp) as [X|X]; [exact X|]. exfalso. now apply (NZ p Hp). }
  assert (BAL : forall p i, (p < S nc)%nat -> (i < nc)%nat -> cp (u p) i = cp (u 0%nat) i).
  { intros p i Hp Hi. apply (optimal_balanced (S nc) pm w u PP PS); auto; [|lia|apply WP; lia]. repeat split; auto; apply U; auto. }
  destruct (dependent nc u) as (la & (p1 & Hp1 & LP) & LZ).
  assert (LS : rsum (S nc) la = 0).
  { rewrite (rsum_ext (S nc) la (fun p => rsum nc (fun c => la p * u p c))).
    - rewrite rsum_swap. apply rsum_zero. exact LZ.
    - intros p Hp. rewrite rsum_scal_l, (proj2 (U p Hp)). ring. }
  destruct (least_arg (S nc) (fun p => la p < 0) (fun p => w p / - la p)) as [(p0 & Hp0 & NG & LE)|NN].
  { intros p. destruct (Rlt_dec (la p) 0); auto. }
  2: { exfalso. assert (Z : forall p, (p < S nc)%nat -> la p = 0).
       { apply (rsum_nonneg_zero (S nc) la); [intros p Hp; apply Rnot_lt_le; auto|exact LS]. }
       now apply LP, Z. }
  set (t := w p0 / - la p0). assert (T0 : 0 <= t) by (apply Rmult_le_pos; [auto|left; apply Rinv_0_lt_compat; lra]).
  assert (V : forall w' : vec, (forall p, (p < S nc)%nat -> w' p = w p + t * la p) -> energy (S nc) w' u = energy (S nc) w u).
  { intros w' E. unfold energy. rewrite (rsum_ext (S nc) (fun p => w' p * f (u p)) (fun p => w p * f (u p) + t * (la p * f (u p)))).
    2: { intros p Hp. rewrite E by exact Hp. ring. }
    rewrite rsum_plus, rsum_scal_l.
    rewrite (rsum_ext (S nc) (fun p => la p * f (u p)) (fun p => rsum nc (fun i => cp (u 0%nat) i * (la p * u p i)))).
    - rewrite rsum_swap, (rsum_zero nc); [ring|]. intros i Hi. rewrite rsum_scal_l, LZ by exact Hi. ring.
    - intros p Hp. rewrite <- (cp_energy (u p)) by apply (proj2 (U p Hp)). rewrite <- rsum_scal_l. apply rsum_ext. intros i Hi. rewrite BAL by auto. ring. }
  exists (fun p => w p + t * la p), u, p0. split; [|split; [exact Hp0|unfold t; field; lra]]. split.
  - split; [|split; [|split]].
    + intros p Hp. destruct (Rlt_dec (la p) 0) as [NP|NP].
      * specialize (LE p Hp NP). fold t in LE. apply (Rmult_le_compat_r (- la p)) in LE; [|lra].
        replace (w p / - la p * - la p) with (w p) in LE by (field; lra). lra.
      * specialize (W p Hp). assert (0 <= t * la p) by (apply Rmult_le_pos; lra). lra.
    + rewrite rsum_plus, rsum_scal_l, LS, W1. ring.
    + exact U.
    + intros c Hc. rewrite (rsum_ext (S nc) _ (fun p => w p * u p c + t * (la p * u p c))) by (intros; ring).
      rewrite rsum_plus, rsum_scal_l, LZ, M by exact Hc. ring.
  - intros w' u' A. rewrite V by reflexivity. now apply O.
Qed.

(** The equilibrium of a mixture: at most as many phases as components, equal
    potentials, and no composition below the plane of the potentials. *)
Lemma ground pm : (forall c, (c < nc)%nat -> 0 < pm c) -> rsum nc pm = 1 ->
  exists w u mu, arrangement nc pm w u /\
    (forall p, (p < nc)%nat -> 0 < w p -> (forall c, (c < nc)%nat -> 0 < u p c) /\ forall i, (i < nc)%nat -> cp (u p) i = mu i) /\
    forall y : vec, (forall c, (c < nc)%nat -> 0 <= y c) -> rsum nc y = 1 -> rsum nc (fun i => mu i * y i) <= f y.
Proof using Hl Hsym.
  intros PP PS. destruct (optimal_fewer pm PP PS) as (w & u & z & O & Hz & WZ).
  destruct O as ((W & W1 & U & M) & O).
  assert (O' : optimal (S nc) pm w u) by (split; [repeat split; auto; apply U; auto|exact O]).
  assert (R : exists r, (r < S nc)%nat /\ 0 < w r).
  { destruct (least_or (S nc) (fun p => 0 < w p)) as [(r & X)|X]; [intros p; destruct (Rlt_dec 0 (w p)); auto|exists r; exact X|].
    exfalso. rewrite (rsum_zero (S nc) w) in W1; [lra|]. intros p Hp. specialize (W p Hp). specialize (X p Hp). lra. }
  destruct R as (r & Hr & WR).
  assert (SK : forall g : vec, rsum (S nc) g = g z + rsum nc (fun p => g (skip z p))).
  { intros g. rewrite (rsum_skip (S nc) z g Hz). replace (S nc - 1)%nat with nc by lia. reflexivity. }
  assert (SL : forall p, (p < nc)%nat -> (skip z p < S nc)%nat) by (intros; apply skip_lt; lia).
  exists (fun p => w (skip z p)), (fun p => u (skip z p)), (cp (u r)). split; [|split].
  - split; [auto|]. split; [|split].
    + rewrite SK, WZ in W1. lra.
    + intros p Hp. apply U; auto.
    + intros c Hc. specialize (M c Hc). rewrite SK, WZ in M. lra.
  - intros p Hp P. split.
    + intros c Hc. apply (optimal_positive (S nc) pm w u PP PS O' (skip z p)); auto.
    + intros i Hi. apply (optimal_balanced (S nc) pm w u PP PS O'); auto.
  - intros y Y0 Y1. apply (optimal_support (S nc) pm w u PP PS O' z r y); auto.
Qed.

(** leaving out the absent phases *)
Lemma prune (Good : vec -> Prop) pm : forall N w u, arrangement N pm w u -> (forall p, (p < N)%nat -> 0 < w p -> Good (u p)) ->
  exists M w' u', (M <= N)%nat /\ arrangement M pm w' u' /\ forall p, (p < M)%nat -> 0 < w' p /\ Good (u' p).
Proof using.
  induction N as [|N IH]; intros w u A H.
  - exists 0%nat, w, u. split; [lia|]. split; [exact A|]. intros; lia.
  - destruct A as (W & W1 & U & M).
    destruct (least_or (S N) (fun p => w p = 0)) as [(z & Hz & WZ)|NZ].
    { intros p. destruct (Req_dec (w p) 0); auto. }
    + assert (SK : forall g : vec, rsum (S N) g = g z + rsum N (fun p => g (skip z p))).
      { intros g. rewrite (rsum_skip (S N) z g Hz). replace (S N - 1)%nat with N by lia. reflexivity. }
      assert (SL : forall p, (p < N)%nat -> (skip z p < S N)%nat) by (intros; apply skip_lt; lia).
      destruct (IH (fun p => w (skip z p)) (fun p => u (skip z p))) as (K & w' & u' & L & A' & G').
      * split; [auto|]. split; [|split].
        -- rewrite SK, WZ in W1. lra.
        -- intros p Hp. apply U; auto.
        -- intros c Hc. specialize (M c Hc). rewrite SK, WZ in M. lra.
      * intros p Hp. apply H; auto.
      * exists K, w', u'. split; [lia|]. split; auto.
    + exists (S N), w, u. split; [lia|]. split; [repeat split; auto; apply U; auto|]. intros p Hp.
      assert (0 < w p) by (destruct (W p Hp) as [X|X]; [exact X|]; exfalso; now apply (NZ p Hp)). split; auto.
Qed.

(** A plane below the free energy that touches it at [u] is the plane of the
    chemical potentials of [u]. *)
Lemma touching u mu : (forall c, (c < nc)%nat -> 0 < u c) -> rsum nc u = 1 ->
  (forall y : vec, (forall c, (c < nc)%nat -> 0 <= y c) -> rsum nc y = 1 -> rsum nc (fun i => mu i * y i) <= f y) ->
  f u <= rsum nc (fun i => mu i * u i) -> forall i, (i < nc)%nat -> cp u i = mu i.
Proof using Hl Hsym.
  intros P S SUP T.
  assert (EQ : f u = rsum nc (fun i => mu i * u i)) by (apply Rle_antisym; [exact T|]; apply SUP; auto; intros; left; auto).
  assert (E : exists e, 0 < e /\ forall c, (c < nc)%nat -> e <= u c).
  { clear - P. induction nc as [|n IH]; [exists 1; split; [lra|intros; lia]|].
    destruct IH as (e & E0 & E1); [intros; apply P; lia|]. exists (Rmin e (u n)). split.
    - apply Rmin_glb_lt; [exact E0|]. apply P; lia.
    - intros c Hc. destruct (Nat.eq_dec c n) as [->|X]; [apply Rmin_r|]. eapply Rle_trans; [apply Rmin_l|]. apply E1. lia. }
  destruct E as (e0 & E0 & E1). set (e := Rmin e0 1). assert (EP : 0 < e) by (apply Rmin_glb_lt; lra).
  assert (E2 : e <= e0) by apply Rmin_l. assert (E3 : e <= 1) by apply Rmin_r.
  assert (KEY : forall i sg, (i < nc)%nat -> sg * sg = 1 -> sg * mu i <= sg * cp u i).
  { intros i sg Hi SG. set (y := fun c => sg * unit_vec i c).
    assert (V : forall g : vec, rsum nc (fun c => g c * y c) = sg * g i).
    { intros g. rewrite (rsum_single nc _ i); [unfold y, unit_vec; rewrite Nat.eqb_refl; ring|exact Hi|].
      intros j _ X. unfold y, unit_vec. destruct (Nat.eqb_spec j i); [easy|ring]. }
    assert (SY : rsum nc y = sg). { rewrite (rsum_ext nc y (fun c => 1 * y c)) by (intros; ring). rewrite (V (fun _ => 1)). ring. }
    assert (SB : -1 <= sg <= 1) by (split; nra).
    assert (YB : forall c, Rabs (y c) <= 1).
    { intros c. unfold y, unit_vec. destruct (Nat.eqb c i); [rewrite Rmult_1_r|rewrite Rmult_0_r, Rabs_R0; lra].
      apply Rabs_le. exact SB. }
    pose proof (phase_derive 1 u y ltac:(lra) P) as D1.
    assert (D2 : is_derive (fun s => - (rsum nc (fun c => mu c * u c) + s * rsum nc (fun c => mu c * y c))) 0 (- rsum nc (fun c => mu c * y c)))
      by (auto_derive; [exact I|ring]).
    pose proof (is_derive_plus _ _ _ _ _ D1 D2) as D. cbv beta in D.
    apply slope_nonneg with (v := 0) (e := e) in D.
    - unfold plus in D. cbn in D. rewrite !V in D. lra.
    - exact EP.
    - unfold plus. cbn. replace (fun c => (1 * u c + 0 * y c) / (1 + 0 * rsum nc y)) with u.
      + rewrite EQ. ring.
      + apply functional_extensionality. intros c. unfold Rdiv. rewrite !Rmult_0_l, !Rplus_0_r, Rinv_1. ring.
    - intros s Hs. unfold plus. cbn. rewrite SY. assert (B : 0 < 1 + s * sg) by (assert (s * -1 <= s * sg) by (apply Rmult_le_compat_l; lra); lra).
      set (x := fun c => (1 * u c + s * y c) / (1 + s * sg)).
      assert (X : rsum nc (fun i => mu i * x i) <= f x).
      { apply SUP.
        - intros c Hc. unfold x. apply Rmult_le_pos; [|left; now apply Rinv_0_lt_compat]. specialize (E1 c Hc). specialize (YB c). apply Rabs_le_inv in YB. nra.
        - unfold x, Rdiv. rewrite rsum_scal_r, rsum_plus, !rsum_scal_l, S, SY. field. lra. }
      assert (Z : (1 + s * sg) * rsum nc (fun i => mu i * x i) = rsum nc (fun c => mu c * u c) + s * rsum nc (fun c => mu c * y c)).
      { rewrite <- rsum_scal_l, <- rsum_scal_l, <- rsum_plus. apply rsum_ext. intros c Hc. unfold x. field. lra. }
      rewrite <- Z. fold x. apply (Rmult_le_compat_l (1 + s * sg)) in X; lra. }
  intros i Hi. pose proof (KEY i 1 Hi ltac:(ring)). pose proof (KEY i (-1) Hi ltac:(ring)). lra.
Qed.

End Optimum.
