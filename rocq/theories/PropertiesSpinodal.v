(** PropertiesSpinodal.v -- what the stability test says about demixing with
    small but finite amplitude (C80). *)

From Coquelicot Require Import Coquelicot.
From Coq Require Import Reals Lra Lia List Bool Arith ZArith Classical.
From Verif Require Import Base ModelCommon ModelFreeEnergy ProofsFreeEnergy PropertiesFreeEnergy.
Import ListNotations.
Open Scope R_scope.

(* ------------------------------------------------------------------ *)
(** * Vocabulary *)

(** the value [free_energy_density] returns for one composition *)
Definition reported (F : fe) (psi : list R) (e : R) : Prop :=
  free_energy_density F (One psi) = Ok (Single (Fin e)).

(** Phases with their relative volumes; they consist of the material of a
    mixture [phi] and deviate from it by at most [eps] in every component.
    With [conserved] every phase fills its volume as [phi] does. *)
Record split_of (conserved : bool) (phi : list R) (eps : R) (s : list (R * list R)) : Prop := {
  sp_weight : Forall (fun wp => 0 < fst wp) s;
  sp_total : lsum s fst = 1;
  sp_length : Forall (fun wp => length (snd wp) = length phi) s;
  sp_nonneg : Forall (fun wp => Forall (fun x => 0 <= x) (snd wp)) s;
  sp_near : Forall (fun wp => forall i, (i < length phi)%nat -> Rabs (nth i (snd wp) 0 - nth i phi 0) <= eps) s;
  sp_volume : conserved = true -> Forall (fun wp => lsum (snd wp) (fun x => x) = lsum phi (fun x => x)) s;
  sp_mean : forall i, (i < length phi)%nat -> lsum s (fun wp => fst wp * nth i (snd wp) 0) = nth i phi 0
}.

(* ------------------------------------------------------------------ *)
(** * x ln x between parabolas *)

Definition hent (x : R) : R := x * ln x - x + 1.

Lemma ln_ge_inv x : 0 < x -> (x - 1) / x <= ln x.
Proof.
  intros H. pose proof (exp_ineq1_le (ln (/ x))) as E. rewrite exp_ln in E by (now apply Rinv_0_lt_compat).
  rewrite ln_Rinv in E by auto. replace ((x - 1) / x) with (1 - / x) by (field; lra). lra.
Qed.

Lemma ln_le_minus x : 0 < x -> ln x <= x - 1.
Proof. intros H. pose proof (exp_ineq1_le (ln x)) as E. rewrite exp_ln in E by auto. lra. Qed.

(** a function that decreases left of 1 and increases right of 1 *)
Lemma valley (g g' : R -> R) x : (forall z, 0 < z -> is_derive g z (g' z)) -> 0 < x -> g 1 = 0 ->
  (forall z, x <= z <= 1 -> g' z <= 0) -> (forall z, 1 <= z <= x -> 0 <= g' z) -> 0 <= g x.
Proof.
  intros HD Hx H1 HL HR.
  destruct (MVT_gen g x 1 g') as (c & Hc & E).
  { intros z Hz. apply HD. unfold Rmin in Hz. destruct (Rle_dec x 1); lra. }
  { intros z Hz. apply continuity_pt_filterlim. apply (ex_derive_continuous g). exists (g' z). apply HD.
    unfold Rmin in Hz. destruct (Rle_dec x 1); lra. }
  rewrite H1 in E. unfold Rmin, Rmax in Hc. destruct (Rle_dec x 1).
  - specialize (HL c Hc). nra.
  - specialize (HR c ltac:(lra)). nra.
Qed.

Lemma hent_ge d x : 0 <= d -> 0 <= x -> x <= 1 + d -> (x - 1) * (x - 1) / (2 * (1 + d)) <= hent x.
Proof.
  intros Hd H0 Hx. unfold hent. destruct (Req_dec x 0) as [->|].
  - replace ((0 - 1) * (0 - 1) / (2 * (1 + d))) with (1 / (2 * (1 + d))) by (field; lra).
    assert (1 / (2 * (1 + d)) <= 1); [|lra].
    apply Rmult_le_reg_r with (2 * (1 + d)); [lra|]. unfold Rdiv. rewrite Rmult_assoc, Rinv_l by lra. lra.
  - assert (Hp : 0 < x) by lra.
    assert (0 <= x * ln x - x + 1 - (x - 1) * (x - 1) / (2 * (1 + d))); [|lra].
    apply (valley (fun x => x * ln x - x + 1 - (x - 1) * (x - 1) / (2 * (1 + d))) (fun z => ln z - (z - 1) / (1 + d))); auto.
    + intros z Hz. auto_derive; [auto|]. field. lra.
    + rewrite ln_1. field. lra.
    + intros z [Hz1 Hz2]. pose proof (ln_le_minus z ltac:(lra)).
      assert (z - 1 <= (z - 1) / (1 + d)); [|lra].
      apply Rmult_le_reg_r with (1 + d); [lra|]. unfold Rdiv. rewrite Rmult_assoc, Rinv_l by lra. nra.
    + intros z [Hz1 Hz2]. pose proof (ln_ge_inv z ltac:(lra)).
      assert ((z - 1) / (1 + d) <= (z - 1) / z); [|lra].
      apply Rmult_le_compat_l; [lra|]. apply Rinv_le_contravar; lra.
Qed.

Lemma hent_le d x : 0 <= d -> d < 1 -> 1 - d <= x -> hent x <= (x - 1) * (x - 1) / (2 * (1 - d)).
Proof.
  intros Hd Hd1 Hx. unfold hent. assert (Hp : 0 < x) by lra.
  assert (0 <= (x - 1) * (x - 1) / (2 * (1 - d)) - (x * ln x - x + 1)); [|lra].
  apply (valley (fun x => (x - 1) * (x - 1) / (2 * (1 - d)) - (x * ln x - x + 1)) (fun z => (z - 1) / (1 - d) - ln z)); auto.
  - intros z Hz. auto_derive; [auto|]. field. lra.
  - rewrite ln_1. field. lra.
  - intros z [Hz1 Hz2]. pose proof (ln_ge_inv z ltac:(lra)).
    assert ((z - 1) / (1 - d) <= (z - 1) / z); [|lra].
    assert (/ z <= / (1 - d)) by (apply Rinv_le_contravar; lra). unfold Rdiv. nra.
  - intros z [Hz1 Hz2]. pose proof (ln_le_minus z ltac:(lra)).
    assert (z - 1 <= (z - 1) / (1 - d)); [|lra].
    apply Rmult_le_reg_r with (1 - d); [lra|]. unfold Rdiv. rewrite Rmult_assoc, Rinv_l by lra. nra.
Qed.

(* ------------------------------------------------------------------ *)
(** * Distance from the tangent plane *)

Section Plane.
Context (n : nat) (chi : mat) (l phi : vec).
Hypothesis Hl : forall i, (i < n)%nat -> 0 < l i.
Hypothesis Hphi : forall i, (i < n)%nat -> 0 < phi i.
Hypothesis Hsym : forall i j, (i < n)%nat -> (j < n)%nat -> chi i j = chi j i.

Definition chi_form (y : vec) : R := rsum n (fun i => rsum n (fun j => chi i j * y i * y j)).
Definition ent_form (y : vec) : R := rsum n (fun i => y i * y i / (l i * phi i)).

Lemma chi_form_diff psi : chi_form psi = chi_form phi + 2 * rsum n (fun i => (psi i - phi i) * rsum n (fun j => chi i j * phi j))
  + chi_form (fun i => psi i - phi i).
Proof using Hsym.
  unfold chi_form.
  assert (S : rsum n (fun i => rsum n (fun j => chi i j * phi i * (psi j - phi j)))
    = rsum n (fun i => rsum n (fun j => chi i j * (psi i - phi i) * phi j))).
  { rewrite rsum_swap. apply rsum_ext. intros i Hi. apply rsum_ext. intros j Hj. rewrite (Hsym j i) by auto. ring. }
  rewrite (rsum_ext n (fun i => (psi i - phi i) * rsum n (fun j => chi i j * phi j))
     (fun i => rsum n (fun j => chi i j * (psi i - phi i) * phi j))).
  2:{ intros i _. rewrite <- rsum_scal_l. apply rsum_ext. intros; ring. }
  rewrite (rsum_ext n (fun i => rsum n (fun j => chi i j * psi i * psi j))
    (fun i => rsum n (fun j => chi i j * phi i * phi j) + rsum n (fun j => chi i j * phi i * (psi j - phi j))
       + rsum n (fun j => chi i j * (psi i - phi i) * phi j) + rsum n (fun j => chi i j * (psi i - phi i) * (psi j - phi j)))).
  - rewrite !rsum_plus. rewrite S. ring.
  - intros i _. rewrite <- !rsum_plus. apply rsum_ext. intros; ring.
Qed.

Lemma tangent_gap psi : (forall i, (i < n)%nat -> 0 <= psi i) ->
  fh n chi l psi - fh n chi l phi - rsum n (fun i => (psi i - phi i) * dfh n chi l phi i)
  = rsum n (fun i => phi i * hent (psi i / phi i) / l i) + 1 / 2 * chi_form (fun i => psi i - phi i).
Proof using Hl Hphi Hsym.
  intros Hpsi. unfold fh. fold (chi_form psi). fold (chi_form phi). rewrite (chi_form_diff psi). unfold dfh.
  rewrite (rsum_ext n (fun i => (psi i - phi i) * ((ln (phi i) + 1) / l i + rsum n (fun j => chi i j * phi j)))
    (fun i => (psi i - phi i) * (ln (phi i) + 1) / l i + (psi i - phi i) * rsum n (fun j => chi i j * phi j)))
    by (intros; unfold Rdiv; ring).
  rewrite rsum_plus.
  assert (E : rsum n (fun i => phi i * hent (psi i / phi i) / l i)
    = rsum n (fun i => psi i * ln (psi i) / l i) - rsum n (fun i => phi i * ln (phi i) / l i)
      - rsum n (fun i => (psi i - phi i) * (ln (phi i) + 1) / l i)).
  { rewrite <- !rsum_minus. apply rsum_ext. intros i Hi. specialize (Hl i Hi). specialize (Hphi i Hi). specialize (Hpsi i Hi).
    unfold hent. destruct (Req_dec (psi i) 0) as [Z|].
    - rewrite Z. unfold Rdiv. rewrite !Rmult_0_l. ring.
    - rewrite ln_div by lra. field. lra. }
  rewrite E. field.
Qed.

Lemma gap_ge psi d : 0 <= d -> (forall i, (i < n)%nat -> 0 <= psi i) -> (forall i, (i < n)%nat -> psi i <= (1 + d) * phi i) ->
  1 / 2 * (ent_form (fun i => psi i - phi i) / (1 + d) + chi_form (fun i => psi i - phi i))
  <= fh n chi l psi - fh n chi l phi - rsum n (fun i => (psi i - phi i) * dfh n chi l phi i).
Proof using Hl Hphi Hsym.
  intros Hd H0 H1. rewrite tangent_gap by auto.
  assert (1 / 2 * (ent_form (fun i => psi i - phi i) / (1 + d)) <= rsum n (fun i => phi i * hent (psi i / phi i) / l i)); [|lra].
  unfold ent_form. rewrite <- rsum_div, <- rsum_scal_l. apply rsum_le. intros i Hi.
  specialize (Hl i Hi). specialize (Hphi i Hi). specialize (H0 i Hi). specialize (H1 i Hi).
  assert (0 <= psi i / phi i) by (apply Rmult_le_pos; [auto|left; now apply Rinv_0_lt_compat]).
  assert (psi i / phi i <= 1 + d).
  { apply Rmult_le_reg_r with (phi i); auto. unfold Rdiv. rewrite Rmult_assoc, Rinv_l by lra. lra. }
  pose proof (hent_ge d (psi i / phi i) Hd H H2) as G.
  replace (1 / 2 * ((psi i - phi i) * (psi i - phi i) / (l i * phi i) / (1 + d)))
    with (phi i * ((psi i / phi i - 1) * (psi i / phi i - 1) / (2 * (1 + d))) / l i) by (field; lra).
  apply Rmult_le_compat_r; [left; now apply Rinv_0_lt_compat|]. apply Rmult_le_compat_l; [lra|exact G].
Qed.

Lemma gap_le psi d : 0 <= d -> d < 1 -> (forall i, (i < n)%nat -> (1 - d) * phi i <= psi i) ->
  fh n chi l psi - fh n chi l phi - rsum n (fun i => (psi i - phi i) * dfh n chi l phi i)
  <= 1 / 2 * (ent_form (fun i => psi i - phi i) / (1 - d) + chi_form (fun i => psi i - phi i)).
Proof using Hl Hphi Hsym.
  intros Hd Hd1 H1. rewrite tangent_gap.
  2:{ intros i Hi. eapply Rle_trans; [|apply H1; auto]. specialize (Hphi i Hi). nra. }
  assert (rsum n (fun i => phi i * hent (psi i / phi i) / l i) <= 1 / 2 * (ent_form (fun i => psi i - phi i) / (1 - d))); [|lra].
  unfold ent_form. rewrite <- rsum_div, <- rsum_scal_l. apply rsum_le. intros i Hi.
  specialize (Hl i Hi). specialize (Hphi i Hi). specialize (H1 i Hi).
  assert (1 - d <= psi i / phi i).
  { apply Rmult_le_reg_r with (phi i); auto. unfold Rdiv. rewrite Rmult_assoc, Rinv_l by lra. lra. }
  pose proof (hent_le d (psi i / phi i) Hd Hd1 H) as G.
  replace (1 / 2 * ((psi i - phi i) * (psi i - phi i) / (l i * phi i) / (1 - d)))
    with (phi i * ((psi i / phi i - 1) * (psi i / phi i - 1) / (2 * (1 - d))) / l i) by (field; lra).
  apply Rmult_le_compat_r; [left; now apply Rinv_0_lt_compat|]. apply Rmult_le_compat_l; [lra|exact G].
Qed.

(** a direction of negative curvature lowers the energy of a small symmetric split *)
Lemma negative_direction y eps : 0 < eps -> ent_form y + chi_form y < 0 ->
  exists t, 0 < t /\ (forall i, (i < n)%nat -> t * Rabs (y i) <= 1 / 2 * phi i /\ t * Rabs (y i) <= eps) /\
    fh n chi l (fun i => phi i + t * y i) + fh n chi l (fun i => phi i - t * y i) < 2 * fh n chi l phi.
Proof using Hl Hphi Hsym.
  intros He HN. set (S := ent_form y) in *. set (H := - (S + chi_form y)) in *.
  assert (HP : 0 < H) by (unfold H; lra).
  assert (S0 : 0 <= S).
  { apply rsum_nonneg. intros i Hi. apply Rmult_le_pos; [apply Rle_0_sqr|]. left. apply Rinv_0_lt_compat.
    apply Rmult_lt_0_compat; auto. }
  set (d := Rmin (1 / 2) (H / (4 * (S + 1)))).
  assert (Q : 0 < H / (4 * (S + 1))) by (apply Rdiv_lt_0_compat; lra).
  assert (d0 : 0 < d) by (apply Rmin_pos; lra).
  assert (d1 : d <= 1 / 2) by apply Rmin_l.
  assert (d2 : d * (4 * (S + 1)) <= H).
  { apply Rle_trans with (H / (4 * (S + 1)) * (4 * (S + 1))); [apply Rmult_le_compat_r; [lra|apply Rmin_r]|].
    right. field. lra. }
  assert (T : exists t, 0 < t /\ forall i, (i < n)%nat -> t * Rabs (y i) <= d * phi i /\ t * Rabs (y i) <= eps).
  { assert (K : forall m, (m <= n)%nat -> exists t, 0 < t /\ forall i, (i < m)%nat -> t * Rabs (y i) <= d * phi i /\ t * Rabs (y i) <= eps).
    { induction m as [|m IH]; intros Hm; [exists 1; split; [lra|lia]|].
      destruct (IH ltac:(lia)) as (t & Ht & B). set (u := Rmin (d * phi m) eps / (Rabs (y m) + 1)).
      pose proof (Rabs_pos (y m)) as Y. specialize (Hphi m ltac:(lia)).
      assert (M : 0 < Rmin (d * phi m) eps) by (apply Rmin_pos; auto; now apply Rmult_lt_0_compat).
      assert (U : 0 < u) by (apply Rdiv_lt_0_compat; lra).
      assert (UY : u * Rabs (y m) <= Rmin (d * phi m) eps).
      { replace (Rmin (d * phi m) eps) with (u * (Rabs (y m) + 1)) by (unfold u; field; lra). apply Rmult_le_compat_l; lra. }
      pose proof (Rmin_l (d * phi m) eps). pose proof (Rmin_r (d * phi m) eps).
      exists (Rmin t u). split; [now apply Rmin_pos|]. intros i Hi.
      pose proof (Rmin_l t u). pose proof (Rmin_r t u). pose proof (Rabs_pos (y i)).
      destruct (Nat.eq_dec i m) as [->|].
      - assert (Rmin t u * Rabs (y m) <= u * Rabs (y m)) by (apply Rmult_le_compat_r; auto). lra.
      - assert (Rmin t u * Rabs (y i) <= t * Rabs (y i)) by (apply Rmult_le_compat_r; auto).
        destruct (B i ltac:(lia)). lra. }
    exact (K n (le_n n)). }
  destruct T as (t & Ht & B). exists t. split; [auto|]. split.
  { intros i Hi. destruct (B i Hi) as [B1 B2]. split; auto. specialize (Hphi i Hi). nra. }
  assert (Y : forall i, (i < n)%nat -> - (d * phi i) <= t * y i <= d * phi i).
  { intros i Hi. destruct (B i Hi) as [B1 _]. apply Rabs_le_inv. rewrite Rabs_mult, (Rabs_right t) by lra. exact B1. }
  assert (G1 := gap_le (fun i => phi i + t * y i) d ltac:(lra) ltac:(lra) ltac:(intros i Hi; specialize (Y i Hi); lra)).
  assert (G2 := gap_le (fun i => phi i - t * y i) d ltac:(lra) ltac:(lra) ltac:(intros i Hi; specialize (Y i Hi); lra)).
  cbv beta in G1, G2.
  assert (E1 : ent_form (fun i => phi i + t * y i - phi i) = t * t * S).
  { unfold S, ent_form. rewrite <- rsum_scal_l. apply rsum_ext. intros. unfold Rdiv. ring. }
  assert (E2 : ent_form (fun i => phi i - t * y i - phi i) = t * t * S).
  { unfold S, ent_form. rewrite <- rsum_scal_l. apply rsum_ext. intros. unfold Rdiv. ring. }
  assert (E3 : chi_form (fun i => phi i + t * y i - phi i) = t * t * chi_form y).
  { unfold chi_form. rewrite <- rsum_scal_l. apply rsum_ext. intros. rewrite <- rsum_scal_l. apply rsum_ext. intros. ring. }
  assert (E4 : chi_form (fun i => phi i - t * y i - phi i) = t * t * chi_form y).
  { unfold chi_form. rewrite <- rsum_scal_l. apply rsum_ext. intros. rewrite <- rsum_scal_l. apply rsum_ext. intros. ring. }
  rewrite E1, E3 in G1. rewrite E2, E4 in G2.
  assert (L : rsum n (fun i => (phi i + t * y i - phi i) * dfh n chi l phi i) + rsum n (fun i => (phi i - t * y i - phi i) * dfh n chi l phi i) = 0).
  { rewrite <- rsum_plus. apply rsum_zero. intros. ring. }
  assert (N : t * t * S / (1 - d) + t * t * chi_form y < 0).
  { replace (t * t * S / (1 - d) + t * t * chi_form y) with (t * t * (S / (1 - d) + chi_form y)) by (field; lra).
    assert (S / (1 - d) <= S + 2 * d * S).
    { apply Rmult_le_reg_r with (1 - d); [lra|]. unfold Rdiv. rewrite Rmult_assoc, Rinv_l by lra.
      assert (0 <= d * S * (1 - 2 * d)) by (apply Rmult_le_pos; [apply Rmult_le_pos|]; lra). nra. }
    assert (S / (1 - d) + chi_form y < 0) by (unfold H in *; nra).
    assert (0 < t * t) by (apply Rmult_lt_0_compat; auto). nra. }
  lra.
Qed.

(** positive curvature raises the energy of every small deviation above the
    tangent plane *)
Lemma positive_curvature lam (P : vec -> Prop) : 0 < lam -> 
  (forall y, P y -> lam * rsum n (fun i => y i * y i) <= ent_form y + chi_form y) ->
  exists eps, 0 < eps /\ forall psi, (forall i, (i < n)%nat -> 0 <= psi i) -> P (fun i => psi i - phi i) ->
    (forall i, (i < n)%nat -> Rabs (psi i - phi i) <= eps) ->
    lam / 4 * rsum n (fun i => (psi i - phi i) * (psi i - phi i))
    <= fh n chi l psi - fh n chi l phi - rsum n (fun i => (psi i - phi i) * dfh n chi l phi i).
Proof using Hl Hphi Hsym.
  intros Hlam HC.
  assert (M : exists p b, 0 < p /\ 0 < b /\ forall i, (i < n)%nat -> p <= phi i /\ / (l i * phi i) <= b).
  { assert (K : forall m, (m <= n)%nat -> exists p b, 0 < p /\ 0 < b /\ forall i, (i < m)%nat -> p <= phi i /\ / (l i * phi i) <= b).
    { induction m as [|m IH]; intros Hm; [exists 1, 1; repeat split; try lra; lia|].
      destruct (IH ltac:(lia)) as (p & b & Hp & Hb & B). exists (Rmin p (phi m)), (Rmax b (/ (l m * phi m))).
      split; [apply Rmin_pos; auto; apply Hphi; lia|]. split; [apply Rlt_le_trans with b; auto; apply Rmax_l|].
      intros i Hi. pose proof (Rmin_l p (phi m)). pose proof (Rmin_r p (phi m)).
      pose proof (Rmax_l b (/ (l m * phi m))). pose proof (Rmax_r b (/ (l m * phi m))).
      destruct (Nat.eq_dec i m) as [->|]; [lra|]. destruct (B i ltac:(lia)). lra. }
    exact (K n (le_n n)). }
  destruct M as (p & b & Hp & Hb & B).
  set (d := lam / (2 * b)). assert (Hd : 0 < d) by (apply Rdiv_lt_0_compat; lra).
  exists (d * p). split; [now apply Rmult_lt_0_compat|]. intros psi H0 HP HE.
  set (y := fun i => psi i - phi i) in *.
  assert (H1 : forall i, (i < n)%nat -> psi i <= (1 + d) * phi i).
  { intros i Hi. specialize (HE i Hi). apply Rabs_le_inv in HE. unfold y in HE. destruct (B i Hi). nra. }
  pose proof (gap_ge psi d ltac:(lra) H0 H1) as G. fold y in G.
  eapply Rle_trans; [|exact G]. specialize (HC y HP).
  assert (S1 : ent_form y <= b * rsum n (fun i => y i * y i)).
  { unfold ent_form. rewrite <- rsum_scal_l. apply rsum_le. intros i Hi. destruct (B i Hi) as [_ B2]. unfold Rdiv.
    rewrite Rmult_comm. apply Rmult_le_compat_r; [apply Rle_0_sqr|exact B2]. }
  assert (S0 : 0 <= ent_form y).
  { apply rsum_nonneg. intros i Hi. apply Rmult_le_pos; [apply Rle_0_sqr|]. left. apply Rinv_0_lt_compat.
    apply Rmult_lt_0_compat; auto. }
  assert (S2 : ent_form y - d * ent_form y <= ent_form y / (1 + d)).
  { apply Rmult_le_reg_r with (1 + d); [lra|]. unfold Rdiv. rewrite Rmult_assoc, Rinv_l by lra.
    assert (0 <= d * d * ent_form y) by (apply Rmult_le_pos; [apply Rmult_le_pos|]; lra). nra. }
  assert (S3 : d * ent_form y <= lam / 2 * rsum n (fun i => y i * y i)).
  { replace (lam / 2 * rsum n (fun i => y i * y i)) with (d * (b * rsum n (fun i => y i * y i))) by (unfold d; field; lra).
    apply Rmult_le_compat_l; lra. }
  change (rsum n (fun i => (psi i - phi i) * (psi i - phi i))) with (rsum n (fun i => y i * y i)). lra.
Qed.
End Plane.

(* ------------------------------------------------------------------ *)
(** * Positive eigenvalues *)

Lemma rsum_delta n i : (i < n)%nat -> rsum n (fun j => if Nat.eqb i j then 1 else 0) = 1.
Proof.
  intros Hi. rewrite (rsum_single n _ i Hi).
  - now rewrite Nat.eqb_refl.
  - intros j _ Hne. destruct (Nat.eqb_spec i j); [congruence|reflexivity].
Qed.

(** [n] orthonormal vectors of length [n] are complete *)
Lemma complete n (V : mat) :
  (forall k k', (k < n)%nat -> (k' < n)%nat -> rsum n (fun i => V i k * V i k') = if Nat.eqb k k' then 1 else 0) ->
  forall i j, (i < n)%nat -> (j < n)%nat -> rsum n (fun k => V i k * V j k) = if Nat.eqb i j then 1 else 0.
Proof.
  intros HO. set (P := fun i j => rsum n (fun k => V i k * V j k)).
  set (D := fun i j => (if Nat.eqb i j then 1 else 0) - P i j).
  assert (T1 : rsum n (fun i => P i i) = INR n).
  { unfold P. rewrite rsum_swap. rewrite (rsum_ext n _ (fun _ => 1)); [rewrite rsum_const; ring|].
    intros k Hk. rewrite HO by auto. now rewrite Nat.eqb_refl. }
  assert (T2 : rsum n (fun i => rsum n (fun j => P i j * P i j)) = INR n).
  { rewrite (rsum_ext n _ (fun i => rsum n (fun k => rsum n (fun k' => (V i k * V i k') * rsum n (fun j => V j k * V j k'))))).
    - rewrite (rsum_swap n n (fun i k => rsum n (fun k' => (V i k * V i k') * rsum n (fun j => V j k * V j k')))).
      rewrite (rsum_ext n _ (fun _ => 1)); [rewrite rsum_const; ring|]. intros k Hk.
      rewrite (rsum_swap n n (fun i k' => (V i k * V i k') * rsum n (fun j => V j k * V j k'))).
      rewrite <- (rsum_delta n k Hk). apply rsum_ext. intros k' Hk'. rewrite rsum_scal_r, HO by auto.
      destruct (Nat.eqb k k'); ring.
    - intros i Hi. unfold P.
      rewrite (rsum_ext n (fun j => rsum n (fun k => V i k * V j k) * rsum n (fun k => V i k * V j k))
        (fun j => rsum n (fun k => rsum n (fun k' => (V i k * V i k') * (V j k * V j k'))))).
      + rewrite (rsum_swap n n (fun j k => rsum n (fun k' => (V i k * V i k') * (V j k * V j k')))).
        apply rsum_ext. intros k Hk. rewrite (rsum_swap n n (fun j k' => (V i k * V i k') * (V j k * V j k'))).
        apply rsum_ext. intros k' Hk'. now rewrite rsum_scal_l.
      + intros j Hj. rewrite <- rsum_scal_r. apply rsum_ext. intros k Hk. rewrite <- rsum_scal_l. apply rsum_ext. intros; ring. }
  assert (T3 : rsum n (fun i => rsum n (fun j => D i j * D i j)) = 0).
  { rewrite (rsum_ext n _ (fun i => (1 - 2 * P i i) + rsum n (fun j => P i j * P i j))).
    - rewrite rsum_plus, rsum_minus, rsum_scal_l, rsum_const, T1, T2. ring.
    - intros i Hi. unfold D.
      rewrite (rsum_ext n _ (fun j => (if Nat.eqb i j then 1 else 0) - (if Nat.eqb i j then 2 * P i i else 0) + P i j * P i j)).
      + rewrite rsum_plus, rsum_minus, rsum_delta by auto. f_equal. f_equal.
        rewrite (rsum_single n _ i Hi); [now rewrite Nat.eqb_refl|].
        intros j _ Hne. destruct (Nat.eqb_spec i j); [congruence|reflexivity].
      + intros j Hj. destruct (Nat.eqb_spec i j) as [->|]; ring. }
  intros i j Hi Hj. change (P i j = if Nat.eqb i j then 1 else 0).
  assert (Z : forall i, (i < n)%nat -> forall j, (j < n)%nat -> D i j = 0).
  { assert (Z1 : forall i, (i < n)%nat -> rsum n (fun j => D i j * D i j) = 0).
    { intros a Ha. assert (N : forall a, (a < n)%nat -> 0 <= rsum n (fun j => D a j * D a j)) by (intros; apply rsum_nonneg; intros; apply Rle_0_sqr).
      pose proof (N a Ha). rewrite (rsum_remove n _ a Ha) in T3.
      assert (0 <= rsum n (fun j => if Nat.eqb j a then 0 else rsum n (fun j0 => D j j0 * D j j0))).
      { apply rsum_nonneg. intros b Hb. destruct (Nat.eqb b a); [lra|auto]. }
      lra. }
    intros a Ha. apply rsum_sq_zero. auto. }
  specialize (Z i Hi j Hj). unfold D in Z. lra.
Qed.

Definition mat_form (n : nat) (A : mat) (y : vec) : R := rsum n (fun i => rsum n (fun j => A i j * y i * y j)).

Lemma eigen_lower n A l : eigen_result n A l -> (forall x, In x l -> exists r, 0 < r /\ x = Fin r) ->
  exists lam, 0 < lam /\ forall y, lam * rsum n (fun i => y i * y i) <= mat_form n A y.
Proof.
  intros (ev & V & -> & HA & HO) HP.
  assert (EP : forall k, (k < n)%nat -> 0 < ev k).
  { intros k Hk. destruct (HP (Fin (ev k))) as (r & Hr & E); [|injection E as ->; auto].
    unfold listed. apply in_map_iff. exists k. split; auto. apply in_seq. lia. }
  assert (L : exists lam, 0 < lam /\ forall k, (k < n)%nat -> lam <= ev k).
  { destruct n as [|n]; [exists 1; split; [lra|lia]|]. exists (vmin (S n) ev). split.
    - destruct (vmin_in (S n) ev ltac:(lia)) as (k & Hk & ->). auto.
    - intros k Hk. now apply vmin_le. }
  destruct L as (lam & Hlam & HL). exists lam. split; auto. intros y.
  set (c := fun k => rsum n (fun i => V i k * y i)).
  assert (Q : mat_form n A y = rsum n (fun k => ev k * (c k * c k))).
  { unfold mat_form, c.
    rewrite (rsum_ext n (fun i => rsum n (fun j => A i j * y i * y j))
       (fun i => rsum n (fun k => rsum n (fun j => ev k * (V i k * y i) * (V j k * y j))))).
    - rewrite (rsum_swap n n (fun i k => rsum n (fun j => ev k * (V i k * y i) * (V j k * y j)))). apply rsum_ext. intros k Hk.
      rewrite (rsum_ext n _ (fun i => (V i k * y i) * (ev k * rsum n (fun j => V j k * y j)))).
      + rewrite rsum_scal_r. ring.
      + intros i Hi. rewrite rsum_scal_l. ring.
    - intros i Hi. rewrite (rsum_swap n n (fun k j => ev k * (V i k * y i) * (V j k * y j))). apply rsum_ext. intros j Hj.
      rewrite (HA i j Hi Hj). rewrite Rmult_assoc, <- rsum_scal_r. apply rsum_ext. intros. ring. }
  assert (C : rsum n (fun k => c k * c k) = rsum n (fun i => y i * y i)).
  { unfold c. rewrite (rsum_ext n _ (fun k => rsum n (fun i => rsum n (fun j => (V i k * V j k) * (y i * y j))))).
    - rewrite (rsum_swap n n (fun k i => rsum n (fun j => (V i k * V j k) * (y i * y j)))). apply rsum_ext. intros i Hi.
      rewrite (rsum_swap n n (fun k j => (V i k * V j k) * (y i * y j))).
      rewrite (rsum_single n _ i Hi).
      + rewrite rsum_scal_r, (complete n V HO i i Hi Hi), Nat.eqb_refl. ring.
      + intros j Hj Hne. rewrite rsum_scal_r, (complete n V HO i j Hi Hj). destruct (Nat.eqb_spec i j); [congruence|ring].
    - intros k Hk. rewrite <- rsum_scal_r. apply rsum_ext. intros i Hi. rewrite <- rsum_scal_l. apply rsum_ext. intros; ring. }
  rewrite Q, <- C, <- rsum_scal_l. apply rsum_le. intros k Hk. apply Rmult_le_compat_r; [apply Rle_0_sqr|auto].
Qed.

Lemma square_sum n (f : vec) : rsum n f * rsum n f <= INR n * rsum n (fun i => f i * f i).
Proof.
  induction n as [|n IH]; [cbn; lra|]. rewrite S_INR. cbn [rsum]. set (s := rsum n f) in *. set (q := rsum n (fun i => f i * f i)) in *.
  assert (N : 0 <= INR n) by apply pos_INR.
  (* 2 s x <= q + n x^2 *)
  assert (K : 2 * s * f n <= q + INR n * (f n * f n)).
  { destruct n as [|n0]; [cbn in *; unfold s, q; lra|].
    assert (0 < INR (S n0)) by (apply lt_0_INR; lia). set (N' := INR (S n0)) in *.
    apply Rmult_le_reg_l with N'; auto.
    assert (0 <= (s - N' * f (S n0)) * (s - N' * f (S n0))) by apply Rle_0_sqr. nra. }
  nra.
Qed.

(** curvature of the code's Hessian in all allowed directions *)
Lemma strict_spec eigvalsh F phi (conserved : bool) : length phi = fe_nc F -> Forall (fun x => 0 < x) phi ->
  (conserved = true -> (0 < fe_nc F)%nat) ->
  (let k := if conserved then Some O else None in
   let n := if conserved then (fe_nc F - 1)%nat else fe_nc F in
   eig_ok eigvalsh n (hessian_rows F k (entries phi)) /\
   forall x, In x (eigvalsh (hessian_rows F k (entries phi))) -> exists r, 0 < r /\ x = Fin r) ->
  exists lam, 0 < lam /\ forall y, (conserved = true -> rsum (fe_nc F) y = 0) ->
    lam * rsum (fe_nc F) (fun i => y i * y i) <= mat_form (fe_nc F) (full_h F (entries phi)) y.
Proof.
  intros HL HP Hn (HE & HX). set (n := fe_nc F) in *.
  assert (Hpos : forall i, (i < n)%nat -> entries phi i <> 0).
  { intros i Hi. assert (0 < entries phi i); [|lra]. apply positive_entries; auto; lia. }
  destruct HE as (A & EA & ER). destruct (eigen_lower _ A _ ER HX) as (lam & Hlam & HQ).
  destruct conserved; cbn zeta in *.
  - specialize (Hn eq_refl). rewrite reduced_rows in EA by auto. fold n in EA.
    assert (AB : forall i j, (i < n - 1)%nat -> (j < n - 1)%nat -> A i j = 
       full_h F (entries phi) (skip 0 i) (skip 0 j) - full_h F (entries phi) 0 (skip 0 j) - full_h F (entries phi) (skip 0 i) 0 + full_h F (entries phi) 0 0).
    { intros i j Hi Hj. apply (f_equal (fun m => entry m i j)) in EA. unfold real_matrix in EA.
      rewrite !entry_listed in EA by auto. injection EA as EA. symmetry. exact EA. }
    assert (Nn : 0 < INR n) by (now apply lt_0_INR).
    exists (lam / INR n). split; [now apply Rdiv_lt_0_compat|]. intros y Hy. specialize (Hy eq_refl).
    unfold mat_form. rewrite (quad_reduced n 0 (full_h F (entries phi)) y Hn Hy).
    specialize (HQ (fun a => y (skip 0 a))). unfold mat_form in HQ.
    rewrite (rsum_ext (n - 1) (fun i => rsum (n - 1) (fun j => A i j * y (skip 0 i) * y (skip 0 j)))
      (fun i => rsum (n - 1) (fun j => (full_h F (entries phi) (skip 0 i) (skip 0 j) - full_h F (entries phi) 0 (skip 0 j)
         - full_h F (entries phi) (skip 0 i) 0 + full_h F (entries phi) 0 0) * y (skip 0 i) * y (skip 0 j)))) in HQ.
    2:{ intros i Hi. apply rsum_ext. intros j Hj. now rewrite AB. }
    eapply Rle_trans; [|exact HQ].
    rewrite (rsum_skip n 0 (fun i => y i * y i) Hn). cbv beta.
    set (q := rsum (n - 1) (fun i => y (skip 0 i) * y (skip 0 i))).
    pose proof (square_sum (n - 1) (fun i => y (skip 0 i))) as SQ. cbv beta in SQ. fold q in SQ.
    rewrite (rsum_skip n 0 y Hn) in Hy.
    assert (Y0 : y 0%nat * y 0%nat <= INR (n - 1) * q).
    { replace (y 0%nat) with (- rsum (n - 1) (fun i => y (skip 0 i))) by lra. lra. }
    rewrite minus_INR in Y0 by lia. change (INR 1) with 1 in Y0.
    apply Rle_trans with (lam / INR n * (INR n * q)); [apply Rmult_le_compat_l; [left; now apply Rdiv_lt_0_compat|lra]|].
    right. field. lra.
  - exists lam. split; auto. intros y _. rewrite full_rows in EA by auto. fold n in EA.
    specialize (HQ y). unfold mat_form in *. eapply Rle_trans; [exact HQ|]. right.
    apply rsum_ext. intros i Hi. apply rsum_ext. intros j Hj. f_equal. f_equal.
    apply (f_equal (fun m => entry m i j)) in EA. unfold real_matrix in EA.
    rewrite !entry_listed in EA by auto. injection EA as EA. symmetry. exact EA.
Qed.

Lemma full_form F phi y : mat_form (fe_nc F) (full_h F phi) y
  = rsum (fe_nc F) (fun i => fe_sizes F i / phi i * (y i * y i)) + chi_form (fe_nc F) (fe_chis F) y.
Proof.
  unfold mat_form, chi_form. rewrite <- rsum_plus. apply rsum_ext. intros i Hi. unfold full_h.
  rewrite (rsum_ext _ (fun j => (fe_chis F i j + (if Nat.eqb i j then fe_sizes F i / phi i else 0)) * y i * y j)
              (fun j => unit_vec i j * (fe_sizes F i / phi i * (y i * y j)) + fe_chis F i j * y i * y j)).
  - rewrite rsum_plus, rsum_unit by auto. reflexivity.
  - intros j Hj. unfold unit_vec. rewrite (Nat.eqb_sym j i). destruct (Nat.eqb i j); unfold Rdiv; ring.
Qed.

(* ------------------------------------------------------------------ *)
(** * C80 *)

Lemma reported_value F psi : wf_fe F -> length psi = fe_nc F -> Forall (fun x => 0 <= x) psi ->
  reported F psi (fh (fe_nc F) (fe_chis F) (fe_sizes F) (entries psi)).
Proof.
  intros WF HL HN. destruct (C41_value F (One psi) WF I HL) as (o & E & B); [repeat constructor; auto|].
  destruct o as [x|x]; [|contradiction]. cbn in B. subst x. exact E.
Qed.

Lemma lsum_entries phi : lsum phi (fun x => x) = rsum (length phi) (entries phi).
Proof.
  induction phi as [|x phi IH]; [reflexivity|]. cbn [length]. rewrite rsum_S_first. cbn [lsum]. rewrite IH. reflexivity.
Qed.

Lemma fh_ext n chi l a b : (forall i, (i < n)%nat -> a i = b i) -> fh n chi l a = fh n chi l b.
Proof.
  intros H. unfold fh. f_equal; [apply rsum_ext; intros; now rewrite H by auto|]. f_equal. apply rsum_ext. intros i Hi.
  apply rsum_ext. intros j Hj. now rewrite (H i), (H j) by auto.
Qed.

(** moving by [y] *)
Definition moved (phi : list R) (t : R) (y : vec) : list R := listed (length phi) (fun i => nth i phi 0 + t * y i).

Lemma moved_entries phi t y i : (i < length phi)%nat -> entries (moved phi t y) i = entries phi i + t * y i.
Proof. intros H. unfold moved, entries. now rewrite listed_nth. Qed.

Lemma split_pair conserved phi y t eps : 
  (forall i, (i < length phi)%nat -> t * Rabs (y i) <= 1 / 2 * entries phi i /\ t * Rabs (y i) <= eps) -> 0 < t ->
  Forall (fun x => 0 < x) phi -> (conserved = true -> rsum (length phi) y = 0) ->
  split_of conserved phi eps [(1 / 2, moved phi t y); (1 / 2, moved phi (- t) y)] /\
  Forall (fun x => 0 < x) (moved phi t y) /\ Forall (fun x => 0 < x) (moved phi (- t) y).
Proof.
  intros HB Ht HP HC.
  assert (B : forall i, (i < length phi)%nat -> 0 < entries phi i /\ Rabs (t * y i) <= 1 / 2 * entries phi i /\ Rabs (t * y i) <= eps).
  { intros i Hi. rewrite Rabs_mult, (Rabs_right t) by lra. split; [now apply positive_entries|auto]. }
  assert (PP : Forall (fun x => 0 < x) (moved phi t y) /\ Forall (fun x => 0 < x) (moved phi (- t) y)).
  { split; apply Forall_forall; intros x Hx; unfold moved, listed in Hx; apply in_map_iff in Hx; destruct Hx as (i & <- & Hi);
      apply in_seq in Hi; destruct (B i ltac:(lia)) as (B0 & B1 & _); apply Rabs_le_inv in B1; unfold entries in *; lra. }
  split; [|exact PP]. destruct PP as [P1 P2].
  assert (N : forall l, Forall (fun x => 0 < x) l -> Forall (fun x => 0 <= x) l) by (intros l; apply Forall_impl; intros; lra).
  split.
  - repeat constructor; cbn; lra.
  - cbn. lra.
  - repeat constructor; cbn; unfold moved; apply listed_length.
  - repeat constructor; cbn; auto.
  - constructor; [|constructor; [|constructor]]; cbn; intros i Hi; destruct (B i Hi) as (_ & _ & B2).
    + change (Rabs (entries (moved phi t y) i - entries phi i) <= eps). rewrite moved_entries by auto.
      replace (entries phi i + t * y i - entries phi i) with (t * y i) by ring. exact B2.
    + change (Rabs (entries (moved phi (- t) y) i - entries phi i) <= eps). rewrite moved_entries by auto.
      replace (entries phi i + - t * y i - entries phi i) with (- (t * y i)) by ring. rewrite Rabs_Ropp. exact B2.
  - intros E. specialize (HC E). constructor; [|constructor; [|constructor]]; cbn; rewrite !lsum_entries; unfold moved at 1; rewrite listed_length;
      rewrite (rsum_ext _ _ _ (fun i Hi => moved_entries phi _ y i Hi)), rsum_plus, rsum_scal_l, HC; 
      change (rsum (length phi) (fun i => entries phi i)) with (rsum (length phi) (entries phi)); ring.
  - intros i Hi. cbn. change (nth i (moved phi t y) 0) with (entries (moved phi t y) i). change (nth i (moved phi (- t) y) 0) with (entries (moved phi (- t) y) i).
    rewrite !moved_entries by auto. change (nth i phi 0) with (entries phi i). field.
Qed.

(** a direction in which the true curvature is negative *)
Lemma demixes F phi (conserved : bool) y : wf_fe F -> length phi = fe_nc F -> Forall (fun x => 0 < x) phi ->
  (forall i, (i < fe_nc F)%nat -> 0 < fe_sizes F i) -> (conserved = true -> rsum (fe_nc F) y = 0) ->
  ent_form (fe_nc F) (fe_sizes F) (entries phi) y + chi_form (fe_nc F) (fe_chis F) y < 0 ->
  forall eps, 0 < eps -> exists psi psi' e e1 e2,
    split_of conserved phi eps [(1 / 2, psi); (1 / 2, psi')] /\
    Forall (fun x => 0 < x) psi /\ Forall (fun x => 0 < x) psi' /\
    reported F phi e /\ reported F psi e1 /\ reported F psi' e2 /\ 1 / 2 * e1 + 1 / 2 * e2 < e.
Proof.
  intros WF HL HP HS HC HN eps He.
  assert (Hpos : forall i, (i < fe_nc F)%nat -> 0 < entries phi i) by (intros i Hi; apply positive_entries; auto; lia).
  destruct (negative_direction (fe_nc F) (fe_chis F) (fe_sizes F) (entries phi) HS Hpos (proj2 WF) y eps He HN) as (t & Ht & B & LT).
  rewrite <- HL in B, HC. destruct (split_pair conserved phi y t eps B Ht HP HC) as (SP & P1 & P2).
  assert (N : forall l, Forall (fun x => 0 < x) l -> Forall (fun x => 0 <= x) l) by (intros l; apply Forall_impl; intros; lra).
  eexists _, _, _, _, _. split; [exact SP|]. split; [auto|]. split; [auto|].
  split; [apply reported_value; auto|]. split; [apply reported_value; auto; unfold moved; now rewrite listed_length|].
  split; [apply reported_value; auto; unfold moved; now rewrite listed_length|].
  rewrite (fh_ext _ _ _ (entries (moved phi t y)) (fun i => entries phi i + t * y i)) by (intros; apply moved_entries; lia).
  rewrite (fh_ext _ _ _ (entries (moved phi (- t) y)) (fun i => entries phi i - t * y i)).
  2:{ intros. rewrite moved_entries by lia. ring. }
  lra.
Qed.

(** "Unstable" can be trusted for all molecules of size at least one: phases
    arbitrarily close to the mixture have, together, a lower free energy. *)
Theorem C80_unstable eigvalsh F phi (conserved : bool) : wf_fe F -> length phi = fe_nc F -> Forall (fun x => 0 < x) phi ->
  (0 < fe_nc F)%nat -> (forall i, (i < fe_nc F)%nat -> 1 <= fe_sizes F i) ->
  (let k := if conserved then Some O else None in
   let n := if conserved then (fe_nc F - 1)%nat else fe_nc F in
   eig_ok eigvalsh n (hessian_rows F k (entries phi))) ->
  is_stable eigvalsh F (One phi) conserved = Ok (Single false) ->
  forall eps, 0 < eps -> exists psi psi' e e1 e2,
    split_of conserved phi eps [(1 / 2, psi); (1 / 2, psi')] /\
    Forall (fun x => 0 < x) psi /\ Forall (fun x => 0 < x) psi' /\
    reported F phi e /\ reported F psi e1 /\ reported F psi' e2 /\ 1 / 2 * e1 + 1 / 2 * e2 < e.
Proof.
  intros WF HL HP Hn H1 HE HF. destruct (stable_spec eigvalsh F phi conserved WF HL HP (fun _ => Hn) HE) as (b & E & HB).
  rewrite HF in E. injection E as <-.
  assert (X : ~ forall y, (conserved = true -> rsum (fe_nc F) y = 0) -> 0 <= mat_form (fe_nc F) (full_h F (entries phi)) y).
  { intros K. assert (false = true) by (apply HB; exact K). discriminate. }
  apply not_all_ex_not in X. destruct X as (y & X). apply imply_to_and in X. destruct X as (HC & X).
  apply Rnot_le_lt in X. rewrite full_form in X.
  assert (Hpos : forall i, (i < fe_nc F)%nat -> 0 < entries phi i) by (intros i Hi; apply positive_entries; auto; lia).
  apply (demixes F phi conserved y); auto.
  - intros i Hi. specialize (H1 i Hi). lra.
  - eapply Rle_lt_trans; [|exact X]. apply Rplus_le_compat_r. unfold ent_form. apply rsum_le. intros i Hi.
    specialize (H1 i Hi). specialize (Hpos i Hi). set (p := entries phi i) in *. set (s := fe_sizes F i) in *.
    replace (y i * y i / (s * p)) with (/ s / p * (y i * y i)) by (field; lra).
    apply Rmult_le_compat_r; [apply Rle_0_sqr|]. apply Rmult_le_compat_r; [left; now apply Rinv_0_lt_compat|].
    apply Rle_trans with 1; [|lra]. rewrite <- Rinv_1. apply Rinv_le_contravar; lra.
Qed.

Lemma lsum_le {A} (l : list A) f g : (forall a, In a l -> f a <= g a) -> lsum l f <= lsum l g.
Proof.
  induction l as [|a l IH]; intros H; cbn; [lra|]. pose proof (H a (or_introl eq_refl)).
  specialize (IH (fun b Hb => H b (or_intror Hb))). lra.
Qed.

Lemma lsum_zero_each {A} (l : list A) f : (forall a, In a l -> 0 <= f a) -> lsum l f = 0 -> forall a, In a l -> f a = 0.
Proof.
  induction l as [|b l IH]; intros HN H a Ha; [contradiction|]. cbn in H.
  assert (0 <= lsum l f) by (rewrite <- (lsum_zero l (fun _ => 0)) by auto; apply lsum_le; intros; apply HN; now right).
  pose proof (HN b (or_introl eq_refl)). destruct Ha as [<-|Ha]; [lra|]. apply IH; auto; [intros; apply HN; now right|lra].
Qed.

Lemma lsum_rsum_swap {A} (l : list A) n (f : A -> nat -> R) : lsum l (fun a => rsum n (f a)) = rsum n (fun i => lsum l (fun a => f a i)).
Proof. induction l as [|a l IH]; cbn; [symmetry; now apply rsum_zero|]. now rewrite IH, rsum_plus. Qed.

Lemma lsum_combine {A} (l : list A) (g : A -> R) (w : A -> R) : 
  lsum (combine l (map g l)) (fun p => w (fst p) * snd p) = lsum l (fun a => w a * g a).
Proof. induction l as [|a l IH]; cbn; [reflexivity|]. now rewrite IH. Qed.

(** "Stable" with strictly positive eigenvalues can be trusted for sizes up to
    one: no arrangement of phases close to the mixture has a lower energy, and
    only the mixture itself has the same. *)
Theorem C80_stable eigvalsh F phi (conserved : bool) : wf_fe F -> length phi = fe_nc F -> Forall (fun x => 0 < x) phi ->
  (0 < fe_nc F)%nat -> (forall i, (i < fe_nc F)%nat -> 0 < fe_sizes F i <= 1) ->
  (let k := if conserved then Some O else None in
   let n := if conserved then (fe_nc F - 1)%nat else fe_nc F in
   eig_ok eigvalsh n (hessian_rows F k (entries phi)) /\
   forall x, In x (eigvalsh (hessian_rows F k (entries phi))) -> exists r, 0 < r /\ x = Fin r) ->
  exists eps e, 0 < eps /\ reported F phi e /\ forall s, split_of conserved phi eps s ->
    exists es, Forall2 (fun wp e' => reported F (snd wp) e') s es /\
      e <= lsum (combine s es) (fun p => fst (fst p) * snd p) /\
      (e = lsum (combine s es) (fun p => fst (fst p) * snd p) -> Forall (fun wp => snd wp = phi) s).
Proof.
  intros WF HL HP Hn HS HE. set (n := fe_nc F) in *.
  destruct (strict_spec eigvalsh F phi conserved HL HP (fun _ => Hn) HE) as (lam & Hlam & HC). fold n in HC.
  assert (Hpos : forall i, (i < n)%nat -> 0 < entries phi i) by (intros i Hi; apply positive_entries; auto; lia).
  assert (Hl : forall i, (i < n)%nat -> 0 < fe_sizes F i) by (intros i Hi; apply (HS i Hi)).
  destruct (positive_curvature n (fe_chis F) (fe_sizes F) (entries phi) Hl Hpos (proj2 WF) lam
    (fun y => conserved = true -> rsum n y = 0) Hlam) as (eps & He & G).
  { intros y Hy. eapply Rle_trans; [now apply HC|]. fold n. unfold n. rewrite full_form. fold n.
    apply Rplus_le_compat_r. unfold ent_form. apply rsum_le. intros i Hi.
    specialize (HS i Hi). specialize (Hpos i Hi). set (p := entries phi i) in *. set (s := fe_sizes F i) in *.
    replace (y i * y i / (s * p)) with (/ s / p * (y i * y i)) by (field; lra).
    apply Rmult_le_compat_r; [apply Rle_0_sqr|]. apply Rmult_le_compat_r; [left; now apply Rinv_0_lt_compat|].
    apply Rle_trans with 1; [lra|]. rewrite <- Rinv_1 at 1. apply Rinv_le_contravar; lra. }
  set (f := fun psi : list R => fh n (fe_chis F) (fe_sizes F) (entries psi)).
  exists eps, (f phi). split; auto. split.
  { apply reported_value; auto. eapply Forall_impl; [|exact HP]. intros; cbn in *; lra. }
  intros s SP. exists (map (fun wp => f (snd wp)) s). destruct SP as [W T L0 NN NE VO ME].
  rewrite Forall_forall in W, L0, NN, NE.
  split.
  { assert (K : forall wp, In wp s -> reported F (snd wp) (f (snd wp))).
    { intros wp Hw. apply reported_value; auto. rewrite L0; auto. }
    clear -K. induction s as [|wp s IH]; cbn; constructor; [apply K; now left|apply IH; intros; apply K; now right]. }
  rewrite (lsum_combine s (fun wp => f (snd wp)) fst).
  set (sq := fun psi : list R => rsum n (fun i => (entries psi i - entries phi i) * (entries psi i - entries phi i))).
  assert (GW : forall wp, In wp s -> lam / 4 * sq (snd wp) <= f (snd wp) - f phi - 
     rsum n (fun i => (entries (snd wp) i - entries phi i) * dfh n (fe_chis F) (fe_sizes F) (entries phi) i)).
  { intros wp Hw. apply G.
    - intros i Hi. specialize (NN wp Hw). rewrite Forall_forall in NN. apply NN. unfold entries. apply nth_In.
      rewrite L0 by auto. lia.
    - intros EC. specialize (VO EC). rewrite Forall_forall in VO. specialize (VO wp Hw). rewrite !lsum_entries in VO.
      rewrite (L0 wp Hw), HL in VO. fold n in VO. rewrite rsum_minus. 
      change (rsum n (fun i => entries (snd wp) i)) with (rsum n (entries (snd wp))). 
      change (rsum n (fun i => entries phi i)) with (rsum n (entries phi)). lra.
    - intros i Hi. apply (NE wp Hw). lia. }
  assert (LIN : lsum s (fun wp => fst wp * rsum n (fun i => (entries (snd wp) i - entries phi i) * dfh n (fe_chis F) (fe_sizes F) (entries phi) i)) = 0).
  { rewrite (lsum_ext s _ (fun wp => rsum n (fun i => fst wp * (entries (snd wp) i - entries phi i) * dfh n (fe_chis F) (fe_sizes F) (entries phi) i))).
    2:{ intros wp _. rewrite <- rsum_scal_l. apply rsum_ext. intros; ring. }
    rewrite lsum_rsum_swap. apply rsum_zero. intros i Hi. rewrite lsum_scal_r.
    rewrite (lsum_ext s _ (fun wp => fst wp * nth i (snd wp) 0 + fst wp * (- entries phi i))) by (intros; unfold entries; ring).
    rewrite lsum_plus, lsum_scal_r, ME by lia. unfold entries. replace (lsum s (fun a => fst a)) with (lsum s fst) by reflexivity. rewrite T. ring. }
  assert (TOT : lam / 4 * lsum s (fun wp => fst wp * sq (snd wp)) <= lsum s (fun wp => fst wp * f (snd wp)) - f phi).
  { apply Rle_trans with (lsum s (fun wp => fst wp * (f (snd wp) - f phi -
     rsum n (fun i => (entries (snd wp) i - entries phi i) * dfh n (fe_chis F) (fe_sizes F) (entries phi) i)))).
    - rewrite <- lsum_scal_l. apply lsum_le. intros wp Hw. specialize (GW wp Hw). specialize (W wp Hw).
      replace (lam / 4 * (fst wp * sq (snd wp))) with (fst wp * (lam / 4 * sq (snd wp))) by ring. apply Rmult_le_compat_l; [lra|exact GW].
    - right. rewrite (lsum_ext s _ (fun wp => fst wp * f (snd wp) + (fst wp * (- f phi) + (-1) *
        (fst wp * rsum n (fun i => (entries (snd wp) i - entries phi i) * dfh n (fe_chis F) (fe_sizes F) (entries phi) i))))) by (intros; ring).
      rewrite !lsum_plus, lsum_scal_l, LIN, lsum_scal_r. replace (lsum s (fun a => fst a)) with (lsum s fst) by reflexivity. rewrite T. ring. }
  assert (SQ : forall psi, 0 <= sq psi) by (intros; apply rsum_nonneg; intros; apply Rle_0_sqr).
  assert (NW : forall wp, In wp s -> 0 <= fst wp * sq (snd wp)).
  { intros wp Hw. apply Rmult_le_pos; [left; auto|auto]. }
  assert (N0 : 0 <= lsum s (fun wp => fst wp * sq (snd wp))).
  { rewrite <- (lsum_zero s (fun _ => 0)) by auto. now apply lsum_le. }
  split; [nra|]. intros E. assert (Z : lsum s (fun wp => fst wp * sq (snd wp)) = 0) by nra.
  apply Forall_forall. intros wp Hw. pose proof (lsum_zero_each s _ NW Z wp Hw) as Zw. cbv beta in Zw.
  specialize (W wp Hw). apply Rmult_integral in Zw. destruct Zw as [Zw|Zw]; [lra|].
  assert (Q : forall i, (i < n)%nat -> entries (snd wp) i = entries phi i).
  { intros i Hi. pose proof (rsum_sq_zero n (fun i => entries (snd wp) i - entries phi i) Zw i Hi). cbv beta in *. lra. }
  apply nth_ext with (d := 0) (d' := 0); [now apply L0|]. intros i Hi. rewrite L0 in Hi by auto. apply (Q i). lia.
Qed.

(* ------------------------------------------------------------------ *)
(** ** Where the verdict cannot be trusted *)

Lemma reduced_two_eig eigvalsh F phi r : fe_nc F = 2%nat -> (forall i, (i < 2)%nat -> entries phi i <> 0) ->
  eig_ok eigvalsh 1 (hessian_rows F (Some O) (entries phi)) ->
  full_h F (entries phi) 1 1 - full_h F (entries phi) 0 1 - full_h F (entries phi) 1 0 + full_h F (entries phi) 0 0 = r ->
  eigvalsh (hessian_rows F (Some O) (entries phi)) = [Fin r].
Proof.
  intros HN HP (A & EA & ER) Hr. destruct ER as (ev & V & EL & HA & HO). rewrite EL. unfold listed. cbn.
  rewrite reduced_rows in EA by (rewrite ?HN; auto). rewrite HN in EA. cbn in EA. unfold real_matrix, listed in EA. cbn in EA.
  injection EA as EA. specialize (HA 0%nat 0%nat ltac:(lia) ltac:(lia)). specialize (HO 0%nat 0%nat ltac:(lia) ltac:(lia)). cbn in HA, HO.
  do 2 f_equal. rewrite <- Hr. unfold skip in EA. cbn in EA. rewrite EA, HA, Rplus_0_l, Rmult_assoc. rewrite Rplus_0_l in HO. rewrite HO. ring.
Qed.

(** Sizes above one: a blend of two polymers of length 2 with chi = 2 at equal
    fractions has a positive eigenvalue, is reported stable and demixes with
    arbitrarily small amplitude. *)
Theorem C80_sizes_refuted (eigvalsh : list (list xr) -> list xr) (phi := [1 / 2; 1 / 2])
  (F := {| fe_nc := 2; fe_chis := fun i j => if Nat.eqb i j then 0 else 2; fe_sizes := fun _ => 2 |}) :
  eig_ok eigvalsh 1 (hessian_rows F (Some O) (entries phi)) ->
  is_stable eigvalsh F (One phi) true = Ok (Single true) /\
  eigvalsh (hessian_rows F (Some O) (entries phi)) = [Fin 4] /\
  forall eps, 0 < eps -> exists psi psi' e e1 e2,
    split_of true phi eps [(1 / 2, psi); (1 / 2, psi')] /\
    Forall (fun x => 0 < x) psi /\ Forall (fun x => 0 < x) psi' /\
    reported F phi e /\ reported F psi e1 /\ reported F psi' e2 /\ 1 / 2 * e1 + 1 / 2 * e2 < e.
Proof.
  intros HE.
  assert (WF : wf_fe F) by (split; cbn; [intros; lra|]; intros i j _ _; now rewrite Nat.eqb_sym).
  assert (HP : Forall (fun x => 0 < x) phi) by (repeat constructor; lra).
  split; [apply (C47_refuted eigvalsh HE)|]. split.
  - apply reduced_two_eig; auto.
    + intros i Hi. unfold entries, phi. destruct i as [|[|i]]; cbn; lra || lia.
    + unfold full_h, F, entries, phi. cbn. field.
  - apply (demixes F phi true (fun i => if Nat.eqb i 0 then 1 else -1)); auto.
    + cbn. intros; lra.
    + intros _. cbn. lra.
    + unfold ent_form, chi_form, F, entries, phi. cbn. lra.
Qed.

(** two components of unit size: the energy as a function of one fraction *)
Definition binary (c x : R) : R := x * ln x + (1 - x) * ln (1 - x) + c * (x * (1 - x)).
Definition binary_fe (c : R) : fe := {| fe_nc := 2; fe_chis := fun i j => if Nat.eqb i j then 0 else c; fe_sizes := fun _ => 1 |}.

Lemma binary_reported c x : 0 <= x <= 1 -> reported (binary_fe c) [x; 1 - x] (binary c x).
Proof.
  intros Hx. assert (WF : wf_fe (binary_fe c)) by (split; cbn; [intros; lra|]; intros i j _ _; now rewrite Nat.eqb_sym).
  pose proof (reported_value (binary_fe c) [x; 1 - x] WF eq_refl ltac:(constructor; [lra|constructor; [lra|constructor]])) as E.
  replace (binary c x) with (fh (fe_nc (binary_fe c)) (fe_chis (binary_fe c)) (fe_sizes (binary_fe c)) (entries [x; 1 - x])); auto.
  unfold fh, binary, entries. cbn. field.
Qed.

Lemma spinodal_split h : 0 < h <= 1 / 16 ->
  1 / 3 * binary (8 / 3) (1 / 4 + 2 * h) + 2 / 3 * binary (8 / 3) (1 / 4 - h) < binary (8 / 3) (1 / 4).
Proof.
  intros Hh.
  set (D := fun h => 1 / 3 * binary (8 / 3) (1 / 4 + 2 * h) + 2 / 3 * binary (8 / 3) (1 / 4 - h) - binary (8 / 3) (1 / 4)).
  set (f1 := fun x => ln x - ln (1 - x) + 8 / 3 * (1 - 2 * x)).
  set (E := fun h => f1 (1 / 4 + 2 * h) - f1 (1 / 4 - h)).
  set (E' := fun h => 2 * (/ (1 / 4 + 2 * h) + / (1 - (1 / 4 + 2 * h)) - 16 / 3) + (/ (1 / 4 - h) + / (1 - (1 / 4 - h)) - 16 / 3)).
  assert (E0 : E 0 = 0) by (unfold E; replace (1 / 4 + 2 * 0) with (1 / 4 - 0) by ring; ring).
  assert (D0 : D 0 = 0) by (unfold D; replace (1 / 4 + 2 * 0) with (1 / 4) by ring; replace (1 / 4 - 0) with (1 / 4) by ring; field).
  assert (NE' : forall c, 0 < c <= 1 / 16 -> E' c < 0).
  { intros c Hc. unfold E'.
    replace (2 * (/ (1 / 4 + 2 * c) + / (1 - (1 / 4 + 2 * c)) - 16 / 3) + (/ (1 / 4 - c) + / (1 - (1 / 4 - c)) - 16 / 3))
      with (- (c * (3 / 2 - 17 * c + 16 * c * c + 64 * c * c * c)) * / ((3 / 16 + c - 4 * c * c) * (3 / 16 - c / 2 - c * c))).
    - assert (0 < (3 / 16 + c - 4 * c * c) * (3 / 16 - c / 2 - c * c)) by (apply Rmult_lt_0_compat; nra).
      assert (0 < c * (3 / 2 - 17 * c + 16 * c * c + 64 * c * c * c)).
      { apply Rmult_lt_0_compat; [lra|]. assert (0 <= c * c) by nra. assert (0 <= c * c * c) by nra. lra. }
      pose proof (Rinv_0_lt_compat _ H). nra.
    - field. repeat split; nra. }
  assert (NE : forall h, 0 < h <= 1 / 16 -> E h < 0).
  { intros k Hk. destruct (MVT_cor2 E E' 0 k) as (c & Ec & Hc); [lra| |].
    - intros z Hz. apply is_derive_Reals. unfold E, E', f1. auto_derive; [repeat split; lra|]. field. repeat split; lra.
    - rewrite E0 in Ec. specialize (NE' c ltac:(lra)). nra. }
  assert (ND : D h < 0).
  { destruct (MVT_cor2 D (fun h => 2 / 3 * E h) 0 h) as (c & Ec & Hc); [lra| |].
    - intros z Hz. apply is_derive_Reals. unfold D, E, f1, binary. auto_derive; [repeat split; lra|]. unfold Rminus. field. repeat split; lra.
    - rewrite D0 in Ec. specialize (NE c ltac:(lra)). nra. }
  unfold D in ND. lra.
Qed.

(** A vanishing eigenvalue: a mixture on the spinodal is reported stable and
    demixes with arbitrarily small amplitude. *)
Theorem C80_marginal_refuted (eigvalsh : list (list xr) -> list xr) (F := binary_fe (8 / 3)) (phi := [1 / 4; 3 / 4]) :
  eig_ok eigvalsh 1 (hessian_rows F (Some O) (entries phi)) ->
  is_stable eigvalsh F (One phi) true = Ok (Single true) /\
  eigvalsh (hessian_rows F (Some O) (entries phi)) = [Fin 0] /\
  forall eps, 0 < eps -> exists psi psi' e e1 e2,
    split_of true phi eps [(1 / 3, psi); (2 / 3, psi')] /\
    reported F phi e /\ reported F psi e1 /\ reported F psi' e2 /\ 1 / 3 * e1 + 2 / 3 * e2 < e.
Proof.
  intros HE.
  assert (WF : wf_fe F) by (split; cbn; [intros; lra|]; intros i j _ _; now rewrite Nat.eqb_sym).
  assert (HP : Forall (fun x => 0 < x) phi) by (repeat constructor; lra).
  assert (HN : forall i, (i < 2)%nat -> entries phi i <> 0).
  { intros i Hi. unfold entries, phi. destruct i as [|[|i]]; cbn; lra || lia. }
  split; [|split].
  - destruct (stable_spec eigvalsh F phi true WF eq_refl HP (fun _ => Nat.lt_0_succ 1) HE) as (b & E & HB).
    rewrite E. do 2 f_equal. apply HB. intros y Hy. specialize (Hy eq_refl). cbn in Hy |- *. unfold full_h. cbn. unfold entries. cbn.
    replace (y 1%nat) with (- y 0%nat) by lra. right. field.
  - apply reduced_two_eig; auto. unfold full_h, F, entries, phi. cbn. field.
  - intros eps He. set (h := Rmin (1 / 16) (eps / 2)).
    assert (H0 : 0 < h) by (apply Rmin_pos; lra).
    assert (H1 : h <= 1 / 16) by apply Rmin_l. assert (H2 : h <= eps / 2) by apply Rmin_r.
    exists [1 / 4 + 2 * h; 1 - (1 / 4 + 2 * h)], [1 / 4 - h; 1 - (1 / 4 - h)],
      (binary (8 / 3) (1 / 4)), (binary (8 / 3) (1 / 4 + 2 * h)), (binary (8 / 3) (1 / 4 - h)).
    split; [|split; [|split; [|split]]].
    + split; cbn.
      * repeat constructor; cbn; lra.
      * lra.
      * repeat constructor.
      * constructor; [|constructor; [|constructor]]; cbn; (constructor; [lra|constructor; [lra|constructor]]).
      * constructor; [|constructor; [|constructor]]; cbn; intros [|[|i]] Hi; try lia; apply Rabs_le; lra.
      * intros _. constructor; [|constructor; [|constructor]]; cbn; lra.
      * intros [|[|i]] Hi; try lia; cbn; lra.
    + unfold phi. replace (3 / 4) with (1 - 1 / 4) by field. apply binary_reported. lra.
    + apply binary_reported. lra.
    + apply binary_reported. lra.
    + apply spinodal_split. lra.
Qed.
