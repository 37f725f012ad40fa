(** ProofsBinary.v -- the free energy of a binary mixture as a function of one
    fraction: its double tangents. *)

From Coquelicot Require Import Coquelicot.
From Coq Require Import Reals Lra Lia.
Open Scope R_scope.

Section Binary.
Variables (l0 l1 c00 c01 c11 : R).
Hypothesis (H0 : 0 < l0) (H1 : 0 < l1).

(** strength of the demixing interaction *)
Definition strength : R := 2 * c01 - c00 - c11.
(** energy of the composition [(p, 1 - p)] and its derivatives *)
Definition bf (p : R) : R :=
  p * ln p / l0 + (1 - p) * ln (1 - p) / l1 + (c00 * p * p + 2 * c01 * p * (1 - p) + c11 * (1 - p) * (1 - p)) / 2.
Definition bd (p : R) : R :=
  (ln p + 1) / l0 - (ln (1 - p) + 1) / l1 + c00 * p + c01 * (1 - 2 * p) - c11 * (1 - p).
Definition bs (p : R) : R := 1 / (l0 * p) + 1 / (l1 * (1 - p)) - strength.

Lemma bf_derive p : 0 < p < 1 -> is_derive bf p (bd p).
Proof using H0 H1.
  intros Hp. unfold bf, bd. auto_derive; [lra|]. change (1 + - p) with (1 - p). field. lra.
Qed.
Lemma bd_derive p : 0 < p < 1 -> is_derive bd p (bs p).
Proof using H0 H1.
  intros Hp. unfold bd, bs, strength. auto_derive; [lra|]. change (1 + - p) with (1 - p). field. lra.
Qed.

(** mean value theorem on the open unit interval *)
Lemma mvt (f g : R -> R) a b : (forall p, 0 < p < 1 -> is_derive f p (g p)) -> 0 < a -> a < b -> b < 1 ->
  exists c, a < c < b /\ f b - f a = g c * (b - a).
Proof.
  intros H A B C. destruct (MVT_cor2 f g a b B) as (c & E & Hc).
  - intros x Hx. apply is_derive_Reals. apply H. lra.
  - exists c. auto.
Qed.

(** same slope: the curvature vanishes in between *)
Lemma flat_between a b : 0 < a -> a < b -> b < 1 -> bd a = bd b -> exists s, a < s < b /\ bs s = 0.
Proof using H0 H1.
  intros A B C E. destruct (mvt bd bs a b bd_derive A B C) as (s & Hs & D). exists s. split; [exact Hs|].
  assert (bs s * (b - a) = 0) by lra. apply Rmult_integral in H. lra.
Qed.

(** [(p, 1 - p)] and [(r, 1 - r)] have a common tangent *)
Definition tangent (p r : R) : Prop := bd p = bd r /\ bf p - p * bd p = bf r - r * bd r.

Lemma tangent_flat a b : 0 < a -> a < b -> b < 1 -> tangent a b ->
  exists s u t, a < s < u /\ u < t < b /\ bs s = 0 /\ bs t = 0.
Proof using H0 H1.
  intros A B C (E1 & E2). destruct (mvt bf bd a b bf_derive A B C) as (u & Hu & D).
  assert (EU : bd u = bd a).
  { rewrite <- E1 in E2. assert ((bd u - bd a) * (b - a) = 0) by lra. apply Rmult_integral in H. lra. }
  destruct (flat_between a u) as (s & Hs & Es); try lra. destruct (flat_between u b) as (t & Ht & Et); try lra.
  exists s, u, t. repeat split; lra.
Qed.

(** zeros of the curvature are zeros of a quadratic polynomial *)
Lemma bs_quadratic p : 0 < p < 1 -> bs p * (l0 * l1 * p * (1 - p)) = l1 * (1 - p) + l0 * p - strength * l0 * l1 * p * (1 - p).
Proof using H0 H1. intros Hp. unfold bs. field. lra. Qed.

Lemma two_zeros s t : 0 < s -> s < t -> t < 1 -> bs s = 0 -> bs t = 0 ->
  let A := strength * l0 * l1 in
  A * s * t = l1 /\ A * (1 - s) * (1 - t) = l0 /\
  forall p, 0 < p < 1 -> bs p * (l0 * l1 * p * (1 - p)) = A * (p - s) * (p - t).
Proof using H0 H1.
  intros P S T Es Et A.
  pose proof (bs_quadratic s ltac:(lra)) as Qs. pose proof (bs_quadratic t ltac:(lra)) as Qt. rewrite Es, Rmult_0_l in Qs. rewrite Et, Rmult_0_l in Qt.
  fold A in Qs, Qt.
  set (al := l0 - l1 - A + A * (s + t)). set (be := l1 - A * s * t).
  assert (Ls : al * s + be = 0) by (unfold al, be; nra).
  assert (Lt : al * t + be = 0) by (unfold al, be; nra).
  assert (Ea : al = 0). { assert (al * (t - s) = 0) by lra. apply Rmult_integral in H. lra. }
  assert (Eb : be = 0) by (rewrite Ea in Ls; lra).
  split; [unfold be in Eb; lra|]. split.
  { unfold al in Ea. unfold be in Eb. nra. }
  intros p Hp. rewrite bs_quadratic by exact Hp. fold A.
  transitivity (A * (p - s) * (p - t) + al * p + be); [unfold al, be; ring|rewrite Ea, Eb; ring].
Qed.

Lemma strength_pos s t : 0 < s -> s < t -> t < 1 -> bs s = 0 -> bs t = 0 -> 0 < strength.
Proof using H0 H1.
  intros P S T Es Et. unfold bs in Es. assert (0 < 1 / (l0 * s)) by (apply Rdiv_lt_0_compat; nra).
  assert (0 < 1 / (l1 * (1 - s))) by (apply Rdiv_lt_0_compat; nra). lra.
Qed.

(** the value of the strength at the critical point *)
Definition critical : R := (1 / sqrt l0 + 1 / sqrt l1) * (1 / sqrt l0 + 1 / sqrt l1).

Lemma two_zeros_critical s t : 0 < s -> s < t -> t < 1 -> bs s = 0 -> bs t = 0 -> critical < strength.
Proof using H0 H1.
  intros P S T Es Et. destruct (two_zeros s t P S T Es Et) as (E1 & E2 & _). pose proof (strength_pos s t P S T Es Et) as X.
  assert (R0 : 0 < sqrt l0) by now apply sqrt_lt_R0. assert (R1 : 0 < sqrt l1) by now apply sqrt_lt_R0.
  assert (RX : 0 < sqrt strength) by now apply sqrt_lt_R0.
  pose proof (sqrt_sqrt l0 ltac:(lra)) as Q0. pose proof (sqrt_sqrt l1 ltac:(lra)) as Q1. pose proof (sqrt_sqrt strength ltac:(lra)) as QX.
  (* geometric means are below arithmetic means *)
  assert (G : forall a b c, 0 < a -> 0 < b -> a <> b -> 0 < c -> a * b = c * c -> 2 * c < a + b).
  { intros a b c Ha Hb N Hc E. assert (0 < (a - b) * (a - b)).
    { assert (a - b <> 0) by lra. destruct (Rdichotomy _ _ H); nra. }
    nra. }
  assert (B1 : 2 * (1 / (sqrt l0 * sqrt strength)) < s + t).
  { apply G; [lra|lra|lra|apply Rdiv_lt_0_compat; nra|].
    apply (Rmult_eq_reg_l (strength * l0)); [|nra]. apply (Rmult_eq_reg_l l1); [|lra].
    transitivity l1; [rewrite <- E1 at 2; ring|]. rewrite <- QX at 1. rewrite <- Q0 at 1. field. lra. }
  assert (B2 : 2 * (1 / (sqrt l1 * sqrt strength)) < (1 - s) + (1 - t)).
  { apply G; [lra|lra|lra|apply Rdiv_lt_0_compat; nra|].
    apply (Rmult_eq_reg_l (strength * l1)); [|nra]. apply (Rmult_eq_reg_l l0); [|lra].
    transitivity l0; [rewrite <- E2 at 2; ring|]. rewrite <- QX at 1. rewrite <- Q1 at 1. field. lra. }
  assert (B : (1 / sqrt l0 + 1 / sqrt l1) < sqrt strength).
  { apply (Rmult_lt_reg_r (1 / sqrt strength)); [apply Rdiv_lt_0_compat; lra|].
    replace ((1 / sqrt l0 + 1 / sqrt l1) * (1 / sqrt strength))
      with (1 / (sqrt l0 * sqrt strength) + 1 / (sqrt l1 * sqrt strength)) by (field; lra).
    replace (sqrt strength * (1 / sqrt strength)) with 1 by (field; lra). lra. }
  assert (P0 : 0 < 1 / sqrt l0 + 1 / sqrt l1).
  { apply Rplus_lt_0_compat; apply Rdiv_lt_0_compat; lra. }
  unfold critical. rewrite <- QX. nra.
Qed.

(** no double tangent up to the critical point *)
Lemma below_critical a b : 0 < a < 1 -> 0 < b < 1 -> strength <= critical -> tangent a b -> a = b.
Proof using H0 H1.
  intros A B X T.
  assert (W : forall a b, 0 < a < 1 -> 0 < b < 1 -> tangent a b -> ~ a < b).
  { clear a b A B T. intros a b A B T L. destruct (tangent_flat a b) as (s & u & t & Hs & Ht & Es & Et); try lra; auto.
    pose proof (two_zeros_critical s t). lra. }
  destruct (Rtotal_order a b) as [L|[E|L]]; [exfalso; now apply (W a b)|exact E|exfalso].
  apply (W b a); auto. destruct T; split; auto.
Qed.

(** no triple tangent *)
Lemma no_triple a b c : 0 < a -> a < b -> b < c -> c < 1 -> tangent a b -> tangent b c -> False.
Proof using H0 H1.
  intros A B C D T1 T2. destruct (tangent_flat a b) as (s & u & t & Hs & Ht & Es & Et); try lra; auto.
  destruct (tangent_flat b c) as (s' & u' & t' & Hs' & Ht' & Es' & Et'); try lra; auto.
  destruct (two_zeros s t) as (E1 & E2 & E3); try lra.
  pose proof (E3 s' ltac:(lra)) as Q. rewrite Es', Rmult_0_l in Q.
  assert (0 < strength) by (apply (strength_pos s t); lra).
  assert (0 < strength * l0 * l1) by (repeat apply Rmult_lt_0_compat; lra).
  assert (0 < strength * l0 * l1 * (s' - s) * (s' - t)) by (apply Rmult_lt_0_compat; [apply Rmult_lt_0_compat|]; lra). lra.
Qed.

(* ------------------------------------------------------------------ *)
(** * A double tangent supports the whole curve *)

Lemma bd_mono a b : 0 < a -> a <= b -> b < 1 -> (forall p, a < p < b -> 0 <= bs p) -> bd a <= bd b.
Proof using H0 H1.
  intros A B C S. destruct B as [B| ->]; [|lra]. destruct (mvt bd bs a b bd_derive A B C) as (s & Hs & D).
  specialize (S s Hs). nra.
Qed.

Lemma support_convex a x : 0 < a < 1 -> 0 < x < 1 -> (forall p, Rmin a x < p < Rmax a x -> 0 <= bs p) ->
  bf a + bd a * (x - a) <= bf x.
Proof using H0 H1.
  intros A B S. destruct (Rtotal_order a x) as [L|[->|L]].
  - rewrite Rmin_left, Rmax_right in S by lra. destruct (mvt bf bd a x bf_derive) as (u & Hu & D); try lra.
    assert (bd a <= bd u) by (apply bd_mono; try lra; intros; apply S; lra). nra.
  - lra.
  - rewrite Rmin_right, Rmax_left in S by lra. destruct (mvt bf bd x a bf_derive) as (u & Hu & D); try lra.
    assert (bd u <= bd a) by (apply bd_mono; try lra; intros; apply S; lra). nra.
Qed.

Lemma support a b : 0 < a -> a < b -> b < 1 -> tangent a b ->
  exists s t, a < s /\ s < t /\ t < b /\ bs s = 0 /\ bs t = 0 /\ forall x, 0 < x < 1 -> bf a + bd a * (x - a) <= bf x.
Proof using H0 H1.
  intros A B C T. destruct (tangent_flat a b) as (s & u & t & Hs & Ht & Es & Et); auto.
  exists s, t. split; [lra|]. split; [lra|]. split; [lra|]. split; [exact Es|]. split; [exact Et|].
  destruct (two_zeros s t) as (_ & _ & Q); try lra.
  assert (X : 0 < strength * l0 * l1).
  { assert (0 < strength) by (apply (strength_pos s t); lra). repeat apply Rmult_lt_0_compat; lra. }
  assert (SG : forall p, 0 < p < 1 -> (p <= s \/ t <= p -> 0 <= bs p) /\ (s <= p <= t -> bs p <= 0)).
  { intros p Hp. specialize (Q p Hp). assert (W : 0 < l0 * l1 * p * (1 - p)) by (repeat apply Rmult_lt_0_compat; lra). split; intros Hq.
    - assert (0 <= (p - s) * (p - t)) by (destruct Hq; nra). assert (0 <= strength * l0 * l1 * (p - s) * (p - t)) by nra. nra.
    - assert ((p - s) * (p - t) <= 0) by nra. assert (strength * l0 * l1 * (p - s) * (p - t) <= 0) by nra. nra. }
  assert (LOW : forall x, 0 < x <= s -> bf a + bd a * (x - a) <= bf x).
  { intros x Hx. apply support_convex; try lra. intros p Hp. apply SG.
    - split; [eapply Rlt_trans; [|apply Hp]; apply Rmin_glb_lt; lra|]. eapply Rlt_le_trans; [apply Hp|]. apply Rmax_lub; lra.
    - left. left. eapply Rlt_le_trans; [apply Hp|]. apply Rmax_lub; lra. }
  assert (HIGH : forall x, t <= x < 1 -> bf a + bd a * (x - a) <= bf x).
  { intros x Hx. destruct T as (T1 & T2). assert (bf b + bd b * (x - b) <= bf x).
    { apply support_convex; try lra. intros p Hp. assert (t < p).
      { eapply Rle_lt_trans; [|apply Hp]. apply Rmin_glb; lra. }
      apply SG; [|right; lra]. split; [lra|]. eapply Rlt_le_trans; [apply Hp|]. apply Rmax_lub; lra. }
    nra. }
  intros x Hx. destruct (Rle_dec x s) as [L|L]; [apply LOW; lra|]. destruct (Rle_dec t x) as [M|M]; [apply HIGH; lra|].
  assert (Fs := LOW s ltac:(lra)). assert (Ft := HIGH t ltac:(lra)).
  destruct (Rle_dec (bf a + bd a * (x - a)) (bf x)) as [Y|N]; [exact Y|exfalso].
  destruct (mvt bf bd s x bf_derive) as (p & Hp & Dp); try lra. destruct (mvt bf bd x t bf_derive) as (r & Hr & Dr); try lra.
  destruct (mvt bd bs p r bd_derive) as (v & Hv & Dv); try lra.
  assert (bs v <= 0) by (apply SG; lra).
  assert (bd r <= bd p) by nra.
  assert (bd p < bd a) by (apply (Rmult_lt_reg_r (x - s)); lra).
  assert (bd a < bd r) by (apply (Rmult_lt_reg_r (t - x)); lra). lra.
Qed.

(** the double tangent is unique *)
Lemma unique_tangent a b a' b' : 0 < a -> a < b -> b < 1 -> tangent a b -> 0 < a' -> a' < b' -> b' < 1 -> tangent a' b' ->
  a = a' /\ b = b'.
Proof using H0 H1.
  intros A B C T A' B' C' T'. destruct (support a b A B C T) as (s & t & S1 & S2 & S3 & Es & Et & SU).
  destruct (support a' b' A' B' C' T') as (s' & t' & S1' & S2' & S3' & Es' & Et' & SU').
  destruct (two_zeros s t) as (_ & _ & Q); try lra.
  assert (X : 0 < strength * l0 * l1).
  { assert (0 < strength) by (apply (strength_pos s t); lra). repeat apply Rmult_lt_0_compat; lra. }
  assert (EZ : forall z, 0 < z < 1 -> bs z = 0 -> z = s \/ z = t).
  { intros z Hz Ez. specialize (Q z Hz). rewrite Ez, Rmult_0_l in Q. symmetry in Q. rewrite Rmult_assoc in Q.
    apply Rmult_integral in Q. destruct Q as [Q|Q]; [lra|]. apply Rmult_integral in Q. lra. }
  assert (s' = s /\ t' = t) as (-> & ->).
  { destruct (EZ s') as [?|?]; try lra; destruct (EZ t') as [?|?]; try lra; auto. }
  assert (Tb := T). destruct Tb as (T1 & T2). assert (Tb' := T'). destruct Tb' as (T1' & T2').
  assert (I1 := SU a' ltac:(lra)). assert (I2 := SU' a ltac:(lra)).
  assert (I3 := SU b' ltac:(lra)). assert (I4 := SU' b ltac:(lra)).
  assert (EQ : bd a = bd a').
  { destruct (Rtotal_order (bd a) (bd a')) as [L|[E|L]]; [exfalso|exact E|exfalso]; nra. }
  assert (TT : tangent a a') by (split; [exact EQ|]; rewrite <- EQ in *; lra).
  assert (TB : tangent b b') by (destruct TT; split; lra).
  split.
  - destruct (Rtotal_order a a') as [L|[E|L]]; [exfalso|exact E|exfalso].
    + apply (no_triple a a' b); try lra; auto. destruct TT, T; split; lra.
    + apply (no_triple a' a b); try lra; auto. destruct TT; split; lra.
  - destruct (Rtotal_order b b') as [L|[E|L]]; [exfalso|exact E|exfalso].
    + apply (no_triple a b b'); try lra; auto.
    + apply (no_triple a b' b); try lra; auto. destruct TB, T; split; lra. destruct TB; split; lra.
Qed.

(* ------------------------------------------------------------------ *)
(** * Existence of a double tangent above the critical point *)

Lemma bf_continuous p : 0 < p < 1 -> continuity_pt bf p.
Proof using H0 H1.
  intros Hp. apply derivable_continuous_pt. exists (bd p). apply is_derive_Reals, bf_derive, Hp.
Qed.

(** the least value of [bf x - m x] on [[p, r]], as a function of the slope *)
Lemma least (p r : R) : 0 < p -> p <= r -> r < 1 ->
  exists g : R -> R, forall m, exists x, p <= x <= r /\ g m = bf x - m * x /\ forall y, p <= y <= r -> g m <= bf y - m * y.
Proof using H0 H1.
  intros P L R1.
  set (E := fun m v => exists x, p <= x <= r /\ v = bf x - m * x).
  exists (fun m => real (Glb_Rbar (E m))). intros m.
  destruct (continuity_ab_min (fun x => bf x - m * x) p r L) as (x & Hmin & Hx).
  { intros y Hy. apply (continuity_pt_minus bf (fun y => m * y)).
    - apply bf_continuous. lra.
    - apply derivable_continuous_pt. apply derivable_pt_mult; [apply derivable_pt_const|apply derivable_pt_id]. }
  assert (G : Glb_Rbar (E m) = Finite (bf x - m * x)).
  { apply is_glb_Rbar_unique. split.
    - intros v (y & Hy & ->). cbn. apply Hmin. exact Hy.
    - intros w Hw. apply Hw. exists x. auto. }
  exists x. rewrite G. cbn. auto.
Qed.

Lemma least_lipschitz p r (g : R -> R) : 0 < p -> r < 1 ->
  (forall m, exists x, p <= x <= r /\ g m = bf x - m * x /\ forall y, p <= y <= r -> g m <= bf y - m * y) ->
  forall m m', Rabs (g m' - g m) <= Rabs (m' - m).
Proof.
  intros P R1 H.
  assert (W : forall m m', g m' - g m <= Rabs (m' - m)).
  { intros m m'. destruct (H m) as (x & Hx & Ex & _). destruct (H m') as (_ & _ & _ & Mx). specialize (Mx x Hx).
    assert ((m - m') * x <= Rabs (m' - m)).
    { rewrite Rabs_minus_sym. pose proof (Rle_abs (m - m')). pose proof (Rabs_pos (m - m')). nra. }
    nra. }
  intros m m'. apply Rabs_le. split; [|apply W]. pose proof (W m' m) as V. rewrite Rabs_minus_sym in V. lra.
Qed.

Lemma lipschitz_continuous (g : R -> R) : (forall m m', Rabs (g m' - g m) <= Rabs (m' - m)) -> continuity g.
Proof.
  intros H m e He. exists e. split; [exact He|]. intros y (_ & Hy). cbn in *. unfold R_dist in *.
  eapply Rle_lt_trans; [apply H|exact Hy].
Qed.

(** bounds of the slope *)
Lemma slope_bounds c : 0 < c < 1 ->
  exists lo hi, (forall p, 0 < p <= c -> bd p <= hi) /\ (forall p, c <= p < 1 -> lo <= bd p).
Proof using H0 H1.
  intros Hc. set (K := Rabs c00 + Rabs c01 + Rabs c11).
  assert (LIN : forall p, 0 < p < 1 -> - K <= c00 * p + c01 * (1 - 2 * p) - c11 * (1 - p) <= K).
  { intros p Hp. unfold K.
    assert (B : forall a x, -1 <= x <= 1 -> - Rabs a <= a * x <= Rabs a).
    { intros a x Hx. apply Rabs_le_between. rewrite Rabs_mult.
      assert (Rabs x <= 1) by (apply Rabs_le; lra). pose proof (Rabs_pos a). nra. }
    pose proof (B c00 p ltac:(lra)). pose proof (B c01 (1 - 2 * p) ltac:(lra)). pose proof (B c11 (1 - p) ltac:(lra)). lra. }
  assert (DIV : forall x y l, 0 < l -> x <= y -> x / l <= y / l).
  { intros x y l Hl Hxy. apply Rmult_le_compat_r; [left; now apply Rinv_0_lt_compat|exact Hxy]. }
  assert (LN : forall x, 0 < x <= 1 -> ln x <= 0).
  { intros x Hx. rewrite <- ln_1. destruct (Req_dec x 1) as [->|N]; [lra|]. left. apply ln_increasing; lra. }
  assert (LM : forall x y, 0 < x <= y -> ln x <= ln y).
  { intros x y Hx. destruct (Req_dec x y) as [->|N]; [lra|]. left. apply ln_increasing; lra. }
  exists ((ln c + 1) / l0 - 1 / l1 - K), (1 / l0 - (ln (1 - c) + 1) / l1 + K). split; intros p Hp; unfold bd.
  - pose proof (LIN p ltac:(lra)). pose proof (DIV (ln p + 1) 1 l0 H0 ltac:(pose proof (LN p ltac:(lra)); lra)).
    pose proof (DIV (ln (1 - c) + 1) (ln (1 - p) + 1) l1 H1 ltac:(pose proof (LM (1 - c) (1 - p) ltac:(lra)); lra)). lra.
  - pose proof (LIN p ltac:(lra)). pose proof (DIV (ln c + 1) (ln p + 1) l0 H0 ltac:(pose proof (LM c p ltac:(lra)); lra)).
    pose proof (DIV (ln (1 - p) + 1) 1 l1 H1 ltac:(pose proof (LN (1 - p) ltac:(lra)); lra)). lra.
Qed.

(** the slope exceeds every bound next to the ends *)
Lemma slope_ends c lo hi : 0 < c < 1 ->
  exists e, 0 < e /\ e < c /\ e < 1 - c /\ (forall p, 0 < p <= e -> bd p < lo) /\ (forall p, 1 - e <= p < 1 -> hi < bd p).
Proof using H0 H1.
  intros Hc. set (K := Rabs c00 + Rabs c01 + Rabs c11).
  assert (LIN : forall p, 0 < p < 1 -> - K <= c00 * p + c01 * (1 - 2 * p) - c11 * (1 - p) <= K).
  { intros p Hp. unfold K.
    assert (B : forall a x, -1 <= x <= 1 -> - Rabs a <= a * x <= Rabs a).
    { intros a x Hx. apply Rabs_le_between. rewrite Rabs_mult.
      assert (Rabs x <= 1) by (apply Rabs_le; lra). pose proof (Rabs_pos a). nra. }
    pose proof (B c00 p ltac:(lra)). pose proof (B c01 (1 - 2 * p) ltac:(lra)). pose proof (B c11 (1 - p) ltac:(lra)). lra. }
  assert (LM : forall x y, 0 < x <= y -> ln x <= ln y).
  { intros x y Hx. destruct (Req_dec x y) as [->|N]; [lra|]. left. apply ln_increasing; lra. }
  assert (DIV : forall x y l, 0 < l -> x <= y -> x / l <= y / l).
  { intros x y l Hl Hxy. apply Rmult_le_compat_r; [left; now apply Rinv_0_lt_compat|exact Hxy]. }
  set (z0 := exp (l0 * (lo - K - 1 - Rabs ((ln (1 - c) + 1) / l1)) - 1)).
  set (z1 := exp (l1 * (- hi - K - 1 - Rabs ((ln c + 1) / l0)) - 1)).
  assert (Z0 : 0 < z0) by apply exp_pos. assert (Z1 : 0 < z1) by apply exp_pos.
  set (e := Rmin (Rmin z0 z1) (Rmin c (1 - c) / 2)).
  assert (E0 : e <= z0) by (unfold e; eapply Rle_trans; [apply Rmin_l|apply Rmin_l]).
  assert (E1 : e <= z1) by (unfold e; eapply Rle_trans; [apply Rmin_l|apply Rmin_r]).
  assert (E2 : e <= Rmin c (1 - c) / 2) by (unfold e; apply Rmin_r).
  assert (M1 : Rmin c (1 - c) <= c) by apply Rmin_l. assert (M2 : Rmin c (1 - c) <= 1 - c) by apply Rmin_r.
  assert (M0 : 0 < Rmin c (1 - c)) by (apply Rmin_glb_lt; lra).
  assert (EP : 0 < e). { unfold e. apply Rmin_glb_lt; [apply Rmin_glb_lt; assumption|lra]. }
  exists e. split; [exact EP|]. split; [lra|]. split; [lra|]. split; intros p Hp; unfold bd.
  - pose proof (LIN p ltac:(lra)). assert (L : ln p <= l0 * (lo - K - 1 - Rabs ((ln (1 - c) + 1) / l1)) - 1).
    { unfold z0 in E0. rewrite <- (ln_exp (l0 * _ - 1)). apply LM. lra. }
    pose proof (DIV (ln (1 - c) + 1) (ln (1 - p) + 1) l1 H1 ltac:(pose proof (LM (1 - c) (1 - p) ltac:(lra)); lra)) as D.
    pose proof (DIV (ln p + 1) (l0 * (lo - K - 1 - Rabs ((ln (1 - c) + 1) / l1))) l0 H0 ltac:(lra)) as D'.
    replace (l0 * (lo - K - 1 - Rabs ((ln (1 - c) + 1) / l1)) / l0) with (lo - K - 1 - Rabs ((ln (1 - c) + 1) / l1)) in D' by (field; lra).
    pose proof (Rle_abs (- ((ln (1 - c) + 1) / l1))) as A. rewrite Rabs_Ropp in A. lra.
  - pose proof (LIN p ltac:(lra)). assert (L : ln (1 - p) <= l1 * (- hi - K - 1 - Rabs ((ln c + 1) / l0)) - 1).
    { unfold z1 in E1. rewrite <- (ln_exp (l1 * _ - 1)). apply LM. lra. }
    pose proof (DIV (ln c + 1) (ln p + 1) l0 H0 ltac:(pose proof (LM c p ltac:(lra)); lra)) as D.
    pose proof (DIV (ln (1 - p) + 1) (l1 * (- hi - K - 1 - Rabs ((ln c + 1) / l0))) l1 H1 ltac:(lra)) as D'.
    replace (l1 * (- hi - K - 1 - Rabs ((ln c + 1) / l0)) / l1) with (- hi - K - 1 - Rabs ((ln c + 1) / l0)) in D' by (field; lra).
    pose proof (Rle_abs (- ((ln c + 1) / l0))) as A. rewrite Rabs_Ropp in A. lra.
Qed.

(** a place where the curvature is negative *)
Definition middle : R := (1 / sqrt l0) / (1 / sqrt l0 + 1 / sqrt l1).
Lemma middle_range : 0 < middle < 1.
Proof using H0 H1.
  assert (R0 : 0 < 1 / sqrt l0) by (apply Rdiv_lt_0_compat; [lra|now apply sqrt_lt_R0]).
  assert (R1 : 0 < 1 / sqrt l1) by (apply Rdiv_lt_0_compat; [lra|now apply sqrt_lt_R0]).
  unfold middle. split; [apply Rdiv_lt_0_compat; lra|]. apply (Rmult_lt_reg_r (1 / sqrt l0 + 1 / sqrt l1)); [lra|].
  unfold Rdiv at 1. rewrite Rmult_assoc, Rinv_l by lra. lra.
Qed.
Lemma middle_curvature : bs middle = critical - strength.
Proof using H0 H1.
  assert (R0 : 0 < sqrt l0) by now apply sqrt_lt_R0. assert (R1 : 0 < sqrt l1) by now apply sqrt_lt_R0.
  unfold bs, critical, middle. f_equal. rewrite <- (sqrt_sqrt l0) at 1 by lra. rewrite <- (sqrt_sqrt l1) at 2 by lra. field. lra.
Qed.

Lemma bs_continuous p : 0 < p < 1 -> continuity_pt bs p.
Proof using H0 H1.
  intros Hp. apply derivable_continuous_pt.
  assert (D : ex_derive bs p). { unfold bs. auto_derive. split; [|split]; try nra; auto. }
  exists (Derive bs p). apply is_derive_Reals. now apply Derive_correct.
Qed.

(** no line supports the curve where its curvature is negative *)
Lemma no_support c m e : 0 < c < 1 -> bs c < 0 -> 0 < e -> e < c -> e < 1 - c ->
  (forall y, e <= y <= 1 - e -> bf c - m * c <= bf y - m * y) -> False.
Proof using H0 H1.
  intros Hc N E1 E2 E3 S.
  destruct (bs_continuous c Hc (- bs c) ltac:(lra)) as (d & Hd & Near).
  set (h := Rmin (d / 2) (Rmin (c - e) (1 - e - c))).
  assert (h1 : h <= d / 2) by apply Rmin_l. assert (h2 : h <= c - e) by (unfold h; eapply Rle_trans; [apply Rmin_r|apply Rmin_l]).
  assert (h3 : h <= 1 - e - c) by (unfold h; eapply Rle_trans; [apply Rmin_r|apply Rmin_r]).
  assert (h0 : 0 < h) by (unfold h; repeat apply Rmin_glb_lt; lra).
  assert (NEG : forall p, c - h <= p <= c + h -> bs p < 0).
  { intros p Hp. destruct (Req_dec p c) as [->|Np]; [exact N|]. specialize (Near p). cbn in Near. unfold R_dist in Near.
    assert (A : Rabs (bs p - bs c) < - bs c).
    { apply Near. split; [split; [exact I|auto]|]. apply Rabs_def1; lra. }
    apply Rabs_def2 in A. lra. }
  destruct (mvt bf bd (c - h) c bf_derive) as (v & Hv & Dv); try lra.
  destruct (mvt bf bd c (c + h) bf_derive) as (u & Hu & Du); try lra.
  destruct (mvt bd bs v u bd_derive) as (w & Hw & Dw); try lra.
  pose proof (NEG w ltac:(lra)). pose proof (S (c - h) ltac:(lra)). pose proof (S (c + h) ltac:(lra)).
  assert (bd v <= m) by (apply (Rmult_le_reg_r h); lra). assert (m <= bd u) by (apply (Rmult_le_reg_r h); lra).
  assert (bs w * (u - v) < 0) by nra. lra.
Qed.

Lemma exists_tangent : critical < strength -> exists a b, 0 < a /\ a < b /\ b < 1 /\ tangent a b.
Proof using H0 H1.
  intros X. pose proof middle_range as Hc. pose proof middle_curvature as Ec. set (c := middle) in *.
  destruct (slope_bounds c Hc) as (lo0 & hi0 & HI & LO).
  set (lo := Rmin lo0 hi0). set (hi := Rmax lo0 hi0).
  assert (lo <= lo0) by apply Rmin_l. assert (lo <= hi0) by apply Rmin_r.
  assert (lo0 <= hi) by apply Rmax_l. assert (hi0 <= hi) by apply Rmax_r.
  destruct (slope_ends c lo hi Hc) as (e0 & E1 & E2 & E3 & EL & ER).
  set (e := e0 / 2). assert (e1 : 0 < e) by (unfold e; lra). assert (e2 : e < e0) by (unfold e; lra).
  destruct (least e c) as (gL & HL); try lra. destruct (least c (1 - e)) as (gR & HR); try lra.
  assert (CL := lipschitz_continuous gL (least_lipschitz e c gL e1 ltac:(lra) HL)).
  assert (CR := lipschitz_continuous gR (least_lipschitz c (1 - e) gR ltac:(lra) ltac:(lra) HR)).
  assert (Dlo : gL lo - gR lo <= 0).
  { destruct (HR lo) as (x & Hx & Ex & _). destruct (HL lo) as (_ & _ & _ & Mx). specialize (Mx c ltac:(lra)).
    destruct (Req_dec x c) as [->|Nx]; [lra|]. destruct (mvt bf bd c x bf_derive) as (u & Hu & Du); try lra.
    specialize (LO u ltac:(lra)). nra. }
  assert (Dhi : 0 <= gL hi - gR hi).
  { destruct (HL hi) as (x & Hx & Ex & _). destruct (HR hi) as (_ & _ & _ & Mx). specialize (Mx c ltac:(lra)).
    destruct (Req_dec x c) as [->|Nx]; [lra|]. destruct (mvt bf bd x c bf_derive) as (u & Hu & Du); try lra.
    specialize (HI u ltac:(lra)). nra. }
  assert (exists m, lo <= m <= hi /\ gL m = gR m) as (m & Hm & EM).
  { assert (C : forall x, continuity_pt (fun x => gL x - gR x) x).
    { intros x. apply (continuity_pt_minus gL gR); [apply CL|apply CR]. }
    assert (LH : lo <= hi) by lra. destruct (IVT_cor (fun x => gL x - gR x) lo hi C LH) as (m & Hm & E).
    { nra. }
    exists m. split; [exact Hm|lra]. }
  destruct (HL m) as (a & Ha & Ea & Ma). destruct (HR m) as (b & Hb & Eb & Mb).
  assert (NC : ~ (gL m = bf c - m * c)).
  { intros EC. apply (no_support c m e); try lra. intros y Hy. destruct (Rle_dec y c).
    - rewrite <- EC. apply Ma. lra.
    - rewrite <- EC, EM. apply Mb. lra. }
  assert (a <> c) by (intros ->; lra). assert (b <> c) by (intros ->; lra).
  assert (a <> e).
  { intros ->. destruct (mvt bf bd e e0 bf_derive) as (u & Hu & Du); try lra. specialize (EL u ltac:(lra)).
    specialize (Ma e0 ltac:(lra)). nra. }
  assert (b <> 1 - e).
  { intros ->. destruct (mvt bf bd (1 - e0) (1 - e) bf_derive) as (u & Hu & Du); try lra. specialize (ER u ltac:(lra)).
    specialize (Mb (1 - e0) ltac:(lra)). nra. }
  assert (FERMAT : forall p r x, 0 < p -> p < x -> x < r -> r < 1 -> (forall y, p <= y <= r -> bf x - m * x <= bf y - m * y) -> bd x = m).
  { intros p r x P1 P2 P3 P4 MIN.
    assert (D : derivable_pt_lim (fun y => bf y - m * y) x (bd x - m)).
    { apply is_derive_Reals. apply (is_derive_minus bf (fun y => m * y)); [apply bf_derive; lra|].
      auto_derive; [exact I|ring]. }
    assert (Z := deriv_minimum (fun y => bf y - m * y) p r x (exist _ _ D) P2 P3). cbn in Z.
    unfold derive_pt in Z. cbn in Z. assert (bd x - m = 0); [|lra]. apply Z. intros y Y1 Y2. apply MIN. lra. }
  assert (Sa : bd a = m). { apply (FERMAT e c); try lra. intros y Hy. rewrite <- Ea. now apply Ma. }
  assert (Sb : bd b = m). { apply (FERMAT c (1 - e)); try lra. intros y Hy. rewrite <- Eb. now apply Mb. }
  exists a, b. split; [lra|]. split; [lra|]. split; [lra|]. split; [lra|]. rewrite Sa, Sb. lra.
Qed.

End Binary.
