(** PropertiesMixing.v -- exactly which mixtures can demix (C94). *)

From Coquelicot Require Import Coquelicot.
From Coq Require Import Reals Lra Lia String List Bool Arith ZArith Classical FunctionalExtensionality.
From Verif Require Import Base ModelCommon ModelParts ModelKernel ModelPhases ModelFinder ProofsKernel ProofsParts ProofsSteps ProofsCopy
  ProofsHistory ProofsRun ProofsRun2 ModelFreeEnergy ProofsFreeEnergy Spec Examples PropertiesKernel PropertiesRun PropertiesFreeEnergy
  PropertiesConstraints ProofsEquilibrium PropertiesEquilibrium PropertiesNorm PropertiesConvex ProofsCompact ProofsBinary PropertiesBinary PropertiesAccuracy
  ProofsOptimum PropertiesOptimum.
Import ListNotations.
Open Scope R_scope.

(** The interactions never outweigh the entropy of mixing: for every exchange
    [d] of material the interaction energy of [d] plus the square of the sum of
    [|d_i| / sqrt(size_i)] is not negative. *)
Definition mixable (F : fe) : Prop :=
  forall d, rsum (fe_nc F) d = 0 -> 0 <= form (fe_nc F) (fe_chis F) d + (rsum (fe_nc F) (fun i => Rabs (d i) / sqrt (fe_sizes F i))) ^ 2.

(* ------------------------------------------------------------------ *)
(** * Inequalities *)

Lemma log_mean a b : 0 < b -> b < a -> 2 * (a - b) / (a + b) < ln a - ln b.
Proof.
  intros Hb L. set (g := fun t => ln t - 2 * (t - b) / (t + b)).
  assert (D : forall t, b <= t <= a -> is_derive g t ((t - b) * (t - b) / (t * ((t + b) * (t + b))))).
  { intros t Ht. unfold g. auto_derive; [repeat split; lra|]. field. lra. }
  destruct (MVT_cor2 g (fun t => (t - b) * (t - b) / (t * ((t + b) * (t + b)))) b a L) as (c & E & C).
  { intros c Hc. apply is_derive_Reals, D. exact Hc. }
  assert (GB : g b = ln b) by (unfold g; replace (2 * (b - b) / (b + b)) with 0 by (field; lra); ring).
  assert (P : 0 < (c - b) * (c - b) / (c * ((c + b) * (c + b))) * (a - b)).
  { apply Rmult_lt_0_compat; [|lra]. apply Rdiv_lt_0_compat; [nra|]. apply Rmult_lt_0_compat; [lra|]. nra. }
  rewrite <- E, GB in P. unfold g in P. lra.
Qed.

Lemma log_term a b : 0 < a -> 0 < b -> (a - b) * (a - b) / ((a + b) / 2) <= (ln a - ln b) * (a - b) /\
  (a <> b -> (a - b) * (a - b) / ((a + b) / 2) < (ln a - ln b) * (a - b)).
Proof.
  assert (X : forall a b, 0 < b -> b < a -> (a - b) * (a - b) / ((a + b) / 2) < (ln a - ln b) * (a - b)).
  { intros x y Hy L. pose proof (log_mean x y Hy L) as E. apply (Rmult_lt_compat_r (x - y)) in E; [|lra].
    replace ((x - y) * (x - y) / ((x + y) / 2)) with (2 * (x - y) / (x + y) * (x - y)) by (field; lra). exact E. }
  intros Ha Hb. destruct (Rtotal_order a b) as [L|[->|L]].
  - specialize (X b a Ha L). replace ((a - b) * (a - b) / ((a + b) / 2)) with ((b - a) * (b - a) / ((b + a) / 2)) by (field; lra). split; intros; lra.
  - split; [|easy]. replace (b - b) with 0 by ring. unfold Rdiv. lra.
  - specialize (X a b Hb L). split; intros; lra.
Qed.

(** the least curvature of the entropy along an exchange *)
Lemma entropy_curvature n (l m d : vec) : (forall i, (i < n)%nat -> 0 < l i) -> (forall i, (i < n)%nat -> 0 < m i) -> rsum n m = 1 ->
  (rsum n (fun i => Rabs (d i) / sqrt (l i))) ^ 2 <= rsum n (fun i => d i * d i / (l i * m i)).
Proof.
  intros Hl Hm S. pose proof (cauchy n (fun i => Rabs (d i) / sqrt (l i) / sqrt (m i)) (fun i => sqrt (m i))) as C. cbv beta in C.
  rewrite (rsum_ext n _ (fun i => Rabs (d i) / sqrt (l i))) in C.
  2: { intros i Hi. field. split; apply Rgt_not_eq, sqrt_lt_R0; auto. }
  rewrite (rsum_ext n (fun i => Rsqr (sqrt (m i))) m) in C by (intros i Hi; apply Rsqr_sqrt; left; auto).
  rewrite S, Rmult_1_r in C.
  rewrite (rsum_ext n (fun i => Rsqr (Rabs (d i) / sqrt (l i) / sqrt (m i))) (fun i => d i * d i / (l i * m i))) in C.
  - unfold Rsqr in C. simpl. rewrite Rmult_1_r. exact C.
  - intros i Hi. specialize (Hl i Hi). specialize (Hm i Hi). rewrite !Rsqr_div'. rewrite !Rsqr_sqrt by lra.
    rewrite <- Rsqr_abs. unfold Rsqr. field. lra.
Qed.

(* ------------------------------------------------------------------ *)
(** * Mixable mixtures do not demix *)

Lemma mixable_one F mu x y : wf_fe F -> (forall i, (i < fe_nc F)%nat -> 0 < fe_sizes F i) -> mixable F ->
  (forall i, (i < fe_nc F)%nat -> 0 < x i) -> rsum (fe_nc F) x = 1 -> potentials F x mu ->
  (forall i, (i < fe_nc F)%nat -> 0 < y i) -> rsum (fe_nc F) y = 1 -> potentials F y mu ->
  forall i, (i < fe_nc F)%nat -> x i = y i.
Proof.
  intros WF HL MX Px Sx Qx Py Sy Qy i Hi. set (n := fe_nc F) in *. set (l := fe_sizes F) in *.
  destruct (Req_dec (x i) (y i)) as [E|NE]; [exact E|exfalso].
  pose proof (mono_identity n (fe_chis F) l x y) as M.
  assert (Z : rsum n (fun i => (dfh n (fe_chis F) l x i - dfh n (fe_chis F) l y i) * (x i - y i)) = 0).
  { rewrite (rsum_ext n _ (fun i => (legendre n (fe_chis F) l y - legendre n (fe_chis F) l x) * (x i - y i))).
    - rewrite rsum_scal_l, rsum_minus, Sx, Sy. ring.
    - intros j Hj. pose proof (potentials_value F x mu j WF Px Qx Hj) as V1. pose proof (potentials_value F y mu j WF Py Qy Hj) as V2.
      fold n l in V1, V2. f_equal. lra. }
  rewrite Z in M. specialize (MX (fun i => x i - y i)). cbv beta in MX. rewrite rsum_minus in MX. fold n l in MX.
  specialize (MX ltac:(lra)).
  pose proof (entropy_curvature n l (fun i => (x i + y i) / 2) (fun i => x i - y i) HL) as C. cbv beta in C.
  assert (C' := C ltac:(intros j Hj; specialize (Px j Hj); specialize (Py j Hj); lra)
    ltac:(unfold Rdiv; rewrite rsum_scal_r, rsum_plus, Sx, Sy; lra)). clear C.
  assert (LT : rsum n (fun i => (x i - y i) * (x i - y i) / (l i * ((x i + y i) / 2))) < rsum n (fun i => (ln (x i) - ln (y i)) * (x i - y i) / l i)).
  { apply Rminus_gt_0_lt. rewrite <- rsum_minus.
    assert (T : forall j, (j < n)%nat -> (ln (x j) - ln (y j)) * (x j - y j) / l j - (x j - y j) * (x j - y j) / (l j * ((x j + y j) / 2))
      = ((ln (x j) - ln (y j)) * (x j - y j) - (x j - y j) * (x j - y j) / ((x j + y j) / 2)) / l j).
    { intros j Hj. specialize (HL j Hj). specialize (Px j Hj). specialize (Py j Hj). field. split; lra. }
    apply Rlt_gt, rsum_pos.
    - intros j Hj. rewrite T by exact Hj. apply Rmult_le_pos; [|left; apply Rinv_0_lt_compat; now apply HL].
      pose proof (proj1 (log_term (x j) (y j) (Px j Hj) (Py j Hj))). lra.
    - exists i. split; [exact Hi|]. rewrite T by exact Hi. apply Rdiv_lt_0_compat; [|now apply HL].
      pose proof (proj2 (log_term (x i) (y i) (Px i Hi) (Py i Hi)) NE). lra. }
  lra.
Qed.

Lemma mixable_coexisting F u : wf_fe F -> (forall i, (i < fe_nc F)%nat -> 0 < fe_sizes F i) -> mixable F ->
  coexisting F 2 u -> forall c, (c < fe_nc F)%nat -> u 0%nat c = u 1%nat c.
Proof.
  intros WF HL MX (mu & H). destruct (H 0%nat ltac:(lia)) as (P0 & S0 & Q0). destruct (H 1%nat ltac:(lia)) as (P1 & S1 & Q1).
  now apply (mixable_one F mu).
Qed.

(* ------------------------------------------------------------------ *)
(** * Others do *)

Lemma curve2 n chi (l x d : vec) : (forall i, (i < n)%nat -> 0 < l i) -> (forall i, (i < n)%nat -> 0 < x i) ->
  is_derive (line1 n chi l x d) 0 (rsum n (fun i => d i * d i / (l i * x i)) + form n chi d).
Proof.
  intros Hl Hx. unfold line1.
  replace (rsum n (fun i => d i * d i / (l i * x i)) + form n chi d) with
    (rsum n (fun i => d i * d i / (l i * x i)) + 1 / 2 * rsum n (fun i => rsum n (fun j => 2 * (chi i j * d i * d j)))).
  - apply (@is_derive_plus R_AbsRing R_NormedModule).
    + apply is_derive_rsum. intros i Hi. specialize (Hl i Hi). specialize (Hx i Hi). unfold along. auto_derive.
      * rewrite Rmult_0_l, Rplus_0_r. exact Hx.
      * rewrite Rmult_0_l, Rplus_0_r. field. lra.
    + apply (is_derive_scal (fun s => rsum n (fun i => rsum n (fun j => chi i j * (d i * along x d s j + along x d s i * d j))))).
      apply is_derive_rsum. intros i Hi. apply is_derive_rsum. intros j Hj. unfold along. auto_derive; [auto|ring].
  - f_equal. unfold form. rewrite <- rsum_scal_l. apply rsum_ext. intros i Hi. rewrite <- rsum_scal_l. apply rsum_ext. intros j Hj. field.
Qed.

(** a composition at which the free energy is concave along [d] *)
Lemma unmixable_at F d : (forall i, (i < fe_nc F)%nat -> 0 < fe_sizes F i) ->
  form (fe_nc F) (fe_chis F) d + (rsum (fe_nc F) (fun i => Rabs (d i) / sqrt (fe_sizes F i))) ^ 2 < 0 ->
  exists x, (forall i, (i < fe_nc F)%nat -> 0 < x i) /\ rsum (fe_nc F) x = 1 /\
    rsum (fe_nc F) (fun i => d i * d i / (fe_sizes F i * x i)) + form (fe_nc F) (fe_chis F) d < 0.
Proof.
  intros HL NG. set (n := fe_nc F) in *. set (l := fe_sizes F) in *. set (a := fun i => Rabs (d i) / sqrt (l i)) in *.
  assert (N0 : (0 < n)%nat). { destruct n; [|lia]. exfalso. unfold form in NG. cbn in NG. lra. }
  assert (A0 : forall i, (i < n)%nat -> 0 <= a i) by (intros i Hi; unfold a; apply Rmult_le_pos; [apply Rabs_pos|left; apply Rinv_0_lt_compat, sqrt_lt_R0; auto]).
  set (S := rsum n a) in *. assert (S0 : 0 <= S) by now apply rsum_nonneg. set (qd := - form n (fe_chis F) d).
  assert (QS : S * S < qd) by (unfold qd; simpl in NG; lra).
  assert (NR : 1 <= INR n) by (change 1 with (INR 1); apply le_INR; lia).
  assert (NS : 0 <= INR n * S) by (apply Rmult_le_pos; lra).
  set (e := (qd - S * S) / (2 * (INR n * S + 1))).
  assert (E0 : 0 < e) by (apply Rdiv_lt_0_compat; lra).
  assert (EB : (S + INR n * e) * S < qd).
  { assert (T : e * (2 * (INR n * S + 1)) = qd - S * S) by (unfold e; field; lra).
    assert (0 <= e * (INR n * S)) by (apply Rmult_le_pos; lra). nra. }
  set (D := S + INR n * e) in *. assert (D0 : 0 < D) by (unfold D; nra).
  assert (AE : forall i, (i < n)%nat -> 0 < a i + e) by (intros i Hi; specialize (A0 i Hi); lra).
  exists (fun i => (a i + e) / D). split; [|split].
  - intros i Hi. apply Rdiv_lt_0_compat; auto.
  - unfold Rdiv. rewrite rsum_scal_r, rsum_plus, rsum_const. fold S. replace (S + INR n * e) with D by reflexivity. field. lra.
  - assert (LE : rsum n (fun i => d i * d i / (l i * ((a i + e) / D))) <= D * S).
    { unfold S. rewrite <- rsum_scal_l. apply rsum_le. intros i Hi. specialize (A0 i Hi). specialize (AE i Hi). pose proof (HL i Hi) as Li.
      assert (SQ : d i * d i = a i * a i * l i).
      { unfold a. replace (Rabs (d i) / sqrt (l i) * (Rabs (d i) / sqrt (l i)) * l i) with (Rsqr (Rabs (d i)) * (l i / (sqrt (l i) * sqrt (l i)))).
        - rewrite sqrt_sqrt by (left; exact Li). rewrite <- Rsqr_abs. unfold Rsqr. field. lra.
        - unfold Rsqr. field. apply Rgt_not_eq, sqrt_lt_R0; auto. }
      rewrite SQ. replace (a i * a i * l i / (l i * ((a i + e) / D))) with (D * (a i * (a i / (a i + e)))) by (field; repeat split; lra).
      apply Rmult_le_compat_l; [lra|]. apply Rle_trans with (a i * 1); [|lra]. apply Rmult_le_compat_l; [exact A0|].
      apply (Rmult_le_reg_r (a i + e)); [exact AE|]. unfold Rdiv. rewrite Rmult_assoc, Rinv_l by lra. lra. }
    unfold qd in EB. lra.
Qed.

(** there the homogeneous state is not stable *)
Lemma concave_unstable F x d mu : wf_fe F -> (forall i, (i < fe_nc F)%nat -> 0 < fe_sizes F i) ->
  (forall i, (i < fe_nc F)%nat -> 0 < x i) -> rsum (fe_nc F) x = 1 -> rsum (fe_nc F) d = 0 ->
  rsum (fe_nc F) (fun i => d i * d i / (fe_sizes F i * x i)) + form (fe_nc F) (fe_chis F) d < 0 ->
  potentials F x mu -> ~ stable F mu.
Proof.
  intros WF HL Px Sx Sd NG Q ST. set (n := fe_nc F) in *. set (l := fe_sizes F) in *. set (chi := fe_chis F) in *.
  pose proof (proj1 (stable_fh F mu WF) ST) as SUP. fold n l chi in SUP.
  set (K := rsum n (fun i => d i * d i / (l i * x i)) + form n chi d) in *.
  pose proof (curve2 n chi l x d HL Px) as D2. fold K in D2.
  assert (E : exists e, 0 < e /\ forall t i, 0 <= t <= e -> (i < n)%nat -> 0 < along x d t i).
  { assert (E : exists e, 0 < e /\ forall i, (i < n)%nat -> e * Rabs (d i) < x i).
    { clear - Px. clearbody n. induction n as [|m IH]; [exists 1; split; [lra|intros; lia]|].
      destruct IH as (e & E0 & E1); [intros; apply Px; lia|].
      assert (PX : 0 < x m) by (apply Px; lia). assert (AB := Rabs_pos (d m)).
      assert (Y : 0 < x m / (Rabs (d m) + 1)) by (apply Rdiv_lt_0_compat; lra).
      exists (Rmin e (x m / (Rabs (d m) + 1))). split; [now apply Rmin_glb_lt|]. intros i Hi. destruct (Nat.eq_dec i m) as [->|X].
      - apply Rle_lt_trans with (x m / (Rabs (d m) + 1) * Rabs (d m)); [apply Rmult_le_compat_r; [exact AB|apply Rmin_r]|].
        apply (Rmult_lt_reg_r (Rabs (d m) + 1)); [lra|]. replace (x m / (Rabs (d m) + 1) * Rabs (d m) * (Rabs (d m) + 1)) with (x m * Rabs (d m)) by (field; lra). nra.
      - apply Rle_lt_trans with (e * Rabs (d i)); [apply Rmult_le_compat_r; [apply Rabs_pos|apply Rmin_l]|apply E1; lia]. }
    destruct E as (e & E0 & E1). exists e. split; [exact E0|]. intros t i Ht Hi. unfold along. specialize (E1 i Hi).
    assert (t * Rabs (d i) <= e * Rabs (d i)) by (apply Rmult_le_compat_r; [apply Rabs_pos|lra]).
    assert (- Rabs (d i) <= d i) by (pose proof (Rabs_le_inv (d i) (Rabs (d i)) (Rle_refl _)); lra).
    assert (t * - Rabs (d i) <= t * d i) by (apply Rmult_le_compat_l; lra). lra. }
  destruct E as (e & E0 & EP).
  apply is_derive_Reals in D2. destruct (D2 (- K / 2) ltac:(lra)) as (del & DD). pose proof (cond_pos del) as DP.
  set (s := Rmin (del / 2) e). assert (S0 : 0 < s) by (apply Rmin_glb_lt; lra). assert (S1 : s <= del / 2) by apply Rmin_l. assert (S2 : s <= e) by apply Rmin_r.
  assert (SL : forall t, 0 < t <= s -> line1 n chi l x d t < line1 n chi l x d 0).
  { intros t Ht. specialize (DD t ltac:(lra) ltac:(rewrite Rabs_right; lra)). rewrite Rplus_0_l in DD. apply Rabs_def2 in DD.
    assert (NEG : (line1 n chi l x d t - line1 n chi l x d 0) / t < 0) by lra.
    apply (Rmult_lt_compat_r t) in NEG; [|lra]. unfold Rdiv in NEG. rewrite Rmult_assoc, Rinv_l in NEG by lra. lra. }
  assert (Hl0 : forall i, (i < n)%nat -> l i <> 0) by (intros i Hi; specialize (HL i Hi); lra).
  destruct (MVT_cor2 (fun t => fh n chi l (along x d t)) (line1 n chi l x d) 0 s S0) as (c & EC & HC).
  { intros t Ht. apply is_derive_Reals. apply fh_line; auto. intros i Hi. apply EP; auto. lra. }
  cbv beta in EC. specialize (SL c ltac:(lra)).
  assert (A0 : fh n chi l (along x d 0) = fh n chi l x).
  { replace (along x d 0) with x; [reflexivity|]. apply functional_extensionality. intros i. unfold along. ring. }
  assert (SU : rsum n (fun i => mu i * along x d s i) <= fh n chi l (along x d s)).
  { apply SUP.
    - intros i Hi. left. apply EP; auto. lra.
    - unfold along. rewrite rsum_plus, rsum_scal_l, Sx, Sd. ring. }
  assert (L1 : line1 n chi l x d 0 = rsum n (fun i => mu i * d i)).
  { rewrite line1_0 by apply (proj2 WF).
    rewrite (rsum_ext n (fun i => mu i * d i) (fun i => legendre n chi l x * d i + d i * dfh n chi l x i)).
    - rewrite rsum_plus, rsum_scal_l, Sd. ring.
    - intros i Hi. rewrite (potentials_value F x mu i WF Px Q Hi). fold n chi l. ring. }
  assert (MX : rsum n (fun i => mu i * x i) = fh n chi l x) by exact (mu_energy F x mu WF Px Sx Q).
  unfold along at 1 in SU.
  rewrite (rsum_ext n (fun i => mu i * (x i + s * d i)) (fun i => mu i * x i + s * (mu i * d i))) in SU by (intros; ring).
  rewrite rsum_plus, rsum_scal_l, MX, <- L1 in SU. rewrite A0 in EC. nra.
Qed.

(* ------------------------------------------------------------------ *)
(** * The finder *)

(** Mixable: all living compartments of a state without errors are alike. *)
Theorem C94_homogeneous {G} q (k k' : kstate G cstate) nv rep nc nf rho chis sh sizes x :
  mixture q nc nf rho chis sh sizes -> any_ensemble q nc x -> admissible nc nf chis sizes x -> mixable (fe_of nc rho chis sizes) ->
  0 <= q_thr q -> Forall idle (v_cons k) -> iterate q k = Ok (k', nv, rep) ->
  e_incomp rep = 0 -> e_omega rep = 0 -> e_Js rep = 0 ->
  forall m n i, (m < q_np q)%nat -> (n < q_np q)%nat -> alive (q_thr q) (v_Js k) m -> alive (q_thr q) (v_Js k) n ->
  (i < nc)%nat -> v_phis_comp k' i m = v_phis_comp k' i n.
Proof.
  intros HM HE HA MX Ht HI H E1 E2 E3 m n i Hm Hn Lm Ln Hi.
  destruct (C12_zero_residuals _ _ _ _ _ _ _ _ _ _ _ _ HM HE HA Ht HI H E1 E2 E3) as (mu & P).
  destruct (step_fractions _ _ _ _ _ _ _ _ _ _ _ _ HM HE HA Ht H) as (HR & WF & _ & _ & _ & HF).
  destruct (P m Hm Lm) as (Qm & _ & Sm & _). destruct (P n Hn Ln) as (Qn & _ & Sn & _).
  apply (mixable_one (fe_of nc rho chis sizes) mu (fun j => v_phis_comp k' j m) (fun j => v_phis_comp k' j n) WF); auto.
  - apply HA.
  - intros j Hj. now apply (HF m Hm Lm).
  - intros j Hj. now apply (HF n Hn Ln).
Qed.

(** canonical: they have the composition [phi_means] *)
Theorem C94_canonical {G} q (k k' : kstate G cstate) nc nf rho chis sh sizes pm :
  calm q k k' nc nf rho chis sh sizes pm -> mixable (fe_of nc rho chis sizes) ->
  forall m i, (m < q_np q)%nat -> alive (q_thr q) (v_Js k) m -> (i < nc)%nat -> v_phis_comp k' i m = pm i.
Proof.
  intros HC MX m i Hm Lm Hi. destruct (calm_facts _ _ _ _ _ _ _ _ _ _ HC) as (WF & SP & L0 & LA & ME & _ & mu & GOOD & _).
  specialize (ME i Hi). set (la := living (q_thr q) (v_Js k)) in *.
  rewrite (rsum_ext (q_np q) _ (fun n => la n * v_phis_comp k' i m)) in ME.
  - rewrite rsum_scal_r in ME. apply (Rmult_eq_reg_l (rsum (q_np q) la)); [exact ME|lra].
  - intros n Hn. destruct (L0 n Hn) as [L|L]; [|rewrite <- L; ring]. f_equal.
    destruct (GOOD n Hn L) as (P1 & S1 & Q1). destruct (GOOD m Hm (proj2 (LA m Hm) Lm)) as (P2 & S2 & Q2).
    apply (mixable_one (fe_of nc rho chis sizes) mu (fun j => v_phis_comp k' j n) (fun j => v_phis_comp k' j m) WF); auto.
    apply (ca_adm _ _ _ _ _ _ _ _ _ _ HC).
Qed.

(** runs: every returned phase is as close to [phi_means] as we please *)
Theorem C94_run N nc nf rho chis sh sizes pm : admissible nc nf chis sizes pm -> (forall i, (i < nc)%nat -> (rho i < nf)%nat) -> (0 < N)%nat ->
  mixable (fe_of nc rho chis sizes) -> forall e, 0 < e -> exists tol, 0 < tol /\
  forall G (ops : rng_ops G) (f : finder G cstate) a t i f' ph d,
    solves ops f nc nf rho chis sh sizes -> f_ensemble f = can_compiled nc pm -> f_np f = N ->
    run ops f a t i = (f', Ok ph) -> f_diag f' = Some d -> within d tol ->
    (forall c, (c < nc)%nat -> Rabs (mean_fraction ph c - pm c) <= tol) ->
    forall p c, (p < N)%nat -> (c < nc)%nat -> Rabs (frac ph p c - pm c) < e.
Proof.
  intros HA HR HN MX. apply (C92_mixed N nc nf rho chis sh sizes pm HA HR HN). intros u CU c Hc.
  apply (mixable_coexisting (fe_of nc rho chis sizes)); auto; [now apply (wf_admissible nc nf rho chis sizes pm)|apply HA].
Qed.

(** Not mixable: there is a mean composition whose equilibrium has two
    different phases, in every finder with at least as many compartments as
    components. *)
Theorem C94_demixes nc nf rho chis sizes : admissible nc nf chis sizes (fun _ => 1) -> (forall i, (i < nc)%nat -> (rho i < nf)%nat) ->
  ~ mixable (fe_of nc rho chis sizes) ->
  exists pm, admissible nc nf chis sizes pm /\ rsum nc pm = 1 /\
  forall G q sh (cs : list (cons_obj cstate)) (g : G),
    mixture q nc nf rho chis sh sizes -> q_ensemble q = can_compiled nc pm ->
    q_thr q = 0 -> 0 < q_ub q -> (nc <= q_np q)%nat -> Forall idle cs ->
    exists k k' v, v_cons k = cs /\ v_g k = g /\ calm q k k' nc nf rho chis sh sizes pm /\
      mean_energy q k k' (fe_of nc rho chis sizes) v /\ least (fe_of nc rho chis sizes) pm v /\
      exists m n i, (m < q_np q)%nat /\ (n < q_np q)%nat /\ alive (q_thr q) (v_Js k) m /\ alive (q_thr q) (v_Js k) n /\
        (i < nc)%nat /\ v_phis_comp k' i m <> v_phis_comp k' i n.
Proof.
  intros HA HR NM. set (F := fe_of nc rho chis sizes) in *.
  pose proof (wf_admissible nc nf rho chis sizes _ HA HR) as WF. fold F in WF.
  assert (HL : forall i, (i < fe_nc F)%nat -> 0 < fe_sizes F i) by apply HA.
  apply not_all_ex_not in NM. destruct NM as (d & NM). apply imply_to_and in NM. destruct NM as (Sd & NG). apply Rnot_le_lt in NG.
  destruct (unmixable_at F d HL NG) as (x & Px & Sx & CV). exists x.
  assert (HX : admissible nc nf chis sizes x) by (destruct HA as (A1 & A2 & A3 & _); repeat split; auto).
  split; [exact HX|]. split; [exact Sx|]. intros G q sh cs g HM Q4 Ht Hu HN ID.
  destruct (C93_exists nc nf rho chis sizes x HX HR Sx) as (N & w & u & mu & LN & CX & ST & EX). fold F in CX, ST, EX.
  assert (DIFF : exists p r i, (p < N)%nat /\ (r < N)%nat /\ (i < nc)%nat /\ u p i <> u r i).
  { apply NNPP. intros ND.
    assert (EQ : forall p i, (p < N)%nat -> (i < nc)%nat -> u p i = u 0%nat i).
    { intros p i Hp Hi. apply NNPP. intros X. apply ND. exists p, 0%nat, i. pose proof (cx_some _ _ _ _ _ _ CX). auto. }
    assert (U0 : forall i, (i < nc)%nat -> u 0%nat i = x i).
    { intros i Hi. rewrite <- (cx_mean _ _ _ _ _ _ CX i Hi). rewrite (rsum_ext N _ (fun p => w p * u 0%nat i)) by (intros; now rewrite EQ).
      rewrite rsum_scal_r, (cx_w1 _ _ _ _ _ _ CX). ring. }
    apply (concave_unstable F x d mu WF HL Px Sx Sd CV); [|exact ST].
    pose proof (cx_mu _ _ _ _ _ _ CX 0%nat (cx_some _ _ _ _ _ _ CX)) as Q. unfold potentials in *.
    rewrite (listed_ext (fe_nc F) x (u 0%nat)); [exact Q|]. intros i Hi. symmetry. now apply U0. }
  destruct DIFF as (p & r & i & Hp & Hr & Hi & NE).
  destruct (EX G q sh cs g HM Q4 ltac:(lra) Hu ltac:(lia)) as (k & k' & nv & rep & v & K1 & K2 & H & E1 & E2 & E3 & AL & _ & EF & MV & LV).
  { intros s Hs. rewrite Ht. apply Rmult_lt_0_compat; [apply lt_0_INR; lia|now apply (cx_w _ _ _ _ _ _ CX)]. }
  { exact ID. }
  exists k, k', v. split; [exact K1|]. split; [exact K2|]. split.
  { constructor; auto; [lra|now rewrite K1|]. exists nv, rep. auto. }
  split; [exact MV|]. split; [exact LV|]. exists p, r, i.
  split; [lia|]. split; [lia|]. split; [apply AL; [lia|exact Hp]|]. split; [apply AL; [lia|exact Hr]|]. split; [exact Hi|].
  now rewrite !EF by auto.
Qed.

(** the canonical finder of the same parts with as many compartments as components *)
Definition full_size (q0 : kernel) (nc : nat) (pm : vec) : kernel :=
  {| q_inter := q_inter q0; q_entropy := q_entropy q0; q_ensemble := can_compiled nc pm; q_nf := q_nf q0; q_np := nc;
     q_acc_J := 1; q_ub := 1; q_acc_w := 1; q_thr := 0; q_scaler := 1 |}.
Lemma full_size_mixture q0 nc nf rho chis sh sizes pm : mixture q0 nc nf rho chis sh sizes -> mixture (full_size q0 nc pm) nc nf rho chis sh sizes.
Proof.
  intros [q n c s z E1 E2 E3|q n npf c s z E1 E2 E3 E4]; [now constructor|]. now constructor.
Qed.

(** Exactly the mixable mixtures never demix. *)
Theorem C94_iff q0 sh0 nc nf rho chis sizes : mixture q0 nc nf rho chis sh0 sizes -> admissible nc nf chis sizes (fun _ => 1) ->
  (mixable (fe_of nc rho chis sizes) <->
   forall q (k k' : kstate nat cstate) sh pm, calm q k k' nc nf rho chis sh sizes pm ->
   forall m n i, (m < q_np q)%nat -> (n < q_np q)%nat -> alive (q_thr q) (v_Js k) m -> alive (q_thr q) (v_Js k) n -> (i < nc)%nat ->
   v_phis_comp k' i m = v_phis_comp k' i n).
Proof.
  intros HM HA. assert (HR := mixture_rho _ _ _ _ _ _ _ HM). split.
  - intros MX q k k' sh pm HC m n i Hm Hn Lm Ln Hi.
    rewrite (C94_canonical _ _ _ _ _ _ _ _ _ _ HC MX m i Hm Lm Hi). symmetry. now apply (C94_canonical _ _ _ _ _ _ _ _ _ _ HC MX).
  - intros H. apply NNPP. intros NM. destruct (C94_demixes nc nf rho chis sizes HA HR NM) as (pm & HP & PS & D).
    destruct (D nat (full_size q0 nc pm) sh0 [] 0%nat) as (k & k' & v & _ & _ & HC & _ & _ & m & n & i & Hm & Hn & Lm & Ln & Hi & NE);
      [now apply full_size_mixture|reflexivity|reflexivity|cbn; lra|cbn; lia|constructor|].
    apply NE. exact (H _ k k' sh0 pm HC m n i Hm Hn Lm Ln Hi).
Qed.

(** Exactly then the homogeneous state has the least free energy, whatever the
    mean composition. *)
Theorem C94_optimal F : wf_fe F -> (forall i, (i < fe_nc F)%nat -> 0 < fe_sizes F i) ->
  (mixable F <-> forall pm, (forall i, (i < fe_nc F)%nat -> 0 < pm i) -> rsum (fe_nc F) pm = 1 -> exists v, energy_is F pm v /\ least F pm v).
Proof.
  intros WF HL. split.
  - intros MX pm Pp Sp. destruct (stable_exists F pm WF HL Pp Sp) as (N & w & u & mu & _ & CX & ST).
    assert (U0 : forall p i, (p < N)%nat -> (i < fe_nc F)%nat -> u p i = pm i).
    { intros p i Hp Hi. rewrite <- (cx_mean _ _ _ _ _ _ CX i Hi). rewrite (rsum_ext N _ (fun r => w r * u p i)).
      - rewrite rsum_scal_r, (cx_w1 _ _ _ _ _ _ CX). ring.
      - intros r Hr. f_equal. destruct CX as [X1 X2 X3 X4 X5 X6 X7]. apply (mixable_one F mu (u r) (u p) WF HL MX); auto. }
    exists (fh (fe_nc F) (fe_chis F) (fe_sizes F) pm). split; [apply (energy_is_fh F pm WF); intros i Hi; left; auto|].
    assert (Q : potentials F pm mu).
    { pose proof (cx_mu _ _ _ _ _ _ CX 0%nat (cx_some _ _ _ _ _ _ CX)) as Q. unfold potentials in *.
      rewrite (listed_ext (fe_nc F) pm (u 0%nat)); [exact Q|]. intros i Hi. symmetry. apply U0; auto. apply (cx_some _ _ _ _ _ _ CX). }
    rewrite <- (mu_energy F pm mu WF Pp Sp Q). now apply stable_least.
  - intros H. apply NNPP. intros NM.
    apply not_all_ex_not in NM. destruct NM as (d & NM). apply imply_to_and in NM. destruct NM as (Sd & NG). apply Rnot_le_lt in NG.
    destruct (unmixable_at F d HL NG) as (x & Px & Sx & CV). destruct (H x Px Sx) as (v & EV & LV).
    assert (VF := energy_is_inj _ _ _ _ EV (energy_is_fh F x WF (fun i Hi => Rlt_le _ _ (Px i Hi)))).
    destruct (stable_exists F x WF HL Px Sx) as (N & w & u & mu & _ & CX & ST).
    pose proof (potentials_mu F x WF Px) as Q. set (mu' := mu_of F x) in *.
    assert (EM : forall i, (i < fe_nc F)%nat -> mu' i = mu i).
    { refine (weighted_touch F 1 (fun _ => 1) (fun _ => x) x mu mu' WF HL ST _ _ _ _ 0%nat (Nat.lt_0_succ 0) Rlt_0_1).
      - intros; lra.
      - intros m Hm L. auto.
      - intros i Hi. cbn. ring.
      - rewrite (mu_energy F x mu' WF Px Sx Q), <- VF. rewrite <- (mean_swap (fe_nc F) N w u x mu (cx_mean _ _ _ _ _ _ CX)).
        eapply Rle_trans; [apply (LV N w (fun i j => u j i) (fun j => fh (fe_nc F) (fe_chis F) (fe_sizes F) (u j)))|].
        + intros j Hj. left. now apply (cx_w _ _ _ _ _ _ CX).
        + apply (cx_w1 _ _ _ _ _ _ CX).
        + intros i j Hi Hj. left. now apply (cx_pos _ _ _ _ _ _ CX).
        + intros j Hj. now apply (cx_sum _ _ _ _ _ _ CX).
        + apply (cx_mean _ _ _ _ _ _ CX).
        + intros j Hj. apply (energy_is_fh F (u j) WF). intros i Hi. left. now apply (cx_pos _ _ _ _ _ _ CX).
        + right. apply rsum_ext. intros p Hp. f_equal. symmetry. destruct CX as [X1 X2 X3 X4 X5 X6 X7]. apply (mu_energy F (u p) mu WF); auto. }
    apply (concave_unstable F x d mu WF HL Px Sx Sd CV); [|exact ST].
    unfold potentials in *. rewrite Q. f_equal. f_equal. apply listed_ext. intros i Hi. f_equal. now apply EM.
Qed.

(* ------------------------------------------------------------------ *)
(** * The criterion in two cases *)

(** two components: the critical repulsion of the phase diagram *)
Theorem C94_binary rho chis sizes : chis (rho 0%nat) (rho 1%nat) = chis (rho 1%nat) (rho 0%nat) ->
  (mixable (fe_of 2 rho chis sizes) <-> repulsion chis rho <= critical_repulsion sizes).
Proof.
  intros SY. unfold mixable, form, repulsion, critical_repulsion. cbn [fe_of fe_nc fe_chis fe_sizes rsum]. split.
  - intros H. specialize (H (fun i => if Nat.eqb i 0 then 1 else -1)). cbn [Nat.eqb] in H.
    rewrite Rabs_R1, (Rabs_left (-1)) in H by lra. specialize (H ltac:(lra)). rewrite <- SY in H. 
    replace (0 + 1 / sqrt (sizes 0%nat) + - (-1) / sqrt (sizes 1%nat)) with (1 / sqrt (sizes 0%nat) + 1 / sqrt (sizes 1%nat)) in H by (unfold Rdiv; ring). lra.
  - intros H d S. assert (E : d 1%nat = - d 0%nat) by lra. rewrite E, <- SY, Rabs_Ropp.
    set (A := 1 / sqrt (sizes 0%nat) + 1 / sqrt (sizes 1%nat)) in *.
    replace (0 + Rabs (d 0%nat) / sqrt (sizes 0%nat) + Rabs (d 0%nat) / sqrt (sizes 1%nat)) with (Rabs (d 0%nat) * A) by (unfold A, Rdiv; ring).
    replace ((Rabs (d 0%nat) * A) ^ 2) with (d 0%nat * d 0%nat * A ^ 2).
    + assert (0 <= d 0%nat * d 0%nat) by apply Rle_0_sqr. nra.
    + rewrite Rpow_mult_distr, pow2_abs. ring.
Qed.

Lemma twice_squares n (d : vec) : rsum n d = 0 -> 2 * rsum n (fun i => d i * d i) <= (rsum n (fun i => Rabs (d i))) ^ 2.
Proof.
  intros S. set (A := rsum n (fun i => Rabs (d i))).
  assert (H : forall i, (i < n)%nat -> 2 * Rabs (d i) <= A).
  { intros i Hi. unfold A. rewrite (rsum_remove n (fun i => Rabs (d i)) i Hi).
    rewrite (rsum_remove n d i Hi) in S. assert (E : Rabs (d i) = Rabs (rsum n (fun j => if Nat.eqb j i then 0 else d j))).
    { rewrite <- Rabs_Ropp. f_equal. lra. }
    pose proof (rsum_Rabs n (fun j => if Nat.eqb j i then 0 else d j)) as T. rewrite <- E in T.
    rewrite (rsum_ext n (fun j => Rabs (if Nat.eqb j i then 0 else d j)) (fun j => if Nat.eqb j i then 0 else Rabs (d j))) in T; [lra|].
    intros j _. destruct (Nat.eqb j i); [apply Rabs_R0|reflexivity]. }
  replace (A ^ 2) with (rsum n (fun i => A * Rabs (d i))).
  - rewrite <- rsum_scal_l. apply rsum_le. intros i Hi. specialize (H i Hi). pose proof (Rabs_pos (d i)).
    replace (d i * d i) with (Rabs (d i) * Rabs (d i)) by (rewrite <- Rabs_mult; apply Rabs_right; apply Rle_ge, Rle_0_sqr). nra.
  - rewrite rsum_scal_l. fold A. ring.
Qed.

(** any number of components of the same size that repel each other equally *)
Theorem C94_uniform nc chi size : (2 <= nc)%nat -> 0 < size ->
  (mixable (fe_of nc (fun i => i) (fun i j => if Nat.eqb i j then 0 else chi) (fun _ => size)) <-> chi * size <= 2).
Proof.
  intros N2 HS. unfold mixable. cbn [fe_of fe_nc fe_chis fe_sizes].
  assert (FM : forall d, rsum nc d = 0 -> form nc (fun i j => if Nat.eqb i j then 0 else chi) d = - chi * rsum nc (fun i => d i * d i)).
  { intros d S. unfold form. rewrite <- rsum_scal_l. apply rsum_ext. intros i Hi.
    rewrite (rsum_ext nc _ (fun j => chi * d i * d j - (if Nat.eqb j i then chi * d i * d i else 0))).
    - rewrite rsum_minus, rsum_scal_l, S, (rsum_single nc _ i), Nat.eqb_refl; [ring|exact Hi|]. intros j _ X. now destruct (Nat.eqb_spec j i).
    - intros j Hj. rewrite (Nat.eqb_sym j i). destruct (Nat.eqb_spec i j) as [->|]; ring. }
  assert (SM : forall d, rsum nc (fun i => Rabs (d i) / sqrt size) = rsum nc (fun i => Rabs (d i)) / sqrt size) by (intros; apply rsum_div).
  assert (SQ : forall z, (z / sqrt size) ^ 2 = z ^ 2 / size).
  { intros z. replace ((z / sqrt size) ^ 2) with (z ^ 2 / (sqrt size * sqrt size)).
    - now rewrite sqrt_sqrt by lra.
    - field. apply Rgt_not_eq, sqrt_lt_R0, HS. }
  split.
  - intros H. set (d := fun i : nat => if Nat.eqb i 0 then 1 else if Nat.eqb i 1 then -1 else 0).
    assert (TWO : forall g : nat -> R -> R, (forall i, g i 0 = 0) -> rsum nc (fun i => g i (d i)) = g 0%nat 1 + g 1%nat (-1)).
    { intros g G0. rewrite (rsum_two nc 0 1) by lia. rewrite (rsum_zero nc).
      - unfold d. cbn [Nat.eqb]. ring.
      - intros a _. unfold d. destruct (Nat.eqb a 0), (Nat.eqb a 1); cbn; auto. }
    assert (S : rsum nc d = 0) by (transitivity (rsum nc (fun i => (fun _ z => z) i (d i))); [reflexivity|rewrite (TWO (fun _ z => z)); [ring|reflexivity]]).
    specialize (H d S). rewrite FM, SM, SQ in H by exact S.
    rewrite (TWO (fun _ z => z * z)) in H by (intros; ring). rewrite (TWO (fun _ z => Rabs z)) in H by (intros; apply Rabs_R0).
    rewrite Rabs_R1, (Rabs_left (-1)) in H by lra.
    apply (Rmult_le_compat_r size) in H; [|lra]. unfold Rdiv in H. rewrite Rmult_plus_distr_r, Rmult_assoc, (Rmult_assoc _ (/ size)), Rinv_l in H by lra. lra.
  - intros H d S. rewrite FM, SM, SQ by exact S. pose proof (twice_squares nc d S) as T.
    assert (P : 0 <= rsum nc (fun i => d i * d i)) by (apply rsum_nonneg; intros; apply Rle_0_sqr).
    set (Q := rsum nc (fun i => d i * d i)) in *. set (A := rsum nc (fun i => Rabs (d i)) ^ 2) in *.
    apply (Rmult_le_reg_r size); [exact HS|]. unfold Rdiv. rewrite Rmult_plus_distr_r, Rmult_assoc, (Rmult_assoc _ (/ size)), Rinv_l by lra. nra.
Qed.
