(** PropertiesBinary.v -- the phase diagram of binary mixtures (C91). *)

From Coquelicot Require Import Coquelicot.
From Coq Require Import Reals Lra Lia List Bool Arith ZArith FunctionalExtensionality.
From Verif Require Import Base ModelCommon ModelParts ModelKernel ModelPhases ModelFinder ProofsKernel ProofsParts ProofsSteps
  ProofsRun ProofsRun2 ModelFreeEnergy ProofsFreeEnergy Spec Examples PropertiesKernel PropertiesRun PropertiesFreeEnergy
  PropertiesConstraints ProofsEquilibrium PropertiesEquilibrium PropertiesConvex ProofsBinary.
Import ListNotations.
Open Scope R_scope.

(* ------------------------------------------------------------------ *)
(** * Vocabulary *)

(** a step of a mixture of two components without residuals *)
Record settled {G} (q : kernel) (k k' : kstate G cstate) (nf : nat) (rho : nat -> nat) (chis : mat) (sh : R) (sizes x : vec) : Prop := {
  st_mix : mixture q 2 nf rho chis sh sizes;
  st_ens : any_ensemble q 2 x;
  st_par : admissible 2 nf chis sizes x;
  st_thr : 0 <= q_thr q;
  st_idle : Forall idle (v_cons k);
  st_step : exists nv rep, iterate q k = Ok (k', nv, rep) /\ e_incomp rep = 0 /\ e_omega rep = 0 /\ e_Js rep = 0
}.

(** [m] is a living compartment of [k] *)
Definition lives {G} (q : kernel) (k : kstate G cstate) (m : nat) : Prop := (m < q_np q)%nat /\ alive (q_thr q) (v_Js k) m.
(** compartments [m] of [k] and [n] of [h] have the same composition *)
Definition same {G} (k h : kstate G cstate) (m n : nat) : Prop := forall i, (i < 2)%nat -> v_phis_comp k i m = v_phis_comp h i n.

(** by how much unlike contacts are less favourable, and the value at the
    critical point *)
Definition repulsion (chis : mat) (rho : nat -> nat) : R :=
  2 * chis (rho 0%nat) (rho 1%nat) - chis (rho 0%nat) (rho 0%nat) - chis (rho 1%nat) (rho 1%nat).
Definition critical_repulsion (sizes : vec) : R := (1 / sqrt (sizes 0%nat) + 1 / sqrt (sizes 1%nat)) ^ 2.

(* ------------------------------------------------------------------ *)
(** * From arrays to one fraction *)

Section Link.
Variables (C : mat) (l : vec).
Hypothesis (Csym : C 0%nat 1%nat = C 1%nat 0%nat).
Hypothesis (L0 : 0 < l 0%nat) (L1 : 0 < l 1%nat).
Notation bf' := (bf (l 0%nat) (l 1%nat) (C 0%nat 0%nat) (C 0%nat 1%nat) (C 1%nat 1%nat)).
Notation bd' := (bd (l 0%nat) (l 1%nat) (C 0%nat 0%nat) (C 0%nat 1%nat) (C 1%nat 1%nat)).

Lemma fh_bf phi : rsum 2 phi = 1 -> fh 2 C l phi = bf' (phi 0%nat).
Proof using Csym L0 L1.
  intros S. unfold rsum in S. cbn in S. assert (E : phi 1%nat = 1 - phi 0%nat) by lra.
  unfold fh, bf. cbn. rewrite E, <- Csym. field. lra.
Qed.
Lemma dfh_bd phi : rsum 2 phi = 1 -> dfh 2 C l phi 0%nat - dfh 2 C l phi 1%nat = bd' (phi 0%nat).
Proof using Csym L0 L1.
  intros S. unfold rsum in S. cbn in S. assert (E : phi 1%nat = 1 - phi 0%nat) by lra.
  unfold dfh, bd. cbn. rewrite E, <- Csym. field. lra.
Qed.
Lemma mu_bf phi mu : rsum 2 phi = 1 -> (forall i, (i < 2)%nat -> mu i = legendre 2 C l phi + dfh 2 C l phi i) ->
  mu 0%nat = bf' (phi 0%nat) + (1 - phi 0%nat) * bd' (phi 0%nat) /\ mu 1%nat = bf' (phi 0%nat) - phi 0%nat * bd' (phi 0%nat).
Proof using Csym L0 L1.
  intros S M. pose proof (legendre_eq 2 C l phi) as E. rewrite (fh_bf phi S) in E. pose proof (dfh_bd phi S) as D.
  rewrite (M 0%nat), (M 1%nat) by lia. cbn in E, S. assert (F : phi 1%nat = 1 - phi 0%nat) by lra. rewrite F in E. nra.
Qed.
Lemma bf_mu phi : rsum 2 phi = 1 -> (forall i, (i < 2)%nat -> 0 < phi i) ->
  legendre 2 C l phi + dfh 2 C l phi 0%nat = bf' (phi 0%nat) + (1 - phi 0%nat) * bd' (phi 0%nat) /\
  legendre 2 C l phi + dfh 2 C l phi 1%nat = bf' (phi 0%nat) - phi 0%nat * bd' (phi 0%nat).
Proof using Csym L0 L1. intros S P. apply (mu_bf phi (fun i => legendre 2 C l phi + dfh 2 C l phi i)); auto. Qed.
End Link.

Notation tangent_of chis rho sizes := (tangent (sizes 0%nat) (sizes 1%nat) (chis (rho 0%nat) (rho 0%nat)) (chis (rho 0%nat) (rho 1%nat)) (chis (rho 1%nat) (rho 1%nat))).
Notation bf_of chis rho sizes := (bf (sizes 0%nat) (sizes 1%nat) (chis (rho 0%nat) (rho 0%nat)) (chis (rho 0%nat) (rho 1%nat)) (chis (rho 1%nat) (rho 1%nat))).
Notation bd_of chis rho sizes := (bd (sizes 0%nat) (sizes 1%nat) (chis (rho 0%nat) (rho 0%nat)) (chis (rho 0%nat) (rho 1%nat)) (chis (rho 1%nat) (rho 1%nat))).

Lemma critical_eq sizes : critical_repulsion sizes = critical (sizes 0%nat) (sizes 1%nat).
Proof. unfold critical_repulsion, critical. ring. Qed.

Section Props.
Context {G : Type}.
Implicit Types (q : kernel) (k : kstate G cstate).

(** what is known of a settled state *)
Lemma settled_facts q k k' nf rho chis sh sizes x : settled q k k' nf rho chis sh sizes x ->
  0 < sizes 0%nat /\ 0 < sizes 1%nat /\ chis (rho 0%nat) (rho 1%nat) = chis (rho 1%nat) (rho 0%nat) /\
  wf_fe (fe_of 2 rho chis sizes) /\
  exists mu, forall m, lives q k m ->
    0 < v_phis_comp k' 0%nat m < 1 /\ v_phis_comp k' 1%nat m = 1 - v_phis_comp k' 0%nat m /\
    potentials (fe_of 2 rho chis sizes) (fun i => v_phis_comp k' i m) mu /\
    mu 0%nat = bf_of chis rho sizes (v_phis_comp k' 0%nat m) + (1 - v_phis_comp k' 0%nat m) * bd_of chis rho sizes (v_phis_comp k' 0%nat m) /\
    mu 1%nat = bf_of chis rho sizes (v_phis_comp k' 0%nat m) - v_phis_comp k' 0%nat m * bd_of chis rho sizes (v_phis_comp k' 0%nat m).
Proof.
  intros [HM HE HA Ht HI (nv & rep & H & E1 & E2 & E3)].
  destruct (C12_zero_residuals _ _ _ _ _ _ _ _ _ _ _ _ HM HE HA Ht HI H E1 E2 E3) as (mu & P).
  destruct (step_fractions _ _ _ _ _ _ _ _ _ _ _ _ HM HE HA Ht H) as (HR & WF & _ & _ & _ & HF).
  destruct HA as (Hn & Hsym & Hsz & Hx).
  assert (L0 : 0 < sizes 0%nat) by (apply Hsz; lia). assert (L1 : 0 < sizes 1%nat) by (apply Hsz; lia).
  assert (SY : chis (rho 0%nat) (rho 1%nat) = chis (rho 1%nat) (rho 0%nat)) by (apply Hsym; apply HR; lia).
  split; [exact L0|]. split; [exact L1|]. split; [exact SY|]. split; [exact WF|].
  exists mu. intros m (Hm & Lm). destruct (P m Hm Lm) as (Q & _ & S & _). destruct (HF m Hm Lm) as (Pm & _).
  pose proof (Pm 0%nat ltac:(lia)) as P0. pose proof (Pm 1%nat ltac:(lia)) as P1. pose proof S as S2. cbn in S2.
  split; [lra|]. split; [lra|]. split; [exact Q|].
  apply (mu_bf (fun i j => chis (rho i) (rho j)) sizes SY L0 L1 (fun i => v_phis_comp k' i m) mu); [exact S|].
  intros i Hi. exact (potentials_value _ (fun j => v_phis_comp k' j m) mu i WF Pm Q Hi).
Qed.

Lemma settled_tangent q k k' nf rho chis sh sizes x : settled q k k' nf rho chis sh sizes x ->
  forall m n, lives q k m -> lives q k n ->
  0 < v_phis_comp k' 0%nat m < 1 /\ 0 < v_phis_comp k' 0%nat n < 1 /\
  tangent_of chis rho sizes (v_phis_comp k' 0%nat m) (v_phis_comp k' 0%nat n) /\
  (same k' k' m n <-> v_phis_comp k' 0%nat m = v_phis_comp k' 0%nat n).
Proof.
  intros H m n Hm Hn. destruct (settled_facts _ _ _ _ _ _ _ _ _ H) as (L0 & L1 & SY & _ & mu & F).
  destruct (F m Hm) as (R1 & S1 & _ & A1 & B1). destruct (F n Hn) as (R2 & S2 & _ & A2 & B2).
  split; [exact R1|]. split; [exact R2|]. split; [split; lra|]. split.
  - intros E. apply E. lia.
  - intros E [|[|i]] Hi; [exact E|lra|lia].
Qed.

(** * C91 *)

(** Never more than two phases: among three living compartments two have the
    same composition. *)
Theorem C91_two_phases q k k' nf rho chis sh sizes x : settled q k k' nf rho chis sh sizes x ->
  forall m n o, lives q k m -> lives q k n -> lives q k o -> same k' k' m n \/ same k' k' n o \/ same k' k' m o.
Proof.
  intros H m n o Hm Hn Ho. destruct (settled_facts _ _ _ _ _ _ _ _ _ H) as (L0 & L1 & _).
  destruct (settled_tangent _ _ _ _ _ _ _ _ _ H m n Hm Hn) as (Rm & Rn & Tmn & Emn).
  destruct (settled_tangent _ _ _ _ _ _ _ _ _ H n o Hn Ho) as (_ & Ro & Tno & Eno).
  destruct (settled_tangent _ _ _ _ _ _ _ _ _ H m o Hm Ho) as (_ & _ & Tmo & Emo).
  rewrite Emn, Eno, Emo. clear Emn Eno Emo.
  set (a := v_phis_comp k' 0%nat m) in *. set (b := v_phis_comp k' 0%nat n) in *. set (c := v_phis_comp k' 0%nat o) in *.
  assert (SYM : forall p r, tangent_of chis rho sizes p r -> tangent_of chis rho sizes r p) by (intros p r (U & V); split; auto).
  assert (NT : forall p r s, 0 < p -> p < r -> r < s -> s < 1 -> tangent_of chis rho sizes p r -> tangent_of chis rho sizes r s -> False)
    by (intros p r s ? ? ? ? V1 V2; exact (no_triple _ _ _ _ _ L0 L1 p r s ltac:(assumption) ltac:(assumption) ltac:(assumption) ltac:(assumption) V1 V2)).
  destruct (Rtotal_order a b) as [X|[X|X]]; destruct (Rtotal_order b c) as [Y|[Y|Y]]; destruct (Rtotal_order a c) as [Z|[Z|Z]]; try lra; exfalso.
  - apply (NT a b c); auto; lra.
  - apply (NT a c b); auto; lra.
  - apply (NT c a b); auto; lra.
  - apply (NT b a c); auto; lra.
  - apply (NT b c a); auto; lra.
  - apply (NT c b a); auto; lra.
Qed.

(** Up to the critical repulsion there is one phase. *)
Theorem C91_one_phase q k k' nf rho chis sh sizes x : settled q k k' nf rho chis sh sizes x ->
  repulsion chis rho <= critical_repulsion sizes ->
  forall m n, lives q k m -> lives q k n -> same k' k' m n.
Proof.
  intros H X m n Hm Hn. destruct (settled_facts _ _ _ _ _ _ _ _ _ H) as (L0 & L1 & _).
  destruct (settled_tangent _ _ _ _ _ _ _ _ _ H m n Hm Hn) as (Rm & Rn & T & E). apply E.
  apply (below_critical _ _ _ _ _ L0 L1 _ _ Rm Rn) with (2 := T). rewrite critical_eq in X. exact X.
Qed.

(** The pair of coexisting compositions is a function of sizes and
    interactions: it does not depend on ensemble, mean composition, numerical
    parameters, number or volumes of compartments, or the state. *)
Theorem C91_unique q k k' nf rho chis sh sizes x q' h h' nf' rho' chis' sh' sizes' x' :
  settled q k k' nf rho chis sh sizes x -> settled q' h h' nf' rho' chis' sh' sizes' x' ->
  (forall i, (i < 2)%nat -> sizes' i = sizes i) ->
  (forall i j, (i < 2)%nat -> (j < 2)%nat -> chis' (rho' i) (rho' j) = chis (rho i) (rho j)) ->
  forall m n m' n', lives q k m -> lives q k n -> ~ same k' k' m n -> lives q' h m' -> lives q' h n' -> ~ same h' h' m' n' ->
  (same k' h' m m' /\ same k' h' n n') \/ (same k' h' m n' /\ same k' h' n m').
Proof.
  intros H H' ES EC m n m' n' Hm Hn N Hm' Hn' N'.
  destruct (settled_facts _ _ _ _ _ _ _ _ _ H) as (L0 & L1 & _ & _ & mu & F).
  destruct (settled_facts _ _ _ _ _ _ _ _ _ H') as (_ & _ & _ & _ & mu' & F').
  destruct (settled_tangent _ _ _ _ _ _ _ _ _ H m n Hm Hn) as (Rm & Rn & T & E).
  destruct (settled_tangent _ _ _ _ _ _ _ _ _ H' m' n' Hm' Hn') as (Rm' & Rn' & T' & E').
  rewrite !EC, !ES in T' by lia. rewrite E in N. rewrite E' in N'.
  destruct (F m Hm) as (_ & S1 & _). destruct (F n Hn) as (_ & S2 & _). destruct (F' m' Hm') as (_ & S3 & _). destruct (F' n' Hn') as (_ & S4 & _).
  assert (SYM : forall p r, tangent_of chis rho sizes p r -> tangent_of chis rho sizes r p) by (intros p r (U & V); split; auto).
  assert (SAME : forall o o', v_phis_comp k' 1%nat o = 1 - v_phis_comp k' 0%nat o -> v_phis_comp h' 1%nat o' = 1 - v_phis_comp h' 0%nat o' ->
    v_phis_comp k' 0%nat o = v_phis_comp h' 0%nat o' -> same k' h' o o').
  { intros o o' U V W [|[|i]] Hi; [exact W|lra|lia]. }
  assert (U : forall a b a' b', 0 < a < 1 -> 0 < b < 1 -> 0 < a' < 1 -> 0 < b' < 1 -> a < b -> a' < b' ->
    tangent_of chis rho sizes a b -> tangent_of chis rho sizes a' b' -> a = a' /\ b = b').
  { intros a b a' b' ? ? ? ? ? ? V1 V2. refine (unique_tangent _ _ _ _ _ L0 L1 a b a' b' _ _ _ V1 _ _ _ V2); lra. }
  destruct (Rtotal_order (v_phis_comp k' 0%nat m) (v_phis_comp k' 0%nat n)) as [X|[X|X]]; [|lra|];
    destruct (Rtotal_order (v_phis_comp h' 0%nat m') (v_phis_comp h' 0%nat n')) as [Y|[Y|Y]]; try lra.
  - left. destruct (U _ _ _ _ Rm Rn Rm' Rn' X Y T T'). auto.
  - right. destruct (U _ _ _ _ Rm Rn Rn' Rm' X Y T (SYM _ _ T')). auto.
  - right. destruct (U _ _ _ _ Rn Rm Rm' Rn' X Y (SYM _ _ T) T'). auto.
  - left. destruct (U _ _ _ _ Rn Rm Rn' Rm' X Y (SYM _ _ T) (SYM _ _ T')). auto.
Qed.

(** the curve above a double tangent, including its end points *)
Lemma support_ends l0 l1 c00 c01 c11 a b : 0 < l0 -> 0 < l1 -> 0 < a -> a < b -> b < 1 -> tangent l0 l1 c00 c01 c11 a b ->
  forall x, 0 <= x <= 1 -> bf l0 l1 c00 c01 c11 a + bd l0 l1 c00 c01 c11 a * (x - a) <= bf l0 l1 c00 c01 c11 x.
Proof.
  intros H0 H1 A B C T x Hx. destruct (support _ _ _ _ _ H0 H1 a b A B C T) as (_ & _ & _ & _ & _ & _ & _ & S).
  assert (LN : forall p, 0 < p < 1 -> p * ln p <= 0).
  { intros p Hp. assert (ln p < 0) by (rewrite <- ln_1; apply ln_increasing; lra). nra. }
  assert (EN : forall p l, 0 < p < 1 -> 0 < l -> p * ln p / l <= 0).
  { intros p l Hp Hl. specialize (LN p Hp). assert (0 < / l) by now apply Rinv_0_lt_compat. unfold Rdiv. nra. }
  set (s := bd l0 l1 c00 c01 c11 a) in *. set (f := bf l0 l1 c00 c01 c11 a) in *.
  set (K := Rabs c00 + 2 * Rabs c01 + Rabs c11).
  assert (AB : forall c y, Rabs y <= 1 -> c * y <= Rabs c).
  { intros c y Hy. eapply Rle_trans; [apply Rle_abs|]. rewrite Rabs_mult. pose proof (Rabs_pos c). nra. }
  destruct (Req_dec x 0) as [->|N0]; [|destruct (Req_dec x 1) as [->|N1]; [|apply S; lra]].
  - apply Rnot_lt_le. intros L. set (d := f + s * (0 - a) - bf l0 l1 c00 c01 c11 0) in *.
    assert (D : 0 < d) by (unfold d; lra).
    set (y := Rmin (1 / 2) (d / (2 * (K + Rabs s + 1)))).
    assert (K0 : 0 < K + Rabs s + 1) by (unfold K; pose proof (Rabs_pos c00); pose proof (Rabs_pos c01); pose proof (Rabs_pos c11); pose proof (Rabs_pos s); lra).
    assert (Y0 : 0 < y). { unfold y. apply Rmin_glb_lt; [lra|apply Rdiv_lt_0_compat; lra]. }
    assert (Y1 : y <= 1 / 2) by apply Rmin_l.
    assert (Y2 : y * (K + Rabs s + 1) < d).
    { apply Rle_lt_trans with (d / (2 * (K + Rabs s + 1)) * (K + Rabs s + 1)).
      - apply Rmult_le_compat_r; [lra|apply Rmin_r].
      - replace (d / (2 * (K + Rabs s + 1)) * (K + Rabs s + 1)) with (d / 2) by (field; lra). lra. }
    pose proof (S y ltac:(lra)) as SY. unfold bf in SY at 1. 
    pose proof (EN y l0 ltac:(lra) H0). pose proof (EN (1 - y) l1 ltac:(lra) H1).
    assert (Z : bf l0 l1 c00 c01 c11 0 = c11 / 2).
    { unfold bf. rewrite Rminus_0_r, ln_1. field. lra. }
    pose proof (AB c00 (y / 2) ltac:(apply Rabs_le; lra)). pose proof (AB c01 (1 - y) ltac:(apply Rabs_le; lra)).
    pose proof (AB c11 (- 1 + y / 2) ltac:(apply Rabs_le; lra)). pose proof (AB (- s) 1 ltac:(apply Rabs_le; lra)). rewrite Rabs_Ropp in *.
    assert (c00 * y * y / 2 + c01 * y * (1 - y) + c11 * (- y + y * y / 2) <= y * (Rabs c00 + Rabs c01 + Rabs c11)) by nra.
    assert (- s * y <= y * Rabs s) by nra.
    unfold d in Y2. rewrite Z in Y2. unfold K in Y2. pose proof (Rabs_pos c01). nra.
  - apply Rnot_lt_le. intros L. set (d := f + s * (1 - a) - bf l0 l1 c00 c01 c11 1) in *.
    assert (D : 0 < d) by (unfold d; lra).
    set (y := Rmin (1 / 2) (d / (2 * (K + Rabs s + 1)))).
    assert (K0 : 0 < K + Rabs s + 1) by (unfold K; pose proof (Rabs_pos c00); pose proof (Rabs_pos c01); pose proof (Rabs_pos c11); pose proof (Rabs_pos s); lra).
    assert (Y0 : 0 < y). { unfold y. apply Rmin_glb_lt; [lra|apply Rdiv_lt_0_compat; lra]. }
    assert (Y1 : y <= 1 / 2) by apply Rmin_l.
    assert (Y2 : y * (K + Rabs s + 1) < d).
    { apply Rle_lt_trans with (d / (2 * (K + Rabs s + 1)) * (K + Rabs s + 1)).
      - apply Rmult_le_compat_r; [lra|apply Rmin_r].
      - replace (d / (2 * (K + Rabs s + 1)) * (K + Rabs s + 1)) with (d / 2) by (field; lra). lra. }
    pose proof (S (1 - y) ltac:(lra)) as SY. unfold bf in SY at 1. replace (1 - (1 - y)) with y in SY by ring.
    pose proof (EN y l1 ltac:(lra) H1). pose proof (EN (1 - y) l0 ltac:(lra) H0).
    assert (Z : bf l0 l1 c00 c01 c11 1 = c00 / 2).
    { unfold bf. replace (1 - 1) with 0 by ring. rewrite ln_1. field. lra. }
    pose proof (AB c11 (y / 2) ltac:(apply Rabs_le; lra)). pose proof (AB c01 (1 - y) ltac:(apply Rabs_le; lra)).
    pose proof (AB c00 (- 1 + y / 2) ltac:(apply Rabs_le; lra)). pose proof (AB s 1 ltac:(apply Rabs_le; lra)).
    assert (c11 * y * y / 2 + c01 * y * (1 - y) + c00 * (- y + y * y / 2) <= y * (Rabs c00 + Rabs c01 + Rabs c11)) by nra.
    assert (s * y <= y * Rabs s) by nra.
    unfold d in Y2. rewrite Z in Y2. unfold K in Y2. pose proof (Rabs_pos c01). nra.
Qed.

(** A demixed state is globally stable: no composition lies below the plane
    given by its chemical potentials. *)
Theorem C91_stable q k k' nf rho chis sh sizes x : settled q k k' nf rho chis sh sizes x ->
  forall m n, lives q k m -> lives q k n -> ~ same k' k' m n ->
  exists mu, (forall o, lives q k o -> potentials (fe_of 2 rho chis sizes) (fun i => v_phis_comp k' i o) mu) /\
  forall psi e, (forall i, (i < 2)%nat -> 0 <= psi i) -> rsum 2 psi = 1 -> energy_is (fe_of 2 rho chis sizes) psi e ->
  rsum 2 (fun i => psi i * mu i) <= e.
Proof.
  intros H m n Hm Hn N. destruct (settled_facts _ _ _ _ _ _ _ _ _ H) as (L0 & L1 & SY & WF & mu & F).
  destruct (settled_tangent _ _ _ _ _ _ _ _ _ H m n Hm Hn) as (Rm & Rn & T & E). rewrite E in N.
  exists mu. split; [intros o Ho; apply (F o Ho)|]. intros psi e P S HE.
  assert (EE : e = fh 2 (fun i j => chis (rho i) (rho j)) sizes psi).
  { unfold energy_is, free_energy_density in HE. rewrite check_ok in HE.
    - cbn [bind each] in HE. rewrite energy_fin in HE; auto.
      + injection HE as <-. apply (fh_entries 2 (fun i j => chis (rho i) (rho j)) sizes psi).
      + intros i Hi. cbn in Hi. unfold entries. cbn [fe_nc fe_of]. rewrite listed_nth by auto. auto.
    - cbn. reflexivity.
    - unfold nonneg. cbn [rows_of]. constructor; [|constructor]. apply listed_Forall. exact P. }
  rewrite EE, (fh_bf (fun i j => chis (rho i) (rho j)) sizes SY L0 L1 psi S).
  pose proof (P 0%nat ltac:(lia)) as P0. pose proof (P 1%nat ltac:(lia)) as P1.
  assert (SS := S). cbn in SS. assert (ES : psi 1%nat = 1 - psi 0%nat) by lra. cbn. rewrite ES.
  assert (W : forall a b, 0 < a -> a < b -> b < 1 -> tangent_of chis rho sizes a b ->
     mu 0%nat = bf_of chis rho sizes a + (1 - a) * bd_of chis rho sizes a -> mu 1%nat = bf_of chis rho sizes a - a * bd_of chis rho sizes a ->
     0 + psi 0%nat * mu 0%nat + (1 - psi 0%nat) * mu 1%nat <= bf_of chis rho sizes (psi 0%nat)).
  { intros a b A1 A2 A3 A4 M0 M1. pose proof (support_ends _ _ _ _ _ a b L0 L1 A1 A2 A3 A4 (psi 0%nat) ltac:(lra)) as Q.
    rewrite M0, M1. lra. }
  destruct (F m Hm) as (_ & _ & _ & M0 & M1). destruct (F n Hn) as (_ & _ & _ & N0 & N1).
  destruct (Rtotal_order (v_phis_comp k' 0%nat m) (v_phis_comp k' 0%nat n)) as [X|[X|X]]; [|lra|].
  - apply (W _ _ (proj1 Rm) X (proj2 Rn)); auto.
  - apply (W _ _ (proj1 Rn) X (proj2 Rm)); auto. destruct T; split; auto.
Qed.

(** With the canonical ensemble: its mean free energy is the least one over
    all arrangements of the same material. *)
Theorem C91_optimal q k k' nf rho chis sh sizes pm : q_ensemble q = can_compiled 2 pm ->
  settled q k k' nf rho chis sh sizes pm ->
  forall m n, lives q k m -> lives q k n -> ~ same k' k' m n ->
  exists e, (forall o, lives q k o -> energy_is (fe_of 2 rho chis sizes) (fun i => v_phis_comp k' i o) (e o)) /\
  forall N (w : vec) (psi : mat) (g : vec), (forall j, (j < N)%nat -> 0 <= w j) -> rsum N w = 1 ->
    (forall i j, (i < 2)%nat -> (j < N)%nat -> 0 <= psi i j) -> (forall j, (j < N)%nat -> rsum 2 (fun i => psi i j) = 1) ->
    (forall i, (i < 2)%nat -> rsum N (fun j => w j * psi i j) = pm i) ->
    (forall j, (j < N)%nat -> energy_is (fe_of 2 rho chis sizes) (fun i => psi i j) (g j)) ->
    wmean (q_np q) (living (q_thr q) (v_Js k)) e <= rsum N (fun j => w j * g j).
Proof.
  intros HE H m n Hm Hn ND. destruct H as [HM HEn HA Ht Hid (nv & rep & HI & E1 & E2 & E3)].
  assert (HS : settled q k k' nf rho chis sh sizes pm) by (constructor; auto; exists nv, rep; auto).
  destruct (C66_mean_energy q k k' nv rep 2 nf rho chis sh sizes pm HM HE HA Ht Hid HI E1 E2 E3) as (mu & e & P & W).
  destruct (C91_stable _ _ _ _ _ _ _ _ _ HS m n Hm Hn ND) as (mu' & P' & ST).
  assert (EM : forall i, (i < 2)%nat -> mu i = mu' i).
  { intros i Hi. destruct Hm as (Hm1 & Hm2). exact (potentials_inj _ _ _ _ (proj1 (P m Hm1 Hm2)) (P' m (conj Hm1 Hm2)) i Hi). }
  exists e. split; [intros o (O1 & O2); apply (P o O1 O2)|].
  intros N w psi g Hw Sw Hp Sp Mp Hg. rewrite W.
  rewrite (rsum_ext 2 _ (fun i => rsum N (fun j => w j * psi i j * mu' i))).
  - rewrite rsum_swap. apply rsum_le. intros j Hj. pose proof (ST (fun i => psi i j) (g j) (fun i Hi => Hp i j Hi Hj) (Sp j Hj) (Hg j Hj)) as STj.
    rewrite (rsum_ext 2 _ (fun i => w j * (psi i j * mu' i))) by (intros; ring). rewrite rsum_scal_l. apply Rmult_le_compat_l; auto.
  - intros i Hi. rewrite rsum_scal_r, Mp, EM by auto. reflexivity.
Qed.

Lemma canonical_mean q k k' nf rho chis sh sizes pm : q_ensemble q = can_compiled 2 pm -> settled q k k' nf rho chis sh sizes pm ->
  forall i, (i < 2)%nat -> wmean (q_np q) (living (q_thr q) (v_Js k)) (fun o => v_phis_comp k' i o) = pm i.
Proof.
  intros HE [HM HEn HA Ht Hid (nv & rep & HI & _)] i Hi. remember 2%nat as nc eqn:N2. clear HEn. destruct HA as (_ & _ & Hsz & Hx).
  destruct HM as [q n chis sh sizes F1 F2 F3|q nf npf chis sh sizes F1 F2 F3 F4].
  - eapply C01_canonical_mean_ideal_gas; eauto.
  - eapply C01_canonical_mean_polydispersed; eauto.
Qed.

Lemma living_nonneg thr J o : 0 <= thr -> 0 <= living thr J o.
Proof. intros H. unfold living. destruct (Rlt_dec _ _); lra. Qed.
Lemma living_pos q k m : 0 <= q_thr q -> lives q k m -> 0 < living (q_thr q) (v_Js k) m.
Proof. intros H (_ & L). unfold living, alive in *. destruct (Rlt_dec _ _); lra. Qed.

(** Lever rule: the mean composition lies strictly between the phases. *)
Theorem C91_lever q k k' nf rho chis sh sizes pm : q_ensemble q = can_compiled 2 pm -> settled q k k' nf rho chis sh sizes pm ->
  forall m n, lives q k m -> lives q k n -> v_phis_comp k' 0%nat m < v_phis_comp k' 0%nat n ->
  v_phis_comp k' 0%nat m < pm 0%nat < v_phis_comp k' 0%nat n.
Proof.
  intros HE H m n Hm Hn L. rewrite <- (canonical_mean _ _ _ _ _ _ _ _ _ HE H 0%nat ltac:(lia)).
  assert (Ht := st_thr _ _ _ _ _ _ _ _ _ H).
  assert (B : forall o, lives q k o -> v_phis_comp k' 0%nat o = v_phis_comp k' 0%nat m \/ v_phis_comp k' 0%nat o = v_phis_comp k' 0%nat n).
  { intros o Ho. destruct (C91_two_phases _ _ _ _ _ _ _ _ _ H m o n Hm Ho Hn) as [E|[E|E]]; specialize (E 0%nat ltac:(lia)); auto; lra. }
  set (w := living (q_thr q) (v_Js k)). set (a := v_phis_comp k' 0%nat m) in *. set (b := v_phis_comp k' 0%nat n) in *.
  assert (W0 : forall o, 0 <= w o) by (intros; now apply living_nonneg).
  assert (WM : 0 < w m) by (apply living_pos; auto). assert (WN : 0 < w n) by (apply living_pos; auto).
  assert (WD : forall o, (o < q_np q)%nat -> w o = 0 \/ lives q k o).
  { intros o Ho. unfold w, living, lives, alive. destruct (Rlt_dec _ _); auto. }
  assert (S : 0 < rsum (q_np q) w) by (apply rsum_pos; [auto|exists m; split; [apply Hm|auto]]).
  assert (D1 : 0 < rsum (q_np q) (fun o => w o * v_phis_comp k' 0%nat o - w o * a)).
  { apply rsum_pos.
    - intros o Ho. destruct (WD o Ho) as [->|Lo]; [lra|]. specialize (W0 o). destruct (B o Lo) as [->| ->]; nra.
    - exists n. split; [apply Hn|]. fold b. nra. }
  assert (D2 : 0 < rsum (q_np q) (fun o => w o * b - w o * v_phis_comp k' 0%nat o)).
  { apply rsum_pos.
    - intros o Ho. destruct (WD o Ho) as [->|Lo]; [lra|]. specialize (W0 o). destruct (B o Lo) as [->| ->]; nra.
    - exists m. split; [apply Hm|]. fold a. nra. }
  rewrite rsum_minus, rsum_scal_r in D1, D2. unfold wmean.
  split; apply (Rmult_lt_reg_r (rsum (q_np q) w)); auto.
  - unfold Rdiv. rewrite Rmult_assoc, Rinv_l by lra. lra.
  - unfold Rdiv at 1. rewrite Rmult_assoc, Rinv_l by lra. lra.
Qed.

(** Inside the gap: two compartments with suitable volumes and fields form a
    demixed state without residuals. *)
Lemma demixed_of_tangent chis sizes a b :
  0 < sizes 0%nat -> 0 < sizes 1%nat -> chis 0%nat 1%nat = chis 1%nat 0%nat ->
  0 < a -> a < b -> b < 1 -> tangent (sizes 0%nat) (sizes 1%nat) (chis 0%nat 0%nat) (chis 0%nat 1%nat) (chis 1%nat 1%nat) a b -> exists mu,
  forall pm, a < pm 0%nat < b -> pm 1%nat = 1 - pm 0%nat ->
  forall q k sh, q_nf q = 2%nat -> q_inter q = fh_compile 2 chis sh -> q_entropy q = ig_compiled 2 sizes -> q_ensemble q = can_compiled 2 pm ->
  q_np q = 2%nat -> 0 <= q_thr q -> 0 < q_ub q -> Forall idle (v_cons k) ->
  v_Js k 0%nat = 2 * ((b - pm 0%nat) / (b - a)) -> v_Js k 1%nat = 2 * ((pm 0%nat - a) / (b - a)) -> q_thr q < v_Js k 0%nat -> q_thr q < v_Js k 1%nat ->
  (forall i, (i < 2)%nat -> v_omegas k i 0%nat = mu i - 1 / sizes i - ln (if Nat.eqb i 0 then a else 1 - a) / sizes i) ->
  (forall i, (i < 2)%nat -> v_omegas k i 1%nat = mu i - 1 / sizes i - ln (if Nat.eqb i 0 then b else 1 - b) / sizes i) ->
  exists k', settled q k k' 2 (fun i => i) chis sh sizes pm /\ v_phis_comp k' 0%nat 0%nat = a /\ v_phis_comp k' 0%nat 1%nat = b.
Proof.
  intros L0 L1 SY A B C T.
  set (phi := fun i m : nat => if Nat.eqb m 0 then (if Nat.eqb i 0 then a else 1 - a) else (if Nat.eqb i 0 then b else 1 - b)).
  assert (WF : wf_fe (fe_of 2 (fun i => i) chis sizes)).
  { split; cbn.
    - intros [|[|i]] Hi; [lra|lra|lia].
    - intros [|[|i]] [|[|j]] Hi Hj; try lia; auto. }
  assert (PP : forall m i, (i < 2)%nat -> 0 < phi i m).
  { intros m i Hi. unfold phi. destruct (Nat.eqb m 0), (Nat.eqb i 0); lra. }
  assert (PS : forall m, rsum 2 (fun i => phi i m) = 1).
  { intros m. unfold phi. cbn. destruct (Nat.eqb m 0); lra. }
  set (mu := mu_of (fe_of 2 (fun i => i) chis sizes) (fun i => phi i 0%nat)).
  assert (PM : forall m, (m < 2)%nat -> potentials (fe_of 2 (fun i => i) chis sizes) (fun i => phi i m) mu).
  { intros m Hm. apply potentials_ext with (mu := mu_of (fe_of 2 (fun i => i) chis sizes) (fun i => phi i m));
      [|apply potentials_mu; [exact WF|intros; now apply PP]].
    intros i Hi. cbn in Hi. unfold mu, mu_of. rewrite !legendre_eq. cbn [fe_nc fe_of fe_sizes fe_chis].
    change (fun i j : nat => chis i j) with chis.
    destruct (bf_mu chis sizes SY L0 L1 (fun i => phi i m) (PS m) ltac:(intros; now apply PP)) as (U0 & U1).
    destruct (bf_mu chis sizes SY L0 L1 (fun i => phi i 0%nat) (PS 0%nat) ltac:(intros; now apply PP)) as (V0 & V1).
    destruct T as (T1 & T2).
    destruct m as [|[|m]]; [reflexivity| |lia]. cbn [phi Nat.eqb] in U0, U1, V0, V1 |- *.
    destruct i as [|[|i]]; [| |lia]; etransitivity; [exact U0| |exact U1|]; etransitivity; [|symmetry; exact V0| |symmetry; exact V1]; cbn; lra. }
  exists mu.
  intros pm Hpm Hp1 q k sh QN QI HQ HE Np Ht Hu HI J0 J1 A0 A1 O0 O1.
  assert (HA : admissible 2 2 chis sizes pm).
  { split; [lia|]. split; [intros [|[|r]] [|[|s]] Hr Hs; try lia; auto|]. split.
    - intros [|[|i]] Hi; [lra|lra|lia].
    - intros [|[|i]] Hi; [lra|lra|lia]. }
  assert (AL : forall m, (m < q_np q)%nat -> alive (q_thr q) (v_Js k) m).
  { intros m Hm. rewrite Np in Hm. destruct m as [|[|m]]; [exact A0|exact A1|lia]. }
  destruct (C12_coexistence_stationary q k 2 chis sh sizes pm phi mu QN QI HQ HE HA Ht Hu HI)
    as (k' & nv & rep & H & E1 & E2 & E3 & E4).
  - exists 0%nat. split; [lia|]. apply AL. lia.
  - intros m Hm _. rewrite Np in Hm. split; [intros; now apply PP|]. split; [apply PS|]. split; [now apply PM|].
    intros i Hi. destruct m as [|[|m]]; [now apply O0|now apply O1|lia].
  - intros i Hi. rewrite Np. unfold wmean. cbn [rsum]. unfold living.
    destruct (Rlt_dec (q_thr q) (v_Js k 0%nat)); [|lra]. destruct (Rlt_dec (q_thr q) (v_Js k 1%nat)); [|lra].
    rewrite J0, J1. destruct i as [|[|i]]; [| |lia]; unfold phi; cbn [Nat.eqb]; rewrite ?Hp1; field; lra.
  - exists k'. split.
    + constructor; auto; [now constructor|now left|]. exists nv, rep. auto.
    + split; rewrite E4; auto; try lia; apply AL; lia.
Qed.

(** Beyond the critical repulsion the phase diagram has a miscibility gap
    [(a, b)]: demixed states consist of the compositions [a] and [b]; canonical
    states with a mean composition outside the gap are homogeneous; and every
    mean composition inside has a demixed state, given here by its volumes and
    fields. *)
Theorem C91_diagram chis sizes rho :
  0 < sizes 0%nat -> 0 < sizes 1%nat -> chis (rho 0%nat) (rho 1%nat) = chis (rho 1%nat) (rho 0%nat) ->
  critical_repulsion sizes < repulsion chis rho ->
  exists a b, 0 < a /\ a < b /\ b < 1 /\
  (forall q k k' nf sh x m n, settled q k k' nf rho chis sh sizes x -> lives q k m -> lives q k n -> ~ same k' k' m n ->
     (v_phis_comp k' 0%nat m = a /\ v_phis_comp k' 0%nat n = b) \/ (v_phis_comp k' 0%nat m = b /\ v_phis_comp k' 0%nat n = a)) /\
  (forall q k k' nf sh pm, q_ensemble q = can_compiled 2 pm -> settled q k k' nf rho chis sh sizes pm -> pm 0%nat <= a \/ b <= pm 0%nat ->
     forall m i, lives q k m -> (i < 2)%nat -> v_phis_comp k' i m = pm i) /\
  (exists mu, forall q k sh pm, q_nf q = 2%nat -> q_inter q = fh_compile 2 (fun i j => chis (rho i) (rho j)) sh ->
     q_entropy q = ig_compiled 2 sizes -> q_ensemble q = can_compiled 2 pm -> q_np q = 2%nat -> 0 <= q_thr q -> 0 < q_ub q ->
     Forall idle (v_cons k) -> a < pm 0%nat < b -> pm 1%nat = 1 - pm 0%nat ->
     v_Js k 0%nat = 2 * ((b - pm 0%nat) / (b - a)) -> v_Js k 1%nat = 2 * ((pm 0%nat - a) / (b - a)) ->
     q_thr q < v_Js k 0%nat -> q_thr q < v_Js k 1%nat ->
     (forall i, (i < 2)%nat -> v_omegas k i 0%nat = mu i - 1 / sizes i - ln (if Nat.eqb i 0 then a else 1 - a) / sizes i) ->
     (forall i, (i < 2)%nat -> v_omegas k i 1%nat = mu i - 1 / sizes i - ln (if Nat.eqb i 0 then b else 1 - b) / sizes i) ->
     exists k', settled q k k' 2 (fun i => i) (fun i j => chis (rho i) (rho j)) sh sizes pm /\
       v_phis_comp k' 0%nat 0%nat = a /\ v_phis_comp k' 0%nat 1%nat = b).
Proof.
  intros L0 L1 SY X. destruct (exists_tangent (sizes 0%nat) (sizes 1%nat) (chis (rho 0%nat) (rho 0%nat)) (chis (rho 0%nat) (rho 1%nat)) (chis (rho 1%nat) (rho 1%nat)) L0 L1)
    as (a & b & A & B & C & T). { rewrite critical_eq in X. exact X. }
  assert (GAP : forall q k k' nf sh x m n, settled q k k' nf rho chis sh sizes x -> lives q k m -> lives q k n ->
    v_phis_comp k' 0%nat m < v_phis_comp k' 0%nat n -> v_phis_comp k' 0%nat m = a /\ v_phis_comp k' 0%nat n = b).
  { intros q k k' nf sh x m n H Hm Hn L. destruct (settled_tangent _ _ _ _ _ _ _ _ _ H m n Hm Hn) as (Rm & Rn & T' & _).
    destruct (unique_tangent _ _ _ _ _ L0 L1 _ _ a b (proj1 Rm) L (proj2 Rn) T' A B C T). auto. }
  exists a, b. split; [exact A|]. split; [exact B|]. split; [exact C|]. split; [|split].
  - intros q k k' nf sh x m n H Hm Hn N. destruct (settled_tangent _ _ _ _ _ _ _ _ _ H m n Hm Hn) as (_ & _ & _ & E). rewrite E in N.
    destruct (Rtotal_order (v_phis_comp k' 0%nat m) (v_phis_comp k' 0%nat n)) as [Y|[Y|Y]]; [left|lra|right].
    + eapply GAP; eauto.
    + apply and_comm. eapply GAP with (m := n) (n := m); eauto.
  - intros q k k' nf sh pm HE H O m i Hm Hi. rewrite <- (canonical_mean _ _ _ _ _ _ _ _ _ HE H i Hi).
    assert (Ht := st_thr _ _ _ _ _ _ _ _ _ H).
    assert (SM : forall n, lives q k n -> same k' k' n m).
    { intros n Hn. destruct (settled_tangent _ _ _ _ _ _ _ _ _ H n m Hn Hm) as (_ & _ & _ & E). apply E.
      destruct (Rtotal_order (v_phis_comp k' 0%nat n) (v_phis_comp k' 0%nat m)) as [Y|[Y|Y]]; [exfalso|exact Y|exfalso].
      - destruct (GAP _ _ _ _ _ _ n m H Hn Hm Y) as (E1 & E2). pose proof (C91_lever _ _ _ _ _ _ _ _ _ HE H n m Hn Hm Y). lra.
      - destruct (GAP _ _ _ _ _ _ m n H Hm Hn Y) as (E1 & E2). pose proof (C91_lever _ _ _ _ _ _ _ _ _ HE H m n Hm Hn Y). lra. }
    unfold wmean. set (w := living (q_thr q) (v_Js k)).
    assert (S : 0 < rsum (q_np q) w).
    { apply rsum_pos; [intros; now apply living_nonneg|]. exists m. split; [apply Hm|now apply living_pos]. }
    rewrite (rsum_ext (q_np q) _ (fun o => w o * v_phis_comp k' i m)).
    + rewrite rsum_scal_r. field. lra.
    + intros o Ho. unfold w, living. destruct (Rlt_dec (q_thr q) (v_Js k o)) as [Y|Y]; [|ring].
      rewrite (SM o (conj Ho Y) i Hi). reflexivity.
  - destruct (demixed_of_tangent (fun i j => chis (rho i) (rho j)) sizes a b L0 L1 SY A B C T) as (mu & D). exists mu.
    intros q k sh pm QN QI HQ HE Np Ht Hu HI Hpm Hp1 J0 J1 A0 A1 O0 O1. apply (D pm Hpm Hp1); auto.
Qed.

End Props.
