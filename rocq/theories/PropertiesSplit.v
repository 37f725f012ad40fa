(** PropertiesSplit.v -- splitting a component into indistinguishable parts (C74). *)

From Coq Require Import String Reals Lra Lia List Bool Arith ZArith FunctionalExtensionality.
From Verif Require Import Base ModelCommon ModelParts ModelKernel ModelPhases ModelFinder ModelHistory
  ProofsKernel ProofsParts ProofsSteps ProofsBounds ProofsCopy ProofsRun ProofsHistory ProofsRun2 ProofsSim
  Spec Examples PropertiesKernel PropertiesFinder PropertiesRun ProofsEquilibrium.
Import ListNotations.
Open Scope R_scope.

(* ------------------------------------------------------------------ *)
(** * Revival by copying moves whole columns *)

Section Columns.
Context {G : Type} (ops : rng_ops G).

Lemma copy_all_columns np thr dead : forall J living lc g c (o : nat -> nat),
  (exists e, forall T : mat, copy_all ops np thr dead
     {| y_Js := J; y_targets := fun i m => T i (o m); y_living := living; y_lc := lc; y_g := g; y_count := c |} = Err e) \/
  (exists J' living' lc' g' c' (o' : nat -> nat), forall T : mat, copy_all ops np thr dead
     {| y_Js := J; y_targets := fun i m => T i (o m); y_living := living; y_lc := lc; y_g := g; y_count := c |} =
     Ok {| y_Js := J'; y_targets := fun i m => T i (o' m); y_living := living'; y_lc := lc'; y_g := g'; y_count := c' |}).
Proof.
  induction dead as [|d dead IH]; intros J living lc g c o; cbn [copy_all].
  - right. exists J, living, lc, g, c, o. reflexivity.
  - unfold copy_one. cbn [y_Js y_targets y_living y_lc y_g y_count].
    destruct (find_donor ops J thr lc living g) as [[[[ref l'] lc'] g']|e]; [|left; exists e; reflexivity]. cbn [bind].
    destruct (negb _); [left; eexists; reflexivity|]. cbn [bind].
    destruct (IH (upd (upd J d (1/2 * J ref)) ref (1/2 * J ref)) (upd l' lc' (Some d)) (S lc') g' (S c)
      (fun m => if Nat.eqb m d then o ref else o m)) as [(e & E)|(J' & L' & lc2 & g2 & c2 & o2 & E)].
    + left. exists e. intros T. rewrite <- (E T). do 2 f_equal. apply functional_extensionality. intros i.
      apply functional_extensionality. intros m. now destruct (Nat.eqb m d).
    + right. exists J', L', lc2, g2, c2, o2. intros T. rewrite <- (E T). do 2 f_equal. apply functional_extensionality. intros i.
      apply functional_extensionality. intros m. now destruct (Nat.eqb m d).
Qed.

Lemma revive_by_copy_columns np J thr g :
  (exists e, forall T : mat, revive_by_copy ops np J T thr g = Err e) \/
  (exists n J' g' (o : nat -> nat), forall T : mat,
     revive_by_copy ops np J T thr g = Ok (n, J', (fun i m => T i (o m)), g')).
Proof.
  unfold revive_by_copy. destruct (classify np J thr) as [[living lc] dead].
  destruct (copy_all_columns np thr dead J living lc g O (fun m => m)) as [(e & E)|(J' & L' & lc2 & g2 & c2 & o2 & E)].
  - left. exists e. intros T. exact (f_equal (fun x => bind x (fun s => Ok (y_count s, y_Js s, y_targets s, y_g s))) (E T)).
  - right. exists c2, J', g2, o2. intros T. exact (f_equal (fun x => bind x (fun s => Ok (y_count s, y_Js s, y_targets s, y_g s))) (E T)).
Qed.
End Columns.

(* ------------------------------------------------------------------ *)
(** * The built-in entropies *)

(** Component [i] has feature [rho i] and size [sizes i]. *)
Inductive sized : entropy -> nat -> nat -> (nat -> nat) -> vec -> Prop :=
| sized_plain n sizes : sized (ig_compiled n sizes) n n (fun i => i) sizes
| sized_poly nf npf sizes : (forall r, (r < nf)%nat -> (1 <= npf r)%nat) ->
    sized (pg_compiled (nsum nf npf) nf npf sizes) (nsum nf npf) nf (feature_of nf npf) sizes.

Lemma pg_comp_to_feat_out nf npf f c r m : (nf <= r)%nat -> pg_comp_to_feat nf npf f c r m = f r m.
Proof.
  unfold pg_comp_to_feat. revert r. induction nf as [|nf IH]; intros r Hr; [reflexivity|].
  rewrite for_S. specialize (IH r ltac:(lia)). destruct (for_ nf _ (O, f)) as [i g]. cbn [snd] in IH.
  rewrite <- IH. clear IH. induction (npf nf - 1)%nat as [|n IHn].
  - cbn. unfold upd_row. now rewrite upd_neq by lia.
  - rewrite for_S. destruct (for_ n _ _) as [i' g']. cbn [snd] in *. unfold upd_row at 1. now rewrite upd_neq by lia.
Qed.

Lemma ig_comp_to_feat_out n sizes f c r m : (n <= r)%nat -> s_comp_to_feat (ig_compiled n sizes) f c r m = f r m.
Proof.
  cbn. revert r. induction n as [|n IH]; intros r Hr; [reflexivity|]. rewrite for_S.
  unfold upd_row at 1. rewrite upd_neq by lia. apply IH. lia.
Qed.

Lemma sized_facts s nc nf rho sizes : sized s nc nf rho sizes ->
  (forall i, (i < nc)%nat -> (rho i < nf)%nat) /\
  (forall np c w J p0 Q, s_partition s np c w J = Ok (p0, Q) -> rsum np J <> 0 /\
     (forall i m, (i < nc)%nat -> p0 i m = boltzmann (w (rho i) m) (sizes i)) /\
     (forall i, (i < nc)%nat -> Q i = ig_Q np (w (rho i)) J (sizes i))) /\
  (forall np c w J, rsum np J <> 0 -> exists p0 Q, s_partition s np c w J = Ok (p0, Q)) /\
  (forall (e c : mat) r m, (r < nf)%nat -> s_comp_to_feat s e c r m = fsum nc rho (fun i => c i m) r) /\
  (forall (e c : mat) r m, (nf <= r)%nat -> s_comp_to_feat s e c r m = e r m) /\
  (forall c m, s_vd s c m = - rsum nc (fun i => c i m / sizes i)).
Proof.
  intros [n sz|nf' npf sz H].
  - split; [auto|]. split; [intros; now apply ig_partition_spec with (phis := c)|].
    split; [intros; now apply ig_partition_ok|].
    split; [intros; rewrite ig_comp_to_feat, fsum_id by auto; reflexivity|].
    split; [intros; now apply ig_comp_to_feat_out|]. intros. apply ig_vd_eq.
  - split; [intros; now apply feature_of_lt|]. split; [|split; [|split; [|split]]].
    + intros np c w J p0 Q E. apply pg_partition_spec in E. destruct E as (E1 & E2 & E3). split; [exact E1|]. split.
      * intros i m Hi. destruct (nsum_find _ _ _ Hi) as (r & j & Hr & Hj & ->). rewrite feature_of_eq by auto. now apply E2.
      * intros i Hi. destruct (nsum_find _ _ _ Hi) as (r & j & Hr & Hj & ->). rewrite feature_of_eq by auto. now apply E3.
    + intros. now apply pg_partition_ok.
    + intros. cbn. rewrite pg_comp_to_feat_spec, fsum_blocks by auto. reflexivity.
    + intros. now apply pg_comp_to_feat_out.
    + intros. apply ig_vd_eq.
Qed.

(* ------------------------------------------------------------------ *)
(** * One step *)

(** Component [i] of the second mixture is a part of component [pi i] of the
    first: same feature and size; the mean fractions (or activities) of the
    parts add up. *)
Definition parts_of (nc1 nc2 : nat) (pi : nat -> nat) (rho1 rho2 : nat -> nat) (sizes1 sizes2 x1 x2 : vec) : Prop :=
  (forall i, (i < nc2)%nat -> (pi i < nc1)%nat /\ rho2 i = rho1 (pi i) /\ sizes2 i = sizes1 (pi i)) /\
  (forall j, (j < nc1)%nat -> fsum nc2 pi x2 j = x1 j).

Definition same_kind (n1 n2 : ensemble) (nc1 nc2 : nat) (x1 x2 : vec) : Prop :=
  (n1 = can_compiled nc1 x1 /\ n2 = can_compiled nc2 x2) \/ (n1 = gc_compiled nc1 x1 /\ n2 = gc_compiled nc2 x2).

Section Split.
Context {G : Type}.
Implicit Types (q : kernel) (k : kstate G cstate) (f : finder G cstate).

Definition with_parts q s n : kernel :=
  {| q_inter := q_inter q; q_entropy := s; q_ensemble := n; q_nf := q_nf q; q_np := q_np q; q_acc_J := q_acc_J q;
     q_ub := q_ub q; q_acc_w := q_acc_w q; q_thr := q_thr q; q_scaler := q_scaler q |}.
Definition with_comp k (c : mat) : kstate G cstate :=
  {| v_omegas := v_omegas k; v_Js := v_Js k; v_phis_comp := c; v_phis_feat := v_phis_feat k; v_cons := v_cons k; v_g := v_g k |}.

(** Entropy and ensemble enter a step through the feature fractions, the
    incompressibility and the volume derivative only. *)
Lemma iterate_swap q k s n c p0 Q phis inc p0' Q' phis' k1 nv rep :
  s_partition (q_entropy q) (q_np q) (v_phis_comp k) (v_omegas k) (t_J q k) = Ok (p0, Q) ->
  n_normalize (q_ensemble q) p0 Q (t_masks q k) = Ok (phis, inc) ->
  s_partition s (q_np q) c (v_omegas k) (t_J q k) = Ok (p0', Q') ->
  n_normalize n p0' Q' (t_masks q k) = Ok (phis', inc) ->
  s_comp_to_feat s (v_phis_feat k) phis' = t_feat q k phis ->
  s_vd s phis' = s_vd (q_entropy q) phis ->
  iterate q k = Ok (k1, nv, rep) ->
  iterate (with_parts q s n) (with_comp k c) = Ok (with_comp k1 phis', nv, rep).
Proof.
  intros E1 E2 E3 E4 EF EV H. rewrite iterate_eq in *. rewrite E1 in H. cbn [bind] in H. rewrite E2 in H. cbn [bind] in H.
  set (q' := with_parts q s n). set (k' := with_comp k c).
  change (s_partition (q_entropy q') (q_np q') (v_phis_comp k') (v_omegas k') (t_J q' k'))
    with (s_partition s (q_np q) c (v_omegas k) (t_J q k)). rewrite E3. cbn [bind].
  change (n_normalize (q_ensemble q') p0' Q' (t_masks q' k')) with (n_normalize n p0' Q' (t_masks q k)). rewrite E4. cbn [bind].
  change (t_masks q' k') with (t_masks q k). change (q_np q') with (q_np q).
  assert (FE : t_feat q' k' phis' = t_feat q k phis) by exact EF.
  assert (FC : t_cs q' k' phis' = t_cs q k phis) by (unfold t_cs; rewrite FE; reflexivity).
  assert (FP : t_pot q' k' phis' = t_pot q k phis) by (unfold t_pot; rewrite FE; reflexivity).
  assert (FX : t_xi q' k' phis' inc = t_xi q k phis inc) by (unfold t_xi; rewrite FE, FP, FC; reflexivity).
  assert (FO : t_otemp q' k' phis' inc = t_otemp q k phis inc) by (unfold t_otemp; rewrite FP, FC, FX; reflexivity).
  assert (FL : t_le q' k' phis' inc = t_le q k phis inc).
  { unfold t_le. rewrite FE, FP, FC, FX, FO. cbn [q_entropy with_parts q']. rewrite EV. reflexivity. }
  assert (FM : t_mean q' k' phis' inc = t_mean q k phis inc) by (unfold t_mean; rewrite FL; reflexivity).
  assert (FJ : t_Jdiff q' k' phis' inc = t_Jdiff q k phis inc) by (unfold t_Jdiff; rewrite FM, FL; reflexivity).
  assert (FMJ : t_maxJ q' k' phis' inc = t_maxJ q k phis inc) by (unfold t_maxJ; rewrite FJ; reflexivity).
  assert (FCh : t_change q' k' phis' inc = t_change q k phis inc) by (unfold t_change; rewrite FMJ; reflexivity).
  assert (FF : t_factor q' k' phis' inc = t_factor q k phis inc) by (unfold t_factor; rewrite FCh; reflexivity).
  assert (FJ1 : t_J1 q' k' phis' inc = t_J1 q k phis inc) by (unfold t_J1; rewrite FF, FJ; reflexivity).
  assert (FS : t_shift q' k' phis' inc = t_shift q k phis inc) by (unfold t_shift; rewrite FJ1; reflexivity).
  assert (FJ2 : t_J2 q' k' phis' inc = t_J2 q k phis inc) by (unfold t_J2; rewrite FJ1, FS; reflexivity).
  assert (FD : t_diff q' k' phis' inc = t_diff q k phis inc) by (unfold t_diff; rewrite FO; reflexivity).
  assert (FW : t_omegas q' k' phis' inc = t_omegas q k phis inc) by (unfold t_omegas; rewrite FF, FD; reflexivity).
  assert (FEv : t_evolve q' k' phis' inc = t_evolve q k phis inc) by (unfold t_evolve; rewrite FF, FC; reflexivity).
  rewrite FCh, FEv, FW, FJ2, FE, FMJ, FD. destruct (Z.eqb _ 0); [discriminate|]. destruct (Reqb _ 0); [discriminate|].
  destruct (t_evolve q k phis inc) as [cs w]. injection H as <- <- <-. reflexivity.
Qed.

Lemma fsum_all nc1 nc2 pi (h : nat -> R) : (forall i, (i < nc2)%nat -> (pi i < nc1)%nat) ->
  rsum nc1 (fun j => fsum nc2 pi h j) = rsum nc2 h.
Proof.
  intros H. pose proof (fsum_sum nc2 nc1 pi h (fun _ => 1) H) as E.
  rewrite (rsum_ext nc1 _ (fun j => 1 * fsum nc2 pi h j)) by (intros; ring). rewrite E. apply rsum_ext. intros; ring.
Qed.

(** The step of the finer mixture: same everything, and one common profile
    [u] behind the fractions. *)
Lemma split_step q k s n c k1 nv rep nc1 nc2 nf pi rho1 rho2 sizes1 sizes2 x1 x2 :
  sized (q_entropy q) nc1 nf rho1 sizes1 -> sized s nc2 nf rho2 sizes2 ->
  same_kind (q_ensemble q) n nc1 nc2 x1 x2 -> parts_of nc1 nc2 pi rho1 rho2 sizes1 sizes2 x1 x2 ->
  iterate q k = Ok (k1, nv, rep) ->
  exists phis' u, iterate (with_parts q s n) (with_comp k c) = Ok (with_comp k1 phis', nv, rep) /\
    (forall j m, (j < nc1)%nat -> v_phis_comp k1 j m = x1 j * u j m) /\
    (forall i m, (i < nc2)%nat -> phis' i m = x2 i * u (pi i) m).
Proof.
  intros S1 S2 HK (HP & HX) H.
  pose proof (sized_facts _ _ _ _ _ S1) as (A1 & A2 & _ & A4 & A5 & A6).
  pose proof (sized_facts _ _ _ _ _ S2) as (B1 & B2 & B3 & B4 & B5 & B6).
  pose proof H as H0. apply iterate_inv in H0. destruct H0 as (p0 & Q & phis & inc & EP & EN & F).
  destruct (A2 _ _ _ _ _ _ EP) as (HJ & HP0 & HQ).
  destruct (B3 (q_np q) c (v_omegas k) (t_J q k) HJ) as (p0' & Q' & EP').
  destruct (B2 _ _ _ _ _ _ EP') as (_ & HP0' & HQ').
  assert (EQ0 : forall i m, (i < nc2)%nat -> p0' i m = p0 (pi i) m).
  { intros i m Hi. destruct (HP i Hi) as (P1 & P2 & P3). rewrite HP0', HP0, P2, P3 by auto. reflexivity. }
  assert (EQQ : forall i, (i < nc2)%nat -> Q' i = Q (pi i)).
  { intros i Hi. destruct (HP i Hi) as (P1 & P2 & P3). rewrite HQ', HQ, P2, P3 by auto. reflexivity. }
  assert (PI : forall i, (i < nc2)%nat -> (pi i < nc1)%nat) by (intros; now apply HP).
  assert (exists phis' inc' u, n_normalize n p0' Q' (t_masks q k) = Ok (phis', inc') /\
    (forall m, inc m = row_incomp nc1 phis (t_masks q k) m) /\ (forall m, inc' m = row_incomp nc2 phis' (t_masks q k) m) /\
    (forall j m, (j < nc1)%nat -> phis j m = x1 j * u j m) /\
    (forall i m, (i < nc2)%nat -> phis' i m = x2 i * u (pi i) m)) as (phis' & inc' & u & EN' & I1 & I2 & U1 & U2).
  { destruct HK as [(K1 & K2)|(K1 & K2)]; rewrite K1 in EN; rewrite K2; cbn in EN |- *.
    - apply can_normalize_spec in EN. destruct EN as (N1 & N2 & N3).
      destruct (can_normalize_ok nc2 x2 p0' Q' (t_masks q k)) as (phis' & inc' & EN').
      { intros i Hi. rewrite EQQ by auto. auto. }
      rewrite EN'. apply can_normalize_spec in EN'. destruct EN' as (M1 & M2 & M3).
      exists phis', inc', (fun j m => / Q j * p0 j m * t_masks q k m). split; [reflexivity|]. split; [auto|]. split; [auto|]. split.
      + intros j m Hj. rewrite N2 by auto. unfold Rdiv. ring.
      + intros i m Hi. rewrite M2, EQ0, EQQ by auto. unfold Rdiv. ring.
    - apply gc_normalize_spec in EN. destruct EN as (N2 & N3).
      destruct (gc_normalize_ok nc2 x2 p0' Q' (t_masks q k)) as (phis' & inc' & EN').
      rewrite EN'. apply gc_normalize_spec in EN'. destruct EN' as (M2 & M3).
      exists phis', inc', (fun j m => p0 j m * t_masks q k m). split; [reflexivity|]. split; [auto|]. split; [auto|]. split.
      + intros j m Hj. rewrite N2 by auto. ring.
      + intros i m Hi. rewrite M2, EQ0 by auto. ring. }
  (* parts add up *)
  assert (ADD : forall m, rsum nc2 (fun i => phis' i m) = rsum nc1 (fun j => phis j m)).
  { intros m. rewrite <- (fsum_all nc1 nc2 pi (fun i => phis' i m) PI). apply rsum_ext. intros j Hj. rewrite U1 by auto.
    rewrite <- (HX j Hj). unfold fsum. rewrite <- rsum_scal_r. apply rsum_ext. intros i Hi.
    destruct (Nat.eqb_spec (pi i) j) as [<-|]; [now rewrite U2|ring]. }
  assert (EI : inc' = inc).
  { apply functional_extensionality. intros m. rewrite I1, I2. unfold row_incomp. now rewrite ADD. }
  rewrite EI in EN'.
  exists phis', u. split; [|split; [intros j m Hj; rewrite (if_comp F); auto|auto]].
  apply (iterate_swap q k s n c p0 Q phis inc p0' Q' phis' k1 nv rep EP EN EP' EN'); [| |exact H].
  - apply functional_extensionality. intros r. apply functional_extensionality. intros m. unfold t_feat.
    destruct (le_lt_dec nf r) as [L|L]; [now rewrite A5, B5|]. rewrite A4, B4 by auto. unfold fsum at 2.
    rewrite (rsum_ext nc1 _ (fun j => if Nat.eqb (rho1 j) r then fsum nc2 pi x2 j * u j m else 0)).
    2: { intros j Hj. rewrite (HX j Hj), (U1 j m Hj). reflexivity. }
    unfold fsum.
    rewrite (rsum_ext nc1 _ (fun j => rsum nc2 (fun i => if Nat.eqb (pi i) j then if Nat.eqb (rho1 j) r then x2 i * u j m else 0 else 0))).
    2: { intros j Hj. destruct (Nat.eqb (rho1 j) r).
         - rewrite <- rsum_scal_r. apply rsum_ext. intros i Hi. destruct (Nat.eqb (pi i) j); ring.
         - symmetry. apply rsum_zero. intros i Hi. destruct (Nat.eqb (pi i) j); reflexivity. }
    rewrite rsum_swap. apply rsum_ext. intros i Hi. destruct (HP i Hi) as (P1 & P2 & P3).
    rewrite (rsum_single nc1 _ (pi i) P1).
    + rewrite Nat.eqb_refl, P2. destruct (Nat.eqb _ _); [now apply U2|reflexivity].
    + intros j Hj Hne. destruct (Nat.eqb_spec (pi i) j); [congruence|reflexivity].
  - apply functional_extensionality. intros m. rewrite A6, B6. f_equal.
    rewrite <- (fsum_all nc1 nc2 pi (fun i => phis' i m / sizes2 i) PI). apply rsum_ext. intros j Hj.
    rewrite U1 by auto. rewrite <- (HX j Hj). unfold fsum, Rdiv. rewrite Rmult_assoc, <- rsum_scal_r. apply rsum_ext.
    intros i Hi. destruct (Nat.eqb_spec (pi i) j) as [<-|]; [|ring]. destruct (HP i Hi) as (P1 & P2 & P3).
    rewrite U2, P3 by auto. ring.
Qed.

(* ------------------------------------------------------------------ *)
(** ** C74 *)

(** finder with other entropy, ensemble and number of components *)
Definition refine f nc s n (c : mat) : finder G cstate :=
  {| f_inter := f_inter f; f_entropy := s; f_ensemble := n; f_nc := nc; f_nf := f_nf f; f_np := f_np f; f_par := f_par f;
     f_kwargs := f_kwargs f; f_k := with_comp (f_k f) c; f_left := f_left f; f_diag := f_diag f |}.

(** A run with split components takes the same course: same volumes,
    diagnostics, fields, random draws; the fractions of the parts are in the
    proportion of their mean fractions (activities) and add up. *)
Theorem C74_split (ops : rng_ops G) f a t i f1 ph1 s n c nc2 nf pi rho1 rho2 sizes1 sizes2 x1 x2 :
  sized (f_entropy f) (f_nc f) nf rho1 sizes1 -> sized s nc2 nf rho2 sizes2 ->
  same_kind (f_ensemble f) n (f_nc f) nc2 x1 x2 -> parts_of (f_nc f) nc2 pi rho1 rho2 sizes1 sizes2 x1 x2 ->
  run ops f a t i = (f1, Ok ph1) ->
  exists f2 ph2, run ops (refine f nc2 s n c) a t i = (f2, Ok ph2) /\
    p_vol ph2 = p_vol ph1 /\
    (forall p b, (p < f_np f)%nat -> (b < nc2)%nat -> frac ph2 p b * x1 (pi b) = x2 b * frac ph1 p (pi b)) /\
    (forall p j, (p < f_np f)%nat -> (j < f_nc f)%nat -> fsum nc2 pi (frac ph2 p) j = frac ph1 p j) /\
    f_diag f2 = f_diag f1 /\ f_left f2 = f_left f1 /\ v_omegas (f_k f2) = v_omegas (f_k f1) /\
    v_Js (f_k f2) = v_Js (f_k f1) /\ v_phis_feat (f_k f2) = v_phis_feat (f_k f1) /\ v_g (f_k f2) = v_g (f_k f1).
Proof.
  intros S1 S2 HK HP H. set (f' := refine f nc2 s n c).
  set (PH := fun ph1 ph2 : phases => p_vol ph2 = p_vol ph1 /\ exists u : mat,
    (forall p j, (p < f_np f)%nat -> (j < f_nc f)%nat -> frac ph1 p j = x1 j * u j p) /\
    (forall p b, (p < f_np f)%nat -> (b < nc2)%nat -> frac ph2 p b = x2 b * u (pi b) p)).
  destruct (run_sim ops ops f f' (fun k1 k2 => k2 = with_comp k1 (v_phis_comp k2))
    (fun k1 k2 => exists u : mat, (forall j m, (j < f_nc f)%nat -> v_phis_comp k1 j m = x1 j * u j m) /\
                            (forall b m, (b < nc2)%nat -> v_phis_comp k2 b m = x2 b * u (pi b) m)) PH)
    with (a := a) (t := t) (i := i) (f1' := f1) (ph1 := ph1)
    as (f2 & ph2 & E & (HV & u & U1 & U2) & E1 & E2 & E3); auto.
  - intros tries cc k1 k2 ->. change (kernel_of f') with (with_parts (kernel_of f) s n).
    unfold maybe_revive. cbn [with_parts with_comp q_np q_nf q_thr q_scaler v_Js v_omegas v_g v_phis_comp v_phis_feat v_cons].
    destruct (Z.ltb _ _); [|auto]. destruct (Nat.eqb _ _); [auto|].
    destruct (revive_by_random _ _ _ _ _ _ _ _) as [[[c' J] tt] g]. auto.
  - intros k1 k2 k1' nv r HKK HI. rewrite HKK. change (kernel_of f') with (with_parts (kernel_of f) s n).
    destruct (split_step (kernel_of f) k1 s n (v_phis_comp k2) k1' nv r (f_nc f) nc2 nf pi rho1 rho2 sizes1 sizes2 x1 x2
      S1 S2 HK HP HI) as (phis' & u & A & B & C). eexists. split; [exact A|]. split; [reflexivity|]. exists u. auto.
  - intros k1 k2 ->. reflexivity.
  - intros k1 k2 nn J1 p1 h1 ph HKK (u & U1 & U2) ER EP.
    change (f_np f') with (f_np f). change (f_par f') with (f_par f). change (f_nc f') with nc2. rewrite HKK.
    cbn [with_comp v_Js v_phis_comp v_g].
    destruct (revive_by_copy_columns ops (f_np f) (v_Js k1) (m_thr (f_par f)) (v_g k1)) as [(e & X)|(nn' & J' & g' & o & X)].
    { rewrite X in ER. discriminate. }
    rewrite X in ER. injection ER as <- <- <- <-. rewrite X.
    assert (exists ph2, result_phases nc2 (f_np f) J' (fun b m => v_phis_comp k2 b (o m)) = Ok ph2) as (ph2 & EP2).
    { unfold result_phases, mk_phases. simpl. rewrite Nat.eqb_refl. eauto. }
    eexists _, _, _, ph2. split; [reflexivity|]. split; [exact EP2|]. split; [|reflexivity].
    apply result_phases_ok in EP, EP2. destruct EP as (V1 & V2 & _), EP2 as (W1 & W2 & _).
    split; [congruence|]. exists (fun j m => u j (o m)). unfold frac. rewrite V2, W2. split.
    + intros p j Hp Hj. rewrite nth_map_seq by auto. rewrite nth_map_seq by auto. auto.
    + intros p b Hp Hb. rewrite nth_map_seq by auto. rewrite nth_map_seq by auto. auto.
  - exists f2, ph2. split; [exact E|]. split; [exact HV|]. destruct HP as (HP & HX). split; [|split].
    + intros p b Hp Hb. destruct (HP b Hb) as (P1 & _). rewrite U1, U2 by auto. ring.
    + intros p j Hp Hj. rewrite U1 by auto. rewrite <- (HX j Hj). unfold fsum. rewrite <- rsum_scal_r. apply rsum_ext.
      intros b Hb. destruct (Nat.eqb_spec (pi b) j) as [<-|]; [now rewrite U2|ring].
    + rewrite E3. cbn. repeat split; auto.
Qed.
End Split.
