(** PropertiesFeatures.v -- features and their components (C38, C39, C40). *)

From Coq Require Import Reals Lra Lia List Bool Arith ZArith FunctionalExtensionality.
From Verif Require Import Base ModelCommon ModelParts ModelKernel ModelObjects ProofsKernel ProofsParts ProofsSteps
  ModelFreeEnergy ProofsFreeEnergy Spec PropertiesKernel PropertiesObjects PropertiesFreeEnergy
  PropertiesConstraints ProofsEquilibrium PropertiesEquilibrium.
Import ListNotations.
Open Scope R_scope.

(* ------------------------------------------------------------------ *)
(** ** C39 *)

(** [comp_to_feat] sums exactly the components of each feature ... *)
Theorem C39_feature_sums nc nf npf sizes old phis :
  (forall r, (r < nf)%nat -> (1 <= npf r)%nat) ->
  forall r m, (r < nf)%nat ->
  s_comp_to_feat (pg_compiled nc nf npf sizes) old phis r m = rsum (npf r) (fun j => phis (nsum r npf + j)%nat m).
Proof. intros H r m Hr. now apply pg_comp_to_feat_spec. Qed.

(** ... and conserves the total. *)
Theorem C39_total_conserved nf npf sizes old phis :
  (forall r, (r < nf)%nat -> (1 <= npf r)%nat) ->
  forall m, rsum nf (fun r => s_comp_to_feat (pg_compiled (nsum nf npf) nf npf sizes) old phis r m) = rsum (nsum nf npf) (fun i => phis i m).
Proof.
  intros H m. rewrite rsum_blocks. apply rsum_ext. intros r Hr. now apply C39_feature_sums.
Qed.

(** One component per feature: the plain entropy. *)
Lemma one_each_feat nf old phis : pg_comp_to_feat nf (fun _ => 1%nat) old phis = for_ nf (fun r f => upd_row f r (phis r)) old.
Proof.
  unfold pg_comp_to_feat.
  assert (E : for_ nf (fun r '(i, f) => for_ (1 - 1) (fun _ '(i, f) => (S i, upd_row f r (fun m => f r m + phis i m))) (S i, upd_row f r (phis i))) (O, old)
            = (nf, for_ nf (fun r f => upd_row f r (phis r)) old)).
  { induction nf as [|n IH]; [reflexivity|]. rewrite !for_S, IH. reflexivity. }
  rewrite E. reflexivity.
Qed.

Lemma one_each_partition nf sizes : pg_partition nf (fun _ => 1%nat) sizes = ig_partition nf sizes.
Proof.
  apply functional_extensionality; intros np. apply functional_extensionality; intros phis.
  apply functional_extensionality; intros w. apply functional_extensionality; intros J.
  unfold pg_partition, ig_partition. destruct (Reqb (rsum np J) 0); [reflexivity|].
  assert (E : for_ nf (fun r st => for_ 1 (fun _ '(i, phis, Qs) =>
          let row := fun m => boltzmann (w r m) (sizes i) in
          (S i, upd_row phis i row, upd Qs i (rsum np (fun m => row m * J m) / rsum np J))) st) (O, phis, fun _ => 0)
     = (let '(p, Q) := for_ nf (fun i '(phis, Qs) =>
         let row := fun m => boltzmann (w i m) (sizes i) in
         (upd_row phis i row, upd Qs i (rsum np (fun m => row m * J m) / rsum np J))) (phis, fun _ => 0) in (nf, p, Q))).
  { induction nf as [|n IH]; [reflexivity|]. rewrite (for_S n _ (O, phis, _)), IH. rewrite (for_S n _ (phis, _)).
    destruct (for_ n _ (phis, _)) as [p Q]. reflexivity. }
  cbv beta zeta in *. rewrite E. destruct (for_ nf _ (phis, _)) as [p Q]. reflexivity.
Qed.

Theorem C39_one_component_per_feature nf sizes : pg_compiled nf nf (fun _ => 1%nat) sizes = ig_compiled nf sizes.
Proof.
  unfold pg_compiled, ig_compiled. f_equal.
  - apply one_each_partition.
  - apply functional_extensionality; intros old. apply functional_extensionality; intros phis. apply one_each_feat.
Qed.

(** With an empty feature the map is wrong: counts (0, 1), the empty feature
    gets the fraction of the only component. *)
Theorem C39_empty_feature_refuted :
  exists nf npf sizes old phis r m, (r < nf)%nat /\
    s_comp_to_feat (pg_compiled (nsum nf npf) nf npf sizes) old phis r m <> rsum (npf r) (fun j => phis (nsum r npf + j)%nat m).
Proof.
  exists 2%nat, (fun r => r), (fun _ => 1), (fun _ _ => 0), (fun i m => if Nat.eqb i 0 then 1 else 0), 0%nat, 0%nat.
  split; [lia|]. cbn. lra.
Qed.

(* ------------------------------------------------------------------ *)
(** ** C38 *)

Definition counts (npf : list nat) : nat -> nat := fun r => nth r npf O.

Lemma nsum_cons n npf r : nsum (S r) (counts (n :: npf)) = (n + nsum r (counts npf))%nat.
Proof. induction r as [|r IH]; [cbn; lia|]. cbn [nsum] in *. rewrite IH. change (counts (n :: npf) (S r)) with (counts npf r). lia. Qed.

Lemma nsum_counts npf : nsum (length npf) (counts npf) = list_sum npf.
Proof. induction npf as [|n l IH]; [reflexivity|]. cbn [length list_sum fold_right]. rewrite nsum_cons, IH. reflexivity. Qed.

Lemma block_of_eq npf : forall r j, (r < length npf)%nat -> (j < counts npf r)%nat -> block_of npf (nsum r (counts npf) + j) = r.
Proof.
  induction npf as [|n l IH]; intros r j Hr Hj; [cbn in Hr; lia|]. cbn [block_of].
  destruct r as [|r].
  - change (nsum 0 (counts (n :: l)) + j)%nat with j. destruct (Nat.ltb_spec j n); [reflexivity|]. cbn in Hj. lia.
  - rewrite nsum_cons. destruct (Nat.ltb_spec (n + nsum r (counts l) + j) n); [lia|].
    f_equal. replace (n + nsum r (counts l) + j - n)%nat with (nsum r (counts l) + j)%nat by lia. apply IH; auto. cbn in Hr. lia.
Qed.

(** Sums over components with a feature-wise weight are sums over features. *)
Lemma block_sum npf (g x : vec) :
  rsum (list_sum npf) (fun i => g (block_of npf i) * x i)
  = rsum (length npf) (fun r => g r * rsum (counts npf r) (fun j => x (nsum r (counts npf) + j)%nat)).
Proof.
  rewrite <- nsum_counts, rsum_blocks. apply rsum_ext. intros r Hr. rewrite <- rsum_scal_l. apply rsum_ext. intros j Hj.
  now rewrite block_of_eq.
Qed.

(** A constructed block interaction: the energy and the Jacobian of a
    composition (computed with the component matrix [_chis]) are the volume
    derivative (the energy density) and the potentials that the compiled
    interaction (built from [_chis_feat]) computes from the feature sums. *)
Theorem C38_energy_and_jacobian s nf a npf s' o sh phi :
  block_new s nf a npf = Ok (s', o) ->
  let F := z_at (st_cell s' (bo_feat o)) in
  let C := z_at (st_cell s' (bo_chis o)) in
  let I := fh_compile (bo_nf o) F sh in
  let feat := fun r (_ : nat) => rsum (nth r npf O) (fun j => phi (nsum r (fun r => nth r npf O) + j)%nat) in
  int_energy (bo_nc o) C phi = Fin (i_vd I (i_potential I feat) feat 0%nat) /\
  forall r j, (r < nf)%nat -> (j < nth r npf O)%nat ->
    int_jacobian (bo_nc o) C phi (nsum r (fun r => nth r npf O) + j) = Fin (i_potential I feat r 0%nat).
Proof.
  intros H F C I feat. unfold block_new in H. destruct (Nat.eqb_spec (length npf) nf) as [EL|]; [|discriminate]. cbn [negb] in H.
  destruct (convert_and_broadcast a [nf; nf]) as [b|]; [|discriminate]. cbn [bind] in H.
  set (A := mat_of_nd b) in H. destruct (if allclose_T nf A then Ok tt else _) as [[]|]; [|discriminate]. cbn [bind alloc] in H.
  injection H as <- <-. cbn [bo_feat bo_chis bo_nc bo_nf] in *.
  assert (EF : F = symmetrize A).
  { unfold F, alloc. cbn. unfold upd. destruct (Nat.eqb_spec (st_next s) (S (st_next s))); [lia|]. now rewrite Nat.eqb_refl. }
  assert (EC : forall i j, C i j = F (block_of npf i) (block_of npf j)).
  { intros i j. unfold C, alloc. cbn. unfold upd at 1. rewrite Nat.eqb_refl. cbn. rewrite EF. unfold symmetrize. field. }
  assert (SF : forall r t, F r t = F t r) by (intros; rewrite EF; unfold symmetrize; ring).
  clearbody F C. clear EF.
  assert (EB : forall (g : vec), rsum (list_sum npf) (fun i => g (block_of npf i) * phi i) = rsum nf (fun r => g r * feat r 0%nat)).
  { intros g. rewrite block_sum, EL. reflexivity. }
  assert (EP : forall t, i_potential I feat t 0%nat = rsum (list_sum npf) (fun j => phi j * F (block_of npf j) t)).
  { intros t. cbn. rewrite <- (EB (F t)). apply rsum_ext. intros j Hj. rewrite SF. ring. }
  split.
  - unfold int_energy. f_equal. cbn [I fh_compile fh_compiled i_vd].
    rewrite (rsum_ext nf _ (fun r => rsum (list_sum npf) (fun j => phi j * F (block_of npf j) r) * feat r 0%nat))
      by (intros r Hr; rewrite <- EP; reflexivity).
    rewrite <- (EB (fun r => rsum (list_sum npf) (fun j => phi j * F (block_of npf j) r))). rewrite Rmult_comm. f_equal.
    apply rsum_ext. intros i Hi. rewrite <- rsum_scal_r. apply rsum_ext. intros j Hj. rewrite EC, SF. ring.
  - intros r j Hr Hj. unfold int_jacobian. f_equal. rewrite EP. apply rsum_ext. intros i Hi. rewrite EC.
    change (fun r => nth r npf O) with (counts npf). rewrite (block_of_eq npf r j) by (auto; lia). reflexivity.
Qed.

(* ------------------------------------------------------------------ *)
(** ** C40 *)

Section Props.
Context {G : Type}.
Implicit Types (q : kernel) (k : kstate G cstate).

(** the step reports no incompressibility, field or volume error *)
Definition no_residual q k : Prop :=
  exists k' nv rep, iterate q k = Ok (k', nv, rep) /\ e_incomp rep = 0 /\ e_omega rep = 0 /\ e_Js rep = 0.

Lemma residuals_zero q k k' rep nc nf rho chis sizes x a phis inc L :
  mix_facts q k k' rep nc nf rho chis sizes x a phis inc ->
  (forall m, (m < q_np q)%nat -> alive (q_thr q) (v_Js k) m ->
     inc m = 0 /\ (forall r, (r < nf)%nat -> t_diff q k phis inc r m = 0) /\ t_le q k phis inc m = L) ->
  t_mean q k phis inc = L -> e_incomp rep = 0 /\ e_omega rep = 0 /\ e_Js rep = 0.
Proof.
  intros MF H Hmean. destruct (living_exists _ _ _ _ _ _ _ _ _ _ _ _ _ MF) as (m0 & Hm0 & HL0).
  destruct (mf_it _ _ _ _ _ _ _ _ _ _ _ _ _ MF) as [nv I].
  assert (HInc : forall m, (m < q_np q)%nat -> inc m = 0).
  { intros m Hm. destruct (Rlt_dec (q_thr q) (v_Js k m)) as [A|A]; [now apply H|].
    rewrite (mf_inc _ _ _ _ _ _ _ _ _ _ _ _ _ MF), mask_dead by lra. ring. }
  assert (HD : forall m r, (m < q_np q)%nat -> (r < nf)%nat -> t_diff q k phis inc r m = 0).
  { intros m r Hm Hr. destruct (Rlt_dec (q_thr q) (v_Js k m)) as [A|A]; [now apply H|].
    unfold t_diff, t_masks. rewrite mask_dead by lra. ring. }
  split; [|split].
  - rewrite (if_e_incomp I). apply vmax_zero. intros m Hm. rewrite HInc by auto. apply Rabs_R0.
  - rewrite (if_e_omega I). rewrite (mf_nf _ _ _ _ _ _ _ _ _ _ _ _ _ MF). unfold max_omega_diff.
    assert (K : forall n, (n <= nf)%nat -> for_ n (fun r acc => Rmax acc (vmax (q_np q) (t_diff q k phis inc r))) 0 = 0).
    { induction n as [|n IH]; intros Hn; [reflexivity|]. rewrite for_S, IH by lia.
      rewrite vmax_zero by (intros; apply HD; auto; lia). apply Rmax_left. lra. }
    apply K. lia.
  - rewrite (if_e_Js I). unfold t_maxJ. apply vmax_zero. intros m Hm. unfold t_Jdiff. rewrite Hmean.
    destruct (Rlt_dec (q_thr q) (v_Js k m)) as [A|A].
    + destruct (H m Hm A) as (_ & _ & ->). replace (L - L) with 0 by ring. rewrite Rmult_0_l. apply Rabs_R0.
    + unfold t_masks. rewrite mask_dead by lra. rewrite Rmult_0_r. apply Rabs_R0.
Qed.

(** Two descriptions of the same components: component [i] feels the field of
    [rho1 i] in one and of [rho2 i] in the other. *)
Section Two.
Context q1 q2 k1 k2 (nc nf1 nf2 : nat) (rho1 rho2 : nat -> nat) (chis1 chis2 : mat) (sh1 sh2 : R) (sizes x : vec).
Hypotheses (M1 : mixture q1 nc nf1 rho1 chis1 sh1 sizes) (M2 : mixture q2 nc nf2 rho2 chis2 sh2 sizes).
Hypotheses (EE : q_ensemble q2 = q_ensemble q1) (HE : any_ensemble q1 nc x).
Hypotheses (EN : q_np q2 = q_np q1) (ET : q_thr q2 = q_thr q1) (EJ : v_Js k2 = v_Js k1) (Ht : 0 <= q_thr q1).
Hypotheses (EW : forall i m, (i < nc)%nat -> v_omegas k2 (rho2 i) m = v_omegas k1 (rho1 i) m).
Hypotheses (EX : forall i j, (i < nc)%nat -> (j < nc)%nat -> chis2 (rho2 i) (rho2 j) = chis1 (rho1 i) (rho1 j)).
Hypotheses (C1 : Forall idle (v_cons k1)) (C2 : Forall idle (v_cons k2)).

Lemma two_kind : exists a1 a2, ens_kind q1 k1 nc rho1 sizes x a1 /\ ens_kind q2 k2 nc rho2 sizes x a2 /\ forall i, (i < nc)%nat -> a2 i = a1 i.
Proof.
  destruct HE as [E|E].
  - exists (fun i => x i / Qbar q1 k1 rho1 sizes i), (fun i => x i / Qbar q2 k2 rho2 sizes i).
    split; [now constructor|]. split; [constructor; congruence|]. intros i Hi. f_equal. unfold Qbar. rewrite EN, ET, EJ. f_equal.
    apply rsum_ext. intros m Hm. now rewrite EW.
  - exists x, x. split; [now constructor|]. split; [constructor; congruence|]. auto.
Qed.

Lemma two_same k1' k2' rep1 rep2 a1 a2 phis1 phis2 inc1 inc2 :
  mix_facts q1 k1 k1' rep1 nc nf1 rho1 chis1 sizes x a1 phis1 inc1 ->
  mix_facts q2 k2 k2' rep2 nc nf2 rho2 chis2 sizes x a2 phis2 inc2 -> (forall i, (i < nc)%nat -> a2 i = a1 i) ->
  (forall i m, (i < nc)%nat -> phis2 i m = phis1 i m) /\ (forall m, inc2 m = inc1 m).
Proof.
  intros MF1 MF2 HA.
  assert (P : forall i m, (i < nc)%nat -> phis2 i m = phis1 i m).
  { intros i m Hi. rewrite (mf_frac _ _ _ _ _ _ _ _ _ _ _ _ _ MF1), (mf_frac _ _ _ _ _ _ _ _ _ _ _ _ _ MF2) by auto.
    now rewrite EW, HA, EJ, ET by auto. }
  split; auto. intros m. rewrite (mf_inc _ _ _ _ _ _ _ _ _ _ _ _ _ MF1), (mf_inc _ _ _ _ _ _ _ _ _ _ _ _ _ MF2), EJ, ET.
  f_equal. f_equal. apply rsum_ext. intros; now apply P.
Qed.

(** every feature of the second description is carried by a component *)
Hypothesis (ON : forall r, (r < nf2)%nat -> exists i, (i < nc)%nat /\ rho2 i = r).
Hypothesis (NF : (0 < nf2)%nat).

Lemma two_zero k1' k2' rep1 rep2 a1 a2 phis1 phis2 inc1 inc2 :
  mix_facts q1 k1 k1' rep1 nc nf1 rho1 chis1 sizes x a1 phis1 inc1 ->
  mix_facts q2 k2 k2' rep2 nc nf2 rho2 chis2 sizes x a2 phis2 inc2 -> (forall i, (i < nc)%nat -> a2 i = a1 i) ->
  e_incomp rep1 = 0 -> e_omega rep1 = 0 -> e_Js rep1 = 0 ->
  e_incomp rep2 = 0 /\ e_omega rep2 = 0 /\ e_Js rep2 = 0.
Proof using All.
  intros MF1 MF2 HA E1 E2 E3. destruct (two_same _ _ _ _ _ _ _ _ _ _ MF1 MF2 HA) as [EP EI].
  pose proof (zero_residuals _ _ _ _ _ _ _ _ _ _ _ _ _ MF1 E1 E2 E3) as Z.
  destruct (idle_sums q1 k1 phis1 C1) as [ZP1 ZV1]. destruct (idle_sums q2 k2 phis2 C2) as [ZP2 ZV2].
  assert (K : forall m, (m < q_np q1)%nat -> alive (q_thr q2) (v_Js k2) m ->
     inc2 m = 0 /\ (forall r, (r < nf2)%nat -> t_diff q2 k2 phis2 inc2 r m = 0) /\ t_le q2 k2 phis2 inc2 m = t_mean q1 k1 phis1 inc1).
  { intros m Hm Lm. assert (Lm1 : alive (q_thr q1) (v_Js k1) m) by (unfold alive in *; rewrite ET, EJ in Lm; auto).
  destruct (Z m Hm Lm1) as (Z1 & Z2 & Z3). split; [now rewrite EI|].
  assert (PC : forall i, (i < nc)%nat -> t_pot q2 k2 phis2 (rho2 i) m = t_pot q1 k1 phis1 (rho1 i) m).
  { intros i Hi. rewrite (pot_comp _ _ _ _ _ _ _ _ _ _ _ _ _ MF1), (pot_comp _ _ _ _ _ _ _ _ _ _ _ _ _ MF2) by auto.
    apply rsum_ext. intros j Hj. rewrite EX, EP by auto. reflexivity. }
  assert (D2 : forall r, (r < nf2)%nat -> t_diff q2 k2 phis2 inc2 r m = t_xi q2 k2 phis2 inc2 m - t_xi q1 k1 phis1 inc1 m).
  { intros r Hr. destruct (ON r Hr) as (i & Hi & <-). rewrite (diff_alive q2 k2 phis2 inc2) by auto. rewrite PC, EW, ZP2 by auto.
    pose proof (Z2 (rho1 i) (mf_rho _ _ _ _ _ _ _ _ _ _ _ _ _ MF1 i Hi)) as D1. rewrite (diff_alive q1 k1 phis1 inc1), ZP1 in D1 by auto. lra. }
  pose proof (diff_sum _ _ _ _ _ _ _ _ _ _ _ _ _ MF2 m NF Lm) as S. cbv zeta in S. rewrite (rsum_ext _ _ _ D2), rsum_const, EI, Z1, Rmult_0_r in S.
  assert (EXI : t_xi q2 k2 phis2 inc2 m = t_xi q1 k1 phis1 inc1 m).
  { apply Rmult_integral in S. destruct S as [S|S]; [|lra]. exfalso. revert S. now apply INR_neq0. }
  split.
  - intros r Hr. rewrite D2 by auto. lra.
  - rewrite <- Z3. pose proof (le_identity _ _ _ _ _ _ _ _ _ _ _ _ _ MF1 m Lm1) as L1. pose proof (le_identity _ _ _ _ _ _ _ _ _ _ _ _ _ MF2 m Lm) as L2.
    cbv zeta in L1, L2. rewrite L1, L2, EXI, ZV1, ZV2.
    rewrite (rsum_zero nc (fun i => P_of (t_cs q1 k1 phis1) (rho1 i) m * phis1 i m)) by (intros; rewrite ZP1; ring).
    rewrite (rsum_zero nc (fun i => P_of (t_cs q2 k2 phis2) (rho2 i) m * phis2 i m)) by (intros; rewrite ZP2; ring).
    rewrite (rsum_ext nc (fun i => t_pot q2 k2 phis2 (rho2 i) m * phis2 i m) (fun i => t_pot q1 k1 phis1 (rho1 i) m * phis1 i m))
      by (intros; rewrite PC, EP by auto; reflexivity).
    rewrite (rsum_ext nc (fun i => phis2 i m / sizes i) (fun i => phis1 i m / sizes i)) by (intros; rewrite EP by auto; reflexivity).
    reflexivity. }
  apply (residuals_zero _ _ _ _ _ _ _ _ _ _ _ _ _ (t_mean q1 k1 phis1 inc1) MF2).
  - intros m Hm. apply K. now rewrite <- EN.
  - assert (TJ : forall m, t_J q2 k2 m = t_J q1 k1 m) by (intros m; rewrite !t_J_living, EJ, ET; reflexivity).
    assert (TN : t_n q2 k2 = t_n q1 k1) by (rewrite !t_n_eq; unfold t_nv; rewrite EJ, ET, EN; reflexivity).
    unfold t_mean at 1 2. rewrite EN, TN. f_equal. apply rsum_ext. intros m Hm. rewrite TJ, t_J_living. unfold living.
    destruct (Rlt_dec _ _) as [A|A]; [|ring]. destruct (Z m Hm A) as (_ & _ & ->).
    destruct (K m Hm) as (_ & _ & ->); [unfold alive; now rewrite ET, EJ|]. reflexivity.
Qed.
End Two.

(** the full description of a block system: one feature per component *)
Definition full_system q (nc : nat) (rho : nat -> nat) (chis : mat) (sh : R) (sizes : vec) : kernel :=
  {| q_inter := fh_compile nc (fun i j => chis (rho i) (rho j)) sh; q_entropy := ig_compiled nc sizes; q_ensemble := q_ensemble q;
     q_nf := nc; q_np := q_np q; q_acc_J := q_acc_J q; q_ub := q_ub q; q_acc_w := q_acc_w q; q_thr := q_thr q; q_scaler := q_scaler q |}.

(** the expanded state: every component carries the field of its feature *)
Definition expanded (nc : nat) (rho : nat -> nat) (k kf : kstate G cstate) : Prop :=
  v_Js kf = v_Js k /\ forall i m, (i < nc)%nat -> v_omegas kf i m = v_omegas k (rho i) m.

Lemma mixture_total q nc nf rho chis sh sizes x : mixture q nc nf rho chis sh sizes -> any_ensemble q nc x -> parts_total q.
Proof.
  intros HM HE. destruct HM as [q n chis sh sizes E1 E2 E3|q nf npf chis sh sizes E1 E2 E3 E4]; destruct HE as [E|E].
  - eapply builtin_total_ig_can; eauto.
  - eapply builtin_total_ig_gc; eauto.
  - eapply builtin_total_pg_can; eauto.
  - eapply builtin_total_pg_gc; eauto.
Qed.

Lemma iterate_alive {St} q (k : kstate G St) r : iterate q k = Ok r -> exists m, (m < q_np q)%nat /\ alive (q_thr q) (v_Js k) m.
Proof.
  destruct r as [[k' nv] rep]. intros H. apply iterate_inv in H. destruct H as (p0 & Q & phis & inc & _ & _ & F).
  apply count_valid_pos. apply (if_nv_pos F).
Qed.

(** The fractions agree at every state ... *)
Theorem C40_same_fractions q k kf nf npf chis sh shf sizes x k1 nv1 rep1 k2 nv2 rep2 :
  q_nf q = nf -> q_inter q = fh_compile nf chis sh -> (forall r, (r < nf)%nat -> (1 <= npf r)%nat) ->
  q_entropy q = pg_compiled (nsum nf npf) nf npf sizes -> any_ensemble q (nsum nf npf) x -> 0 <= q_thr q ->
  expanded (nsum nf npf) (feature_of nf npf) k kf ->
  iterate q k = Ok (k1, nv1, rep1) ->
  iterate (full_system q (nsum nf npf) (feature_of nf npf) chis shf sizes) kf = Ok (k2, nv2, rep2) ->
  e_incomp rep2 = e_incomp rep1 /\ forall i m, (i < nsum nf npf)%nat -> v_phis_comp k2 i m = v_phis_comp k1 i m.
Proof.
  intros Q1 Q2 Q3 Q4 HE Ht (EJ & EW) H1 H2. set (qf := full_system q _ _ _ _ _) in *.
  assert (M1 : mixture q (nsum nf npf) nf (feature_of nf npf) chis sh sizes) by now constructor.
  assert (M2 : mixture qf (nsum nf npf) (nsum nf npf) (fun i => i) (fun i j => chis (feature_of nf npf i) (feature_of nf npf j)) shf sizes) by now constructor.
  destruct (two_kind q qf k kf (nsum nf npf) (feature_of nf npf) (fun i => i) sizes x) as (a1 & a2 & K1 & K2 & HA); auto.
  destruct (mixture_facts _ _ _ _ _ _ _ _ _ _ _ _ _ M1 K1 H1) as (phis1 & inc1 & MF1).
  destruct (mixture_facts _ _ _ _ _ _ _ _ _ _ _ _ _ M2 K2 H2) as (phis2 & inc2 & MF2).
  destruct (two_same q qf k kf (nsum nf npf) nf (nsum nf npf) (feature_of nf npf) (fun i => i) chis (fun i j => chis (feature_of nf npf i) (feature_of nf npf j)) sizes x
    eq_refl EJ EW _ _ _ _ _ _ _ _ _ _ MF1 MF2 HA) as [EP EI].
  destruct (mf_it _ _ _ _ _ _ _ _ _ _ _ _ _ MF1) as [n1 I1]. destruct (mf_it _ _ _ _ _ _ _ _ _ _ _ _ _ MF2) as [n2 I2].
  split.
  - rewrite (if_e_incomp I1), (if_e_incomp I2). apply vmax_ext. intros. now rewrite EI.
  - intros i m Hi. rewrite (if_comp I1), (if_comp I2). now apply EP.
Qed.

(** ... and the same states have no residual. *)
Theorem C40_same_zero_states q k kf nf npf chis sh shf sizes x :
  q_nf q = nf -> q_inter q = fh_compile nf chis sh -> (forall r, (r < nf)%nat -> (1 <= npf r)%nat) -> (0 < nf)%nat ->
  q_entropy q = pg_compiled (nsum nf npf) nf npf sizes -> any_ensemble q (nsum nf npf) x -> 0 <= q_thr q -> 0 < q_ub q ->
  Forall idle (v_cons k) -> Forall idle (v_cons kf) ->
  expanded (nsum nf npf) (feature_of nf npf) k kf ->
  (no_residual q k <-> no_residual (full_system q (nsum nf npf) (feature_of nf npf) chis shf sizes) kf).
Proof.
  intros Q1 Q2 Q3 Hn Q4 HE Ht Hu C1 C2 (EJ & EW). set (qf := full_system q _ _ _ _ _) in *. set (nc := nsum nf npf) in *. set (rho := feature_of nf npf) in *.
  assert (M1 : mixture q nc nf rho chis sh sizes) by now constructor.
  assert (M2 : mixture qf nc nc (fun i => i) (fun i j => chis (rho i) (rho j)) shf sizes) by now constructor.
  destruct (two_kind q qf k kf nc rho (fun i => i) sizes x) as (a1 & a2 & K1 & K2 & HA); auto.
  assert (Hnc : (0 < nc)%nat).
  { unfold nc. pose proof (nsum_mono 1 nf npf Hn) as L. cbn in L. specialize (Q3 0%nat Hn). lia. }
  split; intros (k1' & nv1 & rep1 & H1 & E1 & E2 & E3).
  - destruct (iterate_total qf kf) as (k2' & nv2 & rep2 & H2); auto.
    { eapply mixture_total; eauto. }
    { destruct (iterate_alive _ _ _ H1) as (m & Hm & Lm). exists m. split; auto. rewrite EJ. exact Lm. }
    exists k2', nv2, rep2. split; [exact H2|].
    destruct (mixture_facts _ _ _ _ _ _ _ _ _ _ _ _ _ M1 K1 H1) as (phis1 & inc1 & MF1).
    destruct (mixture_facts _ _ _ _ _ _ _ _ _ _ _ _ _ M2 K2 H2) as (phis2 & inc2 & MF2).
    eapply (two_zero q qf k kf nc nf nc rho (fun i => i)); eauto.
  - destruct (iterate_total q k) as (k2' & nv2 & rep2 & H2); auto.
    { eapply mixture_total; eauto. }
    { destruct (iterate_alive _ _ _ H1) as (m & Hm & Lm). exists m. split; auto. rewrite <- EJ. exact Lm. }
    exists k2', nv2, rep2. split; [exact H2|].
    destruct (mixture_facts _ _ _ _ _ _ _ _ _ _ _ _ _ M2 K2 H1) as (phis1 & inc1 & MF1).
    destruct (mixture_facts _ _ _ _ _ _ _ _ _ _ _ _ _ M1 K1 H2) as (phis2 & inc2 & MF2).
    eapply (two_zero qf q kf k nc nc nf (fun i => i) rho); eauto.
    + intros i m Hi. symmetry. now apply EW.
    + intros r Hr. exists (nsum r npf + 0)%nat. specialize (Q3 r Hr). split; [apply nsum_block_lt; auto|apply feature_of_eq; auto].
    + intros i Hi. symmetry. now apply HA.
Qed.
End Props.
