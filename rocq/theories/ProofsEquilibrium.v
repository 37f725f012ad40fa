(** ProofsEquilibrium.v -- chemical potentials of the fractions of one step. *)

From Coq Require Import Reals Lra Lia List Bool Arith ZArith.
From Verif Require Import Base ModelCommon ModelParts ModelKernel ProofsKernel ProofsParts ProofsSteps
  ModelFreeEnergy ProofsFreeEnergy Spec.
Import ListNotations.
Open Scope R_scope.

(* ------------------------------------------------------------------ *)
(** * Features *)

(** feature of component [i] when feature [r] has [npf r] consecutive components *)
Fixpoint feature_of (n : nat) (npf : nat -> nat) (i : nat) : nat :=
  match n with
  | O => O
  | S k => if Nat.ltb i (nsum k npf) then feature_of k npf i else k
  end.

Lemma feature_of_eq n npf r j : (r < n)%nat -> (j < npf r)%nat -> feature_of n npf (nsum r npf + j) = r.
Proof.
  induction n as [|n IH]; intros Hr Hj; [lia|]. cbn [feature_of].
  destruct (Nat.ltb_spec (nsum r npf + j) (nsum n npf)) as [L|L].
  - apply IH; auto. destruct (Nat.eq_dec r n) as [->|]; lia.
  - destruct (Nat.eq_dec r n) as [|Hne]; auto. pose proof (nsum_block_lt n npf r j ltac:(lia) Hj). lia.
Qed.

Lemma feature_of_lt n npf i : (i < nsum n npf)%nat -> (feature_of n npf i < n)%nat.
Proof. intros H. destruct (nsum_find _ _ _ H) as (r & j & Hr & Hj & ->). now rewrite feature_of_eq. Qed.

Lemma rsum_blocks n npf f : rsum (nsum n npf) f = rsum n (fun r => rsum (npf r) (fun j => f (nsum r npf + j)%nat)).
Proof. induction n as [|n IH]; [reflexivity|]. cbn [nsum rsum]. rewrite rsum_split, IH. reflexivity. Qed.

(** sum over the components of one feature *)
Definition fsum (nc : nat) (rho : nat -> nat) (x : vec) (r : nat) : R :=
  rsum nc (fun i => if Nat.eqb (rho i) r then x i else 0).

Lemma fsum_id n x r : (r < n)%nat -> fsum n (fun i => i) x r = x r.
Proof.
  intros H. unfold fsum. rewrite (rsum_single n _ r H).
  - now rewrite Nat.eqb_refl.
  - intros j Hj Hne. destruct (Nat.eqb_spec j r); [congruence|reflexivity].
Qed.

Lemma fsum_blocks nf npf x r : (r < nf)%nat ->
  fsum (nsum nf npf) (feature_of nf npf) x r = rsum (npf r) (fun j => x (nsum r npf + j)%nat).
Proof.
  intros Hr. unfold fsum. rewrite rsum_blocks. rewrite (rsum_single nf _ r Hr).
  - apply rsum_ext. intros j Hj. rewrite feature_of_eq by auto. now rewrite Nat.eqb_refl.
  - intros s Hs Hne. apply rsum_zero. intros j Hj. rewrite feature_of_eq by auto.
    destruct (Nat.eqb_spec s r); [congruence|reflexivity].
Qed.

Lemma fsum_sum nc nf rho x g : (forall i, (i < nc)%nat -> (rho i < nf)%nat) ->
  rsum nf (fun r => g r * fsum nc rho x r) = rsum nc (fun i => g (rho i) * x i).
Proof.
  intros H. unfold fsum.
  rewrite (rsum_ext nf _ (fun r => rsum nc (fun i => if Nat.eqb (rho i) r then g r * x i else 0))).
  - rewrite rsum_swap. apply rsum_ext. intros i Hi. rewrite (rsum_single nf _ (rho i) (H i Hi)).
    + now rewrite Nat.eqb_refl.
    + intros r Hr Hne. destruct (Nat.eqb_spec (rho i) r); [congruence|reflexivity].
  - intros r Hr. rewrite <- rsum_scal_l. apply rsum_ext. intros i Hi. destruct (Nat.eqb (rho i) r); ring.
Qed.

(* ------------------------------------------------------------------ *)
(** * The mixtures of the package *)

(** A Flory-Huggins interaction between [nf] features with either built-in
    entropy: component [i] carries feature [rho i]. *)
Inductive mixture : kernel -> nat -> nat -> (nat -> nat) -> mat -> R -> vec -> Prop :=
| mix_plain q n chis sh sizes :
    q_nf q = n -> q_inter q = fh_compile n chis sh -> q_entropy q = ig_compiled n sizes ->
    mixture q n n (fun i => i) chis sh sizes
| mix_poly q nf npf chis sh sizes :
    q_nf q = nf -> q_inter q = fh_compile nf chis sh -> (forall r, (r < nf)%nat -> (1 <= npf r)%nat) ->
    q_entropy q = pg_compiled (nsum nf npf) nf npf sizes ->
    mixture q (nsum nf npf) nf (feature_of nf npf) chis sh sizes.

(** interaction energy coefficient of the built-in interaction *)
Definition coef_of (q : kernel) : R := i_coef (q_inter q) (fun _ _ => 0) O.

(** the free energy object with the same (block-expanded) chi matrix and sizes *)
Definition fe_of (nc : nat) (rho : nat -> nat) (chis : mat) (sizes : vec) : fe :=
  {| fe_nc := nc; fe_chis := fun i j => chis (rho i) (rho j); fe_sizes := sizes |}.

(** Boltzmann average of component [i] over the living compartments *)
Definition Qbar {G St} q (k : kstate G St) (rho : nat -> nat) (sizes : vec) (i : nat) : R :=
  rsum (q_np q) (fun m => exp (- v_omegas k (rho i) m * sizes i) * living (q_thr q) (v_Js k) m)
  / rsum (q_np q) (living (q_thr q) (v_Js k)).

(** the built-in ensembles and the resulting prefactors of the Boltzmann factors *)
Inductive ens_kind {G St} q (k : kstate G St) nc rho (sizes : vec) : vec -> vec -> Prop :=
| ek_can x : q_ensemble q = can_compiled nc x -> ens_kind q k nc rho sizes x (fun i => x i / Qbar q k rho sizes i)
| ek_gc x : q_ensemble q = gc_compiled nc x -> ens_kind q k nc rho sizes x x.

Section Facts.
Context {G St : Type}.
Implicit Types (q : kernel) (k : kstate G St).

Record mix_facts q k k' (rep : report) (nc nf : nat) (rho : nat -> nat) (chis : mat) (sizes x a : vec) (phis : mat) (incomp : vec) : Prop := {
  mf_nf : q_nf q = nf;
  mf_rho : forall i, (i < nc)%nat -> (rho i < nf)%nat;
  mf_it : exists nv, iter_facts q k phis incomp k' nv rep;
  mf_frac : forall i m, (i < nc)%nat -> phis i m =
     a i * exp (- v_omegas k (rho i) m * sizes i) * make_masks (v_Js k) (q_thr q) m;
  mf_a : 0 <= q_thr q -> forall i, (i < nc)%nat -> 0 < x i -> 0 < a i;
  mf_feat : forall r m, (r < nf)%nat -> t_feat q k phis r m = fsum nc rho (fun i => phis i m) r;
  mf_inc : forall m, incomp m = (rsum nc (fun i => phis i m) - 1) * make_masks (v_Js k) (q_thr q) m;
  mf_pot : forall r m, t_pot q k phis r m = rsum nf (fun s => chis r s * t_feat q k phis s m);
  mf_ivd : forall m, i_vd (q_inter q) (t_pot q k phis) (t_feat q k phis) m =
     rsum nf (fun r => t_pot q k phis r m * t_feat q k phis r m) * (1 / 2);
  mf_svd : forall m, s_vd (q_entropy q) phis m = - rsum nc (fun i => phis i m / sizes i);
  mf_coef : forall m, i_coef (q_inter q) (t_feat q k phis) m = coef_of q
}.

Lemma mask_living q k m : v_Js k m * make_masks (v_Js k) (q_thr q) m = living (q_thr q) (v_Js k) m.
Proof.
  unfold living. destruct (Rlt_dec (q_thr q) (v_Js k m)) as [H|H].
  - rewrite mask_alive by auto. lra.
  - rewrite mask_dead by lra. lra.
Qed.

Lemma Qbar_pos q k rho sizes i : 0 <= q_thr q -> (exists m, (m < q_np q)%nat /\ alive (q_thr q) (v_Js k) m) ->
  0 < Qbar q k rho sizes i.
Proof.
  intros Ht (m0 & Hm & HA). unfold Qbar.
  assert (L : forall m, 0 <= living (q_thr q) (v_Js k) m) by (intros m; unfold living; destruct (Rlt_dec _ _); lra).
  assert (L0 : 0 < living (q_thr q) (v_Js k) m0) by (unfold living, alive in *; destruct (Rlt_dec _ _); lra).
  apply Rdiv_lt_0_compat; apply rsum_pos.
  - intros m _. apply Rmult_le_pos; auto. left. apply exp_pos.
  - exists m0. split; auto. apply Rmult_lt_0_compat; auto. apply exp_pos.
  - auto.
  - eauto.
Qed.

Lemma mixture_facts q k k' nv rep nc nf rho chis sh sizes x a :
  mixture q nc nf rho chis sh sizes -> ens_kind q k nc rho sizes x a -> iterate q k = Ok (k', nv, rep) ->
  exists phis incomp, mix_facts q k k' rep nc nf rho chis sizes x a phis incomp.
Proof.
  intros HM HE H. apply iterate_inv in H. destruct H as (p0 & Q & phis & inc & HP & HN & F).
  exists phis, inc.
  assert (EJ : forall m, t_J q k m = living (q_thr q) (v_Js k) m) by (intros; apply mask_living).
  assert (Hal : exists m, (m < q_np q)%nat /\ alive (q_thr q) (v_Js k) m).
  { apply count_valid_pos. apply (if_nv_pos F). }
  assert (HR : forall i, (i < nc)%nat -> (rho i < nf)%nat).
  { destruct HM; auto. intros. now apply feature_of_lt. }
  assert (HB : (forall i m, (i < nc)%nat -> p0 i m = exp (- v_omegas k (rho i) m * sizes i)) /\
               (forall i, (i < nc)%nat -> Q i = Qbar q k rho sizes i)).
  { assert (QE : forall i, ig_Q (q_np q) (v_omegas k (rho i)) (t_J q k) (sizes i) = Qbar q k rho sizes i).
    { intros i. unfold ig_Q, Qbar. f_equal.
      - apply rsum_ext. intros m _. rewrite EJ. reflexivity.
      - apply rsum_ext. intros m _. apply EJ. }
    destruct HM as [q n chis sh sizes E1 E2 E3|q nf npf chis sh sizes E1 E2 E3 E4]; rewrite ?E3, ?E4 in HP; cbn in HP.
    - apply ig_partition_spec in HP. destruct HP as (_ & HB & HQ). split; [intros; now apply HB|].
      intros i Hi. rewrite HQ by auto. apply QE.
    - apply pg_partition_spec in HP. destruct HP as (_ & HB & HQ). split.
      + intros i m Hi. destruct (nsum_find _ _ _ Hi) as (r & j & Hr & Hj & ->). rewrite HB by auto. now rewrite feature_of_eq.
      + intros i Hi. destruct (nsum_find _ _ _ Hi) as (r & j & Hr & Hj & ->). rewrite HQ by auto. rewrite <- QE.
        now rewrite feature_of_eq. }
  destruct HB as [HB HQ].
  assert (HF : (forall i m, (i < nc)%nat -> phis i m = a i * p0 i m * make_masks (v_Js k) (q_thr q) m) /\
               (forall m, inc m = (rsum nc (fun i => phis i m) - 1) * make_masks (v_Js k) (q_thr q) m)).
  { destruct HE as [x E|x E]; rewrite E in HN; cbn in HN.
    - apply can_normalize_spec in HN. destruct HN as (_ & H1 & H2). split; [|exact H2].
      intros i m Hi. rewrite H1 by auto. now rewrite HQ.
    - apply gc_normalize_spec in HN. destruct HN as (H1 & H2). split; auto. }
  destruct HF as [HF HI]. split.
  - destruct HM; auto.
  - exact HR.
  - eauto.
  - intros i m Hi. rewrite HF by auto. now rewrite HB.
  - intros Ht i Hi Hx. destruct HE; auto. apply Rdiv_lt_0_compat; auto. now apply Qbar_pos.
  - intros r m Hr. unfold t_feat.
    destruct HM as [q n chis sh sizes E1 E2 E3|q nf npf chis sh sizes E1 E2 E3 E4]; rewrite ?E3, ?E4.
    + rewrite ig_comp_to_feat by auto. now rewrite fsum_id.
    + cbn. rewrite pg_comp_to_feat_spec by auto. now rewrite fsum_blocks.
  - exact HI.
  - intros r m. unfold t_pot. destruct HM as [q n chis sh sizes E1 E2 E3|q nf npf chis sh sizes E1 E2 E3 E4]; rewrite E2; reflexivity.
  - intros m. destruct HM as [q n chis sh sizes E1 E2 E3|q nf npf chis sh sizes E1 E2 E3 E4]; rewrite E2; reflexivity.
  - intros m. destruct HM as [q n chis sh sizes E1 E2 E3|q nf npf chis sh sizes E1 E2 E3 E4]; rewrite ?E3, ?E4; cbn; apply ig_vd_eq.
  - intros m. unfold coef_of. destruct HM as [q n chis sh sizes E1 E2 E3|q nf npf chis sh sizes E1 E2 E3 E4]; rewrite E2; reflexivity.
Qed.

(** constraint potential on feature [r] and constraint energy, added up *)
Definition P_of (cs : list (cons_obj St)) (r m : nat) : R := lsum cs (fun o => pot_of o r m).
Definition V_of (cs : list (cons_obj St)) (m : nat) : R := lsum cs (fun o => vd_of o m).

Section Identity.
Context q k k' (rep : report) (nc nf : nat) (rho : nat -> nat) (chis : mat) (sizes x a : vec) (phis : mat) (incomp : vec).
Hypothesis (MF : mix_facts q k k' rep nc nf rho chis sizes x a phis incomp).
Hypothesis (Hthr : 0 <= q_thr q) (Hsz : forall i, (i < nc)%nat -> sizes i <> 0) (Hx : forall i, (i < nc)%nat -> 0 < x i).
Hypothesis (Hsym : forall r s, (r < nf)%nat -> (s < nf)%nat -> chis r s = chis s r).

Let F := fe_of nc rho chis sizes.
Let cs := t_cs q k phis.
Let le := t_le q k phis incomp.
Let xi := t_xi q k phis incomp.
Let diff := t_diff q k phis incomp.
Let feat := t_feat q k phis.
Let pot := t_pot q k phis.

Lemma wf_fe_of : wf_fe F.
Proof using Hsz Hsym MF. split; [exact Hsz|]. intros i j Hi Hj. cbn. apply Hsym; now apply (mf_rho _ _ _ _ _ _ _ _ _ _ _ _ _ MF). Qed.

Lemma frac_alive i m : (i < nc)%nat -> alive (q_thr q) (v_Js k) m ->
  phis i m = a i * exp (- v_omegas k (rho i) m * sizes i).
Proof using MF. intros Hi HA. rewrite (mf_frac _ _ _ _ _ _ _ _ _ _ _ _ _ MF) by auto. rewrite mask_alive by auto. ring. Qed.

Lemma a_pos i : (i < nc)%nat -> 0 < a i.
Proof using MF Hthr Hx. intros Hi. apply (mf_a _ _ _ _ _ _ _ _ _ _ _ _ _ MF); auto. Qed.

Lemma frac_pos i m : (i < nc)%nat -> alive (q_thr q) (v_Js k) m -> 0 < phis i m.
Proof using MF Hthr Hx. intros Hi HA. rewrite frac_alive by auto. apply Rmult_lt_0_compat; [now apply a_pos|apply exp_pos]. Qed.

Lemma ln_frac i m : (i < nc)%nat -> alive (q_thr q) (v_Js k) m ->
  ln (phis i m) = ln (a i) - v_omegas k (rho i) m * sizes i.
Proof using MF Hthr Hx. intros Hi HA. rewrite frac_alive by auto. rewrite ln_mult by (auto using a_pos, exp_pos). rewrite ln_exp. ring. Qed.

Lemma diff_alive r m : alive (q_thr q) (v_Js k) m -> diff r m = pot r m + P_of cs r m + xi m - v_omegas k r m.
Proof using. intros HA. unfold diff, t_diff, t_masks. rewrite mask_alive by auto. unfold t_otemp, omega_temp_of. fold pot xi cs. unfold P_of. ring. Qed.

Lemma pot_comp i m : (i < nc)%nat -> pot (rho i) m = rsum nc (fun j => chis (rho i) (rho j) * phis j m).
Proof using MF.
  intros Hi. unfold pot. rewrite (mf_pot _ _ _ _ _ _ _ _ _ _ _ _ _ MF).
  rewrite (rsum_ext nf _ (fun s => chis (rho i) s * fsum nc rho (fun j => phis j m) s)).
  - apply (fsum_sum nc nf rho (fun j => phis j m) (chis (rho i))). apply (mf_rho _ _ _ _ _ _ _ _ _ _ _ _ _ MF).
  - intros s Hs. f_equal. now apply (mf_feat _ _ _ _ _ _ _ _ _ _ _ _ _ MF).
Qed.

(** sums over features are sums over components *)
Lemma feat_comp (g : vec) m : rsum nf (fun r => g r * feat r m) = rsum nc (fun i => g (rho i) * phis i m).
Proof using MF.
  rewrite (rsum_ext nf _ (fun r => g r * fsum nc rho (fun i => phis i m) r)).
  - apply (fsum_sum nc nf rho (fun i => phis i m) g). apply (mf_rho _ _ _ _ _ _ _ _ _ _ _ _ _ MF).
  - intros r Hr. f_equal. now apply (mf_feat _ _ _ _ _ _ _ _ _ _ _ _ _ MF).
Qed.

Lemma jac_identity i m : (i < nc)%nat -> alive (q_thr q) (v_Js k) m ->
  dfh nc (fe_chis F) sizes (fun j => phis j m) i =
  ln (a i) / sizes i + 1 / sizes i + diff (rho i) m - P_of cs (rho i) m - xi m.
Proof using MF Hthr Hsz Hx.
  intros Hi HA. unfold dfh. rewrite ln_frac by auto. rewrite diff_alive by auto. rewrite pot_comp by auto. cbn [F fe_of fe_chis].
  field. auto.
Qed.

Lemma le_identity m : alive (q_thr q) (v_Js k) m ->
  le m = - (1 / 2) * rsum nc (fun i => pot (rho i) m * phis i m) - rsum nc (fun i => phis i m / sizes i) - xi m
         + V_of cs m - rsum nc (fun i => P_of cs (rho i) m * phis i m).
Proof using MF.
  intros HA. unfold le, t_le, local_energy_of. rewrite (mf_ivd _ _ _ _ _ _ _ _ _ _ _ _ _ MF), (mf_svd _ _ _ _ _ _ _ _ _ _ _ _ _ MF).
  rewrite (mf_inc _ _ _ _ _ _ _ _ _ _ _ _ _ MF), mask_alive by auto. rewrite (mf_nf _ _ _ _ _ _ _ _ _ _ _ _ _ MF).
  fold pot feat xi cs. rewrite (feat_comp (fun r => pot r m)). rewrite (feat_comp (fun r => t_otemp q k phis incomp r m)).
  unfold t_otemp, omega_temp_of. fold pot xi cs.
  rewrite (rsum_ext nc (fun i => (pot (rho i) m + lsum cs (fun o => pot_of o (rho i) m) + xi m) * phis i m)
             (fun i => pot (rho i) m * phis i m + P_of cs (rho i) m * phis i m + xi m * phis i m))
    by (intros; unfold P_of; ring).
  rewrite !rsum_plus, (rsum_scal_l nc (xi m) (fun i => phis i m)). unfold V_of. field.
Qed.

(** chemical potentials in terms of the residuals of the step *)
Lemma mu_identity i m : (i < nc)%nat -> alive (q_thr q) (v_Js k) m ->
  mu_of F (fun j => phis j m) i + P_of cs (rho i) m - rsum nc (fun j => P_of cs (rho j) m * phis j m) + V_of cs m
  = le m + ln (a i) / sizes i + 1 / sizes i + diff (rho i) m.
Proof using MF Hthr Hsz Hx.
  intros Hi HA. unfold mu_of. rewrite le_identity by auto. change (fe_nc F) with nc. change (fe_sizes F) with sizes.
  rewrite jac_identity by auto.
  assert (E : fh nc (fe_chis F) sizes (fun j => phis j m) - rsum nc (fun j => phis j m * dfh nc (fe_chis F) sizes (fun j => phis j m) j)
    = - (1 / 2) * rsum nc (fun i => pot (rho i) m * phis i m) - rsum nc (fun i => phis i m / sizes i)).
  { unfold fh, dfh.
    rewrite (rsum_ext nc (fun j => phis j m * ((ln (phis j m) + 1) / sizes j + rsum nc (fun j0 => fe_chis F j j0 * phis j0 m)))
               (fun j => phis j m * ln (phis j m) / sizes j + phis j m / sizes j + pot (rho j) m * phis j m)).
    - rewrite !rsum_plus.
      rewrite (rsum_ext nc (fun i0 => rsum nc (fun j => fe_chis F i0 j * phis i0 m * phis j m)) (fun i => pot (rho i) m * phis i m)).
      + field.
      + intros j Hj. rewrite pot_comp by auto. rewrite <- rsum_scal_r. apply rsum_ext. intros. cbn. ring.
    - intros j Hj. rewrite pot_comp by auto. cbn [F fe_of fe_chis]. unfold Rdiv. ring. }
  rewrite E. ring.
Qed.

(** the field residuals of a compartment add up to the incompressibility *)
Lemma diff_sum m : (0 < nf)%nat -> alive (q_thr q) (v_Js k) m ->
  rsum nf (fun r => diff r m) = coef_of q * incomp m.
Proof using MF.
  intros Hn HA. rewrite (rsum_ext nf _ (fun r => pot r m + P_of cs r m + xi m - v_omegas k r m)) by (intros; now apply diff_alive).
  rewrite rsum_minus, !rsum_plus, rsum_const. unfold xi, t_xi, xi_of, t_masks. rewrite mask_alive by auto.
  rewrite (mf_nf _ _ _ _ _ _ _ _ _ _ _ _ _ MF). rewrite (mf_coef _ _ _ _ _ _ _ _ _ _ _ _ _ MF). fold pot cs.
  rewrite rsum_minus. unfold P_of. rewrite lsum_rsum. field. apply INR_neq0. auto.
Qed.

(** consequences of small errors *)
Lemma max_diff_ge r m : (r < nf)%nat -> (m < q_np q)%nat -> diff r m <= e_omega rep.
Proof using MF.
  intros Hr Hm. destruct (mf_it _ _ _ _ _ _ _ _ _ _ _ _ _ MF) as [nv I]. rewrite (if_e_omega I).
  rewrite (mf_nf _ _ _ _ _ _ _ _ _ _ _ _ _ MF). fold diff. unfold max_omega_diff.
  assert (K : forall n, (r < n)%nat -> diff r m <= for_ n (fun r acc => Rmax acc (vmax (q_np q) (diff r))) 0).
  { induction n as [|n IH]; intros H; [lia|]. rewrite for_S. destruct (Nat.eq_dec r n) as [->|].
    - eapply Rle_trans; [|apply Rmax_r]. now apply vmax_ge.
    - eapply Rle_trans; [|apply Rmax_l]. apply IH. lia. }
  apply K. auto.
Qed.

Lemma incomp_le m : (m < q_np q)%nat -> Rabs (incomp m) <= e_incomp rep.
Proof using MF.
  intros Hm. destruct (mf_it _ _ _ _ _ _ _ _ _ _ _ _ _ MF) as [nv I]. rewrite (if_e_incomp I).
  apply (vmax_ge (q_np q) (fun m => Rabs (incomp m)) m Hm).
Qed.

Lemma le_le m : (m < q_np q)%nat -> alive (q_thr q) (v_Js k) m -> Rabs (t_mean q k phis incomp - le m) <= e_Js rep.
Proof using MF.
  intros Hm HA. destruct (mf_it _ _ _ _ _ _ _ _ _ _ _ _ _ MF) as [nv I]. rewrite (if_e_Js I).
  eapply Rle_trans; [|apply (vmax_ge (q_np q) (fun m => Rabs (t_Jdiff q k phis incomp m)) m Hm)].
  unfold t_Jdiff, t_masks. rewrite mask_alive by auto. fold le. rewrite Rmult_1_r. lra.
Qed.

Lemma diff_lower r m : (r < nf)%nat -> (m < q_np q)%nat -> alive (q_thr q) (v_Js k) m ->
  - (Rabs (coef_of q) * e_incomp rep + (INR nf - 1) * e_omega rep) <= diff r m.
Proof using MF.
  intros Hr Hm HA. pose proof (diff_sum m ltac:(lia) HA) as HS.
  assert (H1 : rsum nf (fun s => diff s m) - diff r m <= (INR nf - 1) * e_omega rep).
  { assert (K : rsum nf (fun s => e_omega rep - diff s m) - (e_omega rep - diff r m) >= 0).
    { rewrite (rsum_remove nf _ r Hr). assert (0 <= rsum nf (fun i => if Nat.eqb i r then 0 else e_omega rep - diff i m)); [|lra].
      apply rsum_nonneg. intros s Hs. destruct (Nat.eqb s r); [lra|]. pose proof (max_diff_ge s m Hs Hm). lra. }
    rewrite rsum_minus, rsum_const in K. lra. }
  assert (H2 : Rabs (coef_of q * incomp m) <= Rabs (coef_of q) * e_incomp rep).
  { rewrite Rabs_mult. apply Rmult_le_compat_l; [apply Rabs_pos|now apply incomp_le]. }
  pose proof (Rle_abs (- (coef_of q * incomp m))) as H3. rewrite Rabs_Ropp in H3. lra.
Qed.
End Identity.
End Facts.
