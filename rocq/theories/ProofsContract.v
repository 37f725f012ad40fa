(** ProofsContract.v -- one step of the iteration brings the fields of the
    compartments closer together when interactions are weak (for C95). *)

From Coquelicot Require Import Coquelicot.
From Coq Require Import Reals Lra Lia String List Bool Arith ZArith.
From Verif Require Import Base ModelCommon ModelParts ModelKernel ModelPhases ModelFinder ProofsKernel ProofsParts ProofsSteps ProofsBounds
  Spec ModelFreeEnergy ProofsFreeEnergy PropertiesKernel PropertiesConstraints ProofsEquilibrium PropertiesEquilibrium PropertiesBinary PropertiesRelax.
Import ListNotations.
Open Scope R_scope.

(* ------------------------------------------------------------------ *)
(** * Calculus *)

Lemma exp_slope x y l : exists z, Rmin x y <= z <= Rmax x y /\ exp (- y * l) - exp (- x * l) = - l * exp (- z * l) * (y - x).
Proof.
  destruct (MVT_gen (fun z => exp (- z * l)) x y (fun z => - l * exp (- z * l))) as (z & Hz & E).
  - intros z _. auto_derive; auto. ring.
  - intros z _. apply derivable_continuous_pt. apply ex_derive_Reals_0. auto_derive; auto.
  - exists z. auto.
Qed.

Lemma exp_mono_le x y : x <= y -> exp x <= exp y.
Proof. intros [H|H]; [left; now apply exp_increasing|subst; right; reflexivity]. Qed.

Lemma rsum_Rabs_le n f b : (forall i, (i < n)%nat -> Rabs (f i) <= b i) -> Rabs (rsum n f) <= rsum n b.
Proof. intros H. eapply Rle_trans; [apply rsum_Rabs|]. now apply rsum_le. Qed.

(* ------------------------------------------------------------------ *)
(** * Vocabulary *)

(** mean of the fields of compartment [m] *)
Definition field_mean {G St} (q : kernel) (k : kstate G St) (m : nat) : R :=
  rsum (q_nf q) (fun r => v_omegas k r m) / INR (q_nf q).

(** potential of feature [r] in the homogeneous mixture [pm] *)
Definition mean_potential (nc : nat) (rho : nat -> nat) (chis : mat) (pm : vec) (r : nat) : R :=
  rsum nc (fun i => chis r (rho i) * pm i).

(** the means of the fields of two living compartments differ by at most [B],
    and within a living compartment the fields differ from their mean as the
    potentials of the homogeneous mixture do from theirs, up to [B / 4] *)
Definition close {G} (q : kernel) (k : kstate G cstate) nc rho chis pm (B : R) : Prop :=
  (forall m n, lives q k m -> lives q k n -> Rabs (field_mean q k m - field_mean q k n) <= B) /\
  (forall m r, lives q k m -> (r < q_nf q)%nat ->
     Rabs (v_omegas k r m - field_mean q k m -
           (mean_potential nc rho chis pm r - rsum (q_nf q) (mean_potential nc rho chis pm) / INR (q_nf q))) <= B / 4).

(** bounds of [sum_i l_i theta_i] for fractions [theta] whose fields differ by at most [D] from those of living compartments *)
Definition upper_size (nc : nat) (sizes pm : vec) (D : R) : R := rsum nc (fun i => pm i * exp (sizes i * D) * sizes i).
Definition lower_size (nc : nat) (sizes pm : vec) (D : R) : R := rsum nc (fun i => pm i * exp (- (sizes i * D)) * sizes i).

(* ------------------------------------------------------------------ *)
(** * One step *)

Section Step.
Context {G : Type}.
Variables (q : kernel) (k k' : kstate G cstate) (nv : Z) (rep : report).
Variables (nc nf : nat) (rho : nat -> nat) (chis : mat) (sh : R) (sizes pm : vec).
Hypothesis HM : mixture q nc nf rho chis sh sizes.
Hypothesis HE : q_ensemble q = can_compiled nc pm.
Hypothesis HAd : admissible nc nf chis sizes pm.
Hypothesis HI : Forall idle (v_cons k).
Hypothesis Ht : 0 <= q_thr q.
Hypothesis Hu : 0 < q_ub q.
Variables (phis : mat) (inc : vec).
Hypothesis MF : mix_facts q k k' rep nc nf rho chis sizes pm (fun i => pm i / Qbar q k rho sizes i) phis inc.
Variables (B D X : R).
Hypothesis HC : close q k nc rho chis pm B.
Hypothesis HBD : 3 / 2 * B <= D.
Hypothesis HX : forall r s t, (r < nf)%nat -> (s < nf)%nat -> (t < nf)%nat -> Rabs (chis r t - chis s t) <= X.

Let la := living (q_thr q) (v_Js k).
Let TH := upper_size nc sizes pm D.
Let TL := lower_size nc sizes pm D.
Let a i := pm i / Qbar q k rho sizes i.

Lemma some_lives : exists m, lives q k m.
Proof using MF.
  destruct (mf_it _ _ _ _ _ _ _ _ _ _ _ _ _ MF) as [nv' I]. apply count_valid_pos. apply (if_nv_pos I).
Qed.

Lemma la_pos : 0 < rsum (q_np q) la.
Proof using MF Ht.
  destruct some_lives as (m & Hm). apply rsum_pos.
  - intros i _. now apply living_nonneg.
  - exists m. split; [apply Hm|]. now apply living_pos.
Qed.

Lemma la_lives m : (m < q_np q)%nat -> la m <> 0 -> lives q k m.
Proof using Type. intros Hm H. split; auto. unfold la, living in H. unfold alive. destruct (Rlt_dec _ _); [auto|contradiction]. Qed.

Lemma B_nonneg : 0 <= B.
Proof using HC MF. destruct some_lives as (m & Hm). destruct HC as (H & _). eapply Rle_trans; [apply Rabs_pos|]. now apply (H m m). Qed.

Lemma close_fields r m n : (r < nf)%nat -> lives q k m -> lives q k n -> Rabs (v_omegas k r m - v_omegas k r n) <= 3 / 2 * B.
Proof using HC MF.
  intros Hr Hm Hn. destruct HC as (C1 & C2). rewrite <- (mf_nf _ _ _ _ _ _ _ _ _ _ _ _ _ MF) in Hr.
  pose proof (C1 m n Hm Hn). pose proof (C2 m r Hm Hr). pose proof (C2 n r Hn Hr).
  repeat match goal with H : Rabs _ <= _ |- _ => apply Rabs_le_between in H end. apply Rabs_le_between. lra.
Qed.

(** ** the fractions *)

Lemma size_pos i : (i < nc)%nat -> 0 < sizes i.
Proof using HAd. destruct HAd as (_ & _ & H & _). auto. Qed.
Lemma pm_pos i : (i < nc)%nat -> 0 < pm i.
Proof using HAd. destruct HAd as (_ & _ & _ & H). auto. Qed.

Lemma prefactor_range i x : (i < nc)%nat -> (forall n, lives q k n -> Rabs (x - v_omegas k (rho i) n) <= D) ->
  pm i * exp (- (sizes i * D)) <= a i * exp (- x * sizes i) <= pm i * exp (sizes i * D).
Proof using HAd MF Ht.
  intros Hi Hx. pose proof la_pos as LP. pose proof (size_pos i Hi) as Hs. pose proof (pm_pos i Hi) as Hp.
  assert (Q1 : forall n, (n < q_np q)%nat -> exp (- x * sizes i) * exp (- (sizes i * D)) * la n <= exp (- v_omegas k (rho i) n * sizes i) * la n
                              <= exp (- x * sizes i) * exp (sizes i * D) * la n).
  { intros n Hn. destruct (Req_dec (la n) 0) as [->|E]; [lra|]. specialize (Hx n (la_lives n Hn E)).
    pose proof (living_nonneg (q_thr q) (v_Js k) n Ht). fold la in H. apply Rabs_le_between in Hx. rewrite <- !exp_plus.
    split; apply Rmult_le_compat_r; auto; apply exp_mono_le; nra. }
  set (Z := exp (- x * sizes i)) in *. assert (Z0 : 0 < Z) by apply exp_pos.
  assert (EP : exp (- (sizes i * D)) * exp (sizes i * D) = 1) by (rewrite <- exp_plus, Rplus_opp_l; apply exp_0).
  pose proof (exp_pos (- (sizes i * D))). pose proof (exp_pos (sizes i * D)).
  set (Qb := Qbar q k rho sizes i) in *.
  assert (QE : Qb * rsum (q_np q) la = rsum (q_np q) (fun m => exp (- v_omegas k (rho i) m * sizes i) * la m)).
  { unfold Qb, Qbar. fold la. field. lra. }
  assert (QL : Z * exp (- (sizes i * D)) <= Qb).
  { apply (Rmult_le_reg_r (rsum (q_np q) la)); auto. rewrite QE, <- rsum_scal_l. apply rsum_le. intros n Hn. apply (Q1 n Hn). }
  assert (QU : Qb <= Z * exp (sizes i * D)).
  { apply (Rmult_le_reg_r (rsum (q_np q) la)); auto. rewrite QE, <- rsum_scal_l. apply rsum_le. intros n Hn. apply (Q1 n Hn). }
  assert (Q0 : 0 < Qb) by nra. unfold a. fold Qb.
  replace (pm i / Qb * Z) with (pm i * (Z / Qb)) by (field; lra).
  split; (apply Rmult_le_compat_l; [lra|]); apply (Rmult_le_reg_r Qb); auto; replace (Z / Qb * Qb) with Z by (field; lra); nra.
Qed.

Lemma slope i m n : (i < nc)%nat -> lives q k m -> lives q k n -> exists th,
  pm i * exp (- (sizes i * D)) <= th <= pm i * exp (sizes i * D) /\
  phis i m - phis i n = - (th * sizes i) * (v_omegas k (rho i) m - v_omegas k (rho i) n).
Proof using HAd MF Ht HC HBD.
  intros Hi Hm Hn. pose proof (mf_rho _ _ _ _ _ _ _ _ _ _ _ _ _ MF i Hi) as Hr.
  destruct (exp_slope (v_omegas k (rho i) n) (v_omegas k (rho i) m) (sizes i)) as (z & Hz & E).
  exists (a i * exp (- z * sizes i)). split.
  - apply prefactor_range; auto. intros o Ho.
    pose proof (close_fields (rho i) m o Hr Hm Ho) as H1. pose proof (close_fields (rho i) n o Hr Hn Ho) as H2.
    apply Rabs_le_between in H1. apply Rabs_le_between in H2. apply Rabs_le_between.
    unfold Rmin, Rmax in Hz. destruct (Rle_dec _ _); lra.
  - rewrite (frac_alive _ _ _ _ _ _ _ _ _ _ _ _ _ MF i m Hi (proj2 Hm)), (frac_alive _ _ _ _ _ _ _ _ _ _ _ _ _ MF i n Hi (proj2 Hn)).
    fold (a i). rewrite <- Rmult_minus_distr_l, E. ring.
Qed.

Lemma frac_close i m n : (i < nc)%nat -> lives q k m -> lives q k n ->
  Rabs (phis i m - phis i n) <= pm i * exp (sizes i * D) * sizes i * (3 / 2 * B).
Proof using HAd MF Ht HC HBD.
  intros Hi Hm Hn. destruct (slope i m n Hi Hm Hn) as (th & Hth & ->).
  pose proof (mf_rho _ _ _ _ _ _ _ _ _ _ _ _ _ MF i Hi) as Hr. pose proof (close_fields (rho i) m n Hr Hm Hn).
  pose proof (size_pos i Hi). pose proof (pm_pos i Hi). pose proof (exp_pos (- (sizes i * D))).
  rewrite Rabs_mult, Rabs_Ropp. rewrite (Rabs_right (th * sizes i)) by (apply Rle_ge, Rmult_le_pos; nra).
  apply Rmult_le_compat; [apply Rmult_le_pos; nra|apply Rabs_pos| |auto]. apply Rmult_le_compat_r; lra.
Qed.

Lemma frac_mean i : (i < nc)%nat -> rsum (q_np q) (fun n => la n * phis i n) = pm i * rsum (q_np q) la.
Proof using HAd MF Ht.
  intros Hi. pose proof la_pos as LP.
  assert (QE : Qbar q k rho sizes i * rsum (q_np q) la = rsum (q_np q) (fun m => exp (- v_omegas k (rho i) m * sizes i) * la m)).
  { unfold Qbar. fold la. field. lra. }
  rewrite (rsum_ext (q_np q) _ (fun n => a i * (exp (- v_omegas k (rho i) n * sizes i) * la n))).
  - rewrite rsum_scal_l, <- QE. unfold a. field. intros E. rewrite E, Rmult_0_l in QE.
    destruct some_lives as (m & Hm). assert (0 < rsum (q_np q) (fun m => exp (- v_omegas k (rho i) m * sizes i) * la m)); [|lra].
    apply rsum_pos.
    + intros o _. apply Rmult_le_pos; [left; apply exp_pos|now apply living_nonneg].
    + exists m. split; [apply Hm|]. apply Rmult_lt_0_compat; [apply exp_pos|]. now apply living_pos.
  - intros n Hn. destruct (Req_dec (la n) 0) as [->|E]; [ring|].
    rewrite (frac_alive _ _ _ _ _ _ _ _ _ _ _ _ _ MF i n Hi (proj2 (la_lives n Hn E))). fold (a i). ring.
Qed.

(** every living compartment has nearly the mean composition *)
Lemma frac_near i m : (i < nc)%nat -> lives q k m -> Rabs (phis i m - pm i) <= pm i * exp (sizes i * D) * sizes i * (3 / 2 * B).
Proof using HAd MF Ht HC HBD.
  intros Hi Hm. pose proof la_pos as LP. set (b := pm i * exp (sizes i * D) * sizes i * (3 / 2 * B)).
  apply (Rmult_le_reg_r (rsum (q_np q) la)); auto. rewrite <- (Rabs_right (rsum (q_np q) la)) at 1 by lra. rewrite <- Rabs_mult.
  replace ((phis i m - pm i) * rsum (q_np q) la) with (rsum (q_np q) (fun n => (phis i m - phis i n) * la n)).
  - rewrite <- rsum_scal_l. apply rsum_Rabs_le. intros n Hn. pose proof (living_nonneg (q_thr q) (v_Js k) n Ht) as L0. fold la in L0.
    destruct (Req_dec (la n) 0) as [->|E]; [rewrite !Rmult_0_r, Rabs_R0; lra|].
    rewrite Rabs_mult, (Rabs_right (la n)) by lra. apply Rmult_le_compat_r; auto. apply frac_close; auto. now apply la_lives.
  - rewrite (rsum_ext _ _ (fun n => phis i m * la n - la n * phis i n)) by (intros; ring).
    rewrite rsum_minus, rsum_scal_l, frac_mean by auto. ring.
Qed.

Lemma total_near m : lives q k m -> rsum nc (fun i => Rabs (phis i m - pm i)) <= TH * (3 / 2 * B).
Proof using HAd MF Ht HC HBD.
  intros Hm. unfold TH, upper_size. rewrite <- rsum_scal_r. apply rsum_le. intros i Hi. now apply frac_near.
Qed.
Lemma total_close m n : lives q k m -> lives q k n -> rsum nc (fun i => Rabs (phis i m - phis i n)) <= TH * (3 / 2 * B).
Proof using HAd MF Ht HC HBD.
  intros Hm Hn. unfold TH, upper_size. rewrite <- rsum_scal_r. apply rsum_le. intros i Hi. now apply frac_close.
Qed.

Lemma TH_nonneg : 0 <= TH.
Proof using HAd.
  unfold TH, upper_size. apply rsum_nonneg. intros i Hi. pose proof (size_pos i Hi). pose proof (pm_pos i Hi). pose proof (exp_pos (sizes i * D)).
  apply Rmult_le_pos; [apply Rmult_le_pos|]; lra.
Qed.
Lemma TL_nonneg : 0 <= TL.
Proof using HAd.
  unfold TL, lower_size. apply rsum_nonneg. intros i Hi. pose proof (size_pos i Hi). pose proof (pm_pos i Hi). pose proof (exp_pos (- (sizes i * D))).
  apply Rmult_le_pos; [apply Rmult_le_pos|]; lra.
Qed.

(** ** the update of the fields *)

Let f := t_factor q k phis inc.
Let c0 := coef_of q / INR nf.
Let pot := t_pot q k phis.
Let ppot := mean_potential nc rho chis pm.

Lemma nf_pos : 0 < INR nf.
Proof using HAd. destruct HAd as (H & _). now apply lt_0_INR. Qed.

Lemma inc_alive m : lives q k m -> inc m = rsum nc (fun i => phis i m) - 1.
Proof using MF. intros Hm. rewrite (mf_inc _ _ _ _ _ _ _ _ _ _ _ _ _ MF), mask_alive by apply Hm. ring. Qed.

Lemma pot_alive r m : (r < nf)%nat -> pot r m = rsum nc (fun j => chis r (rho j) * phis j m).
Proof using MF.
  intros Hr. unfold pot. rewrite (mf_pot _ _ _ _ _ _ _ _ _ _ _ _ _ MF).
  apply (feat_comp _ _ _ _ _ _ _ _ _ _ _ _ _ MF (chis r) m).
Qed.

Lemma diff_mean m : lives q k m -> rsum nf (fun r => t_diff q k phis inc r m) / INR nf = c0 * inc m.
Proof using MF HAd.
  intros Hm. pose proof nf_pos. rewrite (diff_sum _ _ _ _ _ _ _ _ _ _ _ _ _ MF m); [unfold c0; field; lra|apply HAd|apply Hm].
Qed.

Lemma xi_alive m : lives q k m -> t_xi q k phis inc m = c0 * inc m + field_mean q k m - rsum nf (fun r => pot r m) / INR nf.
Proof using MF HAd HI.
  intros Hm. pose proof nf_pos as NP. rewrite <- diff_mean by auto. destruct (idle_sums q k phis HI) as (EP & _).
  rewrite (rsum_ext nf _ (fun r => pot r m + t_xi q k phis inc m - v_omegas k r m)).
  - rewrite rsum_minus, rsum_plus, rsum_const. unfold field_mean. rewrite (mf_nf _ _ _ _ _ _ _ _ _ _ _ _ _ MF). field. lra.
  - intros r _. rewrite diff_alive by apply Hm. rewrite EP. unfold pot. ring.
Qed.

Lemma diff_lives r m : lives q k m -> t_diff q k phis inc r m =
  c0 * inc m + (pot r m - rsum nf (fun r => pot r m) / INR nf) - (v_omegas k r m - field_mean q k m).
Proof using MF HAd HI.
  intros Hm. rewrite diff_alive by apply Hm. destruct (idle_sums q k phis HI) as (EP & _). rewrite EP, xi_alive by auto. unfold pot. ring.
Qed.

Lemma omega_next r m : lives q k m -> v_omegas k' r m = v_omegas k r m + f * q_acc_w q * t_diff q k phis inc r m.
Proof using MF.
  intros Hm. destruct (mf_it _ _ _ _ _ _ _ _ _ _ _ _ _ MF) as [nv' I]. rewrite (if_omegas I). unfold t_omegas, t_masks.
  rewrite mask_alive by apply Hm. fold f. ring.
Qed.

Lemma mean_next m : lives q k m -> field_mean q k' m = field_mean q k m + f * q_acc_w q * (c0 * inc m).
Proof using MF HAd.
  intros Hm. rewrite <- diff_mean by auto. pose proof nf_pos. unfold field_mean. rewrite (mf_nf _ _ _ _ _ _ _ _ _ _ _ _ _ MF).
  rewrite (rsum_ext nf _ (fun r => v_omegas k r m + f * q_acc_w q * t_diff q k phis inc r m)) by (intros; now apply omega_next).
  rewrite rsum_plus, rsum_scal_l. field. lra.
Qed.

Lemma centred_pot r m : (r < nf)%nat -> lives q k m ->
  Rabs ((pot r m - rsum nf (fun s => pot s m) / INR nf) - (ppot r - rsum nf ppot / INR nf)) <= X * (TH * (3 / 2 * B)).
Proof using HAd MF Ht HC HBD HX.
  intros Hr Hm. pose proof nf_pos as NP.
  assert (X0 : 0 <= X) by (eapply Rle_trans; [apply Rabs_pos|apply (HX r r r); auto]).
  assert (E : forall s, (s < nf)%nat -> pot s m - ppot s = rsum nc (fun j => chis s (rho j) * (phis j m - pm j))).
  { intros s Hs. rewrite pot_alive by auto. unfold ppot, mean_potential. rewrite <- rsum_minus. apply rsum_ext. intros; ring. }
  assert (E2 : (pot r m - rsum nf (fun s => pot s m) / INR nf) - (ppot r - rsum nf ppot / INR nf)
     = rsum nf (fun s => (pot r m - ppot r) - (pot s m - ppot s)) / INR nf).
  { rewrite !rsum_minus, !rsum_const. change (rsum nf (fun i => ppot i)) with (rsum nf ppot). field. lra. }
  rewrite E2. unfold Rdiv. rewrite Rabs_mult, (Rabs_right (/ INR nf)) by (apply Rle_ge; left; now apply Rinv_0_lt_compat).
  apply (Rmult_le_reg_r (INR nf)); auto. rewrite Rmult_assoc, Rinv_l, Rmult_1_r by lra.
  rewrite (Rmult_comm _ (INR nf)), <- rsum_const. apply rsum_Rabs_le. intros s Hs. rewrite !E by auto.
  rewrite <- rsum_minus.
  apply Rle_trans with (rsum nc (fun j => X * Rabs (phis j m - pm j))).
  - apply rsum_Rabs_le. intros j Hj. replace (_ - _) with ((chis r (rho j) - chis s (rho j)) * (phis j m - pm j)) by ring.
    rewrite Rabs_mult. apply Rmult_le_compat_r; [apply Rabs_pos|]. apply HX; auto. apply (mf_rho _ _ _ _ _ _ _ _ _ _ _ _ _ MF j Hj).
  - rewrite rsum_scal_l. apply Rmult_le_compat_l; auto. now apply total_near.
Qed.

Lemma sum_difference m n : lives q k m -> lives q k n -> exists T, TL <= T <= TH /\
  Rabs (inc m - inc n + T * (field_mean q k m - field_mean q k n)) <= T * (B / 2).
Proof using HAd MF Ht HC HBD.
  intros Hm Hn. pose proof B_nonneg as B0.
  assert (EX : exists th : vec, forall i, (i < nc)%nat -> pm i * exp (- (sizes i * D)) <= th i <= pm i * exp (sizes i * D) /\
     phis i m - phis i n = - (th i * sizes i) * (v_omegas k (rho i) m - v_omegas k (rho i) n)).
  { assert (GEN : forall p, (p <= nc)%nat -> exists th : vec, forall i, (i < p)%nat -> pm i * exp (- (sizes i * D)) <= th i <= pm i * exp (sizes i * D) /\
       phis i m - phis i n = - (th i * sizes i) * (v_omegas k (rho i) m - v_omegas k (rho i) n)).
    { induction p as [|p IH]; intros Hp; [exists (fun _ => 0); intros; lia|].
      destruct IH as (th & H); [lia|]. destruct (slope p m n ltac:(lia) Hm Hn) as (t & Ht1 & Ht2).
      exists (fun i => if Nat.eqb i p then t else th i). intros i Hi. destruct (Nat.eqb_spec i p) as [->|N]; [auto|]. apply H. lia. }
    now apply GEN. }
  destruct EX as (th & Hth). exists (rsum nc (fun i => th i * sizes i)). split.
  - unfold TL, TH, lower_size, upper_size. split; apply rsum_le; intros i Hi; destruct (Hth i Hi) as (H1 & _); pose proof (size_pos i Hi);
      apply Rmult_le_compat_r; lra.
  - rewrite !inc_alive by auto.
    replace (rsum nc (fun i => phis i m) - 1 - (rsum nc (fun i => phis i n) - 1)) with (rsum nc (fun i => phis i m - phis i n)) by (rewrite rsum_minus; ring).
    rewrite <- !rsum_scal_r. rewrite <- rsum_plus. apply rsum_Rabs_le. intros i Hi. destruct (Hth i Hi) as (H1 & H2). rewrite H2.
    pose proof (size_pos i Hi) as Hs. pose proof (pm_pos i Hi). pose proof (exp_pos (- (sizes i * D))).
    assert (0 < th i) by nra. replace (_ + _) with (- (th i * sizes i) * ((v_omegas k (rho i) m - field_mean q k m) - (v_omegas k (rho i) n - field_mean q k n))) by ring.
    rewrite Rabs_mult, Rabs_Ropp, (Rabs_right (th i * sizes i)) by (apply Rle_ge, Rmult_le_pos; lra).
    apply Rmult_le_compat_l; [apply Rmult_le_pos; lra|].
    destruct HC as (_ & C2). pose proof (mf_rho _ _ _ _ _ _ _ _ _ _ _ _ _ MF i Hi) as Hr. rewrite <- (mf_nf _ _ _ _ _ _ _ _ _ _ _ _ _ MF) in Hr.
    pose proof (C2 m (rho i) Hm Hr) as K1. pose proof (C2 n (rho i) Hn Hr) as K2. apply Rabs_le_between in K1. apply Rabs_le_between in K2.
    apply Rabs_le_between. lra.
Qed.

(** survivors of a step were alive before *)
Lemma survivor m : lives q k' m -> lives q k m.
Proof using MF Ht.
  intros (Hm & HA). split; auto. unfold alive in *. destruct (Rlt_le_dec (q_thr q) (v_Js k m)) as [|HD]; auto.
  destruct (mf_it _ _ _ _ _ _ _ _ _ _ _ _ _ MF) as [nv' I]. rewrite (if_Js I), t_J2_dead in HA by auto. lra.
Qed.

Theorem close_next kap : 0 < q_acc_w q <= 1 -> 0 <= c0 -> q_acc_w q * c0 * TH <= 1 ->
  0 <= kap -> kap <= c0 * TL / 2 -> kap <= 1 - 6 * X * TH ->
  0 < f <= 1 /\ close q k' nc rho chis pm (B * (1 - f * q_acc_w q * kap)).
Proof using HAd MF Ht HC HBD HX HI Hu.
  intros Hw Hc Hcap K0 K1 K2. pose proof B_nonneg as B0. assert (Hf : 0 < f <= 1) by (apply t_factor_range; auto). split; auto.
  set (s := f * q_acc_w q). assert (Hs : 0 < s <= q_acc_w q) by (unfold s; split; nra).
  split.
  - intros m n Hm Hn. apply survivor in Hm. apply survivor in Hn. rewrite !mean_next by auto. fold s.
    destruct (sum_difference m n Hm Hn) as (T & (T1 & T2) & HT). pose proof TL_nonneg as TL0.
    destruct HC as (C1 & _). specialize (C1 m n Hm Hn). set (d := field_mean q k m - field_mean q k n) in *.
    replace (_ - _) with ((1 - s * c0 * T) * d + s * c0 * (inc m - inc n + T * d)) by (unfold d; ring).
    assert (SC : 0 <= s * c0) by (apply Rmult_le_pos; lra).
    assert (H1 : s * c0 * T <= 1).
    { apply Rle_trans with (q_acc_w q * c0 * TH); auto. apply Rmult_le_compat; try lra. apply Rmult_le_compat_r; lra. }
    eapply Rle_trans; [apply Rabs_triang|]. rewrite !Rabs_mult, (Rabs_right (1 - s * c0 * T)), (Rabs_right s), (Rabs_right c0) by lra.
    apply Rle_trans with ((1 - s * c0 * T) * B + s * c0 * (T * (B / 2))).
    + apply Rplus_le_compat; apply Rmult_le_compat_l; auto; lra.
    + assert (s * kap <= s * (c0 * T / 2)). { apply Rmult_le_compat_l; [lra|]. assert (c0 * TL <= c0 * T) by (apply Rmult_le_compat_l; lra). lra. }
      nra.
  - intros m r Hm Hr. apply survivor in Hm. rewrite mean_next, omega_next, diff_lives by auto. fold s. fold ppot.
    rewrite (mf_nf _ _ _ _ _ _ _ _ _ _ _ _ _ MF) in *. pose proof (centred_pot r m Hr Hm) as HP.
    destruct HC as (_ & C2). rewrite (mf_nf _ _ _ _ _ _ _ _ _ _ _ _ _ MF) in C2. specialize (C2 m r Hm Hr). fold ppot in C2.
    set (g := v_omegas k r m - field_mean q k m - (ppot r - rsum nf ppot / INR nf)) in *.
    set (p := pot r m - rsum nf (fun s0 => pot s0 m) / INR nf - (ppot r - rsum nf ppot / INR nf)) in *.
    replace (_ - _) with ((1 - s) * g + s * p) by (unfold g, p; ring).
    eapply Rle_trans; [apply Rabs_triang|]. rewrite !Rabs_mult, (Rabs_right (1 - s)), (Rabs_right s) by lra.
    apply Rle_trans with ((1 - s) * (B / 4) + s * (X * (TH * (3 / 2 * B)))).
    + apply Rplus_le_compat; apply Rmult_le_compat_l; auto; lra.
    + assert (s * kap <= s * (1 - 6 * X * TH)) by (apply Rmult_le_compat_l; lra). nra.
Qed.

(** ** the errors and the volumes *)

Variables (M W : R).
Hypothesis HMx : forall r s, (r < nf)%nat -> (s < nf)%nat -> Rabs (chis r s) <= M.
Hypothesis HW : forall i, (i < nc)%nat -> 1 / sizes i <= W.
Hypothesis PS : rsum nc pm = 1.

Lemma inc_near m : lives q k m -> Rabs (inc m) <= TH * (3 / 2 * B).
Proof using HAd MF Ht HC HBD PS.
  intros Hm. rewrite inc_alive by auto. rewrite <- PS, <- rsum_minus. eapply Rle_trans; [apply rsum_Rabs|]. now apply total_near.
Qed.

Lemma inc_bound : e_incomp rep <= TH * (3 / 2 * B).
Proof using HAd MF Ht HC HBD PS.
  destruct (mf_it _ _ _ _ _ _ _ _ _ _ _ _ _ MF) as [nv' I]. rewrite (if_e_incomp I).
  pose proof B_nonneg as B0. pose proof TH_nonneg as T0. destruct some_lives as (m0 & Hm0 & _).
  apply vmax_le; [lia|]. intros m Hm. destruct (Rlt_le_dec (q_thr q) (v_Js k m)) as [HA|HA]; [apply inc_near; split; auto|].
  rewrite (mf_inc _ _ _ _ _ _ _ _ _ _ _ _ _ MF), mask_dead, Rmult_0_r, Rabs_R0 by auto. apply Rmult_le_pos; lra.
Qed.

Lemma max_omega_diff_le np d b : 0 <= b -> (0 < np)%nat -> forall n, (forall r m, (r < n)%nat -> (m < np)%nat -> d r m <= b) -> max_omega_diff n np d <= b.
Proof using Type.
  intros Hb Hn n H. unfold max_omega_diff. induction n as [|n IH]; [simpl; lra|]. rewrite for_S. apply Rmax_lub; [apply IH; auto|].
  apply vmax_le; auto.
Qed.

Lemma omega_bound : 0 <= c0 -> e_omega rep <= (c0 + X) * (TH * (3 / 2 * B)) + B / 4.
Proof using HAd MF Ht HC HBD PS HI HX.
  intros Hc. destruct (mf_it _ _ _ _ _ _ _ _ _ _ _ _ _ MF) as [nv' I]. rewrite (if_e_omega I).
  pose proof B_nonneg as B0. pose proof TH_nonneg as T0. destruct some_lives as (m0 & Hm0 & _). rewrite (mf_nf _ _ _ _ _ _ _ _ _ _ _ _ _ MF).
  assert (X0 : 0 <= X) by (destruct HAd as (NF & _); eapply Rle_trans; [apply Rabs_pos|apply (HX 0%nat 0%nat 0%nat); auto]).
  assert (0 <= (c0 + X) * (TH * (3 / 2 * B)) + B / 4) by (assert (0 <= TH * (3 / 2 * B)) by (apply Rmult_le_pos; lra); nra).
  apply max_omega_diff_le; [auto|lia|]. intros r m Hr Hm. destruct (Rlt_le_dec (q_thr q) (v_Js k m)) as [HA|HA].
  - assert (Hl : lives q k m) by (split; auto). rewrite diff_lives by auto. pose proof (inc_near m Hl) as H1. pose proof (centred_pot r m Hr Hl) as H2.
    destruct HC as (_ & C2). rewrite (mf_nf _ _ _ _ _ _ _ _ _ _ _ _ _ MF) in C2. specialize (C2 m r Hl Hr). fold ppot in C2.
    apply Rabs_le_between in H1. apply Rabs_le_between in H2. apply Rabs_le_between in C2. nra.
  - unfold t_diff, t_masks. rewrite mask_dead by auto. lra.
Qed.

Definition le_const : R := TH * (3 / 2) * (M * (1 + TH * D) + W + c0 + M) + 1.

Lemma total_le m : lives q k m -> rsum nc (fun i => Rabs (phis i m)) <= 1 + TH * D.
Proof using HAd MF Ht HC HBD PS.
  intros Hm. rewrite <- PS. pose proof (total_near m Hm). pose proof TH_nonneg.
  assert (rsum nc (fun i => Rabs (phis i m)) <= rsum nc (fun i => pm i + Rabs (phis i m - pm i))).
  { apply rsum_le. intros i Hi. pose proof (pm_pos i Hi). pose proof (Rabs_triang (pm i) (phis i m - pm i)).
    replace (pm i + (phis i m - pm i)) with (phis i m) in H2 by ring. rewrite (Rabs_right (pm i)) in H2 by lra. lra. }
  rewrite rsum_plus in H1. nra.
Qed.

Lemma le_close m n : 0 <= c0 -> lives q k m -> lives q k n -> Rabs (t_le q k phis inc m - t_le q k phis inc n) <= le_const * B.
Proof using HAd MF Ht HC HBD PS HI HMx HW.
  intros Hc Hm Hn. pose proof B_nonneg as B0. pose proof TH_nonneg as T0. pose proof nf_pos as NP.
  destruct (idle_sums q k phis HI) as (EP & EV).
  assert (M0 : 0 <= M) by (destruct HAd as (NF & _); eapply Rle_trans; [apply Rabs_pos|apply (HMx 0%nat 0%nat); auto]).
  set (E := rsum nc (fun i => Rabs (phis i m - phis i n))). pose proof (total_close m n Hm Hn) as HEn. fold E in HEn.
  assert (E0 : 0 <= E) by (apply rsum_nonneg; intros; apply Rabs_pos).
  set (P := 1 + TH * D). assert (P0 : 0 <= P) by (eapply Rle_trans; [|apply (total_le m Hm)]; apply rsum_nonneg; intros; apply Rabs_pos).
  assert (LE : forall o, lives q k o -> t_le q k phis inc o = - (1 / 2) * rsum nc (fun i => pot (rho i) o * phis i o) - rsum nc (fun i => phis i o / sizes i)
     - (c0 * inc o + field_mean q k o - rsum nf (fun r => pot r o) / INR nf)).
  { intros o Ho. rewrite (le_identity _ _ _ _ _ _ _ _ _ _ _ _ _ MF o (proj2 Ho)), EV, xi_alive by auto.
    rewrite (rsum_zero nc (fun i => P_of _ _ _ * _)) by (intros; rewrite EP; ring). unfold pot. ring. }
  rewrite !LE by auto.
  assert (PD : forall r, (r < nf)%nat -> Rabs (pot r m - pot r n) <= M * E).
  { intros r Hr. rewrite !pot_alive by auto. rewrite <- rsum_minus. unfold E. rewrite <- rsum_scal_l. apply rsum_Rabs_le. intros j Hj.
    replace (_ - _) with (chis r (rho j) * (phis j m - phis j n)) by ring. rewrite Rabs_mult. apply Rmult_le_compat_r; [apply Rabs_pos|].
    apply HMx; auto. apply (mf_rho _ _ _ _ _ _ _ _ _ _ _ _ _ MF j Hj). }
  assert (PB : forall r, (r < nf)%nat -> Rabs (pot r n) <= M * P).
  { intros r Hr. rewrite pot_alive by auto. apply Rle_trans with (rsum nc (fun j => M * Rabs (phis j n))).
    - apply rsum_Rabs_le. intros j Hj. rewrite Rabs_mult. apply Rmult_le_compat_r; [apply Rabs_pos|].
      apply HMx; auto. apply (mf_rho _ _ _ _ _ _ _ _ _ _ _ _ _ MF j Hj).
    - rewrite rsum_scal_l. apply Rmult_le_compat_l; auto. now apply total_le. }
  assert (A1 : Rabs (rsum nc (fun i => pot (rho i) m * phis i m) - rsum nc (fun i => pot (rho i) n * phis i n)) <= M * E * P + M * P * E).
  { rewrite <- rsum_minus. apply Rle_trans with (rsum nc (fun i => M * E * Rabs (phis i m) + M * P * Rabs (phis i m - phis i n))).
    - apply rsum_Rabs_le. intros i Hi. pose proof (mf_rho _ _ _ _ _ _ _ _ _ _ _ _ _ MF i Hi) as Hr.
      replace (_ - _) with ((pot (rho i) m - pot (rho i) n) * phis i m + pot (rho i) n * (phis i m - phis i n)) by ring.
      eapply Rle_trans; [apply Rabs_triang|]. rewrite !Rabs_mult. apply Rplus_le_compat; apply Rmult_le_compat_r; auto using Rabs_pos.
    - rewrite rsum_plus, !rsum_scal_l. fold E. apply Rplus_le_compat_r. apply Rmult_le_compat_l; [apply Rmult_le_pos; lra|]. now apply total_le. }
  assert (A2 : Rabs (rsum nc (fun i => phis i m / sizes i) - rsum nc (fun i => phis i n / sizes i)) <= W * E).
  { rewrite <- rsum_minus. unfold E. rewrite <- rsum_scal_l. apply rsum_Rabs_le. intros i Hi. pose proof (size_pos i Hi) as Hs.
    replace (_ - _) with (1 / sizes i * (phis i m - phis i n)) by (field; lra). rewrite Rabs_mult.
    rewrite (Rabs_right (1 / sizes i)) by (apply Rle_ge; left; apply Rdiv_lt_0_compat; lra). apply Rmult_le_compat_r; [apply Rabs_pos|]. auto. }
  assert (A3 : Rabs (inc m - inc n) <= E).
  { rewrite !inc_alive by auto. replace (_ - _) with (rsum nc (fun i => phis i m - phis i n)) by (rewrite rsum_minus; ring). apply rsum_Rabs. }
  assert (A4 : Rabs (rsum nf (fun r => pot r m) / INR nf - rsum nf (fun r => pot r n) / INR nf) <= M * E).
  { replace (_ - _) with (rsum nf (fun r => pot r m - pot r n) / INR nf) by (rewrite rsum_minus; field; lra).
    unfold Rdiv. rewrite Rabs_mult, (Rabs_right (/ INR nf)) by (apply Rle_ge; left; now apply Rinv_0_lt_compat).
    apply (Rmult_le_reg_r (INR nf)); auto. rewrite Rmult_assoc, Rinv_l, Rmult_1_r by lra.
    rewrite (Rmult_comm _ (INR nf)), <- rsum_const. now apply rsum_Rabs_le. }
  destruct HC as (C1 & _). pose proof (C1 m n Hm Hn) as A5.
  assert (W0 : 0 <= W).
  { destruct (Nat.eq_dec nc 0) as [EN|EN].
    - rewrite EN in PS. simpl in PS. lra.
    - apply Rle_trans with (1 / sizes 0%nat); [left; apply Rdiv_lt_0_compat; [lra|apply size_pos; lia]|apply HW; lia]. }
  assert (FIN : Rabs (- (1 / 2) * rsum nc (fun i => pot (rho i) m * phis i m) - rsum nc (fun i => phis i m / sizes i)
     - (c0 * inc m + field_mean q k m - rsum nf (fun r => pot r m) / INR nf) -
     (- (1 / 2) * rsum nc (fun i => pot (rho i) n * phis i n) - rsum nc (fun i => phis i n / sizes i)
     - (c0 * inc n + field_mean q k n - rsum nf (fun r => pot r n) / INR nf))) <= M * P * E + W * E + c0 * E + B + M * E).
  { repeat match goal with H : Rabs _ <= _ |- _ => apply Rabs_le_between in H end. apply Rabs_le_between. 
    assert (c0 * (inc m - inc n) <= c0 * E) by (apply Rmult_le_compat_l; lra). assert (c0 * - E <= c0 * (inc m - inc n)) by (apply Rmult_le_compat_l; lra). lra. }
  eapply Rle_trans; [exact FIN|]. unfold le_const. fold P.
  assert (0 <= M * P + W + c0 + M) by (assert (0 <= M * P) by (apply Rmult_le_pos; lra); lra).
  assert ((M * P + W + c0 + M) * E <= (M * P + W + c0 + M) * (TH * (3 / 2 * B))) by (apply Rmult_le_compat_l; lra). lra.
Qed.

Lemma le_const_pos : 0 <= c0 -> 1 <= le_const.
Proof using HAd MF Ht HC HBD PS HMx HW.
  intros Hc. pose proof TH_nonneg as T0. unfold le_const.
  assert (M0 : 0 <= M) by (destruct HAd as (NF & _); eapply Rle_trans; [apply Rabs_pos|apply (HMx 0%nat 0%nat); auto]).
  assert (W0 : 0 <= W).
  { destruct (Nat.eq_dec nc 0) as [EN|EN].
    - rewrite EN in PS. simpl in PS. lra.
    - apply Rle_trans with (1 / sizes 0%nat); [left; apply Rdiv_lt_0_compat; [lra|apply size_pos; lia]|apply HW; lia]. }
  pose proof B_nonneg. assert (0 <= M * (1 + TH * D)) by (apply Rmult_le_pos; auto; assert (0 <= TH * D) by (apply Rmult_le_pos; lra); lra).
  assert (0 <= TH * (3 / 2) * (M * (1 + TH * D) + W + c0 + M)) by (apply Rmult_le_pos; lra). lra.
Qed.

(** when the volumes of the living compartments are normalised *)
Lemma Js_bound : 0 <= c0 -> rsum (q_np q) la = t_n q k -> e_Js rep <= le_const * B.
Proof using HAd MF Ht HC HBD PS HI HMx HW.
  intros Hc HN. destruct (mf_it _ _ _ _ _ _ _ _ _ _ _ _ _ MF) as [nv' I]. rewrite (if_e_Js I). pose proof la_pos as LP.
  pose proof B_nonneg as B0. pose proof (le_const_pos Hc) as C1. destruct some_lives as (m0 & Hm0 & _). unfold t_maxJ.
  apply vmax_le; [lia|]. intros m Hm. unfold t_Jdiff, t_masks. destruct (Rlt_le_dec (q_thr q) (v_Js k m)) as [HA|HA].
  - rewrite mask_alive, Rmult_1_r by auto. assert (Hl : lives q k m) by (split; auto).
    unfold t_mean. rewrite <- HN. apply (Rmult_le_reg_r (rsum (q_np q) la)); auto.
    rewrite <- (Rabs_right (rsum (q_np q) la)) at 2 by lra. rewrite <- Rabs_mult.
    replace ((_ - _) * _) with (rsum (q_np q) (fun n => (t_le q k phis inc n - t_le q k phis inc m) * la n)).
    + rewrite <- rsum_scal_l. apply rsum_Rabs_le. intros n Hn. pose proof (living_nonneg (q_thr q) (v_Js k) n Ht) as L0. fold la in L0.
      destruct (Req_dec (la n) 0) as [->|E]; [rewrite !Rmult_0_r, Rabs_R0; lra|].
      rewrite Rabs_mult, (Rabs_right (la n)) by lra. apply Rmult_le_compat_r; auto. apply le_close; auto. now apply la_lives.
    + rewrite (rsum_ext _ (fun n => (t_le q k phis inc n - t_le q k phis inc m) * la n) (fun n => t_le q k phis inc n * la n - t_le q k phis inc m * la n)) by (intros; ring).
      rewrite rsum_minus, rsum_scal_l.
      rewrite (rsum_ext _ (fun n => t_le q k phis inc n * t_J q k n) (fun n => t_le q k phis inc n * la n)) by (intros; now rewrite t_J_living).
      field. lra.
  - rewrite mask_dead, Rmult_0_r, Rabs_R0 by auto. nra.
Qed.

Lemma factor_bound : 0 <= c0 -> 0 <= q_acc_J q -> rsum (q_np q) la = t_n q k -> q_ub q / (le_const * B * q_acc_J q + q_ub q) <= f.
Proof using HAd MF Ht HC HBD PS HI HMx HW Hu.
  intros Hc HJ HN. pose proof (Js_bound Hc HN) as H. pose proof (le_const_pos Hc). pose proof B_nonneg as B0.
  destruct (mf_it _ _ _ _ _ _ _ _ _ _ _ _ _ MF) as [nv' I]. rewrite (if_e_Js I) in H.
  pose proof (t_change_pos q k phis inc Hu) as CP. unfold f, t_factor, Rdiv. apply Rmult_le_compat_l; [lra|]. apply Rinv_le_contravar; auto.
  unfold t_change. assert (0 <= le_const * B * q_acc_J q) by (repeat apply Rmult_le_pos; lra).
  apply Rmax_lub; [|lra]. assert (t_maxJ q k phis inc * q_acc_J q <= le_const * B * q_acc_J q) by (apply Rmult_le_compat_r; lra). lra.
Qed.

Lemma volume_next m : 0 <= c0 -> 0 <= q_acc_J q -> rsum (q_np q) la = t_n q k -> lives q k m ->
  Rabs (v_Js k' m - v_Js k m) <= 2 * (f * q_acc_J q * (le_const * B)).
Proof using HAd MF Ht HC HBD PS HI HMx HW Hu.
  intros Hc HJ HN Hm. pose proof (Js_bound Hc HN) as H. destruct (mf_it _ _ _ _ _ _ _ _ _ _ _ _ _ MF) as [nv' I].
  rewrite (if_e_Js I) in H. pose proof (t_factor_range q k phis inc Hu) as Hf. fold f in Hf. pose proof (if_nv_pos I) as NV.
  assert (NP : 0 < INR (t_nv q k)) by now apply lt_0_INR.
  assert (FJ : 0 <= f * q_acc_J q) by (apply Rmult_le_pos; lra).
  assert (BJ : forall o, (o < q_np q)%nat -> Rabs (f * q_acc_J q * t_Jdiff q k phis inc o) <= f * q_acc_J q * (le_const * B) * t_masks q k o).
  { intros o Ho. rewrite Rabs_mult, (Rabs_right (f * q_acc_J q)), (Rmult_assoc (f * q_acc_J q)) by lra. apply Rmult_le_compat_l; auto.
    pose proof (t_maxJ_ge q k phis inc o Ho) as HG. unfold t_Jdiff, t_masks in *. destruct (Rlt_le_dec (q_thr q) (v_Js k o)) as [HA|HA].
    - rewrite mask_alive in * by auto. lra.
    - rewrite mask_dead in * by auto. rewrite !Rmult_0_r, Rabs_R0. lra. }
  rewrite (if_Js I), t_J2_eq, (t_J1_alive q k phis inc m (proj2 Hm)). unfold t_masks at 1. rewrite mask_alive by apply Hm.
  rewrite t_shift_eq; auto.
  - fold f. pose proof (BJ m (proj1 Hm)) as B1. unfold t_masks in B1. rewrite mask_alive in B1 by apply Hm.
    assert (B2 : Rabs (rsum (q_np q) (fun m0 => f * q_acc_J q * t_Jdiff q k phis inc m0) / INR (t_nv q k)) <= f * q_acc_J q * (le_const * B)).
    { unfold Rdiv. rewrite Rabs_mult, (Rabs_right (/ INR (t_nv q k))) by (apply Rle_ge; left; now apply Rinv_0_lt_compat).
      apply (Rmult_le_reg_r (INR (t_nv q k))); auto. rewrite Rmult_assoc, Rinv_l, Rmult_1_r by lra.
      unfold t_nv. rewrite <- masks_sum. rewrite <- rsum_scal_l. now apply rsum_Rabs_le. }
    apply Rabs_le_between in B1. apply Rabs_le_between in B2. apply Rabs_le_between. unfold Rdiv in *. lra.
  - rewrite <- t_n_eq, <- HN. apply rsum_ext. intros o _. apply t_J_living.
Qed.

Lemma idle_residue : e_cons rep = 0.
Proof using MF HI.
  destruct (mf_it _ _ _ _ _ _ _ _ _ _ _ _ _ MF) as [nv' I]. rewrite (if_e_cons I). unfold t_evolve, t_cs, prepare_all.
  generalize (t_factor q k phis inc * q_acc_w q). intros st. clear -HI. revert HI. generalize (v_cons k). intros l HF.
  assert (ALL : forall o, In o l -> idle o) by (now apply Forall_forall). clear HF.
  induction l as [|o l IH]; [reflexivity|]. cbn [map evolve_all].
  destruct (prepare_idle (q_np q) (t_feat q k phis) (t_J q k) (t_masks q k) o (ALL o (or_introl eq_refl))) as (_ & _ & E3 & E4). rewrite E3, E4.
  rewrite Rmax_left by lra. specialize (IH (fun o' H => ALL o' (or_intror H))). destruct (evolve_all _ _ _ _ _) as [l' w]. exact IH.
Qed.

End Step.
