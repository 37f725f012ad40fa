(** PropertiesOptimum.v -- existence, number of phases, stability and
    uniqueness of the equilibrium the finder looks for (C93). *)

From Coquelicot Require Import Coquelicot.
From Coq Require Import Reals Lra Lia String List Bool Arith ZArith Classical FunctionalExtensionality.
From Verif Require Import Base ModelCommon ModelParts ModelKernel ModelPhases ModelFinder ProofsKernel ProofsParts ProofsSteps ProofsCopy
  ProofsHistory ProofsRun ProofsRun2 ModelFreeEnergy ProofsFreeEnergy Spec Examples PropertiesKernel PropertiesRun PropertiesFreeEnergy
  PropertiesConstraints ProofsEquilibrium PropertiesEquilibrium PropertiesFeatures PropertiesConvex ProofsCompact PropertiesBinary PropertiesAccuracy ProofsOptimum.
Import ListNotations.
Open Scope R_scope.

(* ------------------------------------------------------------------ *)
(** * Vocabulary *)

(** [N] phases of relative volumes [w] and compositions [u] with common chemical
    potentials [mu] that have the mean composition [pm] together *)
Record coexist (F : fe) (pm : vec) (N : nat) (w : vec) (u : nat -> vec) (mu : vec) : Prop := {
  cx_some : (0 < N)%nat;
  cx_w : forall p, (p < N)%nat -> 0 < w p;
  cx_w1 : rsum N w = 1;
  cx_pos : forall p c, (p < N)%nat -> (c < fe_nc F)%nat -> 0 < u p c;
  cx_sum : forall p, (p < N)%nat -> rsum (fe_nc F) (u p) = 1;
  cx_mu : forall p, (p < N)%nat -> potentials F (u p) mu;
  cx_mean : forall c, (c < fe_nc F)%nat -> rsum N (fun p => w p * u p c) = pm c
}.

(** no composition has a free energy below the plane of the potentials [mu] *)
Definition stable (F : fe) (mu : vec) : Prop :=
  forall psi e, (forall i, (i < fe_nc F)%nat -> 0 <= psi i) -> rsum (fe_nc F) psi = 1 -> energy_is F psi e ->
  rsum (fe_nc F) (fun i => mu i * psi i) <= e.

(** no arrangement of the material [pm] has a mean free energy below [v] *)
Definition least (F : fe) (pm : vec) (v : R) : Prop :=
  forall N (w : vec) (psi : mat) (g : vec), (forall j, (j < N)%nat -> 0 <= w j) -> rsum N w = 1 ->
    (forall i j, (i < fe_nc F)%nat -> (j < N)%nat -> 0 <= psi i j) -> (forall j, (j < N)%nat -> rsum (fe_nc F) (fun i => psi i j) = 1) ->
    (forall i, (i < fe_nc F)%nat -> rsum N (fun j => w j * psi i j) = pm i) ->
    (forall j, (j < N)%nat -> energy_is F (fun i => psi i j) (g j)) ->
    v <= rsum N (fun j => w j * g j).

Lemma energy_is_fh F phi : wf_fe F -> (forall i, (i < fe_nc F)%nat -> 0 <= phi i) ->
  energy_is F phi (fh (fe_nc F) (fe_chis F) (fe_sizes F) phi).
Proof.
  intros WF P. unfold energy_is, free_energy_density. rewrite check_ok.
  2: { unfold comp_cols. apply listed_length. }
  2: { unfold nonneg. cbn [rows_of]. constructor; [|constructor]. now apply listed_Forall. }
  cbn [bind each]. rewrite energy_fin; auto.
  - f_equal. f_equal. f_equal. apply (fh_entries (fe_nc F) (fe_chis F) (fe_sizes F) phi).
  - intros i Hi. unfold entries. rewrite listed_nth by auto. auto.
Qed.
Lemma energy_is_inj F phi e e' : energy_is F phi e -> energy_is F phi e' -> e = e'.
Proof. unfold energy_is. intros -> H. now injection H. Qed.

Lemma stable_fh F mu : wf_fe F -> (stable F mu <-> forall y : vec, (forall c, (c < fe_nc F)%nat -> 0 <= y c) -> rsum (fe_nc F) y = 1 ->
  rsum (fe_nc F) (fun i => mu i * y i) <= fh (fe_nc F) (fe_chis F) (fe_sizes F) y).
Proof.
  intros WF. split; intros H y.
  - intros P S. apply (H y); auto. now apply energy_is_fh.
  - intros e P S E. rewrite (energy_is_inj _ _ _ _ E (energy_is_fh F y WF P)). auto.
Qed.

(** the potentials of a phase give its free energy *)
Lemma mu_energy F phi mu : wf_fe F -> (forall i, (i < fe_nc F)%nat -> 0 < phi i) -> rsum (fe_nc F) phi = 1 -> potentials F phi mu ->
  rsum (fe_nc F) (fun i => mu i * phi i) = fh (fe_nc F) (fe_chis F) (fe_sizes F) phi.
Proof.
  intros WF P S H. rewrite <- (cp_energy (fe_nc F) (fe_chis F) (fe_sizes F) phi S). apply rsum_ext. intros i Hi.
  now rewrite (potentials_inj _ _ _ _ H (potentials_mu F phi WF P) i Hi).
Qed.

Lemma mean_swap n N (w : vec) (u : nat -> vec) (pm mu : vec) : (forall c, (c < n)%nat -> rsum N (fun p => w p * u p c) = pm c) ->
  rsum N (fun p => w p * rsum n (fun i => mu i * u p i)) = rsum n (fun i => mu i * pm i).
Proof.
  intros M. rewrite (rsum_ext N _ (fun p => rsum n (fun i => mu i * (w p * u p i)))).
  - rewrite rsum_swap. apply rsum_ext. intros i Hi. now rewrite rsum_scal_l, M.
  - intros p Hp. rewrite <- rsum_scal_l. apply rsum_ext. intros; ring.
Qed.

Lemma stable_least F pm mu : stable F mu -> least F pm (rsum (fe_nc F) (fun i => mu i * pm i)).
Proof.
  intros ST N w psi g W W1 P S M G. rewrite <- (mean_swap (fe_nc F) N w (fun j i => psi i j) pm mu M).
  apply rsum_le. intros j Hj. apply Rmult_le_compat_l; [auto|]. apply (ST (fun i => psi i j)); auto.
Qed.

Lemma wf_admissible nc nf rho chis sizes pm : admissible nc nf chis sizes pm -> (forall i, (i < nc)%nat -> (rho i < nf)%nat) -> wf_fe (fe_of nc rho chis sizes).
Proof. intros (_ & Hsym & Hsz & _) HR. split; cbn; [intros i Hi; specialize (Hsz i Hi); lra|auto]. Qed.

(* ------------------------------------------------------------------ *)
(** * There is a stable equilibrium, of at most as many phases as components *)

Lemma stable_exists F pm : wf_fe F -> (forall i, (i < fe_nc F)%nat -> 0 < fe_sizes F i) ->
  (forall c, (c < fe_nc F)%nat -> 0 < pm c) -> rsum (fe_nc F) pm = 1 ->
  exists N w u mu, (N <= fe_nc F)%nat /\ coexist F pm N w u mu /\ stable F mu.
Proof.
  intros WF HL PP PS.
  destruct (ground (fe_nc F) (fe_chis F) (fe_sizes F) HL (proj2 WF) pm PP PS) as (w0 & u0 & mu & A & G & SUP).
  destruct (prune (fe_nc F) (fun v => (forall c, (c < fe_nc F)%nat -> 0 < v c) /\ forall i, (i < fe_nc F)%nat -> cp (fe_nc F) (fe_chis F) (fe_sizes F) v i = mu i)
    pm (fe_nc F) w0 u0 A G) as (M & w & u & L & (W & W1 & U & ME) & H).
  exists M, w, u, mu. split; [exact L|]. split.
  - assert (MP : (0 < M)%nat). { destruct M; [cbn in W1; lra|lia]. }
    constructor; auto.
    + intros p Hp. apply (H p Hp).
    + intros p c Hp. apply (proj1 (proj2 (H p Hp))).
    + intros p Hp. apply (U p Hp).
    + intros p Hp. destruct (H p Hp) as (_ & P & E). pose proof (potentials_mu F (u p) WF P) as Q.
      unfold potentials in *. rewrite Q. f_equal. f_equal. apply listed_ext. intros i Hi. f_equal. exact (E i Hi).
  - apply stable_fh; auto.
Qed.

(* ------------------------------------------------------------------ *)
(** * It is a state the finder stays in *)

(** every feature is carried by a component *)
Lemma mixture_onto q nc nf rho chis sh sizes : mixture q nc nf rho chis sh sizes -> forall r, (r < nf)%nat -> exists i, (i < nc)%nat /\ rho i = r.
Proof.
  intros [q0 n c0 s0 z0 E1 E2 E3|q0 n npf c0 s0 z0 E1 E2 E3 E4] r Hr; [eauto|].
  exists (nsum r npf + 0)%nat. specialize (E3 r Hr). split; [|apply feature_of_eq; [exact Hr|lia]].
  clear - Hr E3. induction n as [|n IH]; [lia|]. cbn [nsum]. destruct (Nat.eq_dec r n) as [->|]; [lia|]. specialize (IH ltac:(lia)). lia.
Qed.

Lemma mixture_rho q nc nf rho chis sh sizes : mixture q nc nf rho chis sh sizes -> forall i, (i < nc)%nat -> (rho i < nf)%nat.
Proof. intros [q0 n c0 s0 z0 E1 E2 E3|q0 n npf c0 s0 z0 E1 E2 E3 E4] i Hi; [exact Hi|now apply feature_of_lt]. Qed.

(** The converse part of C12 for any assignment of features: compositions with
    equal chemical potentials that add up to one in each compartment and average
    to [phi_means] are reproduced by a step without errors, if the fields of the
    features are those of the compositions. *)
Lemma feature_stationary {G} q (k : kstate G cstate) nc nf rho chis sh sizes pm phi mu :
  mixture q nc nf rho chis sh sizes -> q_ensemble q = can_compiled nc pm ->
  admissible nc nf chis sizes pm -> 0 <= q_thr q -> 0 < q_ub q -> Forall idle (v_cons k) ->
  (exists m, (m < q_np q)%nat /\ alive (q_thr q) (v_Js k) m) ->
  (forall m, (m < q_np q)%nat -> alive (q_thr q) (v_Js k) m ->
     (forall i, (i < nc)%nat -> 0 < phi i m) /\ rsum nc (fun i => phi i m) = 1 /\
     potentials (fe_of nc rho chis sizes) (fun i => phi i m) mu /\
     (forall i, (i < nc)%nat -> v_omegas k (rho i) m = mu i - 1 / sizes i - ln (phi i m) / sizes i)) ->
  (forall i, (i < nc)%nat -> wmean (q_np q) (living (q_thr q) (v_Js k)) (phi i) = pm i) ->
  exists k' nv rep, iterate q k = Ok (k', nv, rep) /\
    e_incomp rep = 0 /\ e_omega rep = 0 /\ e_Js rep = 0 /\
    forall m i, (m < q_np q)%nat -> alive (q_thr q) (v_Js k) m -> (i < nc)%nat -> v_phis_comp k' i m = phi i m.
Proof.
  intros HM Q4 (Hn & Hsym & Hsz & Hx) Ht Hu HI HL HP HW.
  assert (HA : ens_kind q k nc rho sizes pm (fun i => pm i / Qbar q k rho sizes i)) by now apply ek_can.
  assert (Hs0 : forall i, (i < nc)%nat -> sizes i <> 0) by (intros i Hi; specialize (Hsz i Hi); lra).
  destruct (iterate_total q k) as (k' & nv & rep & H); auto.
  { apply (mixture_total q nc nf rho chis sh sizes pm HM). now left. }
  exists k', nv, rep. split; [exact H|].
  destruct (mixture_facts _ _ _ _ _ _ _ _ _ _ _ _ _ HM HA H) as (phis & inc & MF).
  destruct (mf_it _ _ _ _ _ _ _ _ _ _ _ _ _ MF) as [nv' I].
  assert (WF : wf_fe (fe_of nc rho chis sizes)) by (eapply wf_fe_of; eauto).
  assert (HB : forall m i, (m < q_np q)%nat -> alive (q_thr q) (v_Js k) m -> (i < nc)%nat ->
    exp (- v_omegas k (rho i) m * sizes i) = exp (1 - mu i * sizes i) * phi i m).
  { intros m i Hm Lm Hi. destruct (HP m Hm Lm) as (P1 & _ & _ & P4). rewrite P4 by auto.
    rewrite <- (exp_ln (phi i m)) at 2 by auto. rewrite <- exp_plus. f_equal. field. auto. }
  assert (HQ : forall i, (i < nc)%nat -> Qbar q k rho sizes i = exp (1 - mu i * sizes i) * pm i).
  { intros i Hi. rewrite <- HW by auto. unfold Qbar, wmean. unfold Rdiv. rewrite <- Rmult_assoc. f_equal. rewrite <- rsum_scal_l.
    apply rsum_ext. intros m Hm. unfold living. destruct (Rlt_dec (q_thr q) (v_Js k m)) as [L|L]; [|ring].
    rewrite (HB m i) by auto. ring. }
  assert (Ha : forall i, (i < nc)%nat -> pm i / Qbar q k rho sizes i = exp (mu i * sizes i - 1)).
  { intros i Hi. rewrite HQ by auto. replace (mu i * sizes i - 1) with (- (1 - mu i * sizes i)) by ring.
    rewrite exp_Ropp. specialize (Hx i Hi). pose proof (exp_pos (1 - mu i * sizes i)). field. lra. }
  assert (HF : forall m i, (m < q_np q)%nat -> alive (q_thr q) (v_Js k) m -> (i < nc)%nat -> phis i m = phi i m).
  { intros m i Hm Lm Hi. rewrite (frac_alive _ _ _ _ _ _ _ _ _ _ _ _ _ MF) by auto. rewrite HB by auto. rewrite Ha by auto.
    rewrite <- Rmult_assoc, <- exp_plus. replace (mu i * sizes i - 1 + (1 - mu i * sizes i)) with 0 by ring. rewrite exp_0. ring. }
  assert (HInc : forall m, (m < q_np q)%nat -> inc m = 0).
  { intros m Hm. rewrite (mf_inc _ _ _ _ _ _ _ _ _ _ _ _ _ MF). destruct (Rlt_dec (q_thr q) (v_Js k m)) as [L|L].
    - rewrite (rsum_ext nc _ (fun i => phi i m)) by (intros; now apply HF). destruct (HP m Hm L) as (_ & -> & _). ring.
    - rewrite mask_dead by lra. ring. }
  destruct (idle_sums q k phis HI) as [ZP ZV].
  assert (HS : forall m r, (m < q_np q)%nat -> alive (q_thr q) (v_Js k) m -> (r < nf)%nat ->
    t_le q k phis inc m + t_diff q k phis inc r m = 0).
  { intros m r Hm Lm Hr. destruct (mixture_onto _ _ _ _ _ _ _ HM r Hr) as (i & Hi & <-).
    pose proof (mu_identity _ _ _ _ _ _ _ _ _ _ _ _ _ MF Ht Hs0 Hx i m Hi Lm) as E.
    cbv zeta in E. rewrite ZV, ZP in E.
    rewrite (rsum_zero nc (fun j => P_of (t_cs q k phis) (rho j) m * phis j m)) in E by (intros j Hj; rewrite ZP; ring).
    rewrite Ha, ln_exp in E by auto. destruct (HP m Hm Lm) as (P1 & _ & P3 & _).
    rewrite (mu_of_ext _ (fun j => phis j m) (fun j => phi j m)) in E; [|auto|intros; now apply HF].
    rewrite <- (potentials_inj _ _ _ _ P3 (potentials_mu _ (fun j => phi j m) WF P1) i Hi) in E.
    assert ((mu i * sizes i - 1) / sizes i = mu i - 1 / sizes i) as E5 by (field; auto). rewrite E5 in E. lra. }
  assert (HLe : forall m, (m < q_np q)%nat -> alive (q_thr q) (v_Js k) m -> t_le q k phis inc m = 0).
  { intros m Hm Lm. pose proof (diff_sum _ _ _ _ _ _ _ _ _ _ _ _ _ MF m Hn Lm) as E. cbv zeta in E.
    rewrite HInc, Rmult_0_r in E by auto.
    rewrite (rsum_ext nf _ (fun _ => - t_le q k phis inc m)) in E by (intros r Hr; pose proof (HS m r Hm Lm Hr); lra).
    rewrite rsum_const in E. apply Rmult_integral in E. destruct E as [E|E]; [|lra]. exfalso. revert E. now apply INR_neq0. }
  assert (HD : forall m r, (m < q_np q)%nat -> (r < nf)%nat -> t_diff q k phis inc r m = 0).
  { intros m r Hm Hr. destruct (Rlt_dec (q_thr q) (v_Js k m)) as [L|L].
    - pose proof (HS m r Hm L Hr) as H0. rewrite HLe in H0 by auto. lra.
    - unfold t_diff, t_masks. rewrite mask_dead by lra. ring. }
  assert (Hmean : t_mean q k phis inc = 0).
  { unfold t_mean. rewrite rsum_zero; [unfold Rdiv; ring|]. intros m Hm. rewrite t_J_living. unfold living.
    destruct (Rlt_dec _ _) as [L|L]; [rewrite HLe by auto|]; ring. }
  destruct HL as (m0 & Hm0 & HL0).
  split; [|split; [|split]].
  - rewrite (if_e_incomp I). apply Rle_antisym; [|apply vmax_abs_nonneg].
    apply vmax_le; [lia|]. intros m Hm. rewrite HInc by auto. rewrite Rabs_R0. lra.
  - rewrite (if_e_omega I). rewrite (mf_nf _ _ _ _ _ _ _ _ _ _ _ _ _ MF). unfold max_omega_diff. clear - HD Hm0.
    assert (K : forall n, (n <= nf)%nat -> for_ n (fun r acc => Rmax acc (vmax (q_np q) (t_diff q k phis inc r))) 0 = 0).
    { induction n as [|n IH]; intros Hn; [reflexivity|]. rewrite for_S, IH by lia.
      rewrite (vmax_ext _ _ (fun _ => 0)) by (intros; apply HD; auto; lia).
      destruct (vmax_in (q_np q) (fun _ => 0)) as (z & _ & ->); [lia|]. apply Rmax_left. lra. }
    apply K. lia.
  - rewrite (if_e_Js I). unfold t_maxJ. apply Rle_antisym; [|apply vmax_abs_nonneg].
    apply vmax_le; [lia|]. intros m Hm. unfold t_Jdiff. rewrite Hmean. destruct (Rlt_dec (q_thr q) (v_Js k m)) as [L|L].
    + rewrite HLe by auto. rewrite Rminus_0_r, Rmult_0_l, Rabs_R0. lra.
    + unfold t_masks. rewrite mask_dead by lra. rewrite Rmult_0_r, Rabs_R0. lra.
  - intros m i Hm Lm Hi. rewrite (if_comp I). now apply HF.
Qed.

(** volumes and fields of the equilibrium in the first [N] compartments, the
    others are empty *)
Record poised {G} (q : kernel) (k : kstate G cstate) (N : nat) (w : vec) (u : nat -> vec) (mu sizes : vec) (nc : nat) (rho : nat -> nat) : Prop := {
  po_J : forall p, (p < N)%nat -> v_Js k p = INR N * w p;
  po_0 : forall p, (N <= p < q_np q)%nat -> v_Js k p = 0;
  po_om : forall i p, (i < nc)%nat -> (p < N)%nat -> v_omegas k (rho i) p = mu i - 1 / sizes i - ln (u p i) / sizes i
}.

Lemma rsum_first N n (g : vec) : (N <= n)%nat -> (forall p, (N <= p < n)%nat -> g p = 0) -> rsum n g = rsum N g.
Proof.
  induction n as [|n IH]; intros L Z; [replace N with 0%nat by lia; reflexivity|].
  destruct (Nat.eq_dec N (S n)) as [->|NE]; [reflexivity|]. cbn [rsum]. rewrite IH, Z by (lia || (intros; apply Z; lia)). ring.
Qed.

Section Fixed.
Context {G : Type}.
Variables (q : kernel) (nc nf : nat) (rho : nat -> nat) (chis : mat) (sh : R) (sizes pm : vec) (N : nat) (w : vec) (u : nat -> vec) (mu : vec).
Hypothesis HM : mixture q nc nf rho chis sh sizes.
Hypothesis Q4 : q_ensemble q = can_compiled nc pm.
Hypothesis HA : admissible nc nf chis sizes pm.
Hypothesis Ht : 0 <= q_thr q.
Hypothesis Hu : 0 < q_ub q.
Hypothesis HC : coexist (fe_of nc rho chis sizes) pm N w u mu.
Hypothesis HN : (N <= q_np q)%nat.
Hypothesis HT : forall p, (p < N)%nat -> q_thr q < INR N * w p.

Lemma poised_alive (k : kstate G cstate) : poised q k N w u mu sizes nc rho -> forall p, (p < q_np q)%nat -> (alive (q_thr q) (v_Js k) p <-> (p < N)%nat).
Proof using All.
  intros PO p Hp. unfold alive. destruct (lt_dec p N) as [L|L]; split; auto; intros X; try easy.
  - rewrite (po_J _ _ _ _ _ _ _ _ _ PO) by auto. auto.
  - rewrite (po_0 _ _ _ _ _ _ _ _ _ PO) in X by lia. lra.
Qed.

Lemma poised_mean (k : kstate G cstate) (x : vec) : poised q k N w u mu sizes nc rho ->
  wmean (q_np q) (living (q_thr q) (v_Js k)) x = rsum N (fun p => w p * x p).
Proof using All.
  intros PO. pose proof (cx_some _ _ _ _ _ _ HC) as H0.
  assert (LV : forall p, (p < N)%nat -> living (q_thr q) (v_Js k) p = INR N * w p).
  { intros p Hp. unfold living. destruct (Rlt_dec _ _) as [L|L]; [now apply (po_J _ _ _ _ _ _ _ _ _ PO)|].
    exfalso. apply L. apply poised_alive; auto. lia. }
  assert (LZ : forall p, (N <= p < q_np q)%nat -> living (q_thr q) (v_Js k) p = 0).
  { intros p Hp. unfold living. destruct (Rlt_dec _ _) as [L|L]; [|reflexivity]. apply (po_0 _ _ _ _ _ _ _ _ _ PO p Hp). }
  unfold wmean. rewrite (rsum_first N (q_np q) (fun p => living (q_thr q) (v_Js k) p * x p)) by (auto; intros; rewrite LZ by auto; ring).
  rewrite (rsum_first N (q_np q) (living (q_thr q) (v_Js k))) by auto.
  rewrite (rsum_ext N (living (q_thr q) (v_Js k)) (fun p => INR N * w p)) by auto.
  rewrite (rsum_ext N _ (fun p => INR N * (w p * x p))) by (intros; rewrite LV by auto; ring).
  rewrite !rsum_scal_l, (cx_w1 _ _ _ _ _ _ HC). field. apply not_0_INR. lia.
Qed.

Lemma poised_living (k : kstate G cstate) : poised q k N w u mu sizes nc rho -> rsum (q_np q) (living (q_thr q) (v_Js k)) = INR N.
Proof using All.
  intros PO.
  rewrite (rsum_first N (q_np q)).
  - rewrite (rsum_ext N _ (fun p => INR N * w p)).
    + rewrite rsum_scal_l, (cx_w1 _ _ _ _ _ _ HC). ring.
    + intros p Hp. unfold living. destruct (Rlt_dec _ _) as [L|L]; [now apply (po_J _ _ _ _ _ _ _ _ _ PO)|].
      exfalso. apply L. apply poised_alive; auto. lia.
  - exact HN.
  - intros p Hp. unfold living. destruct (Rlt_dec _ _) as [L|L]; [|reflexivity]. apply (po_0 _ _ _ _ _ _ _ _ _ PO p Hp).
Qed.

Lemma poised_count (k : kstate G cstate) : poised q k N w u mu sizes nc rho -> num_alive (q_np q) (q_thr q) (v_Js k) = N.
Proof using All.
  intros PO. rewrite num_alive_ncount.
  assert (X : forall n, (n <= q_np q)%nat -> ncount n (fun m => Rltb (q_thr q) (v_Js k m)) = Nat.min n N).
  { induction n as [|n IH]; intros L; [reflexivity|]. cbn [ncount]. rewrite IH by lia.
    destruct (Rltb (q_thr q) (v_Js k n)) eqn:E.
    - apply Rltb_true in E. assert ((n < N)%nat) by (apply (poised_alive k PO n); [lia|exact E]). lia.
    - apply Rltb_false in E. assert (~ (n < N)%nat) by (intros Y; apply (poised_alive k PO n) in Y; [unfold alive in Y; lra|lia]). lia. }
  rewrite X by lia. lia.
Qed.

(** one step *)
Theorem C93_fixed (k : kstate G cstate) : poised q k N w u mu sizes nc rho -> Forall idle (v_cons k) ->
  exists k' nv rep, iterate q k = Ok (k', nv, rep) /\ e_incomp rep = 0 /\ e_omega rep = 0 /\ e_Js rep = 0 /\
    (forall p i, (p < N)%nat -> (i < nc)%nat -> v_phis_comp k' i p = u p i) /\ poised q k' N w u mu sizes nc rho /\ v_cons k' = v_cons k.
Proof using All.
  intros PO ID. destruct HC as [H0 W W1 P S M ME].
  assert (AL : forall p, (p < q_np q)%nat -> (alive (q_thr q) (v_Js k) p <-> (p < N)%nat)) by now apply poised_alive.
  destruct (feature_stationary q k nc nf rho chis sh sizes pm (fun i p => u p i) mu) as (k' & nv & rep & H & E1 & E2 & E3 & E4); auto.
  - exists 0%nat. split; [lia|]. apply AL; lia.
  - intros m Hm A. apply AL in A; [|exact Hm]. split; [intros; now apply P|]. split; [now apply S|]. split; [now apply M|].
    intros i Hi. now apply (po_om _ _ _ _ _ _ _ _ _ PO).
  - intros i Hi. rewrite poised_mean by exact PO. now apply ME.
  - exists k', nv, rep. split; [exact H|]. split; [exact E1|]. split; [exact E2|]. split; [exact E3|].
    split; [intros p i Hp Hi; apply E4; auto; [lia|apply AL; [lia|exact Hp]]|]. split; [|now apply (idle_step q k k' nv rep)].
    destruct (C12_zero_residuals q k k' nv rep nc nf rho chis sh sizes pm HM (or_introl Q4) HA Ht ID H E1 E2 E3) as (mu' & Z).
    constructor.
    + intros p Hp. destruct (Z p ltac:(lia) ltac:(apply AL; [lia|exact Hp])) as (_ & _ & _ & _ & J). rewrite J.
      * now apply (po_J _ _ _ _ _ _ _ _ _ PO).
      * rewrite poised_count, poised_living by exact PO. reflexivity.
    + intros p Hp. destruct (C02_volumes_normalised _ _ _ _ _ H) as (_ & _ & _ & D). apply D. unfold dead.
      rewrite (po_0 _ _ _ _ _ _ _ _ _ PO) by exact Hp. exact Ht.
    + intros i p Hi Hp. destruct (Z p ltac:(lia) ltac:(apply AL; [lia|exact Hp])) as (_ & _ & _ & O & _). rewrite O by (now apply (mixture_rho _ _ _ _ _ _ _ HM)).
      now apply (po_om _ _ _ _ _ _ _ _ _ PO).
Qed.
End Fixed.

(** field of a feature in a phase of composition [y] *)
Definition phase_field (nc : nat) (rho : nat -> nat) (chis : mat) (sizes y : vec) (r : nat) : R :=
  rsum nc (fun j => chis r (rho j) * y j) - 1 / 2 * rsum nc (fun i => rsum nc (fun j => chis (rho i) (rho j) * y j) * y i) - rsum nc (fun i => y i / sizes i).

Lemma phase_field_mu nc rho chis sizes y mu : let F := fe_of nc rho chis sizes in wf_fe F -> (forall i, (i < nc)%nat -> 0 < y i) -> potentials F y mu ->
  forall i, (i < nc)%nat -> phase_field nc rho chis sizes y (rho i) = mu i - 1 / sizes i - ln (y i) / sizes i.
Proof.
  intros F WF P Q i Hi. rewrite (potentials_inj _ _ _ _ Q (potentials_mu F y WF P) i Hi).
  unfold mu_of, fh, dfh, phase_field. cbn [F fe_of fe_nc fe_chis fe_sizes].
  set (X := rsum nc (fun i0 => rsum nc (fun j => chis (rho i0) (rho j) * y j) * y i0)).
  rewrite (rsum_ext nc (fun k => y k * ((ln (y k) + 1) / sizes k + rsum nc (fun j => chis (rho k) (rho j) * y j)))
    (fun k => y k * ln (y k) / sizes k + y k / sizes k + rsum nc (fun j => chis (rho k) (rho j) * y j) * y k)) by (intros; unfold Rdiv; ring).
  rewrite !rsum_plus. fold X.
  rewrite (rsum_ext nc (fun i0 => rsum nc (fun j => chis (rho i0) (rho j) * y i0 * y j)) (fun i0 => rsum nc (fun j => chis (rho i0) (rho j) * y j) * y i0)).
  - fold X. unfold Rdiv. lra.
  - intros k Hk. rewrite <- rsum_scal_r. apply rsum_ext. intros. ring.
Qed.

(** a state with these volumes and fields *)
Definition poise {G} (N : nat) (w : vec) (u : nat -> vec) (nc : nat) (rho : nat -> nat) (chis : mat) (sizes : vec) (cs : list (cons_obj cstate)) (g : G) : kstate G cstate :=
  {| v_omegas := fun r p => phase_field nc rho chis sizes (u p) r; v_Js := fun p => if Nat.ltb p N then INR N * w p else 0;
     v_phis_comp := fun _ _ => 0; v_phis_feat := fun _ _ => 0; v_cons := cs; v_g := g |}.
Lemma poise_poised {G} q N w u mu sizes cs (g : G) nc rho chis pm : wf_fe (fe_of nc rho chis sizes) -> coexist (fe_of nc rho chis sizes) pm N w u mu ->
  poised q (poise N w u nc rho chis sizes cs g) N w u mu sizes nc rho.
Proof.
  intros WF CX. constructor; cbn -[Nat.ltb INR].
  - intros p Hp. destruct (Nat.ltb_spec p N); [reflexivity|lia].
  - intros p Hp. destruct (Nat.ltb_spec p N); [lia|reflexivity].
  - intros i p Hi Hp. apply phase_field_mu; auto; [intros; now apply (cx_pos _ _ _ _ _ _ CX)|now apply (cx_mu _ _ _ _ _ _ CX)].
Qed.

(** mean free energy of the living compartments after a step *)
Definition mean_energy {G St} q (k k' : kstate G St) (F : fe) (v : R) : Prop :=
  exists e, (forall m, (m < q_np q)%nat -> alive (q_thr q) (v_Js k) m -> energy_is F (fun i => v_phis_comp k' i m) (e m)) /\
    v = wmean (q_np q) (living (q_thr q) (v_Js k)) e.

(** For every mixture and every composition there is an equilibrium of at most
    as many phases as components whose mean free energy is the least possible;
    it is a state without errors of every finder with enough compartments. *)
Theorem C93_exists nc nf rho chis sizes pm : admissible nc nf chis sizes pm -> (forall i, (i < nc)%nat -> (rho i < nf)%nat) -> rsum nc pm = 1 ->
  let F := fe_of nc rho chis sizes in
  exists N w u mu, (N <= nc)%nat /\ coexist F pm N w u mu /\ stable F mu /\
  forall G q sh (cs : list (cons_obj cstate)) (g : G),
    mixture q nc nf rho chis sh sizes -> q_ensemble q = can_compiled nc pm ->
    0 <= q_thr q -> 0 < q_ub q -> (N <= q_np q)%nat -> (forall p, (p < N)%nat -> q_thr q < INR N * w p) -> Forall idle cs ->
    exists k k' nv rep v, v_cons k = cs /\ v_g k = g /\ iterate q k = Ok (k', nv, rep) /\ e_incomp rep = 0 /\ e_omega rep = 0 /\ e_Js rep = 0 /\
      (forall p, (p < q_np q)%nat -> (alive (q_thr q) (v_Js k) p <-> (p < N)%nat)) /\
      (forall p, (p < N)%nat -> v_Js k p = INR N * w p) /\
      (forall p i, (p < N)%nat -> (i < nc)%nat -> v_phis_comp k' i p = u p i) /\
      mean_energy q k k' F v /\ least F pm v.
Proof.
  intros HA HR PS F. pose proof (wf_admissible nc nf rho chis sizes pm HA HR) as WF.
  destruct (stable_exists F pm WF (proj1 (proj2 (proj2 HA))) (proj2 (proj2 (proj2 HA))) PS) as (N & w & u & mu & LN & CX & ST).
  exists N, w, u, mu. split; [exact LN|]. split; [exact CX|]. split; [exact ST|].
  intros G q sh cs g HM Q4 Ht Hu HN HT ID. set (k := poise N w u nc rho chis sizes cs g).
  assert (PO : poised q k N w u mu sizes nc rho) by (apply (poise_poised q N w u mu sizes cs g nc rho chis pm WF CX)).
  destruct (C93_fixed q nc nf rho chis sh sizes pm N w u mu HM Q4 HA Ht Hu CX HN HT k PO ID) as (k' & nv & rep & H & E1 & E2 & E3 & EF & _).
  assert (AL := poised_alive q nc nf rho chis sh sizes pm N w u mu HM Q4 HA Ht Hu CX HN HT k PO).
  exists k, k', nv, rep, (rsum nc (fun i => mu i * pm i)). repeat (split; [first [reflexivity|assumption]|]).
  split; [apply PO|]. split; [exact EF|]. split; [|now apply (stable_least F pm mu)].
  exists (fun p => if Nat.ltb p N then fh nc (fe_chis F) sizes (u p) else 0). split.
  - intros m Hm A. apply AL in A; [|exact Hm]. destruct (Nat.ltb_spec m N); [|lia].
    assert (X : fh nc (fe_chis F) sizes (fun i => v_phis_comp k' i m) = fh nc (fe_chis F) sizes (u m)).
    { unfold fh. f_equal; [|f_equal]; repeat (apply rsum_ext; intros); rewrite ?EF by auto; reflexivity. }
    rewrite <- X. apply (energy_is_fh F _ WF). intros i Hi. rewrite EF by auto. left. now apply (cx_pos _ _ _ _ _ _ CX).
  - rewrite (poised_mean q nc nf rho chis sh sizes pm N w u mu HM Q4 HA Ht Hu CX HN HT k) by exact PO.
    rewrite <- (mean_swap nc N w u pm mu (cx_mean _ _ _ _ _ _ CX)). apply rsum_ext. intros p Hp. destruct (Nat.ltb_spec p N); [|lia]. f_equal.
    apply (mu_energy F (u p) mu WF); [intros; now apply (cx_pos _ _ _ _ _ _ CX)|now apply (cx_sum _ _ _ _ _ _ CX)|now apply (cx_mu _ _ _ _ _ _ CX)].
Qed.

(* ------------------------------------------------------------------ *)
(** * Which states are equilibria *)

Lemma any_canonical_mean {G St} q (k k' : kstate G St) nv rep nc nf rho chis sh sizes pm : mixture q nc nf rho chis sh sizes ->
  q_ensemble q = can_compiled nc pm -> iterate q k = Ok (k', nv, rep) ->
  forall i, (i < nc)%nat -> wmean (q_np q) (living (q_thr q) (v_Js k)) (fun n => v_phis_comp k' i n) = pm i.
Proof.
  intros HM HE H i Hi. destruct HM as [q n chis sh sizes F1 F2 F3|q nf npf chis sh sizes F1 F2 F3 F4].
  - eapply C01_canonical_mean_ideal_gas; eauto.
  - eapply C01_canonical_mean_polydispersed; eauto.
Qed.

(** weights and compositions that touch a plane on average touch it everywhere *)
Lemma weighted_touch F n (la : vec) (u : nat -> vec) pm mu mu' : wf_fe F -> (forall i, (i < fe_nc F)%nat -> 0 < fe_sizes F i) -> stable F mu ->
  (forall m, (m < n)%nat -> 0 <= la m) ->
  (forall m, (m < n)%nat -> 0 < la m -> (forall i, (i < fe_nc F)%nat -> 0 < u m i) /\ rsum (fe_nc F) (u m) = 1 /\ potentials F (u m) mu') ->
  (forall i, (i < fe_nc F)%nat -> rsum n (fun m => la m * u m i) = rsum n la * pm i) ->
  rsum (fe_nc F) (fun i => mu' i * pm i) <= rsum (fe_nc F) (fun i => mu i * pm i) ->
  forall m, (m < n)%nat -> 0 < la m -> forall i, (i < fe_nc F)%nat -> mu' i = mu i.
Proof.
  intros WF HL ST LA U M LE. pose proof (proj1 (stable_fh F mu WF) ST) as SUP.
  assert (SW : forall nu : vec, rsum n (fun m => la m * rsum (fe_nc F) (fun i => nu i * u m i)) = rsum n la * rsum (fe_nc F) (fun i => nu i * pm i)).
  { intros nu. rewrite (mean_swap (fe_nc F) n la u (fun i => rsum n la * pm i) nu M), <- rsum_scal_l. apply rsum_ext. intros; ring. }
  assert (S0 : 0 <= rsum n la) by now apply rsum_nonneg.
  assert (Z : forall m, (m < n)%nat -> la m * rsum (fe_nc F) (fun i => mu' i * u m i) - la m * rsum (fe_nc F) (fun i => mu i * u m i) = 0).
  { assert (NN : forall m, (m < n)%nat -> 0 <= la m * rsum (fe_nc F) (fun i => mu' i * u m i) - la m * rsum (fe_nc F) (fun i => mu i * u m i)).
    { intros m Hm. destruct (LA m Hm) as [L|L]; [|rewrite <- L; lra]. destruct (U m Hm L) as (P & S & Q).
      rewrite (mu_energy F (u m) mu' WF P S Q). pose proof (SUP (u m) (fun c Hc => Rlt_le _ _ (P c Hc)) S).
      rewrite <- Rmult_minus_distr_l. apply Rmult_le_pos; lra. }
    apply (rsum_nonneg_zero n _ NN). apply Rle_antisym; [|now apply rsum_nonneg]. rewrite rsum_minus, !SW. nra. }
  intros m Hm L i Hi. destruct (U m Hm L) as (P & S & Q). specialize (Z m Hm).
  assert (E : rsum (fe_nc F) (fun i => mu' i * u m i) = rsum (fe_nc F) (fun i => mu i * u m i)) by nra.
  rewrite (potentials_inj _ _ _ _ Q (potentials_mu F (u m) WF P) i Hi).
  apply (touching (fe_nc F) (fe_chis F) (fe_sizes F) HL (proj2 WF) (u m) mu P S SUP); [|exact Hi].
  rewrite <- E. right. symmetry. exact (mu_energy F (u m) mu' WF P S Q).
Qed.

(** canonical states without errors *)
Record calm {G} q (k k' : kstate G cstate) nc nf rho chis sh sizes pm : Prop := {
  ca_mix : mixture q nc nf rho chis sh sizes;
  ca_ens : q_ensemble q = can_compiled nc pm;
  ca_adm : admissible nc nf chis sizes pm;
  ca_thr : 0 <= q_thr q;
  ca_idle : Forall idle (v_cons k);
  ca_step : exists nv rep, iterate q k = Ok (k', nv, rep) /\ e_incomp rep = 0 /\ e_omega rep = 0 /\ e_Js rep = 0
}.

Lemma calm_facts {G} q (k k' : kstate G cstate) nc nf rho chis sh sizes pm : calm q k k' nc nf rho chis sh sizes pm ->
  let F := fe_of nc rho chis sizes in let la := living (q_thr q) (v_Js k) in
  wf_fe F /\ 0 < rsum (q_np q) la /\ (forall m, (m < q_np q)%nat -> 0 <= la m) /\ (forall m, (m < q_np q)%nat -> (0 < la m <-> alive (q_thr q) (v_Js k) m)) /\
  (forall i, (i < nc)%nat -> rsum (q_np q) (fun m => la m * v_phis_comp k' i m) = rsum (q_np q) la * pm i) /\
  rsum nc pm = 1 /\
  exists mu, (forall m, (m < q_np q)%nat -> 0 < la m -> (forall i, (i < nc)%nat -> 0 < v_phis_comp k' i m) /\ rsum nc (fun i => v_phis_comp k' i m) = 1 /\
     potentials F (fun i => v_phis_comp k' i m) mu) /\
   forall v, mean_energy q k k' F v -> v = rsum nc (fun i => mu i * pm i).
Proof.
  intros [HM HE HA Ht HI (nv & rep & H & E1 & E2 & E3)] F la.
  destruct (step_fractions _ _ _ _ _ _ _ _ _ _ _ _ HM (or_introl HE) HA Ht H) as (HR & WF & _ & _ & _ & HF).
  destruct (C12_zero_residuals _ _ _ _ _ _ _ _ _ _ _ _ HM (or_introl HE) HA Ht HI H E1 E2 E3) as (mu & P).
  assert (L0 : forall m, 0 <= la m) by (intros; unfold la; now apply living_nonneg).
  assert (LA : forall m, 0 < la m <-> alive (q_thr q) (v_Js k) m).
  { intros m. unfold la, living, alive. destruct (Rlt_dec _ _); split; intros; lra || easy. }
  assert (SP : 0 < rsum (q_np q) la).
  { destruct (C02_volumes_normalised _ _ _ _ _ H) as (_ & N1 & _). rewrite num_alive_ncount in N1.
    apply rsum_pos; [auto|]. destruct (least_or (q_np q) (fun m => alive (q_thr q) (v_Js k) m)) as [(m & Hm & A)|NA].
    - intros m. unfold alive. destruct (Rlt_dec (q_thr q) (v_Js k m)); auto.
    - exists m. split; [exact Hm|]. now apply LA.
    - exfalso. assert (Z : forall n, (n <= q_np q)%nat -> ncount n (fun m => Rltb (q_thr q) (v_Js k m)) = 0%nat).
      { induction n as [|n IH]; intros Ln; [reflexivity|]. cbn [ncount]. rewrite IH by lia.
        destruct (Rltb (q_thr q) (v_Js k n)) eqn:E; [|reflexivity]. apply Rltb_true in E. exfalso. apply (NA n); [lia|exact E]. }
      rewrite Z in N1 by lia. lia. }
  assert (ME : forall i, (i < nc)%nat -> rsum (q_np q) (fun m => la m * v_phis_comp k' i m) = rsum (q_np q) la * pm i).
  { intros i Hi. rewrite <- (any_canonical_mean _ _ _ _ _ _ _ _ _ _ _ _ HM HE H i Hi). unfold wmean. fold la. field. lra. }
  assert (GOOD : forall m, (m < q_np q)%nat -> 0 < la m -> (forall i, (i < nc)%nat -> 0 < v_phis_comp k' i m) /\ rsum nc (fun i => v_phis_comp k' i m) = 1 /\
     potentials F (fun i => v_phis_comp k' i m) mu).
  { intros m Hm L. apply LA in L. split; [apply (HF m Hm L)|]. destruct (P m Hm L) as (P1 & _ & P2 & _). auto. }
  assert (SW : forall nu : vec, rsum (q_np q) (fun m => la m * rsum nc (fun i => nu i * v_phis_comp k' i m)) = rsum (q_np q) la * rsum nc (fun i => nu i * pm i)).
  { intros nu. rewrite (mean_swap nc (q_np q) la (fun m i => v_phis_comp k' i m) (fun i => rsum (q_np q) la * pm i) nu ME), <- rsum_scal_l. apply rsum_ext. intros; ring. }
  split; [exact WF|]. split; [exact SP|]. split; [auto|]. split; [auto|]. split; [exact ME|]. split.
  - specialize (SW (fun _ => 1)). cbv beta in SW. rewrite (rsum_ext nc (fun i => 1 * pm i) pm) in SW by (intros; ring).
    rewrite (rsum_ext (q_np q) _ la) in SW; [nra|]. intros m Hm. destruct (L0 m) as [L|L]; [|rewrite <- L; ring].
    destruct (GOOD m Hm L) as (_ & S & _). rewrite (rsum_ext nc _ (fun i => v_phis_comp k' i m)) by (intros; ring). rewrite S. ring.
  - exists mu. split; [exact GOOD|]. intros v (e & EV & ->). unfold wmean. fold la.
    rewrite (rsum_ext (q_np q) _ (fun m => la m * rsum nc (fun i => mu i * v_phis_comp k' i m))).
    + rewrite SW. field. lra.
    + intros m Hm. destruct (L0 m) as [L|L]; [|rewrite <- L; ring]. destruct (GOOD m Hm L) as (PP & S & Q). f_equal.
      rewrite (energy_is_inj _ _ _ _ (EV m Hm (proj1 (LA m) L)) (energy_is_fh F _ WF (fun i Hi => Rlt_le _ _ (PP i Hi)))).
      symmetry. exact (mu_energy F _ mu WF PP S Q).
Qed.

(** A state without errors has the least mean free energy if and only if no
    composition lies below the plane of its chemical potentials. *)
Theorem C93_stable_iff {G} q (k k' : kstate G cstate) nc nf rho chis sh sizes pm : calm q k k' nc nf rho chis sh sizes pm ->
  let F := fe_of nc rho chis sizes in
  (exists v, mean_energy q k k' F v /\ least F pm v) <->
  exists mu, (forall m, (m < q_np q)%nat -> alive (q_thr q) (v_Js k) m -> potentials F (fun i => v_phis_comp k' i m) mu) /\ stable F mu.
Proof.
  intros HC F. pose proof (ca_adm _ _ _ _ _ _ _ _ _ _ HC) as (_ & _ & Hsz & Hx).
  destruct (calm_facts _ _ _ _ _ _ _ _ _ _ HC) as (WF & SP & L0 & LA & ME & PS & mu & GOOD & EN). fold F in WF, GOOD, EN. set (la := living (q_thr q) (v_Js k)) in *.
  assert (ANY : exists m, (m < q_np q)%nat /\ 0 < la m).
  { destruct (least_or (q_np q) (fun m => 0 < la m)) as [X|X]; [intros m; destruct (Rlt_dec 0 (la m)); auto|exact X|].
    exfalso. rewrite (rsum_zero (q_np q) la) in SP; [lra|]. intros m Hm. specialize (X m Hm). specialize (L0 m Hm). lra. }
  split.
  - intros (v & MV & LV). destruct (stable_exists F pm WF Hsz Hx PS) as (N & w & u & mu0 & _ & CX & ST).
    assert (LE : rsum nc (fun i => mu i * pm i) <= rsum nc (fun i => mu0 i * pm i)).
    { rewrite <- (EN v MV). rewrite <- (mean_swap nc N w u pm mu0 (cx_mean _ _ _ _ _ _ CX)).
      eapply Rle_trans; [apply (LV N w (fun i j => u j i) (fun j => fh nc (fe_chis F) sizes (u j)))|].
      - intros j Hj. left. now apply (cx_w _ _ _ _ _ _ CX).
      - apply (cx_w1 _ _ _ _ _ _ CX).
      - intros i j Hi Hj. left. now apply (cx_pos _ _ _ _ _ _ CX).
      - intros j Hj. now apply (cx_sum _ _ _ _ _ _ CX).
      - apply (cx_mean _ _ _ _ _ _ CX).
      - intros j Hj. apply (energy_is_fh F (u j) WF). intros i Hi. left. now apply (cx_pos _ _ _ _ _ _ CX).
      - right. apply rsum_ext. intros p Hp. f_equal. symmetry.
        apply (mu_energy F (u p) mu0 WF); [intros; now apply (cx_pos _ _ _ _ _ _ CX)|now apply (cx_sum _ _ _ _ _ _ CX)|now apply (cx_mu _ _ _ _ _ _ CX)]. }
    exists mu0. split; [|exact ST]. intros m Hm A.
    pose proof (weighted_touch F (q_np q) la (fun m i => v_phis_comp k' i m) pm mu0 mu WF Hsz ST L0 GOOD ME LE m Hm (proj2 (LA m Hm) A)) as E.
    destruct (GOOD m Hm (proj2 (LA m Hm) A)) as (_ & _ & Q). unfold potentials in *. rewrite Q. f_equal. f_equal. apply listed_ext. intros i Hi. f_equal. now apply E.
  - intros (mu1 & P1 & ST). exists (rsum nc (fun i => mu1 i * pm i)). split; [|now apply stable_least].
    exists (fun m => fh nc (fe_chis F) sizes (fun i => v_phis_comp k' i m)). split.
    + intros m Hm A. destruct (GOOD m Hm (proj2 (LA m Hm) A)) as (PP & _). apply (energy_is_fh F _ WF). intros i Hi. left. now apply PP.
    + assert (MV : mean_energy q k k' F (wmean (q_np q) la (fun m => fh nc (fe_chis F) sizes (fun i => v_phis_comp k' i m)))).
      { eexists. split; [|reflexivity]. intros m Hm A. destruct (GOOD m Hm (proj2 (LA m Hm) A)) as (PP & _). apply (energy_is_fh F _ WF). intros i Hi. left. now apply PP. }
      fold la. rewrite (EN _ MV). destruct ANY as (m & Hm & L). destruct (GOOD m Hm L) as (_ & _ & Q). apply rsum_ext. intros i Hi. f_equal.
      exact (potentials_inj _ _ _ _ (P1 m Hm (proj1 (LA m Hm) L)) Q i Hi).
Qed.

(** Two such states of the same mixture and mean composition have the same
    chemical potentials: all their phases coexist. *)
Theorem C93_unique {G G'} q (k k' : kstate G cstate) q2 (h h' : kstate G' cstate) nc nf rho chis sh sh2 sizes pm :
  calm q k k' nc nf rho chis sh sizes pm -> calm q2 h h' nc nf rho chis sh2 sizes pm ->
  let F := fe_of nc rho chis sizes in forall v v2,
  mean_energy q k k' F v -> least F pm v -> mean_energy q2 h h' F v2 -> least F pm v2 ->
  v = v2 /\ exists mu, (forall m, (m < q_np q)%nat -> alive (q_thr q) (v_Js k) m -> potentials F (fun i => v_phis_comp k' i m) mu) /\
    (forall m, (m < q_np q2)%nat -> alive (q_thr q2) (v_Js h) m -> potentials F (fun i => v_phis_comp h' i m) mu).
Proof.
  intros HC HC2 F v v2 MV LV MV2 LV2.
  destruct (proj1 (C93_stable_iff _ _ _ _ _ _ _ _ _ _ HC) (ex_intro _ v (conj MV LV))) as (mu & P & ST).
  destruct (proj1 (C93_stable_iff _ _ _ _ _ _ _ _ _ _ HC2) (ex_intro _ v2 (conj MV2 LV2))) as (mu2 & P2 & ST2). fold F in P, ST, P2, ST2.
  pose proof (ca_adm _ _ _ _ _ _ _ _ _ _ HC) as (_ & _ & Hsz & _).
  destruct (calm_facts _ _ _ _ _ _ _ _ _ _ HC) as (WF & SP & L0 & LA & ME & PS & nu & GOOD & EN). fold F in WF, GOOD, EN.
  destruct (calm_facts _ _ _ _ _ _ _ _ _ _ HC2) as (_ & SP2 & L02 & LA2 & ME2 & _ & nu2 & GOOD2 & EN2). fold F in GOOD2, EN2.
  assert (ANY : forall n (la : vec), (forall m, (m < n)%nat -> 0 <= la m) -> 0 < rsum n la -> exists m, (m < n)%nat /\ 0 < la m).
  { intros n la L S. destruct (least_or n (fun m => 0 < la m)) as [X|X]; [intros m; destruct (Rlt_dec 0 (la m)); auto|exact X|].
    exfalso. rewrite (rsum_zero n la) in S; [lra|]. intros m Hm. specialize (X m Hm). specialize (L m Hm). lra. }
  destruct (ANY _ _ L0 SP) as (m1 & Hm1 & A1). destruct (ANY _ _ L02 SP2) as (m2 & Hm2 & A2).
  assert (N1 : forall i, (i < nc)%nat -> nu i = mu i).
  { intros i Hi. destruct (GOOD m1 Hm1 A1) as (_ & _ & Q). exact (potentials_inj _ _ _ _ Q (P m1 Hm1 (proj1 (LA m1 Hm1) A1)) i Hi). }
  assert (N2 : forall i, (i < nc)%nat -> nu2 i = mu2 i).
  { intros i Hi. destruct (GOOD2 m2 Hm2 A2) as (_ & _ & Q). exact (potentials_inj _ _ _ _ Q (P2 m2 Hm2 (proj1 (LA2 m2 Hm2) A2)) i Hi). }
  assert (ATT : forall G0 q0 (k0 k0' : kstate G0 cstate) sh0 v0, calm q0 k0 k0' nc nf rho chis sh0 sizes pm -> mean_energy q0 k0 k0' F v0 ->
     forall x, least F pm x -> x <= v0).
  { intros G0 q0 k0 k0' sh0 v0 C0 (e & EV & ->) x LX. destruct (calm_facts _ _ _ _ _ _ _ _ _ _ C0) as (_ & SP0 & L00 & LA0 & ME0 & _ & nu0 & GD & _).
    set (la := living (q_thr q0) (v_Js k0)) in *. set (wt := fun m => la m / rsum (q_np q0) la).
    destruct (ANY _ _ L00 SP0) as (m0 & Hm0 & A0).
    set (live := fun m => if Rlt_dec 0 (la m) then m else m0).
    assert (LV0 : forall m, (m < q_np q0)%nat -> (live m < q_np q0)%nat /\ 0 < la (live m)) by (intros m Hm; unfold live; destruct (Rlt_dec 0 (la m)); auto).
    assert (LW : forall (x y : vec) m, (m < q_np q0)%nat -> la m * x (live m) = la m * x m).
    { intros z y m Hm. unfold live. destruct (Rlt_dec 0 (la m)); [reflexivity|]. assert (la m = 0) as -> by (specialize (L00 m Hm); lra). ring. }
    assert (EE : wmean (q_np q0) la e = rsum (q_np q0) (fun j => wt j * e (live j))).
    { unfold wmean, wt. rewrite <- rsum_div. apply rsum_ext. intros m Hm. unfold Rdiv. rewrite <- (LW e e m Hm). ring. }
    rewrite EE. apply (LX (q_np q0) wt (fun i j => v_phis_comp k0' i (live j)) (fun j => e (live j))).
    - intros j Hj. unfold wt. apply Rmult_le_pos; [auto|left; now apply Rinv_0_lt_compat].
    - unfold wt. rewrite rsum_div. field. lra.
    - intros i j Hi Hj. destruct (LV0 j Hj) as (B1 & B2). left. now apply (GD _ B1 B2).
    - intros j Hj. destruct (LV0 j Hj) as (B1 & B2). now apply (GD _ B1 B2).
    - intros i Hi. unfold wt. rewrite (rsum_ext (q_np q0) _ (fun j => la j * v_phis_comp k0' i j / rsum (q_np q0) la)).
      + rewrite rsum_div, ME0 by exact Hi. field. lra.
      + intros j Hj. unfold Rdiv. rewrite <- (LW (fun m => v_phis_comp k0' i m) e j Hj). ring.
    - intros j Hj. destruct (LV0 j Hj) as (B1 & B2). apply EV; [exact B1|now apply LA0]. }
  assert (VV : v = v2) by (apply Rle_antisym; [now apply (ATT _ _ _ _ _ _ HC2 MV2)|now apply (ATT _ _ _ _ _ _ HC MV)]).
  split; [exact VV|]. exists mu. split; [exact P|].
  assert (LE : rsum nc (fun i => nu2 i * pm i) <= rsum nc (fun i => mu i * pm i)).
  { rewrite <- (EN2 v2 MV2), <- VV, (EN v MV). right. apply rsum_ext. intros i Hi. now rewrite N1. }
  intros m Hm A.
  pose proof (weighted_touch F (q_np q2) _ (fun m i => v_phis_comp h' i m) pm mu nu2 WF Hsz ST L02 GOOD2 ME2 LE m Hm (proj2 (LA2 m Hm) A)) as E.
  destruct (GOOD2 m Hm (proj2 (LA2 m Hm) A)) as (_ & _ & Q). unfold potentials in *. rewrite Q. f_equal. f_equal. apply listed_ext. intros i Hi. f_equal. now apply E.
Qed.

(* ------------------------------------------------------------------ *)
(** * Runs from the equilibrium *)

(** A run that starts in the equilibrium reports no errors and returns its
    phases: every returned phase has the composition of one of them, and the
    phases of the same composition together have its volume.  Compartments must
    not be drawn anew, so there are no revivals left or no empty compartments. *)
Theorem C93_run {G} (ops : rng_ops G) (f : finder G cstate) nc nf rho chis sh sizes pm N w u mu a t i tr inner :
  rng_contract ops -> f_nc f = nc -> mixture (kernel_of f) nc nf rho chis sh sizes -> q_ensemble (kernel_of f) = can_compiled nc pm ->
  admissible nc nf chis sizes pm -> 0 <= m_thr (f_par f) -> 0 < m_ub (f_par f) -> m_criterion (f_par f) = "standard"%string ->
  coexist (fe_of nc rho chis sizes) pm N w u mu ->
  (N <= f_np f)%nat -> (forall p, (p < N)%nat -> m_thr (f_par f) < INR N * w p) -> 2 * m_thr (f_par f) * (INR (f_np f) - 1) < INR N ->
  (f_left f <= 0)%Z \/ f_np f = N ->
  poised (kernel_of f) (f_k f) N w u mu sizes nc rho -> Forall idle (v_cons (f_k f)) ->
  schedule (opt a (m_max_steps (f_par f))) (opt i (m_interval (f_par f))) = Ok (tr, inner) -> (1 <= tr)%nat ->
  exists f' ph d o, run ops f a t i = (f', Ok ph) /\ f_diag f' = Some d /\ within d 0 /\
    (forall p, (p < f_np f)%nat -> (o p < N)%nat /\ forall c, (c < nc)%nat -> frac ph p c = u (o p) c) /\
    (forall r, (r < N)%nat -> rsum (f_np f) (fun p => if Nat.eqb (o p) r then vol ph p else 0) = INR N * w r).
Proof.
  intros RC NC HM Q4 HA Ht Hu CR CX HN HT HV RV PO ID SC TR. set (q := kernel_of f) in *.
  assert (AL := fun k => poised_alive (G := G) q nc nf rho chis sh sizes pm N w u mu HM Q4 HA Ht Hu CX HN HT k).
  assert (LV := fun k => poised_living (G := G) q nc nf rho chis sh sizes pm N w u mu HM Q4 HA Ht Hu CX HN HT k).
  assert (FX := fun k => C93_fixed (G := G) q nc nf rho chis sh sizes pm N w u mu HM Q4 HA Ht Hu CX HN HT k).
  assert (CN := fun k => poised_count (G := G) q nc nf rho chis sh sizes pm N w u mu HM Q4 HA Ht Hu CX HN HT k).
  set (good := fun st : mstate G cstate => poised q (w_k st) N w u mu sizes nc rho /\ Forall idle (v_cons (w_k st))).
  set (fresh := fun st : mstate G cstate => (forall p c, (p < N)%nat -> (c < nc)%nat -> v_phis_comp (w_k st) c p = u p c) /\
     exists rep, w_rep st = Some rep /\ e_incomp rep = 0 /\ e_omega rep = 0 /\ e_Js rep = 0).
  assert (ONE : forall st, good st -> exists st', one_step ops q (f_left f) st = Ok st' /\ good st' /\ fresh st').
  { intros st (P & I). unfold one_step.
    assert (MR : maybe_revive ops q (f_left f) (w_count st) (w_k st) = (w_count st, w_k st)).
    { unfold maybe_revive. destruct RV as [RV|RV].
      - destruct (Z.ltb_spec (Z.of_nat (w_count st)) (f_left f)); [lia|reflexivity].
      - destruct (Z.ltb _ _); [|reflexivity]. specialize (CN (w_k st) P). rewrite num_alive_ncount in CN.
        unfold count_valid. rewrite CN. change (q_np q) with (f_np f). rewrite RV, Nat.eqb_refl. reflexivity. }
    rewrite MR. destruct (FX (w_k st) P I) as (k' & nv & rep & H & E1 & E2 & E3 & EF & P' & EC). rewrite H. cbn [bind].
    eexists. split; [reflexivity|]. split; [split; [exact P'|cbn; rewrite EC; exact I]|]. split; [exact EF|]. exists rep. auto. }
  assert (ALL : forall n, exists st, fsteps ops f n = Ok st /\ good st /\ ((1 <= n)%nat -> fresh st)).
  { unfold fsteps. fold q. induction n as [|n (st & E & Gd & _)].
    - exists (start (f_k f)). split; [reflexivity|]. split; [split; [exact PO|exact ID]|lia].
    - cbn [steps]. rewrite E. cbn [bind]. destruct (ONE st Gd) as (st' & E' & G' & F'). exists st'. auto. }
  destruct (run_ok ops f a t i tr inner SC TR CR) as (f' & ph & E).
  - intros n. destruct (ALL n) as (st & X & _). eauto.
  - intros n st X. destruct (ALL n) as (st' & X' & (P & _) & _). rewrite X in X'. injection X' as <-.
    apply C08_copy_succeeds; auto. specialize (LV (w_k st) P). change (q_np q) with (f_np f) in LV. change (q_thr q) with (m_thr (f_par f)) in LV. now rewrite LV.
  - destruct (run_inv ops f a t i f' ph E) as (tr' & inner' & j & st & rep & n & J & phi & g & RF).
    destruct (ALL (j * inner')%nat) as (st' & X' & (P & _) & FR). rewrite (rf_steps RF) in X'. injection X' as <-.
    assert (J1 := rf_j RF). assert (I1 := rf_inner RF).
    destruct (FR ltac:(nia)) as (EF & rep' & ER & E1 & E2 & E3). rewrite (rf_rep RF) in ER. injection ER as <-.
    destruct (revive_by_copy_spec ops RC _ _ _ _ _ _ _ _ _ Ht (rf_copy RF)) as (_ & o & O1 & O2 & O3 & O4 & O5).
    destruct (result_phases_ok _ _ _ _ _ (rf_ph RF)) as (RV1 & RF1 & _).
    assert (FP : forall p c, (p < f_np f)%nat -> (c < nc)%nat -> frac ph p c = phi c p).
    { intros p c Hp Hc. unfold frac. rewrite RF1, (nth_indep _ _ (map (fun c => phi c 0%nat) (seq 0 (f_nc f)))) by (rewrite map_length, seq_length; lia).
      rewrite (map_nth (fun p => map (fun c => phi c p) (seq 0 (f_nc f)))), seq_nth by lia. cbn [Nat.add].
      rewrite (nth_indep _ _ (phi 0%nat p)) by (rewrite map_length, seq_length; lia).
      rewrite (map_nth (fun c => phi c p)), seq_nth by lia. reflexivity. }
    assert (VP : forall p, (p < f_np f)%nat -> vol ph p = J p).
    { intros p Hp. unfold vol. rewrite RV1, (nth_indep _ _ (J 0%nat)) by (rewrite map_length, seq_length; lia).
      rewrite map_nth, seq_nth by lia. reflexivity. }
    eexists f', ph, _, o. split; [exact E|]. split; [rewrite (rf_f RF); reflexivity|]. split; [unfold within; cbn; lra|]. split.
    + intros p Hp. destruct (O2 p Hp) as (B1 & B2). assert (OL : (o p < N)%nat) by (apply (AL (w_k st) P (o p)); auto).
      split; [exact OL|]. intros c Hc. rewrite FP, O3 by auto. now apply EF.
    + intros r Hr. rewrite <- (po_J _ _ _ _ _ _ _ _ _ P r Hr). rewrite <- (O5 r); [|lia|apply (AL (w_k st) P r); [cbn; lia|exact Hr]].
      apply rsum_ext. intros p Hp. now rewrite VP.
Qed.
