(** PropertiesEquilibrium.v -- what the reported errors say about coexistence
    (C11, C12, C52, C53, C54, C19). *)

From Coquelicot Require Import Coquelicot.
From Coq Require Import Reals Lra Lia List Bool Arith ZArith FunctionalExtensionality.
From Verif Require Import Base ModelCommon ModelParts ModelKernel ModelPhases ModelFinder ProofsKernel ProofsParts ProofsSteps
  ProofsRun ProofsRun2 ModelFreeEnergy ProofsFreeEnergy Spec Examples PropertiesKernel PropertiesRun PropertiesFreeEnergy
  PropertiesConstraints ProofsEquilibrium.
Import ListNotations.
Open Scope R_scope.

(* ------------------------------------------------------------------ *)
(** * Vocabulary *)

(** smallest entry of the interaction matrix *)
Definition smallest (nf : nat) (chis : mat) (c : R) : Prop :=
  (exists r s, (r < nf)%nat /\ (s < nf)%nat /\ chis r s = c) /\
  forall r s, (r < nf)%nat -> (s < nf)%nat -> c <= chis r s.

(** sum of the shifted interaction matrix (flory_huggins.py:50) *)
Definition shifted_sum (nf : nat) (chis : mat) (cmin sh : R) : R :=
  rsum nf (fun r => rsum nf (fun s => chis r s + (sh - cmin))).

(** the array [chemical_potentials] returns for one composition *)
Definition potentials (F : fe) (phi : vec) (mu : vec) : Prop :=
  chemical_potentials F (One (listed (fe_nc F) phi)) = Ok [listed (fe_nc F) (fun i => Fin (mu i))].

(** one of the two built-in ensembles, with parameters [x] *)
Definition any_ensemble (q : kernel) (nc : nat) (x : vec) : Prop :=
  q_ensemble q = can_compiled nc x \/ q_ensemble q = gc_compiled nc x.

(** admissible parameters *)
Definition admissible (nc nf : nat) (chis : mat) (sizes x : vec) : Prop :=
  (0 < nf)%nat /\ (forall r s, (r < nf)%nat -> (s < nf)%nat -> chis r s = chis s r) /\
  (forall i, (i < nc)%nat -> 0 < sizes i) /\ (forall i, (i < nc)%nat -> 0 < x i).

(* ------------------------------------------------------------------ *)
(** * Helpers *)

Lemma smallest_min nf chis c : (0 < nf)%nat -> smallest nf chis c -> mat_min nf chis = c.
Proof.
  intros Hn ((r & s & Hr & Hs & E) & HL). unfold mat_min. apply Rle_antisym.
  - rewrite <- E. eapply Rle_trans; [apply (vmin_le nf _ r Hr)|]. apply (vmin_le nf _ s Hs).
  - destruct (vmin_in nf (fun r => vmin nf (fun s => chis r s)) Hn) as (r' & Hr' & ->).
    destruct (vmin_in nf (fun s => chis r' s) Hn) as (s' & Hs' & ->). auto.
Qed.

Lemma coef_of_mixture q nc nf rho chis sh sizes cmin : (0 < nf)%nat ->
  mixture q nc nf rho chis sh sizes -> smallest nf chis cmin -> coef_of q = shifted_sum nf chis cmin sh.
Proof.
  intros Hn HM HS. unfold shifted_sum.
  rewrite (rsum_ext nf _ (fun r => rsum nf (fun s => chis r s) + INR nf * (sh - cmin)))
    by (intros; now rewrite rsum_plus, rsum_const).
  rewrite rsum_plus, rsum_const. apply smallest_min in HS; auto.
  unfold coef_of. destruct HM as [q n chis sh sizes _ E _|q nf npf chis sh sizes _ E _ _]; rewrite E; cbn; rewrite HS; unfold mat_sum; ring.
Qed.

Lemma mu_of_ext F f g i : (i < fe_nc F)%nat -> (forall j, (j < fe_nc F)%nat -> f j = g j) -> mu_of F f i = mu_of F g i.
Proof.
  intros Hi H. assert (D : forall j, (j < fe_nc F)%nat -> dfh (fe_nc F) (fe_chis F) (fe_sizes F) f j = dfh (fe_nc F) (fe_chis F) (fe_sizes F) g j).
  { intros j Hj. unfold dfh. rewrite H by auto. f_equal. apply rsum_ext. intros. now rewrite H. }
  unfold mu_of. rewrite D by auto. f_equal. f_equal.
  - unfold fh. f_equal; [|f_equal]; apply rsum_ext; intros j Hj; rewrite H by auto; auto.
    apply rsum_ext. intros. now rewrite H.
  - apply rsum_ext. intros j Hj. now rewrite H, D.
Qed.

Lemma potentials_mu F phi : wf_fe F -> (forall i, (i < fe_nc F)%nat -> 0 < phi i) -> potentials F phi (mu_of F phi).
Proof.
  intros WF HP. unfold potentials, chemical_potentials.
  rewrite check_ok.
  - cbn [bind each rows_of]. f_equal. f_equal. apply listed_ext. intros i Hi.
    assert (E : forall j, (j < fe_nc F)%nat -> entries (listed (fe_nc F) phi) j = phi j).
    { intros j Hj. unfold entries. now rewrite listed_nth. }
    rewrite potential_fin; auto.
    + f_equal. now apply mu_of_ext.
    + intros j Hj. rewrite E by auto. left. auto.
    + rewrite E by auto. auto.
  - cbn. apply listed_length.
  - unfold nonneg. cbn. constructor; [|constructor]. apply Forall_forall. intros y Hy. unfold listed in Hy.
    apply in_map_iff in Hy. destruct Hy as (i & <- & Hi). apply in_seq in Hi. left. apply HP. lia.
Qed.

Lemma potentials_many F rows : wf_fe F ->
  (forall phi, In phi rows -> exists f, phi = listed (fe_nc F) f /\ forall i, (i < fe_nc F)%nat -> 0 < f i) ->
  chemical_potentials F (Many (fe_nc F) rows) = Ok (map (fun phi => listed (fe_nc F) (fun i => Fin (mu_of F (entries phi) i))) rows).
Proof.
  intros WF HP. unfold chemical_potentials. rewrite check_ok.
  - cbn [bind each rows_of]. f_equal. apply map_ext_in. intros phi Hphi. apply listed_ext. intros i Hi.
    destruct (HP phi Hphi) as (f & -> & Hf).
    assert (E : forall j, (j < fe_nc F)%nat -> entries (listed (fe_nc F) f) j = f j).
    { intros j Hj. unfold entries. now rewrite listed_nth. }
    rewrite potential_fin; auto.
    + intros j Hj. rewrite E by auto. left. auto.
    + rewrite E by auto. auto.
  - reflexivity.
  - unfold nonneg. cbn. apply Forall_forall. intros phi Hphi. destruct (HP phi Hphi) as (f & -> & Hf).
    apply Forall_forall. intros y Hy. unfold listed in Hy. apply in_map_iff in Hy. destruct Hy as (i & <- & Hi). apply in_seq in Hi. left. apply Hf. lia.
Qed.

Section Props.
Context {G : Type}.
Implicit Types (q : kernel) (k : kstate G cstate).

Lemma ensemble_kind {St} q (k : kstate G St) nc rho sizes x : any_ensemble q nc x -> exists a, ens_kind q k nc rho sizes x a.
Proof. intros [H|H]; eexists; [now apply ek_can|now apply ek_gc]. Qed.

Lemma idle_sums q k phis : Forall idle (v_cons k) ->
  (forall r m, P_of (t_cs q k phis) r m = 0) /\ (forall m, V_of (t_cs q k phis) m = 0).
Proof.
  intros H. unfold P_of, V_of, t_cs, prepare_all. rewrite Forall_forall in H.
  split; intros; rewrite lsum_map; apply lsum_zero; intros o Ho;
    destruct (prepare_idle (q_np q) (t_feat q k phis) (t_J q k) (t_masks q k) o (H o Ho)) as (E1 & E2 & _);
    rewrite ?E1, ?E2; reflexivity.
Qed.

(** idle constraints stay idle *)
Lemma idle_step q k k' nv rep : Forall idle (v_cons k) -> iterate q k = Ok (k', nv, rep) -> v_cons k' = v_cons k.
Proof.
  intros H HI. apply iterate_inv in HI. destruct HI as (p0 & Q & phis & inc & _ & _ & F).
  rewrite (if_cons F). unfold t_evolve. rewrite evolve_all_eq. cbn [fst]. unfold t_cs, prepare_all. rewrite map_map.
  rewrite <- (map_id (v_cons k)) at 2. apply map_ext_in. intros o Ho. rewrite Forall_forall in H.
  destruct (prepare_idle (q_np q) (t_feat q k phis) (t_J q k) (t_masks q k) o (H o Ho)) as (_ & _ & E3 & E4).
  rewrite E3. rewrite E4. cbn. destruct o. reflexivity.
Qed.

Lemma idle_steps (ops : rng_ops G) q tries n : forall w w',
  Forall idle (v_cons (w_k w)) -> steps ops q tries n w = Ok w' -> v_cons (w_k w') = v_cons (w_k w).
Proof.
  induction n as [|n IH]; intros w w' HI H; cbn [steps] in H.
  - now injection H as <-.
  - apply bind_Ok in H. destruct H as (w1 & E1 & H). pose proof (IH _ _ HI E1) as E.
    unfold one_step in H. destruct (maybe_revive _ _ _ _ _) as [c k1] eqn:EM.
    assert (EC : v_cons k1 = v_cons (w_k w1)).
    { unfold maybe_revive in EM. destruct (Z.ltb _ _); [|now injection EM as _ <-].
      destruct (Nat.eqb _ _); [now injection EM as _ <-|].
      destruct (revive_by_random _ _ _ _ _ _ _ _) as [[[c' J] t] g]. now injection EM as _ <-. }
    apply bind_Ok in H. destruct H as ([[k' nv] rep] & EI & H). injection H as <-. cbn [w_k].
    rewrite (idle_step _ _ _ _ _ ltac:(rewrite EC, E; exact HI) EI). congruence.
Qed.

(* ------------------------------------------------------------------ *)
(** ** C11 *)

(** General form: two living compartments of any step. *)
Theorem C11_step_bound q k k' nv rep nc nf rho chis sh cmin sizes x :
  mixture q nc nf rho chis sh sizes -> any_ensemble q nc x -> admissible nc nf chis sizes x -> smallest nf chis cmin ->
  0 <= q_thr q -> Forall idle (v_cons k) -> iterate q k = Ok (k', nv, rep) ->
  exists mu : nat -> vec,
    (forall m, (m < q_np q)%nat -> alive (q_thr q) (v_Js k) m ->
       potentials (fe_of nc rho chis sizes) (fun i => v_phis_comp k' i m) (mu m)) /\
    (forall m n i, (m < q_np q)%nat -> (n < q_np q)%nat -> alive (q_thr q) (v_Js k) m -> alive (q_thr q) (v_Js k) n ->
       (i < nc)%nat ->
       Rabs (mu m i - mu n i) <= 2 * e_Js rep + INR nf * e_omega rep + Rabs (shifted_sum nf chis cmin sh) * e_incomp rep).
Proof.
  intros HM HE (Hn & Hsym & Hsz & Hx) Hmin Ht HI H.
  destruct (ensemble_kind q k nc rho sizes x HE) as [a HA].
  destruct (mixture_facts _ _ _ _ _ _ _ _ _ _ _ _ _ HM HA H) as (phis & inc & MF).
  assert (Hs0 : forall i, (i < nc)%nat -> sizes i <> 0) by (intros i Hi; specialize (Hsz i Hi); lra).
  assert (EP : v_phis_comp k' = phis) by (destruct (mf_it _ _ _ _ _ _ _ _ _ _ _ _ _ MF) as [nv' I]; apply (if_comp I)).
  exists (fun m => mu_of (fe_of nc rho chis sizes) (fun j => phis j m)). split.
  - intros m Hm HL. rewrite EP. apply potentials_mu.
    + eapply wf_fe_of; eauto.
    + intros i Hi. eapply frac_pos; eauto.
  - intros m n i Hm Hnn Lm Ln Hi.
    destruct (idle_sums q k phis HI) as [ZP ZV].
    pose proof (mu_identity _ _ _ _ _ _ _ _ _ _ _ _ _ MF Ht Hs0 Hx i m Hi Lm) as E1.
    pose proof (mu_identity _ _ _ _ _ _ _ _ _ _ _ _ _ MF Ht Hs0 Hx i n Hi Ln) as E2.
    cbv zeta in E1, E2. rewrite !ZP, !ZV in E1, E2.
    rewrite (rsum_zero nc (fun j => P_of (t_cs q k phis) (rho j) m * phis j m)) in E1 by (intros; rewrite ZP; ring).
    rewrite (rsum_zero nc (fun j => P_of (t_cs q k phis) (rho j) n * phis j n)) in E2 by (intros; rewrite ZP; ring).
    rewrite <- (coef_of_mixture _ _ _ _ _ _ _ _ Hn HM Hmin).
    pose proof (mf_rho _ _ _ _ _ _ _ _ _ _ _ _ _ MF i Hi) as Hr.
    pose proof (max_diff_ge _ _ _ _ _ _ _ _ _ _ _ _ _ MF (rho i) m Hr Hm) as A1.
    pose proof (max_diff_ge _ _ _ _ _ _ _ _ _ _ _ _ _ MF (rho i) n Hr Hnn) as A2.
    pose proof (diff_lower _ _ _ _ _ _ _ _ _ _ _ _ _ MF (rho i) m Hr Hm Lm) as B1.
    pose proof (diff_lower _ _ _ _ _ _ _ _ _ _ _ _ _ MF (rho i) n Hr Hnn Ln) as B2.
    pose proof (le_le _ _ _ _ _ _ _ _ _ _ _ _ _ MF m Hm Lm) as D1.
    pose proof (le_le _ _ _ _ _ _ _ _ _ _ _ _ _ MF n Hnn Ln) as D2.
    cbv zeta in *. apply Rabs_le_inv in D1, D2. apply Rabs_le. lra.
Qed.

(** C11 as stated: all errors below the tolerance. *)
Theorem C11_imbalance q k k' nv rep nc nf rho chis sh cmin sizes x tol :
  mixture q nc nf rho chis sh sizes -> any_ensemble q nc x -> admissible nc nf chis sizes x -> smallest nf chis cmin ->
  0 <= q_thr q -> Forall idle (v_cons k) -> iterate q k = Ok (k', nv, rep) ->
  e_incomp rep < tol -> e_omega rep < tol -> e_Js rep < tol ->
  forall m n, (m < q_np q)%nat -> (n < q_np q)%nat -> alive (q_thr q) (v_Js k) m -> alive (q_thr q) (v_Js k) n ->
  exists mu_m mu_n,
    potentials (fe_of nc rho chis sizes) (fun i => v_phis_comp k' i m) mu_m /\
    potentials (fe_of nc rho chis sizes) (fun i => v_phis_comp k' i n) mu_n /\
    forall i, (i < nc)%nat -> Rabs (mu_m i - mu_n i) < (INR nf + 2 + Rabs (shifted_sum nf chis cmin sh)) * tol.
Proof.
  intros HM HE HA Hmin Ht HI H H1 H2 H3 m n Hm Hn Lm Ln.
  destruct (C11_step_bound _ _ _ _ _ _ _ _ _ _ _ _ _ HM HE HA Hmin Ht HI H) as (mu & P1 & P2).
  exists (mu m), (mu n). split; [auto|]. split; [auto|]. intros i Hi. specialize (P2 m n i Hm Hn Lm Ln Hi).
  eapply Rle_lt_trans; [exact P2|].
  assert (0 < INR nf) by (apply INR_pos, HA).
  set (C := Rabs (shifted_sum nf chis cmin sh)) in *. assert (0 <= C) by apply Rabs_pos. nra.
Qed.

(** Runs: the phases returned by [run], whether converged or not, have
    chemical potentials that agree up to the bound given by the diagnostics. *)
Theorem C11_run (ops : rng_ops G) (f : finder G cstate) a t i f' ph d nf rho chis sh cmin sizes x :
  rng_contract ops -> 0 <= m_thr (f_par f) ->
  mixture (kernel_of f) (f_nc f) nf rho chis sh sizes -> any_ensemble (kernel_of f) (f_nc f) x ->
  admissible (f_nc f) nf chis sizes x -> smallest nf chis cmin -> Forall idle (v_cons (f_k f)) ->
  run ops f a t i = (f', Ok ph) -> f_diag f' = Some d ->
  exists mus : list vec,
    chemical_potentials (fe_of (f_nc f) rho chis sizes) (Many (f_nc f) (p_frac ph))
      = Ok (map (fun mu => listed (f_nc f) (fun c => Fin (mu c))) mus) /\
    length mus = length (p_vol ph) /\
    forall mu1 mu2 c, In mu1 mus -> In mu2 mus -> (c < f_nc f)%nat ->
      Rabs (mu1 c - mu2 c) <= 2 * d_Js d + INR nf * d_omega d + Rabs (shifted_sum nf chis cmin sh) * d_incomp d.
Proof.
  intros HR Ht HM HE HA Hmin HI H HD. apply run_inv in H.
  destruct H as (tr & inner & j & w & rep & n & J & phi & g & RF).
  rewrite (rf_f RF) in HD. injection HD as <-. cbn [d_Js d_omega d_incomp].
  destruct (run_last _ _ _ _ _ _ _ _ _ _ _ _ _ _ _ _ RF) as (w0 & cc & k1 & nv & EW & EM & EI & _).
  assert (HI1 : Forall idle (v_cons k1)).
  { assert (EC : v_cons k1 = v_cons (w_k w0)).
    { unfold maybe_revive in EM. destruct (Z.ltb _ _); [|now injection EM as _ <-].
      destruct (Nat.eqb _ _); [now injection EM as _ <-|].
      destruct (revive_by_random _ _ _ _ _ _ _ _) as [[[c' J'] t'] g']. now injection EM as _ <-. }
    rewrite EC. unfold fsteps in EW. rewrite (idle_steps _ _ _ _ _ _ (ltac:(exact HI) : Forall idle (v_cons (w_k (start (f_k f))))) EW). exact HI. }
  destruct (C11_step_bound _ _ _ _ _ _ _ _ _ _ _ _ _ HM HE HA Hmin Ht HI1 EI) as (mu & P1 & P2).
  pose proof (C07_copy_conserves _ _ _ _ _ _ _ _ _ _ HR Ht (rf_copy RF)) as (_ & (o & H1 & _) & _).
  pose proof (result_phases_ok _ _ _ _ _ (rf_ph RF)) as (E1 & E2 & _).
  exists (map (fun p => mu (o p)) (seq 0 (f_np f))). split; [|split].
  - rewrite E2. unfold chemical_potentials.
    assert (HC : forall p, (p < f_np f)%nat -> potentials (fe_of (f_nc f) rho chis sizes) (fun c => phi c p) (mu (o p))).
    { intros p Hp. destruct (H1 p Hp) as (Ho & HL & HT).
      assert (EF : (fun c => phi c p) = (fun c => v_phis_comp (w_k w) c (o p))) by (apply functional_extensionality; auto).
      rewrite EF. apply P1; auto. eapply alive_before; eauto. }
    assert (HF : check_fractions (fe_of (f_nc f) rho chis sizes)
      (Many (f_nc f) (map (fun p => map (fun c => phi c p) (seq 0 (f_nc f))) (seq 0 (f_np f)))) = Ok tt).
    { unfold check_fractions. cbn [fe_nc fe_of]. rewrite Nat.eqb_refl. cbn [negb].
      destruct (existsb _ _) eqn:EX; [|reflexivity]. exfalso.
      apply existsb_exists in EX. destruct EX as (row & Hrow & EX). apply in_map_iff in Hrow. destruct Hrow as (p & <- & Hp).
      apply in_seq in Hp. specialize (HC p ltac:(lia)). unfold potentials, chemical_potentials, check_fractions in HC.
      cbn [fe_nc fe_of] in HC. rewrite listed_length, Nat.eqb_refl in HC. cbn [negb existsb] in HC. unfold listed in HC at 1. rewrite EX in HC.
      discriminate. }
    rewrite HF. cbn [bind each rows_of]. f_equal. rewrite !map_map. apply map_ext_in. intros p Hp. apply in_seq in Hp.
    specialize (HC p ltac:(lia)). unfold potentials, chemical_potentials in HC.
    apply bind_Ok in HC. destruct HC as (u & _ & HC). cbn [each rows_of] in HC. injection HC as HC. exact HC.
  - rewrite E1, !map_length. reflexivity.
  - intros mu1 mu2 c I1 I2 Hc. apply in_map_iff in I1, I2. destruct I1 as (p1 & <- & I1), I2 as (p2 & <- & I2).
    apply in_seq in I1, I2. destruct (H1 p1 ltac:(lia)) as (Ho1 & HL1 & _). destruct (H1 p2 ltac:(lia)) as (Ho2 & HL2 & _).
    apply P2; auto; eapply alive_before; eauto.
Qed.

(* ------------------------------------------------------------------ *)
(** ** C12, C52 *)

(** Vanishing errors mean vanishing residuals of the living compartments. *)
Lemma zero_residuals {St} q (k k' : kstate G St) rep nc nf rho chis sizes x a phis inc :
  mix_facts q k k' rep nc nf rho chis sizes x a phis inc ->
  e_incomp rep = 0 -> e_omega rep = 0 -> e_Js rep = 0 ->
  forall m, (m < q_np q)%nat -> alive (q_thr q) (v_Js k) m ->
  inc m = 0 /\ (forall r, (r < nf)%nat -> t_diff q k phis inc r m = 0) /\ t_le q k phis inc m = t_mean q k phis inc.
Proof.
  intros MF E1 E2 E3 m Hm HA. split; [|split].
  - pose proof (incomp_le _ _ _ _ _ _ _ _ _ _ _ _ _ MF m Hm) as L. rewrite E1 in L. apply Rabs_le_inv in L. lra.
  - intros r Hr. pose proof (max_diff_ge _ _ _ _ _ _ _ _ _ _ _ _ _ MF r m Hr Hm) as A.
    pose proof (diff_lower _ _ _ _ _ _ _ _ _ _ _ _ _ MF r m Hr Hm HA) as B. cbv zeta in *. rewrite E1, E2 in *. lra.
  - pose proof (le_le _ _ _ _ _ _ _ _ _ _ _ _ _ MF m Hm HA) as L. cbv zeta in L. rewrite E3 in L. apply Rabs_le_inv in L. lra.
Qed.

(** Zero errors mean an unchanged state (up to the normalisation of volumes). *)
Lemma zero_stationary {St} q (k k' : kstate G St) rep nc nf rho chis sizes x a phis inc :
  mix_facts q k k' rep nc nf rho chis sizes x a phis inc ->
  e_incomp rep = 0 -> e_omega rep = 0 -> e_Js rep = 0 ->
  forall m, (m < q_np q)%nat -> alive (q_thr q) (v_Js k) m ->
  rsum nc (fun i => v_phis_comp k' i m) = 1 /\
  (forall r, (r < nf)%nat -> v_omegas k' r m = v_omegas k r m) /\
  v_Js k' m = v_Js k m + (1 - rsum (q_np q) (living (q_thr q) (v_Js k)) / INR (num_alive (q_np q) (q_thr q) (v_Js k))).
Proof.
  intros MF E1 E2 E3 m Hm HA. pose proof (zero_residuals _ _ _ _ _ _ _ _ _ _ _ _ _ MF E1 E2 E3) as Z.
  destruct (Z m Hm HA) as (ZI & ZD & ZL). destruct (mf_it _ _ _ _ _ _ _ _ _ _ _ _ _ MF) as [nv I]. split; [|split].
  - rewrite (if_comp I). pose proof (mf_inc _ _ _ _ _ _ _ _ _ _ _ _ _ MF m) as E. rewrite ZI, mask_alive in E by auto. lra.
  - intros r Hr. rewrite (if_omegas I). unfold t_omegas, t_masks. rewrite ZD by auto. rewrite mask_alive by auto. ring.
  - rewrite (if_Js I). rewrite t_J2_eq. unfold t_shift. rewrite t_n_eq.
    assert (EJ : forall m', (m' < q_np q)%nat -> t_J1 q k phis inc m' = living (q_thr q) (v_Js k) m').
    { intros m' Hm'. unfold t_J1. destruct (Rlt_dec (q_thr q) (v_Js k m')) as [L|L].
      - destruct (Z m' Hm' L) as (_ & _ & ZL'). unfold t_Jdiff. rewrite ZL', t_J_living. unfold t_masks. rewrite mask_alive by auto. ring.
      - unfold t_masks. rewrite mask_dead by lra. unfold living. destruct (Rlt_dec _ _); lra. }
    rewrite EJ by auto. rewrite (rsum_ext _ _ _ EJ). unfold t_masks. rewrite mask_alive by auto.
    unfold t_nv, count_valid. rewrite num_alive_ncount. unfold living at 1. unfold alive in HA. destruct (Rlt_dec _ _); [ring|lra].
Qed.

Lemma living_exists {St} q (k k' : kstate G St) rep nc nf rho chis sizes x a phis inc :
  mix_facts q k k' rep nc nf rho chis sizes x a phis inc -> exists m, (m < q_np q)%nat /\ alive (q_thr q) (v_Js k) m.
Proof. intros MF. destruct (mf_it _ _ _ _ _ _ _ _ _ _ _ _ _ MF) as [nv I]. apply count_valid_pos. apply (if_nv_pos I). Qed.

Lemma potentials_ext F phi mu mu' : (forall i, (i < fe_nc F)%nat -> mu i = mu' i) -> potentials F phi mu -> potentials F phi mu'.
Proof. intros H P. unfold potentials in *. rewrite P. f_equal. f_equal. apply listed_ext. intros. now rewrite H. Qed.

Lemma potentials_inj F phi mu mu' : potentials F phi mu -> potentials F phi mu' -> forall i, (i < fe_nc F)%nat -> mu i = mu' i.
Proof.
  unfold potentials. intros H1 H2 i Hi. rewrite H1 in H2. injection H2 as H2.
  apply (f_equal (fun l => nth i l NaN)) in H2. rewrite !listed_nth in H2 by auto. now injection H2.
Qed.

Lemma pressure_potentials F phi mu z c : potentials F phi mu -> axis_index (fe_nc F) z = Ok c -> (c < fe_nc F)%nat ->
  pressure F (One (listed (fe_nc F) phi)) z = Ok [Fin (- mu c)].
Proof.
  intros P E Hc. unfold pressure. rewrite P, E. cbn [bind map]. rewrite listed_nth by auto. reflexivity.
Qed.

(** Zero errors: unit total fractions, one common set of chemical potentials
    (hence pressures) in all living compartments, and nothing moves. *)
Theorem C12_zero_residuals q k k' nv rep nc nf rho chis sh sizes x :
  mixture q nc nf rho chis sh sizes -> any_ensemble q nc x -> admissible nc nf chis sizes x ->
  0 <= q_thr q -> Forall idle (v_cons k) -> iterate q k = Ok (k', nv, rep) ->
  e_incomp rep = 0 -> e_omega rep = 0 -> e_Js rep = 0 ->
  exists mu, forall m, (m < q_np q)%nat -> alive (q_thr q) (v_Js k) m ->
    let F := fe_of nc rho chis sizes in
    potentials F (fun i => v_phis_comp k' i m) mu /\
    (forall z c, (c < nc)%nat -> axis_index nc z = Ok c ->
       pressure F (One (listed nc (fun i => v_phis_comp k' i m))) z = Ok [Fin (- mu c)]) /\
    rsum nc (fun i => v_phis_comp k' i m) = 1 /\
    (forall r, (r < nf)%nat -> v_omegas k' r m = v_omegas k r m) /\
    (rsum (q_np q) (living (q_thr q) (v_Js k)) = INR (num_alive (q_np q) (q_thr q) (v_Js k)) -> v_Js k' m = v_Js k m).
Proof.
  intros HM HE (Hn & Hsym & Hsz & Hx) Ht HI H E1 E2 E3.
  destruct (ensemble_kind q k nc rho sizes x HE) as [a HA].
  destruct (mixture_facts _ _ _ _ _ _ _ _ _ _ _ _ _ HM HA H) as (phis & inc & MF).
  assert (Hs0 : forall i, (i < nc)%nat -> sizes i <> 0) by (intros i Hi; specialize (Hsz i Hi); lra).
  assert (EP : v_phis_comp k' = phis) by (destruct (mf_it _ _ _ _ _ _ _ _ _ _ _ _ _ MF) as [nv' I]; apply (if_comp I)).
  pose proof (zero_residuals _ _ _ _ _ _ _ _ _ _ _ _ _ MF E1 E2 E3) as Z.
  pose proof (zero_stationary _ _ _ _ _ _ _ _ _ _ _ _ _ MF E1 E2 E3) as ZS.
  destruct (living_exists _ _ _ _ _ _ _ _ _ _ _ _ _ MF) as (m0 & Hm0 & HA0).
  set (F := fe_of nc rho chis sizes).
  destruct (idle_sums q k phis HI) as [ZP ZV].
  assert (EQ : forall m i, (m < q_np q)%nat -> alive (q_thr q) (v_Js k) m -> (i < nc)%nat ->
    mu_of F (fun j => phis j m) i = t_mean q k phis inc + ln (a i) / sizes i + 1 / sizes i).
  { intros m i Hm Lm Hi. pose proof (mu_identity _ _ _ _ _ _ _ _ _ _ _ _ _ MF Ht Hs0 Hx i m Hi Lm) as E.
    cbv zeta in E. rewrite !ZP, !ZV in E.
    rewrite (rsum_zero nc (fun j => P_of (t_cs q k phis) (rho j) m * phis j m)) in E by (intros; rewrite ZP; ring).
    destruct (Z m Hm Lm) as (_ & ZD & ZL). rewrite ZL in E. rewrite ZD in E by (now apply (mf_rho _ _ _ _ _ _ _ _ _ _ _ _ _ MF)).
    fold F in E. lra. }
  exists (mu_of F (fun j => phis j m0)). intros m Hm Lm. cbv zeta. fold F.
  assert (PM : potentials F (fun i => v_phis_comp k' i m) (mu_of F (fun j => phis j m0))).
  { rewrite EP. apply potentials_ext with (mu := mu_of F (fun j => phis j m)).
    - intros i Hi. cbn in Hi. now rewrite !EQ.
    - apply potentials_mu; [eapply wf_fe_of; eauto|]. intros i Hi. eapply frac_pos; eauto. }
  destruct (ZS m Hm Lm) as (S1 & S2 & S3). split; [exact PM|]. split; [|split; [exact S1|split; [exact S2|]]].
  - intros z c Hc Hz. change nc with (fe_nc F). now apply pressure_potentials.
  - intros EN. rewrite S3, EN. field. apply INR_neq0. apply num_alive_pos. eauto.
Qed.

Lemma balanced_stationary {St} q (k : kstate G St) nc chis sh sizes pm phi mu P V :
  q_nf q = nc -> q_inter q = fh_compile nc chis sh -> q_entropy q = ig_compiled nc sizes -> q_ensemble q = can_compiled nc pm ->
  admissible nc nc chis sizes pm -> 0 <= q_thr q -> 0 < q_ub q ->
  (exists m, (m < q_np q)%nat /\ alive (q_thr q) (v_Js k) m) ->
  (forall m, (m < q_np q)%nat -> alive (q_thr q) (v_Js k) m ->
     (forall i, (i < nc)%nat -> 0 < phi i m) /\ rsum nc (fun i => phi i m) = 1 /\
     (forall i, (i < nc)%nat -> mu_of (fe_of nc (fun i => i) chis sizes) (fun i => phi i m) i + P i m - rsum nc (fun j => P j m * phi j m) + V m = mu i) /\
     (forall i, (i < nc)%nat -> v_omegas k i m = mu i - 1 / sizes i - ln (phi i m) / sizes i)) ->
  (forall i, (i < nc)%nat -> wmean (q_np q) (living (q_thr q) (v_Js k)) (phi i) = pm i) ->
  (forall phis, (forall i m, (i < nc)%nat -> (m < q_np q)%nat -> alive (q_thr q) (v_Js k) m -> phis i m = phi i m) ->
     (forall i m, (i < nc)%nat -> (m < q_np q)%nat -> dead (q_thr q) (v_Js k) m -> phis i m = 0) ->
     forall m, (m < q_np q)%nat -> alive (q_thr q) (v_Js k) m ->
       V_of (t_cs q k phis) m = V m /\ forall i, (i < nc)%nat -> P_of (t_cs q k phis) i m = P i m) ->
  exists (k' : kstate G St) nv rep, iterate q k = Ok (k', nv, rep) /\
    e_incomp rep = 0 /\ e_omega rep = 0 /\ e_Js rep = 0 /\
    forall m i, (m < q_np q)%nat -> alive (q_thr q) (v_Js k) m -> (i < nc)%nat -> v_phis_comp k' i m = phi i m.
Proof.
  intros Q1 Q2 Q3 Q4 (Hn & Hsym & Hsz & Hx) Ht Hu HL HP HW HC.
  assert (HM : mixture q nc nc (fun i => i) chis sh sizes) by now constructor.
  assert (HA : ens_kind q k nc (fun i => i) sizes pm (fun i => pm i / Qbar q k (fun i => i) sizes i)) by now apply ek_can.
  assert (Hs0 : forall i, (i < nc)%nat -> sizes i <> 0) by (intros i Hi; specialize (Hsz i Hi); lra).
  destruct (iterate_total q k) as (k' & nv & rep & H); auto.
  { eapply builtin_total_ig_can; eauto. }
  exists k', nv, rep. split; [exact H|].
  destruct (mixture_facts _ _ _ _ _ _ _ _ _ _ _ _ _ HM HA H) as (phis & inc & MF).
  destruct (mf_it _ _ _ _ _ _ _ _ _ _ _ _ _ MF) as [nv' I].
  assert (HB : forall m i, (m < q_np q)%nat -> alive (q_thr q) (v_Js k) m -> (i < nc)%nat ->
    exp (- v_omegas k i m * sizes i) = exp (1 - mu i * sizes i) * phi i m).
  { intros m i Hm Lm Hi. destruct (HP m Hm Lm) as (P1 & _ & _ & P4). rewrite P4 by auto.
    rewrite <- (exp_ln (phi i m)) at 2 by auto. rewrite <- exp_plus. f_equal. field. auto. }
  assert (HQ : forall i, (i < nc)%nat -> Qbar q k (fun i => i) sizes i = exp (1 - mu i * sizes i) * pm i).
  { intros i Hi. rewrite <- HW by auto. unfold Qbar, wmean. unfold Rdiv. rewrite <- Rmult_assoc. f_equal. rewrite <- rsum_scal_l.
    apply rsum_ext. intros m Hm. unfold living. destruct (Rlt_dec (q_thr q) (v_Js k m)) as [L|L]; [|ring].
    rewrite (HB m i) by auto. ring. }
  assert (Ha : forall i, (i < nc)%nat -> pm i / Qbar q k (fun i => i) sizes i = exp (mu i * sizes i - 1)).
  { intros i Hi. rewrite HQ by auto. replace (mu i * sizes i - 1) with (- (1 - mu i * sizes i)) by ring.
    rewrite exp_Ropp. specialize (Hx i Hi). pose proof (exp_pos (1 - mu i * sizes i)). field. lra. }
  assert (HF : forall m i, (m < q_np q)%nat -> alive (q_thr q) (v_Js k) m -> (i < nc)%nat -> phis i m = phi i m).
  { intros m i Hm Lm Hi. rewrite (frac_alive _ _ _ _ _ _ _ _ _ _ _ _ _ MF) by auto. rewrite HB by auto. rewrite Ha by auto.
    rewrite <- Rmult_assoc, <- exp_plus. replace (mu i * sizes i - 1 + (1 - mu i * sizes i)) with 0 by ring. rewrite exp_0. ring. }
  assert (HInc : forall m, (m < q_np q)%nat -> inc m = 0).
  { intros m Hm. rewrite (mf_inc _ _ _ _ _ _ _ _ _ _ _ _ _ MF). destruct (Rlt_dec (q_thr q) (v_Js k m)) as [L|L].
    - rewrite (rsum_ext nc _ (fun i => phi i m)) by (intros; now apply HF). destruct (HP m Hm L) as (_ & -> & _). ring.
    - rewrite mask_dead by lra. ring. }
  assert (ZC : forall m, (m < q_np q)%nat -> alive (q_thr q) (v_Js k) m ->
       V_of (t_cs q k phis) m = V m /\ forall i, (i < nc)%nat -> P_of (t_cs q k phis) i m = P i m).
  { apply HC; [intros; now apply HF|]. intros i m Hi Hm Dm. rewrite (mf_frac _ _ _ _ _ _ _ _ _ _ _ _ _ MF) by auto.
    rewrite mask_dead by auto. ring. }
  assert (HS : forall m i, (m < q_np q)%nat -> alive (q_thr q) (v_Js k) m -> (i < nc)%nat ->
    t_le q k phis inc m + t_diff q k phis inc i m = 0).
  { intros m i Hm Lm Hi. pose proof (mu_identity _ _ _ _ _ _ _ _ _ _ _ _ _ MF Ht Hs0 Hx i m Hi Lm) as E.
    cbv zeta in E. destruct (ZC m Hm Lm) as [ZV ZP]. rewrite ZV, ZP in E by auto.
    rewrite (rsum_ext nc (fun j => P_of (t_cs q k phis) j m * phis j m) (fun j => P j m * phi j m)) in E
      by (intros j Hj; rewrite ZP, HF by auto; reflexivity).
    rewrite Ha, ln_exp in E by auto. destruct (HP m Hm Lm) as (P1 & _ & P3 & _).
    rewrite (mu_of_ext _ (fun j => phis j m) (fun j => phi j m)) in E; [|auto|intros; now apply HF].
    rewrite P3 in E by auto.
    assert ((mu i * sizes i - 1) / sizes i = mu i - 1 / sizes i) as E5 by (field; auto). rewrite E5 in E. lra. }
  assert (HLe : forall m, (m < q_np q)%nat -> alive (q_thr q) (v_Js k) m -> t_le q k phis inc m = 0).
  { intros m Hm Lm. pose proof (diff_sum _ _ _ _ _ _ _ _ _ _ _ _ _ MF m Hn Lm) as E. cbv zeta in E.
    rewrite HInc, Rmult_0_r in E by auto.
    rewrite (rsum_ext nc _ (fun _ => - t_le q k phis inc m)) in E by (intros r Hr; pose proof (HS m r Hm Lm Hr); lra).
    rewrite rsum_const in E. apply Rmult_integral in E. destruct E as [E|E]; [|lra]. exfalso. revert E. now apply INR_neq0. }
  assert (HD : forall m r, (m < q_np q)%nat -> (r < nc)%nat -> t_diff q k phis inc r m = 0).
  { intros m r Hm Hr. destruct (Rlt_dec (q_thr q) (v_Js k m)) as [L|L].
    - pose proof (HS m r Hm L Hr). rewrite HLe in H0 by auto. lra.
    - unfold t_diff, t_masks. rewrite mask_dead by lra. ring. }
  assert (Hmean : t_mean q k phis inc = 0).
  { unfold t_mean. rewrite rsum_zero; [unfold Rdiv; ring|]. intros m Hm. rewrite t_J_living. unfold living.
    destruct (Rlt_dec _ _) as [L|L]; [rewrite HLe by auto|]; ring. }
  destruct HL as (m0 & Hm0 & HL0).
  split; [|split; [|split]].
  - rewrite (if_e_incomp I). apply Rle_antisym; [|apply vmax_abs_nonneg].
    apply vmax_le; [lia|]. intros m Hm. rewrite HInc by auto. rewrite Rabs_R0. lra.
  - rewrite (if_e_omega I). rewrite Q1. unfold max_omega_diff. clear - HD Hm0.
    assert (K : forall n, (n <= nc)%nat -> for_ n (fun r acc => Rmax acc (vmax (q_np q) (t_diff q k phis inc r))) 0 = 0).
    { induction n as [|n IH]; intros Hn; [reflexivity|]. rewrite for_S, IH by lia.
      rewrite (vmax_ext _ _ (fun _ => 0)) by (intros; apply HD; auto; lia).
      destruct (vmax_in (q_np q) (fun _ => 0)) as (z & _ & ->); [lia|]. apply Rmax_left. lra. }
    apply K. lia.
  - rewrite (if_e_Js I). unfold t_maxJ. apply Rle_antisym; [|apply vmax_abs_nonneg].
    apply vmax_le; [lia|]. intros m Hm. unfold t_Jdiff. rewrite Hmean. destruct (Rlt_dec (q_thr q) (v_Js k m)) as [L|L].
    + rewrite HLe by auto. rewrite Rminus_0_r, Rmult_0_l, Rabs_R0. lra.
    + unfold t_masks. rewrite mask_dead by lra. rewrite Rmult_0_r, Rabs_R0. lra.
  - intros m i Hm Lm Hi. rewrite (if_comp I). now apply HF.
Qed.

(** The converse.  Take compositions [phi] with equal chemical potentials that
    add up to one in each compartment and average to [phi_means].  Then there
    are fields for which a step reports zero errors and returns [phi]. *)
Theorem C12_coexistence_stationary q k nc chis sh sizes pm phi mu :
  q_nf q = nc -> q_inter q = fh_compile nc chis sh -> q_entropy q = ig_compiled nc sizes -> q_ensemble q = can_compiled nc pm ->
  admissible nc nc chis sizes pm -> 0 <= q_thr q -> 0 < q_ub q -> Forall idle (v_cons k) ->
  (exists m, (m < q_np q)%nat /\ alive (q_thr q) (v_Js k) m) ->
  (forall m, (m < q_np q)%nat -> alive (q_thr q) (v_Js k) m ->
     (forall i, (i < nc)%nat -> 0 < phi i m) /\ rsum nc (fun i => phi i m) = 1 /\
     potentials (fe_of nc (fun i => i) chis sizes) (fun i => phi i m) mu /\
     (forall i, (i < nc)%nat -> v_omegas k i m = mu i - 1 / sizes i - ln (phi i m) / sizes i)) ->
  (forall i, (i < nc)%nat -> wmean (q_np q) (living (q_thr q) (v_Js k)) (phi i) = pm i) ->
  exists k' nv rep, iterate q k = Ok (k', nv, rep) /\
    e_incomp rep = 0 /\ e_omega rep = 0 /\ e_Js rep = 0 /\
    forall m i, (m < q_np q)%nat -> alive (q_thr q) (v_Js k) m -> (i < nc)%nat -> v_phis_comp k' i m = phi i m.
Proof.
  intros Q1 Q2 Q3 Q4 HA Ht Hu HI HL HP HW. destruct HA as (Hn & Hsym & Hsz & Hx).
  assert (WF : wf_fe (fe_of nc (fun i => i) chis sizes)).
  { split; cbn; [intros i Hi; specialize (Hsz i Hi); lra|auto]. }
  apply (balanced_stationary q k nc chis sh sizes pm phi mu (fun _ _ => 0) (fun _ => 0)); auto.
  - repeat split; auto.
  - intros m Hm Lm. destruct (HP m Hm Lm) as (P1 & P2 & P3 & P4). split; [auto|]. split; [auto|]. split; [|auto].
    intros i Hi. rewrite (rsum_zero nc (fun j => 0 * phi j m)) by (intros; ring).
    rewrite (potentials_inj _ _ _ _ P3 (potentials_mu _ (fun j => phi j m) WF P1) i Hi). ring.
  - intros phis _ _ m Hm Lm. destruct (idle_sums q k phis HI) as [ZP ZV]. split; auto.
Qed.

(** With constraints: the chemical potentials shifted by the potentials of the
    constraints are balanced.  [prepared o] is the state of constraint [o] for
    the fractions of this step; by C49 and C50 its potential and volume
    derivative are derivatives of the documented Lagrangians. *)
Definition prepared {St} q (k k' : kstate G St) (o : cons_obj St) : St :=
  k_prepare (o_class o) (q_np q) (v_phis_feat k') (living (q_thr q) (v_Js k)) (make_masks (v_Js k) (q_thr q)) (o_state o).

Theorem C52_shifted_potentials {St} q (k k' : kstate G St) nv rep nc nf rho chis sh sizes x :
  mixture q nc nf rho chis sh sizes -> any_ensemble q nc x -> admissible nc nf chis sizes x ->
  0 <= q_thr q -> iterate q k = Ok (k', nv, rep) ->
  e_incomp rep = 0 -> e_omega rep = 0 -> e_Js rep = 0 ->
  let P := fun r m => lsum (v_cons k) (fun o => k_potential (o_class o) (prepared q k k' o) r m) in
  let V := fun m => lsum (v_cons k) (fun o => k_vd (o_class o) (prepared q k k' o) m) in
  exists balanced : vec, forall m, (m < q_np q)%nat -> alive (q_thr q) (v_Js k) m ->
    rsum nc (fun i => v_phis_comp k' i m) = 1 /\
    (forall r, (r < nf)%nat -> v_omegas k' r m = v_omegas k r m) /\
    exists mu, potentials (fe_of nc rho chis sizes) (fun i => v_phis_comp k' i m) mu /\
      forall i, (i < nc)%nat ->
        mu i + P (rho i) m - rsum nc (fun j => P (rho j) m * v_phis_comp k' j m) + V m = balanced i.
Proof.
  intros HM HE (Hn & Hsym & Hsz & Hx) Ht H E1 E2 E3 P V.
  destruct (ensemble_kind q k nc rho sizes x HE) as [a HA].
  destruct (mixture_facts _ _ _ _ _ _ _ _ _ _ _ _ _ HM HA H) as (phis & inc & MF).
  assert (Hs0 : forall i, (i < nc)%nat -> sizes i <> 0) by (intros i Hi; specialize (Hsz i Hi); lra).
  destruct (mf_it _ _ _ _ _ _ _ _ _ _ _ _ _ MF) as [nv' I]. pose proof (if_comp I) as EP.
  assert (HJ : living (q_thr q) (v_Js k) = t_J q k) by (apply functional_extensionality; intros; now rewrite t_J_living).
  assert (EPP : forall r m, P_of (t_cs q k phis) r m = P r m).
  { intros r m. unfold P, P_of, t_cs, prepare_all. rewrite lsum_map. unfold prepared. rewrite HJ, (if_feat I). reflexivity. }
  assert (EVV : forall m, V_of (t_cs q k phis) m = V m).
  { intros m. unfold V, V_of, t_cs, prepare_all. rewrite lsum_map. unfold prepared. rewrite HJ, (if_feat I). reflexivity. }
  exists (fun i => t_mean q k phis inc + ln (a i) / sizes i + 1 / sizes i). intros m Hm Lm.
  destruct (zero_stationary _ _ _ _ _ _ _ _ _ _ _ _ _ MF E1 E2 E3 m Hm Lm) as (S1 & S2 & _).
  split; [exact S1|]. split; [exact S2|]. exists (mu_of (fe_of nc rho chis sizes) (fun j => phis j m)). split.
  - rewrite EP. apply potentials_mu; [eapply wf_fe_of; eauto|]. intros i Hi. eapply frac_pos; eauto.
  - intros i Hi. pose proof (mu_identity _ _ _ _ _ _ _ _ _ _ _ _ _ MF Ht Hs0 Hx i m Hi Lm) as E. cbv zeta in E.
    destruct (zero_residuals _ _ _ _ _ _ _ _ _ _ _ _ _ MF E1 E2 E3 m Hm Lm) as (_ & ZD & ZL).
    rewrite ZL in E. rewrite ZD in E by (now apply (mf_rho _ _ _ _ _ _ _ _ _ _ _ _ _ MF)).
    rewrite EPP, EVV in E. rewrite EP.
    rewrite (rsum_ext nc _ (fun j => P (rho j) m * phis j m)) in E by (intros; now rewrite EPP). lra.
Qed.

(** Zero constraint error: the linear constraints hold exactly. *)
Theorem C52_constraints_hold q k k' nv rep :
  0 <= q_thr q -> iterate q k = Ok (k', nv, rep) -> e_cons rep = 0 ->
  forall o p, In o (v_cons k) ->
    (o_class o = local_class p -> forall a m, (a < l_cons p)%nat -> (m < q_np q)%nat -> alive (q_thr q) (v_Js k) m ->
       rsum (l_feat p) (fun r => l_Cs p a r * v_phis_feat k' r m) = l_Ts p a) /\
    (o_class o = global_class p -> forall a, (a < l_cons p)%nat ->
       rsum (l_feat p) (fun r => l_Cs p a r * wmean (q_np q) (living (q_thr q) (v_Js k)) (v_phis_feat k' r)) = l_Ts p a).
Proof.
  intros Ht H E o p Ho. split.
  - intros HC a m Ha Hm HA. pose proof (C49_local_residue _ _ _ _ _ _ _ H Ho HC a m Ha Hm HA) as L. rewrite E in L.
    apply Rabs_le_inv in L. unfold violation in L. lra.
  - intros HC a Ha. pose proof (C50_global_residue _ _ _ _ _ _ _ Ht H Ho HC a Ha) as L. rewrite E in L.
    apply Rabs_le_inv in L. unfold violation in L. lra.
Qed.

(** The constraints hold at the compositions [phi]. *)
Definition satisfied q k (nc : nat) (phi : mat) (o : cons_obj cstate) : Prop :=
  idle o \/ exists p, l_feat p = nc /\
    ((o_class o = local_class p /\ forall a m, (a < l_cons p)%nat -> (m < q_np q)%nat -> alive (q_thr q) (v_Js k) m ->
        rsum nc (fun r => l_Cs p a r * phi r m) = l_Ts p a) \/
     (o_class o = global_class p /\ forall a, (a < l_cons p)%nat ->
        rsum nc (fun r => l_Cs p a r * wmean (q_np q) (living (q_thr q) (v_Js k)) (phi r)) = l_Ts p a)).

Lemma prepare_ext_local q k p f g c m : alive (q_thr q) (v_Js k) m ->
  (forall r, (r < l_feat p)%nat -> f r m = g r m) ->
  (forall r, c_pot (local_prepare p (q_np q) f (t_J q k) (t_masks q k) c) r m = c_pot (local_prepare p (q_np q) g (t_J q k) (t_masks q k) c) r m) /\
  c_vold (local_prepare p (q_np q) f (t_J q k) (t_masks q k) c) m = c_vold (local_prepare p (q_np q) g (t_J q k) (t_masks q k) c) m.
Proof.
  intros Lm H.
  assert (E : forall a, lin_residue p f a m = lin_residue p g a m).
  { intros a. unfold lin_residue. f_equal. apply rsum_ext. intros. now rewrite H. }
  cbn. split; [intros r|]; f_equal; apply rsum_ext; intros; now rewrite E.
Qed.

Lemma prepare_ext_global q k p f g c m : (m < q_np q)%nat -> alive (q_thr q) (v_Js k) m ->
  (forall r n, (r < l_feat p)%nat -> (n < q_np q)%nat -> alive (q_thr q) (v_Js k) n -> f r n = g r n) ->
  (forall r, c_pot (global_prepare p (q_np q) f (t_J q k) (t_masks q k) c) r m = c_pot (global_prepare p (q_np q) g (t_J q k) (t_masks q k) c) r m) /\
  c_vold (global_prepare p (q_np q) f (t_J q k) (t_masks q k) c) m = c_vold (global_prepare p (q_np q) g (t_J q k) (t_masks q k) c) m.
Proof.
  intros Hm Lm H.
  assert (E : forall a n, (n < q_np q)%nat -> alive (q_thr q) (v_Js k) n -> lin_residue p f a n = lin_residue p g a n).
  { intros a n Hn Ln. unfold lin_residue. f_equal. apply rsum_ext. intros. now rewrite H. }
  assert (ER : forall a, rsum (q_np q) (fun n => lin_residue p f a n * t_J q k n) = rsum (q_np q) (fun n => lin_residue p g a n * t_J q k n)).
  { intros a. apply rsum_ext. intros n Hn. rewrite t_J_living. unfold living. destruct (Rlt_dec _ _) as [L|L]; [now rewrite E|ring]. }
  cbn. split; [intros r|]; f_equal; apply rsum_ext; intros; rewrite ER; auto. now rewrite E.
Qed.

Lemma max_zero {A} (f : A -> R) l : (forall o, In o l -> f o = 0) -> fold_left (fun acc o => Rmax acc (f o)) l 0 = 0.
Proof.
  induction l as [|o l IH]; intros H; [reflexivity|]. cbn. rewrite H by (now left). rewrite Rmax_left by lra. apply IH. intros; apply H; now right.
Qed.

Lemma vmax_zero n (f : nat -> R) : (forall i, (i < n)%nat -> f i = 0) -> vmax n f = 0.
Proof.
  intros H. destruct n; [reflexivity|]. destruct (vmax_in (S n) f) as (i & Hi & ->); [lia|]. auto.
Qed.

(** The converse with constraints: compositions that satisfy the constraints
    and balance the shifted potentials, for some multipliers, have no residual. *)
Theorem C52_constrained_stationary q k nc chis sh sizes pm phi mu :
  q_nf q = nc -> q_inter q = fh_compile nc chis sh -> q_entropy q = ig_compiled nc sizes -> q_ensemble q = can_compiled nc pm ->
  admissible nc nc chis sizes pm -> 0 <= q_thr q -> 0 < q_ub q -> Forall (satisfied q k nc phi) (v_cons k) ->
  (exists m, (m < q_np q)%nat /\ alive (q_thr q) (v_Js k) m) ->
  let pre := fun o => k_prepare (o_class o) (q_np q) phi (living (q_thr q) (v_Js k)) (make_masks (v_Js k) (q_thr q)) (o_state o) in
  let P := fun r m => lsum (v_cons k) (fun o => k_potential (o_class o) (pre o) r m) in
  let V := fun m => lsum (v_cons k) (fun o => k_vd (o_class o) (pre o) m) in
  (forall m, (m < q_np q)%nat -> alive (q_thr q) (v_Js k) m ->
     (forall i, (i < nc)%nat -> 0 < phi i m) /\ rsum nc (fun i => phi i m) = 1 /\
     (exists mu_m, potentials (fe_of nc (fun i => i) chis sizes) (fun i => phi i m) mu_m /\
        forall i, (i < nc)%nat -> mu_m i + P i m - rsum nc (fun j => P j m * phi j m) + V m = mu i) /\
     (forall i, (i < nc)%nat -> v_omegas k i m = mu i - 1 / sizes i - ln (phi i m) / sizes i)) ->
  (forall i, (i < nc)%nat -> wmean (q_np q) (living (q_thr q) (v_Js k)) (phi i) = pm i) ->
  exists k' nv rep, iterate q k = Ok (k', nv, rep) /\
    e_incomp rep = 0 /\ e_omega rep = 0 /\ e_Js rep = 0 /\ e_cons rep = 0 /\
    forall m i, (m < q_np q)%nat -> alive (q_thr q) (v_Js k) m -> (i < nc)%nat -> v_phis_comp k' i m = phi i m.
Proof.
  intros Q1 Q2 Q3 Q4 HA Ht Hu HS HL pre P V HP HW. pose proof HA as (Hn & Hsym & Hsz & Hx).
  assert (HJ : living (q_thr q) (v_Js k) = t_J q k) by (apply functional_extensionality; intros; now rewrite t_J_living).
  assert (WF : wf_fe (fe_of nc (fun i => i) chis sizes)).
  { split; cbn; [intros i Hi; specialize (Hsz i Hi); lra|auto]. }
  assert (FE : forall phis i m, (i < nc)%nat -> t_feat q k phis i m = phis i m).
  { intros phis i m Hi. unfold t_feat. rewrite Q3. now apply ig_comp_to_feat. }
  assert (KF : forall phis, (forall i m, (i < nc)%nat -> (m < q_np q)%nat -> alive (q_thr q) (v_Js k) m -> phis i m = phi i m) ->
     forall o m, In o (v_cons k) -> (m < q_np q)%nat -> alive (q_thr q) (v_Js k) m ->
       let s := k_prepare (o_class o) (q_np q) (t_feat q k phis) (t_J q k) (t_masks q k) (o_state o) in
       (forall r, k_potential (o_class o) s r m = k_potential (o_class o) (pre o) r m) /\ k_vd (o_class o) s m = k_vd (o_class o) (pre o) m).
  { intros phis Hphi o m Ho Hm Lm. unfold pre. rewrite HJ. pose proof (proj1 (Forall_forall _ _) HS o Ho) as [HI|(p & Hp & [[E _]|[E _]])].
    - destruct HI as ((nf & ->) & _). cbn. auto.
    - rewrite E. apply prepare_ext_local; auto. intros r Hr. rewrite Hp in Hr. rewrite FE by auto. auto.
    - rewrite E. apply prepare_ext_global; auto. intros r n Hr Hn' Ln. rewrite Hp in Hr. rewrite FE by auto. auto. }
  destruct (balanced_stationary q k nc chis sh sizes pm phi mu P V) as (k' & nv & rep & H & E1 & E2 & E3 & E4); auto.
  - intros m Hm Lm. destruct (HP m Hm Lm) as (P1 & P2 & (mu_m & P3 & P3') & P4). split; [auto|]. split; [auto|]. split; [|auto].
    intros i Hi. rewrite <- (P3' i Hi). rewrite (potentials_inj _ _ _ _ P3 (potentials_mu _ (fun j => phi j m) WF P1) i Hi). reflexivity.
  - intros phis Ha _ m Hm Lm. unfold V_of, P_of, t_cs, prepare_all, V, P. split; [|intros i Hi]; rewrite lsum_map; apply lsum_ext; intros o Ho.
    + apply (proj2 (KF phis Ha o m Ho Hm Lm)).
    + apply (proj1 (KF phis Ha o m Ho Hm Lm)).
  - exists k', nv, rep. split; [exact H|]. split; [exact E1|]. split; [exact E2|]. split; [exact E3|]. split; [|exact E4].
    pose proof H as H0. apply iterate_inv in H0. destruct H0 as (p0 & Q & phis & inc & _ & _ & F).
    assert (Hphi : forall i m, (i < nc)%nat -> (m < q_np q)%nat -> alive (q_thr q) (v_Js k) m -> phis i m = phi i m).
    { intros i m Hi Hm Lm. rewrite <- (if_comp F). auto. }
    rewrite (if_e_cons F). unfold t_evolve. rewrite evolve_all_eq. cbn [snd]. apply max_zero. intros o' Ho'. unfold t_cs, prepare_all in Ho'.
    apply in_map_iff in Ho'. destruct Ho' as (o & <- & Ho). cbn [o_class o_state set_state].
    pose proof (proj1 (Forall_forall _ _) HS o Ho) as [HI|(p & Hp & [[E HR]|[E HR]])].
    + destruct HI as ((nf & ->) & _). reflexivity.
    + rewrite E. cbn. apply vmax_zero. intros a Ha. apply vmax_zero. intros m Hm.
      destruct (Rlt_dec (q_thr q) (v_Js k m)) as [L|L].
      * unfold lin_residue. rewrite Hp. rewrite (rsum_ext nc _ (fun r => l_Cs p a r * phi r m)) by (intros; rewrite FE, Hphi by auto; reflexivity).
        rewrite HR by auto. replace (l_Ts p a - l_Ts p a) with 0 by ring. rewrite Rmult_0_l. apply Rabs_R0.
      * unfold t_masks. rewrite mask_dead by (unfold dead; lra). rewrite Rmult_0_r. apply Rabs_R0.
    + rewrite E. cbn. apply vmax_zero. intros a Ha. cbn. rewrite <- HJ. set (J := living (q_thr q) (v_Js k)) in *.
      assert (HJ0 : rsum (q_np q) J <> 0).
      { apply Rgt_not_eq. apply rsum_pos.
        - intros m _. unfold J, living. destruct (Rlt_dec _ _); lra.
        - destruct HL as (m & Hm & Lm). exists m. split; auto. unfold J, living, alive in *. destruct (Rlt_dec _ _); lra. }
      assert (Z : rsum (q_np q) (fun m => lin_residue p (t_feat q k phis) a m * J m) = 0).
      { rewrite (rsum_ext (q_np q) _ (fun m => rsum nc (fun r => l_Cs p a r * (J m * phi r m)) - l_Ts p a * J m)).
        - rewrite rsum_minus, rsum_scal_l, rsum_swap. rewrite <- (HR a Ha). unfold wmean. rewrite <- rsum_scal_r.
          rewrite <- rsum_minus. apply rsum_zero. intros r Hr. rewrite rsum_scal_l. unfold J. field. exact HJ0.
        - intros m Hm. unfold lin_residue. rewrite Hp. unfold J, living. destruct (Rlt_dec _ _) as [L|L].
          + rewrite Rmult_minus_distr_r, <- rsum_scal_r. f_equal. apply rsum_ext. intros. rewrite FE, Hphi by auto. ring.
          + rewrite (rsum_zero nc (fun r => l_Cs p a r * (0 * phi r m))) by (intros; ring). ring. }
      rewrite Z. unfold Rdiv. rewrite Rmult_0_l. apply Rabs_R0.
Qed.
End Props.
