(** PropertiesRun.v -- properties of the phases returned by run() (C17, C18)
    and independence of the random generator (C20). *)

From Coq Require Import String Reals Lra Lia List Bool Arith ZArith.
From Verif Require Import Base ModelCommon ModelParts ModelKernel ModelPhases ModelFinder ModelHistory
  ProofsKernel ProofsParts ProofsSteps ProofsBounds ProofsCopy ProofsRun ProofsHistory ProofsRun2
  Spec Examples PropertiesKernel PropertiesFinder.
Import ListNotations.
Open Scope R_scope.

Section Props.
Context {G St : Type} (ops : rng_ops G).
Implicit Types (f : finder G St) (w : mstate G St).

(** Volume of phase [p] and fraction of component [i] in it. *)
Definition vol (ph : phases) (p : nat) : R := nth p (p_vol ph) 0.
Definition frac (ph : phases) (p i : nat) : R := nth i (nth p (p_frac ph) []) 0.

Lemma nth_map_seq {A} (h : nat -> A) n p d : (p < n)%nat -> nth p (map h (seq 0 n)) d = h p.
Proof.
  intros H. rewrite nth_indep with (d' := h O) by (now rewrite map_length, seq_length).
  rewrite map_nth, seq_nth by auto. reflexivity.
Qed.

Lemma run_vol_frac f a t i f' ph tr inner j w rep n J phi g :
  run_facts ops f a t i f' ph tr inner j w rep n J phi g ->
  (forall p, (p < f_np f)%nat -> vol ph p = J p) /\
  (forall p c, (p < f_np f)%nat -> (c < f_nc f)%nat -> frac ph p c = phi c p).
Proof.
  intros R. pose proof (result_phases_ok _ _ _ _ _ (rf_ph R)) as (E1 & E2 & _).
  unfold vol, frac. rewrite E1, E2. split; intros.
  - now rewrite nth_map_seq.
  - rewrite nth_map_seq by auto. now rewrite nth_map_seq.
Qed.

(* ------------------------------------------------------------------ *)
(** ** C17 *)

Theorem C17_shape f a t i f' ph :
  run ops f a t i = (f', Ok ph) ->
  length (p_vol ph) = f_np f /\ length (p_frac ph) = f_np f /\ p_nc ph = f_nc f /\
  forall row, In row (p_frac ph) -> length row = f_nc f.
Proof.
  intros H. apply run_inv in H. destruct H as (tr & inner & j & w & rep & n & J & phi & g & R).
  pose proof (result_phases_ok _ _ _ _ _ (rf_ph R)) as (-> & -> & ->).
  rewrite !map_length, seq_length. repeat split; auto.
  intros row Hr. apply in_map_iff in Hr. destruct Hr as (p & <- & _). now rewrite map_length, seq_length.
Qed.

Theorem C17_volumes f a t i f' ph :
  rng_contract ops -> 0 <= m_thr (f_par f) -> run ops f a t i = (f', Ok ph) ->
  forall v, In v (p_vol ph) -> m_thr (f_par f) < v.
Proof.
  intros HR Ht H. apply run_inv in H. destruct H as (tr & inner & j & w & rep & n & J & phi & g & R).
  pose proof (result_phases_ok _ _ _ _ _ (rf_ph R)) as (-> & _).
  intros v Hv. apply in_map_iff in Hv. destruct Hv as (p & <- & Hp). apply in_seq in Hp.
  pose proof (C07_copy_conserves _ _ _ _ _ _ _ _ _ _ HR Ht (rf_copy R)) as (_ & _ & H & _).
  apply H. lia.
Qed.

(** Built-in entropy and ensemble with matching numbers of components and
    parameters [x] (mean fractions or scaled activities). *)
Definition builtin_with f (x : vec) : Prop :=
  builtin_entropy (f_entropy f) /\ s_comp (f_entropy f) = f_nc f /\
  (f_ensemble f = can_compiled (f_nc f) x \/ f_ensemble f = gc_compiled (f_nc f) x).

(** A compartment alive after a step was alive before it. *)
Lemma alive_before q (k k' : kstate G St) nv rep m : 0 <= q_thr q ->
  iterate q k = Ok (k', nv, rep) -> q_thr q < v_Js k' m -> q_thr q < v_Js k m.
Proof.
  intros Ht H A. destruct (Rlt_le_dec (q_thr q) (v_Js k m)) as [L|L]; auto.
  destruct (iterate_dead _ _ _ _ _ _ H L) as (E & _). lra.
Qed.

Theorem C17_fractions f a t i f' ph x :
  rng_contract ops -> 0 <= m_thr (f_par f) -> builtin_with f x ->
  run ops f a t i = (f', Ok ph) ->
  forall p c, (p < f_np f)%nat -> (c < f_nc f)%nat ->
    (0 <= x c -> 0 <= frac ph p c) /\ (0 < x c -> 0 < frac ph p c) /\ (x c = 0 -> frac ph p c = 0).
Proof.
  intros HR Ht (HE & HC & HN) H p c Hp Hc. apply run_inv in H.
  destruct H as (tr & inner & j & w & rep & n & J & phi & g & R).
  rewrite (proj2 (run_vol_frac _ _ _ _ _ _ _ _ _ _ _ _ _ _ _ R)) by auto.
  pose proof (C07_copy_conserves _ _ _ _ _ _ _ _ _ _ HR Ht (rf_copy R)) as (_ & (o & H1 & _) & _).
  destruct (H1 p Hp) as (Ho & HA & ->).
  destruct (run_last _ _ _ _ _ _ _ _ _ _ _ _ _ _ _ _ R) as (w0 & cc & k1 & nv & _ & _ & EI & _).
  destruct (builtin_fractions (kernel_of f) k1 (w_k w) nv rep (f_nc f) x HE HC HN Ht EI)
    as (u & b & E & Hu & Hb & _).
  rewrite E by auto. rewrite mask_alive.
  2: { eapply alive_before; eauto. }
  specialize (Hu c Hc). specialize (Hb c (o p) Hc).
  assert (0 < u c * b c (o p)) by (now apply Rmult_lt_0_compat).
  repeat split; intros; nra.
Qed.

(** Row sums are within the reported incompressibility error of one. *)
Theorem C17_row_sums f a t i f' ph x d :
  rng_contract ops -> 0 <= m_thr (f_par f) -> builtin_with f x ->
  run ops f a t i = (f', Ok ph) -> f_diag f' = Some d ->
  forall p, (p < f_np f)%nat -> Rabs (rsum (f_nc f) (frac ph p) - 1) <= d_incomp d.
Proof.
  intros HR Ht (HE & HC & HN) H D p Hp. apply run_inv in H.
  destruct H as (tr & inner & j & w & rep & n & J & phi & g & R).
  rewrite (rf_f R) in D. injection D as <-. simpl.
  rewrite (rsum_ext _ _ (fun c => phi c p)).
  2: { intros c Hc. now rewrite (proj2 (run_vol_frac _ _ _ _ _ _ _ _ _ _ _ _ _ _ _ R)). }
  pose proof (C07_copy_conserves _ _ _ _ _ _ _ _ _ _ HR Ht (rf_copy R)) as (_ & (o & H1 & _) & _).
  destruct (H1 p Hp) as (Ho & HA & Ephi).
  rewrite (rsum_ext _ _ (fun c => v_phis_comp (w_k w) c (o p))) by (intros; apply Ephi).
  destruct (run_last _ _ _ _ _ _ _ _ _ _ _ _ _ _ _ _ R) as (w0 & cc & k1 & nv & _ & _ & EI & _).
  destruct (builtin_fractions (kernel_of f) k1 (w_k w) nv rep (f_nc f) x HE HC HN Ht EI)
    as (u & b & _ & _ & _ & E & _).
  apply E; auto. eapply alive_before; eauto.
Qed.

(** Everything convergence says about the last step. *)
Lemma converged_facts f w rep tol :
  converged tol (safe_flag f w) rep = true ->
  w_valid w = Z.of_nat (num_alive (f_np f) (m_thr (f_par f)) (v_Js (w_k w))) /\
  e_incomp rep < tol /\ e_omega rep < tol /\ e_Js rep < tol /\ e_cons rep < tol.
Proof.
  intros HC. unfold converged in HC. repeat (apply andb_true_iff in HC; destruct HC as [HC ?]).
  repeat match goal with H : Rltb _ _ = true |- _ => apply Rltb_true in H end.
  unfold safe_flag, count_valid in HC. apply Z.eqb_eq in HC. rewrite num_alive_ncount. auto.
Qed.

(** If no compartment dies in a step, the living volumes are the volumes. *)
Lemma step_no_death q (k k' : kstate G St) nv rep :
  0 <= q_thr q -> iterate q k = Ok (k', nv, rep) ->
  nv = Z.of_nat (num_alive (q_np q) (q_thr q) (v_Js k')) ->
  forall m, (m < q_np q)%nat -> living (q_thr q) (v_Js k') m = v_Js k' m.
Proof.
  intros Ht HI HV m Hm.
  pose proof (C02_volumes_normalised _ _ _ _ _ HI) as (Env & _ & _ & HD).
  unfold living. destruct (Rlt_dec (q_thr q) (v_Js k' m)) as [L|L]; auto.
  symmetry. apply HD. unfold dead.
  destruct (Rle_lt_dec (v_Js k m) (q_thr q)) as [L'|L']; auto. exfalso. apply L.
  apply Rltb_true.
  rewrite (ncount_same (q_np q) (fun m => Rltb (q_thr q) (v_Js k' m))
                    (fun m => Rltb (q_thr q) (v_Js k m))); auto.
  - now apply Rltb_true.
  - intros a Ha HT. apply Rltb_true. apply Rltb_true in HT. eapply alive_before; eauto.
  - rewrite <- !num_alive_ncount. lia.
Qed.

(** After convergence before the end of the schedule the volumes sum to the
    number of living compartments and all rows sum to one within tolerance. *)
Theorem C17_converged f a t i f' ph x d tr inner :
  rng_contract ops -> 0 <= m_thr (f_par f) -> builtin_with f x ->
  run ops f a t i = (f', Ok ph) -> f_diag f' = Some d ->
  schedule (opt a (m_max_steps (f_par f))) (opt i (m_interval (f_par f))) = Ok (tr, inner) ->
  d_steps d <> Z.of_nat (tr * inner) ->
  rsum (f_np f) (vol ph) = INR (num_alive (f_np f) (m_thr (f_par f)) (v_Js (f_k f'))) /\
  forall p, (p < f_np f)%nat ->
    Rabs (rsum (f_nc f) (frac ph p) - 1) < opt t (m_tolerance (f_par f)).
Proof.
  intros HR Ht HB H D HS HN.
  pose proof (C17_row_sums _ _ _ _ _ _ _ _ HR Ht HB H D) as HRow.
  apply run_inv in H. destruct H as (tr' & inner' & j & w & rep & n & J & phi & g & R).
  rewrite (rf_f R) in D. injection D as <-. simpl in HN, HRow.
  pose proof (rf_sched R) as HS'. rewrite HS in HS'. injection HS' as <- <-.
  destruct (rf_conv R) as [->|HC]; [congruence|].
  apply converged_facts in HC. destruct HC as (HV & HI & _).
  split.
  - rewrite (rsum_ext _ _ J).
    2: { intros p Hp. apply (proj1 (run_vol_frac _ _ _ _ _ _ _ _ _ _ _ _ _ _ _ R) p Hp). }
    pose proof (C07_copy_conserves _ _ _ _ _ _ _ _ _ _ HR Ht (rf_copy R)) as (_ & _ & _ & -> & _).
    destruct (run_last _ _ _ _ _ _ _ _ _ _ _ _ _ _ _ _ R) as (w0 & cc & k1 & nv & _ & _ & EI & Env & _).
    rewrite Env in HV.
    pose proof (step_no_death (kernel_of f) _ _ _ _ Ht EI HV) as E. simpl in E.
    rewrite (rsum_ext _ _ _ E).
    pose proof (C02_volumes_normalised _ _ _ _ _ EI) as (Env' & _ & ES & _). simpl in Env', ES. rewrite ES.
    rewrite (rf_f R). simpl. f_equal. lia.
  - intros p Hp. specialize (HRow p Hp). lra.
Qed.

(* ------------------------------------------------------------------ *)
(** ** C18 *)

Lemma mean_fraction_eq f a t i f' ph tr inner j w rep n J phi g c :
  run_facts ops f a t i f' ph tr inner j w rep n J phi g -> (c < f_nc f)%nat ->
  mean_fraction ph c = rsum (f_np f) (fun p => J p * phi c p) / rsum (f_np f) J.
Proof.
  intros R Hc. pose proof (result_phases_ok _ _ _ _ _ (rf_ph R)) as (E1 & E2 & _).
  unfold mean_fraction, total_volume. rewrite E1, E2.
  assert (LS : forall h, lsum (map J (seq 0 (f_np f))) h = rsum (f_np f) (fun p => h (J p))).
  { intros h. rewrite lsum_map. generalize (f_np f). intros m. induction m; [reflexivity|].
    rewrite seq_S, lsum_app, IHm. simpl. lra. }
  rewrite LS. f_equal.
  assert (CS : forall l, combine (map J l) (map (fun p => map (fun c => phi c p) (seq 0 (f_nc f))) l) =
     map (fun p => (J p, map (fun c => phi c p) (seq 0 (f_nc f)))) l).
  { induction l; simpl; [auto|]. now rewrite IHl. }
  rewrite CS, lsum_map. generalize (f_np f). intros m. induction m; [reflexivity|].
  rewrite seq_S, lsum_app, IHm. simpl. rewrite nth_map_seq by auto. lra.
Qed.

Lemma increment_bound2 q (k : kstate G St) phis inc m :
  0 < q_ub q -> 0 < q_acc_J q -> (m < q_np q)%nat ->
  Rabs (t_factor q k phis inc * q_acc_J q * t_Jdiff q k phis inc m)
  <= Rmin (q_ub q) (q_acc_J q * t_maxJ q k phis inc).
Proof.
  intros Hu Ha Hm. apply Rmin_glb; [now apply increment_bound|].
  destruct (t_factor_range q k phis inc Hu). rewrite !Rabs_mult.
  rewrite (Rabs_pos_eq (t_factor _ _ _ _)), (Rabs_pos_eq (q_acc_J q)) by lra.
  pose proof (t_maxJ_ge q k phis inc m Hm). pose proof (Rabs_pos (t_Jdiff q k phis inc m)).
  assert (0 <= q_acc_J q * Rabs (t_Jdiff q k phis inc m)) by nra.
  apply Rle_trans with (1 * (q_acc_J q * Rabs (t_Jdiff q k phis inc m))); nra.
Qed.

(** Deviation of the mean after one step (volumes are updated after the
    fractions were computed). *)
Lemma step_mean_bound q (k k' : kstate G St) nv rep nc x c :
  builtin_entropy (q_entropy q) -> s_comp (q_entropy q) = nc -> q_ensemble q = can_compiled nc x ->
  (forall i, (i < nc)%nat -> 0 <= x i) ->
  0 <= q_thr q -> 0 < q_ub q -> 0 < q_acc_J q ->
  iterate q k = Ok (k', nv, rep) -> (c < nc)%nat ->
  let n := INR (num_alive (q_np q) (q_thr q) (v_Js k)) in
  let S := rsum (q_np q) (living (q_thr q) (v_Js k)) in
  Rabs (rsum (q_np q) (fun m => v_Js k' m * v_phis_comp k' c m) / n - x c) <=
  (2 * Rmin (q_ub q) (q_acc_J q * e_Js rep) + Rabs (S / n - 1)) * (1 + e_incomp rep).
Proof.
  intros HE HC HN Hx Ht Hu Ha HI Hc n S0.
  destruct (builtin_fractions q k k' nv rep nc x HE HC (or_introl HN) Ht HI)
    as (u & b & E & Hup & Hb & HRow & HM).
  specialize (HM HN c Hc).
  apply iterate_inv in HI. destruct HI as (p0 & Q & phis & inc & _ & _ & F).
  rewrite (if_comp F) in *. rewrite (if_Js F).
  assert (En : n = INR (t_nv q k)). { unfold n. now rewrite num_alive_ncount. }
  assert (Hn : 0 < INR (t_nv q k)) by (apply INR_pos, (if_nv_pos F)).
  assert (ES : rsum (q_np q) (t_J q k) = S0).
  { apply rsum_ext. intros; apply t_J_living. }
  set (mk := t_masks q k) in *.
  set (dl := fun m => t_factor q k phis inc * q_acc_J q * t_Jdiff q k phis inc m).
  set (B := Rmin (q_ub q) (q_acc_J q * e_Js rep)).
  set (e := e_incomp rep) in *.
  assert (HB0 : 0 <= B).
  { unfold B. apply Rmin_glb; [lra|]. rewrite (if_e_Js F). pose proof (t_maxJ_nonneg q k phis inc). nra. }
  assert (He0 : 0 <= e).
  { unfold e. rewrite (if_e_incomp F). apply vmax_abs_nonneg. }
  assert (Hdl : forall m, (m < q_np q)%nat -> Rabs (dl m) <= B).
  { intros m Hm. unfold B. rewrite (if_e_Js F). now apply increment_bound2. }
  assert (Hphi : forall m, (m < q_np q)%nat -> 0 <= phis c m <= (1 + e) * mk m).
  { intros m Hm. destruct (mask_cases (v_Js k) (q_thr q) m) as [[A Em]|[A Em]].
    - unfold mk, t_masks. rewrite Em. specialize (HRow m Hm A).
      assert (P0 : forall i, (i < nc)%nat -> 0 <= phis i m).
      { intros i Hi. rewrite E by auto. rewrite Em. specialize (Hup i Hi). specialize (Hb i m Hi).
        specialize (Hx i Hi). assert (0 < u i * b i m) by (now apply Rmult_lt_0_compat). nra. }
      split; [auto|].
      assert (phis c m <= rsum nc (fun i => phis i m)).
      { rewrite (rsum_remove nc (fun i => phis i m) c Hc).
        assert (0 <= rsum nc (fun i => if Nat.eqb i c then 0 else phis i m)).
        { apply rsum_nonneg. intros i Hi. destruct (Nat.eqb i c); auto; lra. }
        lra. }
      apply Rabs_le_inv in HRow. lra.
    - unfold mk, t_masks. rewrite Em, E by auto. rewrite Em. lra. }
  set (P := rsum (q_np q) (phis c)).
  assert (SM : rsum (q_np q) mk = INR (t_nv q k)) by (unfold mk, t_masks; apply masks_sum).
  assert (HP : 0 <= P <= (1 + e) * INR (t_nv q k)).
  { split; [apply rsum_nonneg; intros; now apply Hphi|]. rewrite <- SM, <- rsum_scal_l.
    apply rsum_le. intros; now apply Hphi. }
  assert (HSp : 0 < S0).
  { rewrite <- ES. apply rsum_pos; [intros; now apply t_J_nonneg|]. apply t_J_some_pos; auto.
    apply count_valid_pos. apply (if_nv_pos F). }
  assert (HxS : 0 <= x c <= 1 + e).
  { split; [auto|]. apply Rmult_le_reg_r with S0; auto. rewrite <- ES, <- HM, <- rsum_scal_l.
    apply rsum_le. intros m Hm. pose proof (t_J_nonneg q k Ht m). specialize (Hphi m Hm).
    rewrite <- (t_J_masked q k m) at 2. fold mk. nra. }
  (* exact expression *)
  assert (EQ : rsum (q_np q) (fun m => t_J2 q k phis inc m * phis c m) =
               x c * S0 + rsum (q_np q) (fun m => dl m * phis c m) + t_shift q k phis inc * P).
  { rewrite <- ES, <- HM. unfold P. rewrite <- rsum_scal_l, <- !rsum_plus. apply rsum_ext.
    intros m Hm. rewrite t_J2_eq, t_J1_eq. fold (dl m). fold mk.
    assert (EM : phis c m * mk m = phis c m).
    { rewrite E by auto. unfold mk, t_masks. rewrite Rmult_assoc, mask_idem. reflexivity. }
    rewrite <- EM at 4. ring. }
  assert (ESh : t_shift q k phis inc = 1 - S0 / INR (t_nv q k) - rsum (q_np q) dl / INR (t_nv q k)).
  { unfold t_shift. rewrite t_n_eq, (rsum_ext _ _ _ (fun m _ => t_J1_eq q k phis inc m)), rsum_plus, ES.
    fold dl. field. lra. }
  rewrite EQ, ESh, En.
  set (N := INR (t_nv q k)) in *.
  replace ((x c * S0 + rsum (q_np q) (fun m => dl m * phis c m) + (1 - S0 / N - rsum (q_np q) dl / N) * P) / N - x c)
    with ((S0 / N - 1) * (x c - P / N) + rsum (q_np q) (fun m => dl m * phis c m) / N
          - (rsum (q_np q) dl / N) * (P / N)) by (field; lra).
  assert (HPN : 0 <= P / N <= 1 + e).
  { split; [apply Rmult_le_pos; [lra|left; apply Rinv_0_lt_compat; lra]|].
    apply Rmult_le_reg_r with N; auto. unfold Rdiv. rewrite Rmult_assoc, Rinv_l by lra. lra. }
  assert (A1 : Rabs ((S0 / N - 1) * (x c - P / N)) <= Rabs (S0 / N - 1) * (1 + e)).
  { rewrite Rabs_mult. apply Rmult_le_compat_l; [apply Rabs_pos|]. apply Rabs_le. lra. }
  assert (A2 : Rabs (rsum (q_np q) (fun m => dl m * phis c m) / N) <= B * (1 + e)).
  { unfold Rdiv. rewrite Rabs_mult, (Rabs_pos_eq (/ N)) by (left; now apply Rinv_0_lt_compat).
    apply Rmult_le_reg_r with N; auto. rewrite Rmult_assoc, Rinv_l, Rmult_1_r by lra.
    eapply Rle_trans; [apply rsum_Rabs|]. rewrite <- SM at 1. rewrite <- rsum_scal_l.
    apply rsum_le. intros m Hm. rewrite Rabs_mult. specialize (Hdl m Hm). specialize (Hphi m Hm).
    rewrite (Rabs_pos_eq (phis c m)) by lra. pose proof (Rabs_pos (dl m)).
    rewrite (Rmult_assoc B). apply Rmult_le_compat; lra. }
  assert (Hdl0 : forall m, (m < q_np q)%nat -> Rabs (dl m) <= B * mk m).
  { intros m Hm. destruct (mask_cases (v_Js k) (q_thr q) m) as [[A Em]|[A Em]]; unfold mk, t_masks; rewrite Em.
    - rewrite Rmult_1_r. auto.
    - unfold dl, t_Jdiff, t_masks. rewrite Em, !Rmult_0_r, Rabs_R0. lra. }
  assert (A3 : Rabs (rsum (q_np q) dl / N) <= B).
  { unfold Rdiv. rewrite Rabs_mult, (Rabs_pos_eq (/ N)) by (left; now apply Rinv_0_lt_compat).
    apply Rmult_le_reg_r with N; auto. rewrite Rmult_assoc, Rinv_l, Rmult_1_r by lra.
    eapply Rle_trans; [apply rsum_Rabs|]. rewrite <- SM at 1. rewrite <- rsum_scal_l.
    apply rsum_le. auto. }
  assert (A4 : Rabs (rsum (q_np q) dl / N * (P / N)) <= B * (1 + e)).
  { rewrite Rabs_mult, (Rabs_pos_eq (P / N)) by lra. apply Rmult_le_compat; try lra. apply Rabs_pos. }
  apply Rabs_le_inv in A1, A2, A4. apply Rabs_le. lra.
Qed.

(** The living volumes have mean one. *)
Definition mean_one f w : Prop :=
  rsum (f_np f) (living (m_thr (f_par f)) (v_Js (w_k w))) =
  INR (num_alive (f_np f) (m_thr (f_par f)) (v_Js (w_k w))).

Lemma living_sum np thr (J : vec) :
  rsum np (living thr J) - INR (num_alive np thr J) =
  rsum np (fun m => if Rltb thr (J m) then J m - 1 else 0).
Proof.
  rewrite num_alive_ncount, ncount_rsum, <- rsum_minus. apply rsum_ext. intros m _.
  unfold living, Rltb. destruct (Rlt_dec thr (J m)); lra.
Qed.

(** Revival keeps the mean at one. *)
Lemma revive_mean_one f w0 c k1 : m_thr (f_par f) < 1 ->
  maybe_revive ops (kernel_of f) (f_left f) (w_count w0) (w_k w0) = (c, k1) -> mean_one f w0 ->
  rsum (f_np f) (living (m_thr (f_par f)) (v_Js k1)) = INR (num_alive (f_np f) (m_thr (f_par f)) (v_Js k1)).
Proof.
  intros Ht H M. apply maybe_revive_cases in H. simpl in H.
  destruct H as [(_ & -> & _)|(_ & c0 & J & t & g & ER & _ & _ & _ & ->)]; [exact M|].
  apply revive_by_random_spec in ER. destruct ER as (_ & _ & H1 & H2 & _). simpl v_Js.
  unfold mean_one in M.
  cut (rsum (f_np f) (fun m => if Rltb (m_thr (f_par f)) (J m) then J m - 1 else 0) =
       rsum (f_np f) (fun m => if Rltb (m_thr (f_par f)) (v_Js (w_k w0) m) then v_Js (w_k w0) m - 1 else 0)).
  { rewrite <- !living_sum. lra. }
  apply rsum_ext. intros m Hm.
  destruct (Rltb (m_thr (f_par f)) (v_Js (w_k w0) m)) eqn:E.
  - apply Rltb_true in E. rewrite H2 by auto. now rewrite (proj2 (Rltb_true _ _) E).
  - apply Rltb_false in E. rewrite H1 by auto. rewrite (proj2 (Rltb_true _ _)) by lra. lra.
Qed.

(** Mean fractions of the phases returned by a converged run in the canonical
    ensemble.  The first summand is proportional to the volume step; the
    second one vanishes unless a compartment died in the last but one step. *)
Theorem C18_mean_fraction_bound f a t i f' ph x d tr inner w0 c :
  rng_contract ops -> 0 <= m_thr (f_par f) < 1 -> 0 < m_ub (f_par f) -> 0 < m_acc_J (f_par f) ->
  builtin_entropy (f_entropy f) -> s_comp (f_entropy f) = f_nc f ->
  f_ensemble f = can_compiled (f_nc f) x -> (forall i, (i < f_nc f)%nat -> 0 <= x i) ->
  run ops f a t i = (f', Ok ph) -> f_diag f' = Some d ->
  schedule (opt a (m_max_steps (f_par f))) (opt i (m_interval (f_par f))) = Ok (tr, inner) ->
  d_steps d <> Z.of_nat (tr * inner) ->
  fsteps ops f (Z.to_nat (d_steps d) - 1) = Ok w0 ->
  let tol := opt t (m_tolerance (f_par f)) in
  (c < f_nc f)%nat ->
  (mean_one f w0 ->
   Rabs (mean_fraction ph c - x c) <= 2 * Rmin (m_ub (f_par f)) (m_acc_J (f_par f) * tol) * (1 + tol)) /\
  exists k1, k1 = snd (maybe_revive ops (kernel_of f) (f_left f) (w_count w0) (w_k w0)) /\
   Rabs (mean_fraction ph c - x c) <=
     (2 * Rmin (m_ub (f_par f)) (m_acc_J (f_par f) * tol)
      + Rabs (rsum (f_np f) (living (m_thr (f_par f)) (v_Js k1))
              / INR (num_alive (f_np f) (m_thr (f_par f)) (v_Js k1)) - 1)) * (1 + tol).
Proof.
  intros HR Ht Hu Ha HE HC HN Hx H D HS HNS HW tol Hc.
  apply run_inv in H. destruct H as (tr' & inner' & j & w & rep & n & J & phi & g & R).
  rewrite (rf_f R) in D. injection D as <-. simpl d_steps in *. rewrite Nat2Z.id in HW.
  pose proof (rf_sched R) as HS'. rewrite HS in HS'. injection HS' as <- <-.
  destruct (rf_conv R) as [->|HCv]; [congruence|].
  apply converged_facts in HCv. fold tol in HCv. destruct HCv as (HV & HI & _ & HJ & _).
  destruct (run_last _ _ _ _ _ _ _ _ _ _ _ _ _ _ _ _ R) as (w0' & cc & k1 & nv & EW & EM & EI & Env & _).
  rewrite HW in EW. injection EW as <-. rewrite Env in HV.
  pose proof (step_no_death (kernel_of f) _ _ _ _ (proj1 Ht) EI HV) as EL. simpl in EL.
  pose proof (C02_volumes_normalised _ _ _ _ _ EI) as (_ & Hna & ES & _). simpl in Hna, ES.
  pose proof (C07_copy_conserves _ _ _ _ _ _ _ _ _ _ HR (proj1 Ht) (rf_copy R)) as (_ & _ & _ & SV & SF).
  pose proof (step_mean_bound (kernel_of f) k1 (w_k w) nv rep (f_nc f) x c HE HC HN Hx (proj1 Ht) Hu Ha EI Hc) as HB.
  cbv zeta in HB. simpl q_np in HB. simpl q_thr in HB. simpl q_ub in HB. simpl q_acc_J in HB.
  assert (EMean : mean_fraction ph c = rsum (f_np f) (fun m => v_Js (w_k w) m * v_phis_comp (w_k w) c m)
                    / INR (num_alive (f_np f) (m_thr (f_par f)) (v_Js k1))).
  { rewrite (mean_fraction_eq _ _ _ _ _ _ _ _ _ _ _ _ _ _ _ c R Hc), SF, SV.
    rewrite (rsum_ext _ _ _ EL). rewrite ES. f_equal. apply rsum_ext. intros m Hm. now rewrite EL. }
  rewrite <- EMean in HB.
  set (Q := Rabs (rsum (f_np f) (living (m_thr (f_par f)) (v_Js k1))
              / INR (num_alive (f_np f) (m_thr (f_par f)) (v_Js k1)) - 1)) in *.
  assert (He : 0 <= e_incomp rep).
  { apply iterate_inv in EI. destruct EI as (? & ? & ? & ? & _ & _ & F). rewrite (if_e_incomp F).
    apply vmax_abs_nonneg. }
  assert (HeJ : 0 <= e_Js rep).
  { apply iterate_inv in EI. destruct EI as (? & ? & ? & ? & _ & _ & F). rewrite (if_e_Js F).
    apply t_maxJ_nonneg. }
  assert (HQ : 0 <= Q) by apply Rabs_pos.
  assert (HMin : 0 <= Rmin (m_ub (f_par f)) (m_acc_J (f_par f) * e_Js rep)
                 <= Rmin (m_ub (f_par f)) (m_acc_J (f_par f) * tol)).
  { split; [apply Rmin_glb; nra|]. apply Rmin_glb; [apply Rmin_l|].
    eapply Rle_trans; [apply Rmin_r|]. nra. }
  assert (FULL : Rabs (mean_fraction ph c - x c) <=
     (2 * Rmin (m_ub (f_par f)) (m_acc_J (f_par f) * tol) + Q) * (1 + tol)).
  { eapply Rle_trans; [exact HB|]. apply Rmult_le_compat; lra. }
  split.
  - intros M. pose proof (revive_mean_one f w0 cc k1 (proj2 Ht) EM M) as E1.
    assert (Q0 : Q = 0).
    { unfold Q. rewrite E1. unfold Rdiv. rewrite Rinv_r.
      - rewrite Rminus_diag_eq by reflexivity. apply Rabs_R0.
      - apply INR_neq0. lia. }
    rewrite Q0, Rplus_0_r in FULL. exact FULL.
  - exists k1. rewrite EM. split; [reflexivity|exact FULL].
Qed.

(** When the mean is one: initially after a reinitialisation and after every
    step in which no compartment died. *)
Theorem C18_mean_one_start f (v : mat) g : m_thr (f_par f) < 1 ->
  mean_one (reinit_with f v g) (start (f_k (reinit_with f v g))).
Proof.
  intros H. unfold mean_one. simpl. rewrite num_alive_ncount.
  rewrite (proj2 (ncount_all _ _)) by (intros; now apply Rltb_true).
  rewrite (rsum_ext _ _ (fun _ => 1)), rsum_const; [lra|].
  intros m _. unfold living. destruct (Rlt_dec _ _); lra.
Qed.

Theorem C18_mean_one_step f w w' : 0 <= m_thr (f_par f) ->
  one_step ops (kernel_of f) (f_left f) w = Ok w' ->
  w_valid w' = Z.of_nat (num_alive (f_np f) (m_thr (f_par f)) (v_Js (w_k w'))) -> mean_one f w'.
Proof.
  intros Ht H HV. unfold one_step in H. destruct (maybe_revive _ _ _ _ _) as [c k1].
  apply bind_Ok in H. destruct H as ([[k' nv] rp] & EI & H). injection H as <-. cbn [w_valid w_k] in *.
  unfold mean_one. cbn [w_k].
  pose proof (step_no_death (kernel_of f) _ _ _ _ Ht EI HV) as EL. simpl in EL.
  rewrite (rsum_ext _ _ _ EL).
  pose proof (C02_volumes_normalised _ _ _ _ _ EI) as (Env & _ & ES & _). simpl in ES, Env. rewrite ES.
  f_equal. lia.
Qed.

End Props.

(* ------------------------------------------------------------------ *)
(** ** C20 *)

Section NoRandom.
Context {G1 G2 St : Type} (ops1 : rng_ops G1) (ops2 : rng_ops G2) (g2 : G2).

(** The same state with another generator. *)
Definition kset (k : kstate G1 St) : kstate G2 St :=
  {| v_omegas := v_omegas k; v_Js := v_Js k; v_phis_comp := v_phis_comp k;
     v_phis_feat := v_phis_feat k; v_cons := v_cons k; v_g := g2 |}.
Definition set_gen (f : finder G1 St) : finder G2 St :=
  {| f_inter := f_inter f; f_entropy := f_entropy f; f_ensemble := f_ensemble f; f_nc := f_nc f;
     f_nf := f_nf f; f_np := f_np f; f_par := f_par f; f_kwargs := f_kwargs f; f_k := kset (f_k f);
     f_left := f_left f; f_diag := f_diag f |}.
Definition mset (w : mstate G1 St) : mstate G2 St :=
  {| w_k := kset (w_k w); w_count := w_count w; w_valid := w_valid w; w_rep := w_rep w |}.
Definition rset (s : rstate G1 St) : rstate G2 St :=
  {| r_f := set_gen (r_f s); r_steps := r_steps s; r_rep := r_rep s; r_conv := r_conv s |}.

Lemma iterate_gen q (k : kstate G1 St) :
  iterate q (kset k) = res_map (fun '(k', nv, rep) => (kset k', nv, rep)) (iterate q k).
Proof.
  rewrite !iterate_eq. change (t_J q (kset k)) with (t_J q k). change (t_masks q (kset k)) with (t_masks q k).
  simpl v_phis_comp. simpl v_omegas.
  destruct (s_partition _ _ _ _ _) as [[p0 Q]|e]; [|reflexivity]. cbn [bind].
  destruct (n_normalize _ _ _ _) as [[phis inc]|e]; [|reflexivity]. cbn [bind].
  change (t_change q (kset k) phis inc) with (t_change q k phis inc).
  change (t_evolve q (kset k) phis inc) with (t_evolve q k phis inc).
  destruct (Z.eqb _ 0); [reflexivity|]. destruct (Reqb _ 0); [reflexivity|].
  destruct (t_evolve q k phis inc) as [cs' residue]. reflexivity.
Qed.

Lemma maybe_revive_alive_id {G} (ops : rng_ops G) q tries c (k : kstate G St) :
  (forall m, (m < q_np q)%nat -> q_thr q < v_Js k m) -> maybe_revive ops q tries c k = (c, k).
Proof.
  intros H. unfold maybe_revive, count_valid.
  rewrite (proj2 (ncount_all _ _)), Nat.eqb_refl by (intros; now apply Rltb_true, H).
  destruct (Z.ltb _ _); reflexivity.
Qed.

Definition all_alive q {G} (k : kstate G St) : Prop := forall m, (m < q_np q)%nat -> alive (q_thr q) (v_Js k) m.

Lemma steps_gen q tries n w0 :
  (forall n' w, (n' <= n)%nat -> steps ops1 q tries n' w0 = Ok w -> all_alive q (w_k w)) ->
  steps ops2 q tries n (mset w0) = res_map mset (steps ops1 q tries n w0) /\
  forall w, steps ops1 q tries n w0 = Ok w -> w_count w = w_count w0 /\ v_g (w_k w) = v_g (w_k w0).
Proof.
  induction n; intros HA.
  - simpl. split; [reflexivity|]. intros w E; injection E as <-. auto.
  - simpl steps. destruct (IHn ltac:(intros; eapply HA; [|eassumption]; lia)) as (I1 & I2). rewrite I1.
    destruct (steps ops1 q tries n w0) as [w|e] eqn:E; cbn [bind res_map]; [|split; [reflexivity|discriminate]].
    assert (AW : all_alive q (w_k w)) by (eapply (HA n); eauto).
    unfold one_step. rewrite (maybe_revive_alive_id ops2) by exact AW.
    rewrite (maybe_revive_alive_id ops1) by exact AW.
    change (w_k (mset w)) with (kset (w_k w)). rewrite iterate_gen.
    destruct (iterate q (w_k w)) as [[[k' nv] rep]|e] eqn:EI; cbn [bind res_map]; [|split; [reflexivity|discriminate]].
    split; [reflexivity|]. intros w' E'; injection E' as <-. cbn [w_count w_k].
    destruct (I2 w eq_refl) as (-> & Hg). split; [reflexivity|]. rewrite <- Hg.
    apply iterate_inv in EI. destruct EI as (? & ? & ? & ? & _ & _ & F). apply (if_g F).
Qed.

Lemma run_loop_gen tol b n : forall s s' u,
  run_loop ops1 tol (S b) n s = (s', Ok u) ->
  (forall k w, (k <= r_steps s' - r_steps s)%nat -> fsteps ops1 (r_f s) k = Ok w ->
     all_alive (kernel_of (r_f s)) (w_k w)) ->
  run_loop ops2 tol (S b) n (rset s) = (rset s', Ok u) /\
  v_g (f_k (r_f s')) = v_g (f_k (r_f s)) /\ all_alive (kernel_of (r_f s)) (f_k (r_f s')).
Proof.
  induction n; intros s s' u H HA.
  - simpl in H. injection H as <- <-. split; [reflexivity|]. split; [reflexivity|].
    apply (HA O (start (f_k (r_f s)))); [lia|reflexivity].
  - pose proof H as HL. apply run_loop_inv in HL. destruct HL as (j & wj & _ & _ & _ & HS & H0 & _ & HO).
    assert (Hj : (1 <= j)%nat).
    { destruct HO as [_ [[-> _]|(L & _)]]; lia. }
    assert (HB : (S b <= r_steps s' - r_steps s)%nat) by nia.
    cbn [run_loop] in *.
    assert (ST := steps_gen (kernel_of (r_f s)) (f_left (r_f s)) (S b) (start (f_k (r_f s)))
              ltac:(intros n' w L E; apply (HA n' w); [lia|exact E])).
    destruct ST as (ST1 & ST2).
    change (kernel_of (r_f (rset s))) with (kernel_of (r_f s)).
    change (f_left (r_f (rset s))) with (f_left (r_f s)).
    change (f_k (r_f (rset s))) with (kset (f_k (r_f s))).
    unfold metastep in *.
    change {| w_k := kset (f_k (r_f s)); w_count := O; w_valid := 0%Z; w_rep := None |}
      with (mset (start (f_k (r_f s)))).
    fold (start (f_k (r_f s))) in H. rewrite ST1.
    destruct (steps ops1 (kernel_of (r_f s)) (f_left (r_f s)) (S b) (start (f_k (r_f s)))) as [w|e] eqn:EW;
      cbn [bind res_map] in *; [|discriminate].
    destruct (ST2 w eq_refl) as (EC & EG). cbn [w_count start w_k] in EC, EG.
    change (w_rep (mset w)) with (w_rep w).
    destruct (w_rep w) as [rep|]; [|discriminate].
    change (w_k (mset w)) with (kset (w_k w)). change (v_Js (kset (w_k w))) with (v_Js (w_k w)).
    change (w_valid (mset w)) with (w_valid w). change (w_count (mset w)) with (w_count w).
    change (f_par (r_f (rset s))) with (f_par (r_f s)).
    set (sf := Z.eqb (w_valid w) _) in *.
    assert (AW : all_alive (kernel_of (r_f s)) (w_k w)) by (apply (HA (S b) w); [lia|exact EW]).
    destruct (String.eqb (m_criterion (f_par (r_f s))) "standard"); [|discriminate].
    destruct (converged tol sf rep).
    + injection H as <- <-. split; [reflexivity|]. split; [exact EG|exact AW].
    + match type of H with run_loop _ _ _ _ ?s1 = _ => specialize (IHn s1 s' u H) end.
      cbn [r_steps r_f] in IHn.
      destruct IHn as (I1 & I2 & I3).
      * intros k0 w' Hk E. change (all_alive (kernel_of (r_f s)) (w_k w')).
        destruct k0 as [|k0].
        -- injection E as <-. exact AW.
        -- apply (HA (S b + S k0)%nat (shift_count (w_count w) w')); [lia|].
           rewrite (fsteps_split _ _ _ _ _ EW). unfold advance. rewrite E. reflexivity.
      * split; [exact I1|]. split; [rewrite I2; exact EG|exact I3].
Qed.

(** While no compartment dies no random numbers are used, and the run with any
    other generator gives the same phases and the same finder. *)
Theorem C20_no_randomness f a t i f' ph d :
  0 <= m_thr (f_par f) ->
  run ops1 f a t i = (f', Ok ph) -> f_diag f' = Some d ->
  (forall n w m, (n <= Z.to_nat (d_steps d))%nat -> fsteps ops1 f n = Ok w -> (m < f_np f)%nat ->
     alive (m_thr (f_par f)) (v_Js (w_k w)) m) ->
  v_g (f_k f') = v_g (f_k f) /\ run ops2 (set_gen f) a t i = (set_gen f', Ok ph).
Proof.
  intros Ht H D HA. unfold run in *. change (f_par (set_gen f)) with (f_par f).
  destruct (schedule _ _) as [[tr inner]|e] eqn:ES; [|discriminate].
  destruct (schedule_inner _ _ _ _ ES) as [b ->].
  set (s0 := {| r_f := f; r_steps := O; r_rep := None; r_conv := false |}) in *.
  change {| r_f := set_gen f; r_steps := O; r_rep := None; r_conv := false |} with (rset s0).
  set (tol := match t with Some x => x | None => _ end) in *.
  destruct (run_loop ops1 tol (S b) tr s0) as [s [u|e]] eqn:EL; [|discriminate].
  assert (ED : (r_steps s <= Z.to_nat (d_steps d))%nat).
  { destruct (revive_by_copy _ _ _ _ _ _) as [[[[n J] phi] g]|e] eqn:ER; [|discriminate].
    destruct (r_rep s) as [rep|]; [|discriminate]. injection H as <- _. simpl in D. injection D as <-.
    simpl. lia. }
  destruct (run_loop_gen tol b tr s0 s u EL) as (I1 & I2 & I3).
  { intros k w Hk E m Hm. simpl in Hk. apply (HA k w m); auto. lia. }
  rewrite I1.
  pose proof (run_loop_inv _ _ _ _ _ _ _ EL) as (j & w & _ & _ & HF & _). simpl r_f in HF.
  assert (EP : f_par (r_f s) = f_par f /\ f_np (r_f s) = f_np f) by (rewrite HF; auto).
  destruct EP as (EP & EN).
  change (f_k (r_f (rset s))) with (kset (f_k (r_f s))). change (r_f (rset s)) with (set_gen (r_f s)).
  change (f_par (set_gen (r_f s))) with (f_par (r_f s)). change (f_np (set_gen (r_f s))) with (f_np (r_f s)).
  assert (AL : forall m, (m < f_np (r_f s))%nat -> m_thr (f_par (r_f s)) < v_Js (f_k (r_f s)) m).
  { intros m Hm. rewrite EN in Hm. rewrite EP. apply (I3 m Hm). }
  assert (Ht' : 0 <= m_thr (f_par (r_f s))) by (now rewrite EP).
  rewrite (revive_by_copy_none ops1) in H by assumption.
  rewrite (revive_by_copy_none ops2) by assumption.
  change (r_rep (rset s)) with (r_rep s).
  destruct (r_rep s) as [rep|]; [|discriminate].
  injection H as <- HP. split; [exact I2|]. f_equal.
  rewrite <- HP. reflexivity.
Qed.

End NoRandom.
