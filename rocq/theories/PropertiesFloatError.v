(** PropertiesFloatError.v -- one step in binary64 arithmetic follows the step in
    exact arithmetic, up to a stated error (C96). *)

From Flocq Require Import Core BinarySingleNaN.
From Coq Require Import Reals ZArith List Bool Arith Lia Lra.
From Verif Require Import Base ModelParts ModelKernel ProofsParts ProofsKernel ProofsBounds ProofsEquilibrium
  ModelFloat ModelFloatKernel PropertiesFloat ProofsFloatKernel ProofsRounding PropertiesRounding ProofsFloatError.
Import ListNotations.
Open Scope R_scope.

(** Upper bounds for the exact values that occur in a step (all at least 1). *)
Record scales := {
  s_w : R;       (* fields *)
  s_J : R;       (* volumes *)
  s_phi : R;     (* fractions of components *)
  s_feat : R;    (* fractions of features *)
  s_pot : R;     (* potential of the interaction *)
  s_coef : R;    (* its incompressibility coefficient *)
  s_ivd : R;     (* its volume derivative *)
  s_svd : R;     (* volume derivative of the entropy *)
  s_cpot : R;    (* potential of a constraint *)
  s_cvd : R;     (* volume derivative of a constraint *)
  s_res : R      (* residue of a constraint *)
}.
Record scales_ok (s : scales) : Prop := {
  so_w : 1 <= s_w s; so_J : 1 <= s_J s; so_phi : 1 <= s_phi s; so_feat : 1 <= s_feat s; so_pot : 1 <= s_pot s;
  so_coef : 1 <= s_coef s; so_ivd : 1 <= s_ivd s; so_svd : 1 <= s_svd s; so_cpot : 1 <= s_cpot s;
  so_cvd : 1 <= s_cvd s; so_res : 1 <= s_res s
}.

(** the entropies of the package: component [i] carries feature [rho i] *)
Inductive gas (rq : kernel) : nat -> (nat -> nat) -> vec -> Prop :=
| gas_plain n sizes : q_nf rq = n -> q_entropy rq = ig_compiled n sizes -> gas rq n (fun i => i) sizes
| gas_poly nf npf sizes : q_nf rq = nf -> (forall r, (r < nf)%nat -> (1 <= npf r)%nat) ->
    q_entropy rq = pg_compiled (nsum nf npf) nf npf sizes ->
    gas rq (nsum nf npf) (feature_of nf npf) sizes.

(** [x] is a finite number of binary64 with the value [r] *)
Definition is64 (x : f64) (r : R) : Prop := fin x /\ B2R x = r.

Section Step.
Context {G G' St St' : Type}.
Variables (pf : platform64 G) (q : kernel64) (k : state64 G St) (rq : kernel) (rk : kstate G' St').
Variables (s : scales) (kx E : nat) (c : R).
Local Notation nf := (z_nf q).
Local Notation np := (z_np q).
Local Notation nc := (z_nc q).

(** the same mixture, ensemble and parameters *)
Record same_problem : Prop := {
  sp_nf : q_nf rq = nf;
  sp_np : q_np rq = np;
  sp_thr : is64 (z_thr q) (q_thr rq);
  sp_acc_J : is64 (z_acc_J q) (q_acc_J rq);
  sp_ub : is64 (z_ub q) (q_ub rq);
  sp_acc_w : is64 (z_acc_w q) (q_acc_w rq);
  sp_gas : exists rho sizes, gas rq nc rho sizes /\
    forall i, (i < nc)%nat -> z_rho q i = rho i /\ is64 (z_sizes q i) (sizes i);
  sp_ensemble : exists x, (forall i, (i < nc)%nat -> moderate (-200) 100 (x i)) /\
    match z_ensemble q with
    | Canonical64 p => q_ensemble rq = can_compiled nc x /\ forall i, (i < nc)%nat -> is64 (p i) (x i)
    | GrandCanonical64 a => q_ensemble rq = gc_compiled nc x /\ forall i, (i < nc)%nat -> is64 (a i) (x i)
    end
}.
(** the same fields and volumes, of moderate size *)
Record same_state : Prop := {
  ss_w : forall r m, (r < nf)%nat -> (m < np)%nat ->
    is64 (x_omegas k r m) (v_omegas rk r m) /\ Rabs (v_omegas rk r m) <= s_w s;
  ss_J : forall m, (m < np)%nat -> is64 (x_Js k m) (v_Js rk m) /\ Rabs (v_Js rk m) <= s_J s;
  ss_total : 1 <= rsum np (t_J rq rk);   (* the volumes above the threshold *)
  ss_exp : forall i m, (i < nc)%nat -> (m < np)%nat ->
    Rabs (B2R (x_omegas k (z_rho q i) m) * B2R (z_sizes q i)) <= INR E
}.

(** all entries of two arrays are near each other *)
Definition near_mat (n : nat) (B a : R) (A : mat64) (A' : mat) : Prop :=
  forall r m, (r < n)%nat -> (m < np)%nat -> near B a (A r m) (A' r m).
Definition near_vec (B a : R) (v : vec64) (v' : vec) : Prop := forall m, (m < np)%nat -> near B a (v m) (v' m).

(** what is assumed of matrix products, the map to features and constraints: they
    add an error of [c] units to that of their arguments (twice that of their
    arguments where these are multiplied with each other) *)
Definition cons_accurate (o : cons64 St * St) (o' : cons_obj St') : Prop :=
  forall a A A' Js J' masks M', 0 <= a -> 2 * a + c <= k_top -> near_mat nf (s_feat s) a A A' ->
    (forall m, (m < np)%nat -> near (s_J s) 0 (Js m) (J' m)) -> 1 <= rsum np J' -> (forall m, (m < np)%nat -> mask_of (masks m) (M' m)) ->
    let st := c6_prepare (fst o) A Js masks (snd o) in
    let st' := k_prepare (o_class o') np A' J' M' (o_state o') in
    near_mat nf (s_cpot s) (a + c) (c6_potential (fst o) st) (k_potential (o_class o') st') /\
    near_vec (s_cvd s) (2 * a + c) (c6_vd (fst o) st) (k_vd (o_class o') st') /\
    forall step step', near (s_res s) (a + c) (snd (c6_evolve (fst o) step masks st))
                                              (snd (k_evolve (o_class o') np step' M' st')).
Record accurate : Prop := {
  ac_feat : forall a A A', 0 <= a -> 2 * a + c <= k_top -> near_mat nc (s_phi s) a A A' ->
    near_mat nf (s_feat s) (a + c) (z_feat q A) (s_comp_to_feat (q_entropy rq) (v_phis_feat rk) A');
  ac_svd : forall a A A', 0 <= a -> 2 * a + c <= k_top -> near_mat nc (s_phi s) a A A' ->
    near_vec (s_svd s) (a + c) (z_svd q A) (s_vd (q_entropy rq) A');
  ac_pot : forall a A A', 0 <= a -> 2 * a + c <= k_top -> near_mat nf (s_feat s) a A A' ->
    near_mat nf (s_pot s) (a + c) (z_potential q A) (i_potential (q_inter rq) A');
  ac_coef : forall a A A', 0 <= a -> 2 * a + c <= k_top -> near_mat nf (s_feat s) a A A' ->
    near_vec (s_coef s) (a + c) (z_coef q A) (i_coef (q_inter rq) A');
  ac_ivd : forall a A A' P P', 0 <= a -> 2 * a + c <= k_top -> near_mat nf (s_feat s) a A A' -> near_mat nf (s_pot s) a P P' ->
    near_vec (s_ivd s) (2 * a + c) (z_ivd q P A) (i_vd (q_inter rq) P' A');
  ac_cons : Forall2 cons_accurate (x_cons k) (v_cons rk)
}.

(** ** The resulting bounds *)
Local Notation ncs := (length (x_cons k)).
(** upper bounds for the derived quantities *)
Definition S_incomp : R := 1 + INR nc * s_phi s.
Definition S_xi : R := s_coef s * S_incomp + INR nf * (s_w s + s_pot s) + INR ncs * (INR nf * s_cpot s).
Definition S_field : R := s_pot s + INR ncs * s_cpot s + S_xi.
Definition S_energy : R := s_ivd s + s_svd s + S_xi * S_incomp + INR ncs * s_cvd s + INR nf * (S_field * s_feat s).
Definition S_diff : R := INR np * (S_energy * s_J s) + S_energy.
Definition S_factor : R := 1 + S_diff * q_acc_J rq / q_ub rq.
Definition S_volume : R := s_J s + S_factor * q_acc_J rq * S_diff.
(** units of error *)
Definition k_phi : R := 2 * INR (4 * kx + 2 * E + 2 * np + 6).
Definition k_pot : R := k_phi + 2 * INR nc + 4 * c.
Definition k_xi : R := 2 * k_pot + 2 * INR nf + 2 * (INR ncs * INR nf) + 4.
Definition k_energy : R := k_xi + k_pot + 2 * INR ncs + 2 * INR nf + 4.
Definition k_diff : R := k_energy + 2 * INR np + 6.
Definition k_volume : R := 2 * k_diff + 2 * INR np + 16.

(** side conditions: no overflow, and errors that are small compared to one *)
Record limits : Prop := {
  li_scales : scales_ok s;
  li_c : 0 <= c;
  li_E : (E <= 140)%nat;
  li_k : k_volume <= k_top;
  li_S : S_diff <= bpow radix2 300;
  li_thr : bpow radix2 (-100) <= q_thr rq;
  li_J : s_J s <= bpow radix2 100;
  li_ub : bpow radix2 (-100) <= q_ub rq;
  li_acc_J : bpow radix2 (-100) <= q_acc_J rq <= 1;
  li_acc_w : bpow radix2 (-100) <= q_acc_w rq <= 1;
  li_np : (1 <= np)%nat;
  li_nf : (1 <= nf)%nat
}.

Hypothesis SP : same_problem.
Hypothesis SS : same_state.
Hypothesis AC : accurate.
Hypothesis EA : exp_accurate pf kx.
Hypothesis LI : limits.

Lemma prod_ge a b : 1 <= a -> 1 <= b -> a <= a * b.
Proof using. intros Ha Hb. rewrite <- (Rmult_1_r a) at 1. apply Rmult_le_compat_l; lra. Qed.
Lemma prod_ge_r a b : 1 <= a -> 1 <= b -> b <= a * b.
Proof using. intros Ha Hb. rewrite Rmult_comm. apply prod_ge; assumption. Qed.
Lemma INR_1 n : (1 <= n)%nat -> 1 <= INR n.
Proof using. intros H. apply le_INR in H. exact H. Qed.

Lemma scale_facts : 1 <= S_incomp /\ S_incomp <= S_xi /\ s_w s + s_pot s <= S_xi /\ s_coef s * S_incomp <= S_xi /\
  S_xi <= S_field /\ S_xi * S_incomp <= S_energy /\ S_field * s_feat s <= S_energy /\ S_field <= S_energy /\
  S_energy <= S_diff /\ INR np * (S_energy * s_J s) <= S_diff /\ S_energy * s_J s <= S_diff /\ S_diff <= bpow radix2 300.
Proof using LI.
  destruct (li_scales LI). pose proof (pos_INR nc) as P1. pose proof (pos_INR ncs) as P2.
  pose proof (INR_1 _ (li_np LI)) as P3. pose proof (INR_1 _ (li_nf LI)) as P4.
  assert (A1 : 1 <= S_incomp) by (unfold S_incomp; assert (0 <= INR nc * s_phi s) by (apply Rmult_le_pos; lra); lra).
  assert (Q1 : 0 <= INR ncs * (INR nf * s_cpot s)) by (apply Rmult_le_pos; [lra|apply Rmult_le_pos; lra]).
  assert (Q2 : s_w s + s_pot s <= INR nf * (s_w s + s_pot s)).
  { apply prod_ge_r; lra. }
  assert (Q3 : S_incomp <= s_coef s * S_incomp) by (apply prod_ge_r; lra).
  assert (A2 : S_incomp <= S_xi) by (unfold S_xi; lra).
  assert (A3 : s_w s + s_pot s <= S_xi) by (unfold S_xi; lra).
  assert (A4 : s_coef s * S_incomp <= S_xi) by (unfold S_xi; lra).
  assert (Q4 : 0 <= INR ncs * s_cpot s) by (apply Rmult_le_pos; lra).
  assert (A5 : S_xi <= S_field) by (unfold S_field; lra).
  assert (Q5 : S_field <= S_field * s_feat s) by (apply prod_ge; lra).
  assert (Q6 : S_field * s_feat s <= INR nf * (S_field * s_feat s)) by (apply prod_ge_r; lra).
  assert (Q7 : 0 <= INR ncs * s_cvd s) by (apply Rmult_le_pos; lra).
  assert (Q8 : S_xi <= S_xi * S_incomp) by (apply prod_ge; lra).
  assert (A6 : S_xi * S_incomp <= S_energy) by (unfold S_energy; lra).
  assert (A7 : S_field * s_feat s <= S_energy) by (unfold S_energy; lra).
  assert (Q9 : S_energy <= S_energy * s_J s) by (apply prod_ge; lra).
  assert (Q10 : S_energy * s_J s <= INR np * (S_energy * s_J s)) by (apply prod_ge_r; lra).
  assert (A8 : S_energy <= S_diff) by (unfold S_diff; lra).
  assert (A9 : INR np * (S_energy * s_J s) <= S_diff) by (unfold S_diff; lra).
  pose proof (li_S LI). repeat split; lra.
Qed.
Lemma unit_facts : 0 <= k_phi /\ k_phi <= k_pot /\ k_pot <= k_xi /\ k_xi <= k_energy /\ k_energy <= k_diff /\
  2 * k_diff + 2 * INR np + 16 <= k_top /\ 0 <= c /\
  0 <= INR ncs * INR nf /\ INR np <= k_top /\ 8 * INR kx <= k_top.
Proof using LI.
  pose proof (pos_INR nc) as P1. pose proof (pos_INR ncs) as P2. pose proof (pos_INR kx) as P5. pose proof (pos_INR E) as P6.
  pose proof (pos_INR np) as P3. pose proof (pos_INR nf) as P4. pose proof (li_c LI) as Hc. pose proof (li_k LI) as Hk.
  assert (Q : 0 <= INR ncs * INR nf) by (apply Rmult_le_pos; lra).
  assert (K : k_phi = 8 * INR kx + 4 * INR E + 4 * INR np + 12).
  { unfold k_phi. rewrite !plus_INR, !mult_INR. cbn [INR]. ring. }
  unfold k_volume, k_diff, k_energy, k_xi, k_pot in *. rewrite K in *. repeat split; lra.
Qed.

(** ** Masks and volumes *)
Local Notation thr := (q_thr rq).
Local Notation masks := (fun m => mask64 (z_thr q) (x_Js k m)).
Lemma mask_agree m : (m < np)%nat -> mask_of (masks m) (t_masks rq rk m).
Proof using SP SS.
  intros L. destruct (sp_thr SP) as [Ft Et]. destruct (ss_J SS m L) as [[FJ EJ] _].
  destruct (C60_masks _ _ Ft FJ) as (H1 & H2 & _). unfold mask_of, t_masks. rewrite Et, EJ in *.
  destruct (Rlt_le_dec thr (v_Js rk m)) as [A|A].
  - left. split; [apply mask_alive; exact A|apply H1; exact A].
  - right. split; [apply mask_dead; exact A|apply H2; exact A].
Qed.
Lemma Js_agree m : (m < np)%nat -> is64 (mul64 (x_Js k m) (masks m)) (t_J rq rk m) /\ moderate (-100) 100 (t_J rq rk m) /\
  Rabs (t_J rq rk m) <= s_J s.
Proof using SP SS LI.
  intros L. destruct (sp_thr SP) as [Ft Et]. destruct (ss_J SS m L) as [[FJ EJ] BJ].
  destruct (C60_masks _ _ Ft FJ) as (H1 & H2 & _). unfold t_J, t_masks. rewrite Et, EJ in *.
  pose proof (so_J _ (li_scales LI)). pose proof (li_J LI). pose proof (li_thr LI). unfold is64.
  destruct (Rlt_le_dec thr (v_Js rk m)) as [A|A].
  - rewrite H1 by exact A. rewrite mask_alive by exact A. rewrite mul_one by exact FJ. rewrite EJ, Rmult_1_r.
    split; [split; [apply mul_one_fin; exact FJ|reflexivity]|]. split; [|exact BJ].
    right. apply Rabs_le_inv in BJ. lra.
  - destruct (H2 A) as [b ->]. rewrite mask_dead by exact A. rewrite mul_zero, Rmult_0_r, Rabs_R0.
    split; [split; [destruct (x_Js k m); try discriminate FJ; reflexivity|reflexivity]|]. split; [left; reflexivity|lra].
Qed.

(** ** Fractions *)
Local Notation b64 := (boltz64 pf q (x_omegas k)).
Definition boltz_exact (i m : nat) : R := exp (- B2R (x_omegas k (z_rho q i) m) * B2R (z_sizes q i)).

Lemma rho_lt i : (i < nc)%nat -> (z_rho q i < nf)%nat.
Proof using SP.
  intros L. destruct (sp_gas SP) as (rho & sizes & HG & HR). destruct (HR i L) as [-> _]. rewrite <- (sp_nf SP).
  destruct HG as [n sz E1 E2|n npf sz E1 E2 E3].
  - rewrite E1. exact L.
  - rewrite E1. apply feature_of_lt. exact L.
Qed.
Lemma boltz_agree i m : (i < nc)%nat -> (m < np)%nat ->
  fin (b64 i m) /\ within (2 * kx + E + 1) (B2R (b64 i m)) (boltz_exact i m) /\
  bpow radix2 (-300) <= B2R (b64 i m) <= bpow radix2 300.
Proof using SP SS EA LI.
  intros Li Lm. destruct (ss_w SS (z_rho q i) m (rho_lt i Li) Lm) as [[Fw _] _].
  destruct (sp_gas SP) as (rho & sizes & _ & HR). destruct (HR i Li) as [_ [Fl _]].
  apply (boltz_near pf kx E EA (li_E LI)); auto.
  - pose proof unit_facts as (_ & _ & _ & _ & _ & _ & _ & _ & _ & U).
    apply le_IZR. rewrite <- INR_IZR_INZ. change (IZR (2 ^ 20)) with 1048576.
    unfold k_top in U. lra.
  - apply (ss_exp SS); assumption.
Qed.

(** prefactor of component [i] in exact arithmetic *)
Definition prefactor_exact (i : nat) : R :=
  match z_ensemble q with
  | Canonical64 p => B2R (p i) / mean_of np (boltz_exact i) (t_J rq rk)
  | GrandCanonical64 a => B2R (a i)
  end.

Section Real.
Variables (p0 : mat) (Q : vec) (phis : mat) (incomp : vec).
Hypothesis HP : s_partition (q_entropy rq) (q_np rq) (v_phis_comp rk) (v_omegas rk) (t_J rq rk) = Ok (p0, Q).
Hypothesis HN : n_normalize (q_ensemble rq) p0 Q (t_masks rq rk) = Ok (phis, incomp).

Lemma real_fractions i m : (i < nc)%nat -> (m < np)%nat ->
  phis i m = prefactor_exact i * boltz_exact i m * t_masks rq rk m.
Proof using SP SS HP HN.
  intros Li Lm.
  assert (B : (forall m, (m < np)%nat -> p0 i m = boltz_exact i m) /\ Q i = mean_of np (boltz_exact i) (t_J rq rk)).
  { destruct (sp_gas SP) as (rho & sizes & HG & HR). destruct (HR i Li) as [Er [_ El]].
    assert (EB : forall m, (m < np)%nat -> boltzmann (v_omegas rk (rho i) m) (sizes i) = boltz_exact i m).
    { intros j Lj. unfold boltzmann, boltz_exact. rewrite El. pose proof (rho_lt i Li) as Lr.
      destruct (ss_w SS (z_rho q i) j Lr Lj) as [[_ ->] _]. rewrite Er. reflexivity. }
    assert (EQ : ig_Q (q_np rq) (v_omegas rk (rho i)) (t_J rq rk) (sizes i) = mean_of np (boltz_exact i) (t_J rq rk)).
    { unfold ig_Q, mean_of. rewrite (sp_np SP). f_equal. apply rsum_ext. intros j Lj. rewrite EB by exact Lj. reflexivity. }
    destruct HG as [n sz E1 E2|n npf sz E1 E2 E3].
    - rewrite E2 in HP. cbn in HP. apply ig_partition_spec in HP. destruct HP as (_ & HB & HQ). split.
      + intros j Lj. rewrite HB by exact Li. apply EB. exact Lj.
      + rewrite HQ by exact Li. exact EQ.
    - rewrite E3 in HP. cbn in HP. apply pg_partition_spec in HP. destruct HP as (_ & HB & HQ).
      destruct (nsum_find _ _ _ Li) as (r & j & Hr & Hj & ->). rewrite feature_of_eq in EB, EQ by assumption. split.
      + intros j' Lj. rewrite HB by assumption. apply EB. exact Lj.
      + rewrite HQ by assumption. exact EQ. }
  destruct B as [HB HQ]. destruct (sp_ensemble SP) as (x & _ & HE). unfold prefactor_exact.
  destruct (z_ensemble q) as [p|a]; destruct HE as [HE Hx]; rewrite HE in HN; cbn in HN; destruct (Hx i Li) as [_ ->].
  - apply can_normalize_spec in HN. destruct HN as (_ & H1 & _). rewrite H1 by exact Li. rewrite HQ, HB by exact Lm. reflexivity.
  - apply gc_normalize_spec in HN. destruct HN as (H1 & _). rewrite H1 by exact Li. rewrite HB by exact Lm. reflexivity.
Qed.
Lemma real_incomp m : incomp m = (rsum nc (fun i => phis i m) - 1) * t_masks rq rk m.
Proof using SP HN.
  destruct (sp_ensemble SP) as (x & _ & HE).
  destruct (z_ensemble q) as [p|a]; destruct HE as [HE Hx]; rewrite HE in HN; cbn in HN.
  - apply can_normalize_spec in HN. destruct HN as (_ & _ & H2). apply H2.
  - apply gc_normalize_spec in HN. destruct HN as (_ & H2). apply H2.
Qed.
Variables (rk' : kstate G' St') (nv : Z) (rrep : report).
Hypothesis IF : iter_facts rq rk phis incomp rk' nv rrep.
Hypothesis Hphi : forall i m, (i < nc)%nat -> (m < np)%nat -> Rabs (phis i m) <= s_phi s.

Local Notation Js := (fun m => mul64 (x_Js k m) (masks m)).
Lemma some_J : exists m, (m < np)%nat /\ t_J rq rk m <> 0.
Proof using SP LI IF.
  pose proof (if_nv_pos IF) as P. unfold t_nv in P. rewrite (sp_np SP) in P. apply count_valid_pos in P.
  destruct P as (m & L & A). exists m. split; [exact L|]. unfold t_J, t_masks. rewrite mask_alive by exact A.
  pose proof (li_thr LI). pose proof (bpow_gt_0 radix2 (-100)). lra.
Qed.
Lemma np_small : (Z.of_nat np <= 2 ^ 20)%Z.
Proof using LI.
  pose proof unit_facts as (_ & _ & _ & _ & _ & _ & _ & _ & U & _). apply le_IZR. rewrite <- INR_IZR_INZ.
  change (IZR (2 ^ 20)) with 1048576. unfold k_top in U. lra.
Qed.
Lemma kb_small : (Z.of_nat (2 * kx + E + 1) <= 2 ^ 20)%Z.
Proof using LI.
  pose proof unit_facts as (_ & _ & _ & _ & _ & _ & _ & _ & _ & U).
  assert (Z.of_nat kx <= 2 ^ 17)%Z.
  { apply le_IZR. rewrite <- INR_IZR_INZ. change (IZR (2 ^ 17)) with 131072. unfold k_top in U. lra. }
  pose proof (li_E LI). lia.
Qed.
Lemma Js_hyp m : (m < np)%nat -> fin (Js m) /\ B2R (Js m) = t_J rq rk m /\ moderate (-100) 100 (t_J rq rk m).
Proof using SP SS LI. intros L. destruct (Js_agree m L) as ([F EJ] & M & _). auto. Qed.
Lemma mean_facts i : (i < nc)%nat ->
  eq0_64 (den64 np Js) = false /\ eq0_64 (div64 (num64 np (b64 i) Js) (den64 np Js)) = false.
Proof using SP SS EA LI IF.
  intros Li.
  destruct (mean_near np (2 * kx + E + 1) (b64 i) Js (boltz_exact i) (t_J rq rk) np_small kb_small
    (fun m L => boltz_agree i m Li L) Js_hyp some_J) as (A & _ & P & _). split; [exact A|].
  destruct (div64 _ _) as [b|b| |b mm ee He]; try reflexivity. cbn in P. lra.
Qed.
Lemma phi_near i m f : (i < nc)%nat -> (m < np)%nat ->
  prefactor64 (z_ensemble q) i (div64 (num64 np (b64 i) Js) (den64 np Js)) = Ok f ->
  near (s_phi s) k_phi (mul64 (mul64 f (b64 i m)) (masks m)) (phis i m).
Proof using SP SS EA LI IF HP HN Hphi.
  intros Li Lm Hf.
  assert (X : exists p, fin p /\ moderate (-200) 100 (B2R p) /\
    (f = p /\ prefactor_exact i = B2R p \/
     f = div64 p (div64 (num64 np (b64 i) Js) (den64 np Js)) /\ prefactor_exact i = B2R p / mean_of np (boltz_exact i) (t_J rq rk))).
  { destruct (sp_ensemble SP) as (x & Mx & HE). specialize (Mx i Li). unfold prefactor_exact. destruct (z_ensemble q) as [p|a]; cbn in Hf.
    - destruct HE as [_ Hx]. destruct (Hx i Li) as [Fp Ep]. exists (p i). rewrite Ep. split; [exact Fp|]. split; [exact Mx|].
      right. unfold sdiv64 in Hf. destruct (eq0_64 _); [discriminate|]. injection Hf as <-. auto.
    - destruct HE as [_ Hx]. destruct (Hx i Li) as [Fp Ep]. exists (a i). rewrite Ep. split; [exact Fp|]. split; [exact Mx|].
      left. injection Hf as <-. auto. }
  destruct X as (p & Fp & Mp & Hp).
  destruct (fraction_near np (2 * kx + E + 1) (b64 i) Js (boltz_exact i) (t_J rq rk) np_small kb_small
    (fun m L => boltz_agree i m Li L) Js_hyp some_J f p m (prefactor_exact i) (masks m) Fp Mp Hp Lm
    (t_masks rq rk m) (mask_agree m Lm)) as [F W].
  rewrite <- real_fractions in W by assumption.
  assert (Ek : (2 * (2 * kx + E + 1) + 2 * np + 4 = 4 * kx + 2 * E + 2 * np + 6)%nat) by lia.
  rewrite Ek in W. pose proof (Hphi i m Li Lm) as B. pose proof eps_pos.
  assert (P : 0 <= phis i m) by apply W. rewrite Rabs_pos_eq in B by exact P.
  split; [exact F|]. split; [rewrite Rabs_pos_eq; auto|]. split; [apply unit_facts|].
  assert (Sk : INR (4 * kx + 2 * E + 2 * np + 6) * eps64 <= / 2).
  { apply small_k. pose proof np_small. pose proof kb_small. lia. }
  apply Rle_trans with (1 := within_dist _ _ _ W Sk).
  unfold k_phi. rewrite <- Rmult_assoc. apply Rmult_le_compat_l; [|exact B].
  apply Rmult_le_pos; [|lra]. apply Rmult_le_pos; [lra|apply pos_INR].
Qed.

(** ** The step in binary64 arithmetic succeeds *)
Lemma prefactors_total e Qs n : (forall i, (i < n)%nat -> exists x, prefactor64 e i (Qs i) = Ok x) ->
  exists f, prefactors64 e Qs n = Ok f.
Proof using.
  clear. induction n as [|n IH]; intros H; [eexists; reflexivity|]. cbn.
  destruct IH as [f ->]; [intros; apply H; lia|]. destruct (H n ltac:(lia)) as [x ->]. eexists. reflexivity.
Qed.
Lemma masks_count : fin (sum64 np masks) /\ B2R (sum64 np masks) = IZR nv.
Proof using SP SS IF LI.
  destruct (ProofsFloatKernel.masks_sum masks np) as [F EF].
  { pose proof np_small. lia. }
  { intros m L. destruct (mask_agree m L) as [[_ H]|[_ H]]; auto. }
  split; [exact F|]. rewrite EF, (if_nv IF), <- INR_IZR_INZ. unfold t_nv, count_valid. rewrite (sp_np SP). f_equal.
  apply ncount_ext. intros m L. pose proof (mask_agree m L) as M. cbv beta in M. unfold t_masks in M.
  destruct (Rlt_le_dec thr (v_Js rk m)) as [A|A].
  - rewrite mask_alive in M by exact A. destruct M as [[_ ->]|[X _]]; [|lra].
    symmetry. apply Rltb_true. exact A.
  - rewrite mask_dead in M by exact A. destruct M as [[X _]|[_ [b ->]]]; [lra|].
    symmetry. apply Rltb_false. exact A.
Qed.
Lemma step_ok : exists k' rep, iterate64 pf q k = Ok (k', nv, rep).
Proof using SP SS EA LI IF Hphi.
  destruct masks_count as [Fm Em].
  assert (En : int64 pf (sum64 np masks) = nv) by (apply int_exact; assumption).
  assert (Pn : nv <> 0%Z) by (pose proof (if_nv IF); pose proof (if_nv_pos IF); lia).
  unfold iterate64.
  assert (EQ : exists Qs, Qs64 q (b64) Js = Ok Qs /\ forall i, (i < nc)%nat -> eq0_64 (Qs i) = false).
  { unfold Qs64. destruct nc as [|n] eqn:Enc.
    - cbn. eexists. split; [reflexivity|]. intros; lia.
    - destruct (mean_facts O ltac:(lia)) as [D _]. unfold den64 in D. rewrite D. rewrite andb_false_r.
      eexists. split; [reflexivity|]. intros i Li. cbv beta. exact (proj2 (mean_facts i ltac:(lia))). }
  destruct EQ as (Qs & EQ & HQ). cbv zeta. rewrite EQ. cbn [bind].
  destruct (prefactors_total (z_ensemble q) Qs nc) as [f Ef].
  { intros i Li. destruct (z_ensemble q); cbn; [|eexists; reflexivity]. unfold sdiv64. rewrite HQ by exact Li. eexists; reflexivity. }
  rewrite Ef. cbn [bind]. rewrite En. destruct (Z.eqb_spec nv 0) as [Z|_]; [contradiction|].
  match goal with |- context [sdiv64 (z_ub q) ?y] => assert (NZ : eq0_64 y = false) end.
  { destruct (sp_ub SP) as [Fu Eu]. pose proof (li_ub LI) as Lu. pose proof (bpow_gt_0 radix2 (-100)) as P.
    match goal with |- eq0_64 (pymax64 ?a _) = _ => set (y := a) end. clearbody y.
    unfold pymax64. destruct (lt64 y (z_ub q)) eqn:Ey.
    - destruct (z_ub q); try reflexivity. cbn in Eu. lra.
    - destruct y as [b|b| |b mm ee He]; try reflexivity. apply nlt_B2R in Ey; [|reflexivity|exact Fu]. cbn in Ey. lra. }
  unfold sdiv64 at 1. rewrite NZ. cbn [bind].
  match goal with |- context [evolve64 ?a ?b ?d ?e] => destruct (evolve64 a b d e) as [cs' res] end.
  eexists. eexists. reflexivity.
Qed.

(** ** The error of each quantity of the step *)
Variables (k' : state64 G St) (rep : report64).
Hypothesis V : values64 pf q k k' nv rep.
Local Notation vM := (vl_masks _ _ _ _ _ _ V).
Local Notation vJ := (vl_Js _ _ _ _ _ _ V).
Local Notation vphis := (vl_phis _ _ _ _ _ _ V).
Local Notation vinc := (vl_incomp _ _ _ _ _ _ V).
Local Notation vpot := (vl_pot _ _ _ _ _ _ V).
Local Notation vcs := (vl_cs _ _ _ _ _ _ V).
Local Notation vxi := (vl_xi _ _ _ _ _ _ V).
Local Notation vot := (vl_otemp _ _ _ _ _ _ V).
Local Notation vle := (vl_le _ _ _ _ _ _ V).
Local Notation vdJ := (vl_dJ _ _ _ _ _ _ V).
Local Notation vfac := (vl_factor _ _ _ _ _ _ V).
Local Notation vfeat := (z_feat q vphis).
Local Notation feat := (t_feat rq rk phis).
Local Notation pot := (t_pot rq rk phis).
Local Notation cs := (t_cs rq rk phis).

Lemma bot_small : B_bot <= bpow radix2 (-300) /\ bpow radix2 (-300) <= 1.
Proof using. clear. split; [apply bpow_le; lia|]. change 1 with (bpow radix2 0). apply bpow_le. lia. Qed.
Lemma top_large : bpow radix2 300 <= bpow radix2 700 /\ bpow radix2 700 * 16 <= B_top.
Proof using.
  clear. split; [apply bpow_le; lia|]. change 16 with (bpow radix2 4). rewrite <- bpow_plus. apply bpow_le. lia.
Qed.
(** the limits as linear facts *)
Ltac lims :=
  pose proof scale_facts as (SF1 & SF2 & SF3 & SF4 & SF5 & SF6 & SF7 & SF8 & SF9 & SF10 & SF11 & SF12);
  pose proof unit_facts as (UF1 & UF2 & UF3 & UF4 & UF5 & UF6 & UF7 & UF8 & UF9 & UF10);
  pose proof (pos_INR nc); pose proof (pos_INR nf); pose proof (pos_INR np); pose proof (pos_INR ncs);
  pose proof bot_small; pose proof top_large; pose proof bot_pos;
  destruct (li_scales LI) as [so1 so2 so3 so4 so5 so6 so7 so8 so9 so10 so11].
Lemma vM_near m : (m < np)%nat -> mask_of (vM m) (t_masks rq rk m).
Proof using SP SS. intros L. rewrite (vl_masks_eq _ _ _ _ _ _ V). apply mask_agree. exact L. Qed.
Lemma vJ_eq m : vJ m = Js m.
Proof using. rewrite (vl_Js_eq _ _ _ _ _ _ V), (vl_masks_eq _ _ _ _ _ _ V). reflexivity. Qed.
Lemma vJ_is m : (m < np)%nat -> is64 (vJ m) (t_J rq rk m).
Proof using SP SS LI. intros L. rewrite vJ_eq. apply Js_agree. exact L. Qed.
Lemma vJ_near m : (m < np)%nat -> near (s_J s) 0 (vJ m) (t_J rq rk m).
Proof using SP SS LI.
  intros L. destruct (vJ_is m L) as [F EJ]. rewrite <- EJ. apply near_exact; [exact F|]. rewrite EJ. apply Js_agree. exact L.
Qed.
Lemma vphis_near : near_mat nc (s_phi s) k_phi vphis phis.
Proof using SP SS EA LI IF HP HN Hphi.
  intros i m Li Lm. rewrite (vl_phis_eq _ _ _ _ _ _ V), (vl_masks_eq _ _ _ _ _ _ V).
  apply phi_near; try assumption. rewrite <- (vl_f_eq _ _ _ _ _ _ V i Li). f_equal.
  rewrite (vl_Qs_eq _ _ _ _ _ _ V). unfold num64, den64. f_equal; apply for_ext; intros; rewrite vJ_eq; reflexivity.
Qed.
Lemma vinc_near : near_vec S_incomp (k_phi + 2 * INR nc) vinc incomp.
Proof using SP SS EA LI IF HP HN Hphi.
  intros m L. rewrite (vl_incomp_eq _ _ _ _ _ _ V), real_incomp. apply near_mask; [|apply vM_near; exact L].
  replace (rsum nc (fun i => phis i m) - 1) with (- (1) + rsum nc (fun i => phis i m)) by ring.
  lims. unfold S_incomp in *. apply near_loop; try lra.
  - apply near_opp, near_one. lra.
  - intros i Li. apply vphis_near; assumption.
  - unfold k_pot in *. lra.
Qed.
Lemma vfeat_near : near_mat nf (s_feat s) (k_phi + c) vfeat feat.
Proof using SP SS EA LI IF HP HN Hphi AC. lims. apply (ac_feat AC); [lra|unfold k_pot in *; lra|apply vphis_near]. Qed.
Lemma vpot_near : near_mat nf (s_pot s) (k_phi + 2 * c) vpot pot.
Proof using SP SS EA LI IF HP HN Hphi AC.
  lims. unfold k_pot in *. rewrite (vl_pot_eq _ _ _ _ _ _ V). replace (k_phi + 2 * c) with (k_phi + c + c) by ring.
  apply (ac_pot AC); [lra|lra|apply vfeat_near].
Qed.
Lemma mat_mono n B a a' A A' : a <= a' -> near_mat n B a A A' -> near_mat n B a' A A'.
Proof using. clear. intros L H r m Lr Lm. apply (near_mono B B a); try lra. apply H; assumption. Qed.
Lemma vec_mono B a a' A A' : a <= a' -> near_vec B a A A' -> near_vec B a' A A'.
Proof using. clear. intros L H m Lm. apply (near_mono B B a); try lra. apply H; assumption. Qed.

Lemma vcoef_near : near_vec (s_coef s) k_pot (z_coef q vfeat) (i_coef (q_inter rq) feat).
Proof using SP SS EA LI IF HP HN Hphi AC.
  lims. apply (vec_mono _ (k_phi + c + c)); [unfold k_pot; lra|]. unfold k_pot in *. apply (ac_coef AC); [lra|lra|apply vfeat_near].
Qed.
Lemma vivd_near : near_vec (s_ivd s) (2 * k_pot) (z_ivd q vpot vfeat) (i_vd (q_inter rq) pot feat).
Proof using SP SS EA LI IF HP HN Hphi AC.
  lims. apply (vec_mono _ (2 * (k_phi + 2 * c) + c)); [unfold k_pot; lra|]. unfold k_pot in *. apply (ac_ivd AC); [lra|lra| |apply vpot_near].
  apply (mat_mono _ _ (k_phi + c)); [lra|apply vfeat_near].
Qed.
Lemma vsvd_near : near_vec (s_svd s) k_pot (z_svd q vphis) (s_vd (q_entropy rq) phis).
Proof using SP SS EA LI IF HP HN Hphi AC.
  lims. apply (vec_mono _ (k_phi + c)); [unfold k_pot; lra|]. unfold k_pot in *. apply (ac_svd AC); [lra|lra|apply vphis_near].
Qed.
(** the constraints after [prepare] *)
Definition cons_near (o : cons64 St * St) (o' : cons_obj St') : Prop :=
  near_mat nf (s_cpot s) k_pot (pot64 o) (pot_of o') /\ near_vec (s_cvd s) (2 * k_pot) (vd64 o) (vd_of o') /\
  forall step step', near (s_res s) k_pot (snd (c6_evolve (fst o) step vM (snd o)))
                       (snd (k_evolve (o_class o') np step' (t_masks rq rk) (o_state o'))).
Lemma vcs_near : Forall2 cons_near vcs cs.
Proof using SP SS EA LI IF HP HN Hphi AC.
  rewrite (vl_cs_eq _ _ _ _ _ _ V). unfold prepare64, t_cs, prepare_all. pose proof (ac_cons AC) as H.
  induction H as [|o o' l l' Ho Hl IH]; [constructor|]. cbn [map]. constructor; [|exact IH].
  lims. destruct (Ho (k_phi + c) vfeat feat vJ (t_J rq rk) vM (t_masks rq rk)) as (C1 & C2 & C3).
  - lra.
  - unfold k_pot in *. lra.
  - apply vfeat_near.
  - apply vJ_near.
  - apply (ss_total SS).
  - apply vM_near.
  - rewrite (sp_np SP). split; [|split].
    + apply (mat_mono _ _ (k_phi + c + c)); [unfold k_pot; lra|exact C1].
    + apply (vec_mono _ (2 * (k_phi + c) + c)); [unfold k_pot; lra|exact C2].
    + intros step step'. apply (near_mono (s_res s) (s_res s) (k_phi + c + c)); [lra|unfold k_pot; lra|]. apply C3.
Qed.
Lemma vcs_length : length vcs = ncs.
Proof using. rewrite (vl_cs_eq _ _ _ _ _ _ V). apply map_length. Qed.

(** a loop over the constraints that adds [g] to the exact value *)
Lemma near_each {X Y} (P : X -> Y -> Prop) (l : list X) (l' : list Y) (body : X -> f64 -> f64) (g : Y -> R) D d a0 :
  Forall2 P l l' -> 0 <= D -> 0 <= d ->
  (forall o o' B a x r, P o o' -> near B a x r -> B + D <= B_top -> a + d <= k_top -> a0 <= a ->
     near (B + D) (a + d) (body o x) (r + g o')) ->
  forall B a x r, near B a x r -> a0 <= a -> B + INR (length l) * D <= B_top -> a + INR (length l) * d <= k_top ->
    near (B + INR (length l) * D) (a + INR (length l) * d)
      (fold_left (fun acc o => body o acc) l x) (r + lsum l' g).
Proof using.
  clear. intros HF PD Pd Hb. induction HF as [|o o' l l' Ho Hl IH]; intros B a x r N La LB Lk.
  - cbn. rewrite !Rmult_0_l, !Rplus_0_r. exact N.
  - cbn [length fold_left lsum] in *. rewrite S_INR in *. pose proof (pos_INR (length l)) as PL.
    assert (0 <= INR (length l) * D) by (apply Rmult_le_pos; lra).
    assert (0 <= INR (length l) * d) by (apply Rmult_le_pos; lra).
    assert (Pa : 0 <= a) by apply N.
    replace (B + (INR (length l) + 1) * D) with ((B + D) + INR (length l) * D) by ring.
    replace (a + (INR (length l) + 1) * d) with ((a + d) + INR (length l) * d) by ring.
    replace (r + (g o' + lsum l' g)) with ((r + g o') + lsum l' g) by ring.
    apply IH; try lra. apply Hb; try assumption; lra.
Qed.

Lemma lsum_opp {Y} (l : list Y) g : lsum l (fun o => - g o) = - lsum l g.
Proof using. clear. induction l as [|o l IH]; cbn [lsum]; [ring|]. rewrite IH. ring. Qed.
Ltac done := try assumption; try lra; try (split; lra).
Lemma nf_float : fin (ofZ64 (Z.of_nat nf)) /\ B2R (ofZ64 (Z.of_nat nf)) = INR nf.
Proof using LI.
  rewrite INR_IZR_INZ. apply B2R_ofZ. lims.
  assert (INR nf <= k_top) by (unfold k_diff, k_energy in *; lra).
  assert (Z.of_nat nf <= 2 ^ 20)%Z.
  { apply le_IZR. rewrite <- INR_IZR_INZ. change (IZR (2 ^ 20)) with 1048576. unfold k_top in *. lra. }
  lia.
Qed.
Lemma vxi_near : near_vec S_xi k_xi vxi (t_xi rq rk phis incomp).
Proof using SP SS EA LI IF HP HN Hphi AC.
  intros m L. rewrite (vl_xi_eq _ _ _ _ _ _ V). unfold xi64, t_xi, xi_of. rewrite (sp_nf SP).
  destruct nf_float as [Fn En]. lims. pose proof (INR_1 _ (li_nf LI)) as Pn.
  assert (N0 : near (s_coef s * S_incomp) (2 * k_pot + 2) (mul64 (z_coef q vfeat m) (vinc m)) (i_coef (q_inter rq) feat m * incomp m)).
  { replace (2 * k_pot + 2) with (k_pot + k_pot + 2) by ring. pose proof (prod_ge_r (s_coef s) S_incomp so6 SF1). apply near_mul; done.
    - apply vcoef_near. exact L.
    - apply (near_mono S_incomp S_incomp (k_phi + 2 * INR nc)); [lra|unfold k_pot; lra|]. apply vinc_near. exact L. }
  assert (N1 : near (s_coef s * S_incomp + INR nf * (s_w s + s_pot s)) (2 * k_pot + 2 + 2 * INR nf)
     (for_ nf (fun r acc => add64 acc (minus64 (x_omegas k r m) (vpot r m))) (mul64 (z_coef q vfeat m) (vinc m)))
     (i_coef (q_inter rq) feat m * incomp m + rsum nf (fun r => v_omegas rk r m - pot r m))).
  { assert (0 <= INR ncs * (INR nf * s_cpot s)) by (apply Rmult_le_pos; [lra|apply Rmult_le_pos; lra]).
    apply (near_loop _ _ _ _ (fun r => minus64 (x_omegas k r m) (vpot r m))); try assumption; try lra.
    - intros r Lr. apply (near_mono (s_w s + s_pot s) (s_w s + s_pot s) (k_pot + 2)); [lra|lra|].
      apply near_minus; try lra.
      + destruct (ss_w SS r m Lr L) as [[F1 E1] B1]. rewrite <- E1 in B1 |- *.
        apply (near_mono (s_w s) (s_w s) 0); [lra|lra|]. apply near_exact; assumption.
      + apply (near_mono (s_pot s) (s_pot s) (k_phi + 2 * c)); [lra|unfold k_pot; lra|]. apply vpot_near; assumption.
    - unfold k_diff, k_energy, k_xi in *. lra.
    - unfold S_xi in *. lra. }
  replace (i_coef (q_inter rq) feat m * incomp m + rsum nf (fun r => v_omegas rk r m - pot r m) -
    lsum cs (fun o => rsum nf (fun r => pot_of o r m))) with
    ((i_coef (q_inter rq) feat m * incomp m + rsum nf (fun r => v_omegas rk r m - pot r m)) +
      lsum cs (fun o => - rsum nf (fun r => pot_of o r m))).
  2:{ rewrite lsum_opp. reflexivity. }
  assert (N2 : near S_xi (2 * k_pot + 2 + 2 * INR nf + INR ncs * (2 * INR nf))
     (each vcs (fun o acc => for_ nf (fun r a => minus64 a (pot64 o r m)) acc)
       (for_ nf (fun r acc => add64 acc (minus64 (x_omegas k r m) (vpot r m))) (mul64 (z_coef q vfeat m) (vinc m))))
     (i_coef (q_inter rq) feat m * incomp m + rsum nf (fun r => v_omegas rk r m - pot r m) +
      lsum cs (fun o => - rsum nf (fun r => pot_of o r m)))).
  { unfold S_xi, each. rewrite <- vcs_length.
    assert (0 <= INR nf * s_cpot s) by (apply Rmult_le_pos; lra).
    apply (near_each cons_near _ _ _ _ _ _ k_pot); try apply vcs_near; try exact N1; done.
    - intros o o' B a x r (C1 & _) N LB Lk Ld. fold (Rminus r (rsum nf (fun r0 => pot_of o' r0 m))).
      apply near_loop_minus; done. intros i Li. apply (near_mono (s_cpot s) (s_cpot s) k_pot); done. apply C1; assumption.
    - rewrite vcs_length. fold S_xi. lra.
    - rewrite vcs_length. unfold k_diff, k_energy, k_xi in *. lra. }
  unfold k_xi. replace (2 * k_pot + 2 * INR nf + 2 * (INR ncs * INR nf) + 4)
    with ((2 * k_pot + 2 + 2 * INR nf + INR ncs * (2 * INR nf)) + 2) by ring.
  apply near_div_to; try assumption.
  - apply near_mask; [exact N2|]. apply vM_near. exact L.
  - unfold k_diff, k_energy, k_xi in *. lra.
  - lra.
Qed.

Lemma w_near r m : (r < nf)%nat -> (m < np)%nat -> near (s_w s) 0 (x_omegas k r m) (v_omegas rk r m).
Proof using SS.
  intros Lr L. destruct (ss_w SS r m Lr L) as [[F1 E1] B1]. rewrite <- E1 in B1 |- *. apply near_exact; assumption.
Qed.
Lemma votemp_near : near_mat nf S_field (k_xi + 2) vot (t_otemp rq rk phis incomp).
Proof using SP SS EA LI IF HP HN Hphi AC.
  intros r m Lr L. rewrite (vl_otemp_eq _ _ _ _ _ _ V). unfold otemp64, t_otemp, omega_temp_of. lims.
  pose proof (INR_1 _ (li_nf LI)) as Pn.
  assert (Lc : INR ncs * 2 <= 2 * (INR ncs * INR nf)).
  { assert (INR ncs * 1 <= INR ncs * INR nf) by (apply Rmult_le_compat_l; lra). lra. }
  unfold S_field. apply near_add; done; [|apply vxi_near; exact L|unfold S_field in *; lra].
  apply (near_mono (s_pot s + INR ncs * s_cpot s) (s_pot s + INR ncs * s_cpot s) (k_pot + INR ncs * 2)); [lra|unfold k_xi; lra|].
  unfold each. rewrite <- vcs_length.
  apply (near_each cons_near _ _ _ (fun o' => pot_of o' r m) _ _ k_pot); done; try apply vcs_near.
  - intros o o' B a x r0 (C1 & _) N LB Lk Ld. apply near_add; done.
    apply (near_mono (s_cpot s) (s_cpot s) k_pot); done. apply C1; assumption.
  - apply (near_mono (s_pot s) (s_pot s) (k_phi + 2 * c)); [lra|unfold k_pot; lra|]. apply vpot_near; assumption.
  - rewrite vcs_length. unfold S_field in *. lra.
  - rewrite vcs_length. unfold k_diff, k_energy, k_xi in *. lra.
Qed.
Lemma vle_near : near_vec S_energy k_energy vle (t_le rq rk phis incomp).
Proof using SP SS EA LI IF HP HN Hphi AC.
  intros m L. rewrite (vl_le_eq _ _ _ _ _ _ V). unfold energy64, t_le, local_energy_of. rewrite (sp_nf SP). lims.
  assert (Pc : 0 <= INR ncs * s_cvd s) by (apply Rmult_le_pos; lra).
  assert (Pf : S_field <= S_field * s_feat s) by (apply prod_ge; lra).
  assert (Pf2 : 0 <= INR nf * (S_field * s_feat s)) by (apply Rmult_le_pos; lra).
  assert (Px : S_xi <= S_xi * S_incomp) by (apply prod_ge; lra).
  unfold S_energy. unfold k_energy.
  replace (k_xi + k_pot + 2 * INR ncs + 2 * INR nf + 4) with ((k_xi + k_pot + 2 * INR ncs + 4) + 2 * INR nf) by ring.
  apply near_loop_minus; done.
  - replace (k_xi + k_pot + 2 * INR ncs + 4) with (k_xi + k_pot + 4 + INR ncs * 2) by ring.
    unfold each. rewrite <- vcs_length.
    apply (near_each cons_near _ _ _ (fun o' => vd_of o' m) _ _ (2 * k_pot)); done; try apply vcs_near.
    + intros o o' B a x r0 (_ & C2 & _) N LB Lk Ld. apply near_add; done.
      apply (near_mono (s_cvd s) (s_cvd s) (2 * k_pot)); done. apply C2; assumption.
    + replace (k_xi + k_pot + 4) with (k_xi + k_pot + 2 + 2) by ring. apply near_add; done.
      * apply (near_mono (s_ivd s + s_svd s) (s_ivd s + s_svd s) (2 * k_pot + 2)); done.
        apply near_add; done; [apply vivd_near; exact L| |unfold S_energy in *; lra].
        apply (near_mono (s_svd s) (s_svd s) k_pot); done. apply vsvd_near; exact L.
      * apply near_mul; done; [apply vxi_near; exact L|].
        apply (near_mono S_incomp S_incomp (k_phi + 2 * INR nc)); [lra|unfold k_pot; lra|]. apply vinc_near. exact L.
      * unfold S_energy in *. lra.
    + rewrite vcs_length. unfold S_energy in *. lra.
    + rewrite vcs_length. unfold k_diff, k_energy, k_xi in *. lra.
  - intros r Lr. apply (near_mono (S_field * s_feat s) (S_field * s_feat s) ((k_xi + 2) + k_pot + 2)); done.
    apply near_mul; done; [apply votemp_near; assumption|].
    apply (near_mono (s_feat s) (s_feat s) (k_phi + c)); [lra|unfold k_pot; lra|]. apply vfeat_near; assumption.
  - unfold k_diff, k_energy in *. lra.
  - unfold S_energy in *. lra.
Qed.
Lemma nv_float : fin (ofZ64 nv) /\ B2R (ofZ64 nv) = t_n rq rk /\ 1 <= t_n rq rk.
Proof using SP IF LI.
  rewrite t_n_eq, (if_nv IF), INR_IZR_INZ. pose proof (if_nv_pos IF) as P.
  assert (Lv : (t_nv rq rk <= np)%nat) by (rewrite <- (sp_np SP); apply ncount_le).
  destruct (B2R_ofZ (Z.of_nat (t_nv rq rk))) as [F EF].
  { pose proof np_small. lia. }
  split; [exact F|]. split; [exact EF|]. rewrite <- INR_IZR_INZ. apply INR_1. exact P.
Qed.
Lemma vmean_near : near (INR np * (S_energy * s_J s)) (k_energy + 2 * INR np + 4) (vl_mean _ _ _ _ _ _ V) (t_mean rq rk phis incomp).
Proof using SP SS EA LI IF HP HN Hphi AC.
  rewrite (vl_mean_eq _ _ _ _ _ _ V). unfold t_mean. rewrite (sp_np SP). destruct nv_float as (Fn & En & Ln). lims.
  pose proof (INR_1 _ (li_np LI)) as Pn. assert (S_energy <= S_energy * s_J s) by (apply prod_ge; lra).
  assert (S_energy * s_J s <= INR np * (S_energy * s_J s)) by (apply prod_ge_r; lra).
  replace (k_energy + 2 * INR np + 4) with ((k_energy + 2) + 2 * INR np + 2) by ring.
  unfold k_diff in *. apply near_div_to; done.
  apply near_sum; done.
  intros m L. replace (k_energy + 2) with (k_energy + 0 + 2) by ring.
  apply near_mul; done; [apply vle_near; exact L|apply vJ_near; exact L].
Qed.
Lemma vdJ_near : near_vec S_diff k_diff vdJ (t_Jdiff rq rk phis incomp).
Proof using SP SS EA LI IF HP HN Hphi AC.
  intros m L. rewrite (vl_dJ_eq _ _ _ _ _ _ V). unfold t_Jdiff. apply near_mask; [|apply vM_near; exact L]. lims.
  unfold S_diff, k_diff in *. replace (k_energy + 2 * INR np + 6) with ((k_energy + 2 * INR np + 4) + 2) by ring.
  apply near_minus; done; [apply vmean_near|].
  apply (near_mono S_energy S_energy k_energy); done. apply vle_near. exact L.
Qed.

(** ** Errors, fields and volumes *)
Lemma incomp_error_near : near S_incomp (k_phi + 2 * INR nc) (r6_incomp rep) (e_incomp rrep).
Proof using SP SS EA LI IF HP HN Hphi V.
  rewrite (vl_e_incomp _ _ _ _ _ _ V), (if_e_incomp IF), (sp_np SP). apply near_amax; [apply (li_np LI)|].
  intros m L. apply near_abs. apply vinc_near. exact L.
Qed.
Lemma volume_error_near : near S_diff k_diff (r6_Js rep) (e_Js rrep).
Proof using SP SS EA LI IF HP HN Hphi AC V.
  rewrite (vl_e_Js _ _ _ _ _ _ V), (if_e_Js IF). unfold t_maxJ. rewrite (sp_np SP). apply near_amax; [apply (li_np LI)|].
  intros m L. apply near_abs. apply vdJ_near. exact L.
Qed.
Lemma vdiff_near : near_mat nf (S_field + s_w s) (k_xi + 4)
  (fun r m => mul64 (minus64 (vot r m) (x_omegas k r m)) (vM m)) (t_diff rq rk phis incomp).
Proof using SP SS EA LI IF HP HN Hphi AC V.
  intros r m Lr L. unfold t_diff. apply near_mask; [|apply vM_near; exact L]. lims.
  replace (k_xi + 4) with (k_xi + 2 + 2) by ring. apply near_minus; done; [apply votemp_near; assumption|].
  apply (near_mono (s_w s) (s_w s) 0); done. apply w_near; assumption.
Qed.
Lemma omega_error_near B a D64 D : 0 <= B -> 0 <= a -> (1 <= np)%nat -> near_mat nf B a D64 D ->
  near B a (omega_error64 nf np D64) (max_omega_diff nf np D).
Proof using.
  clear. intros PB Pa Ln H. unfold omega_error64, max_omega_diff.
  assert (P : forall n, (n <= nf)%nat -> near B a
    (for_ n (fun r acc => pymax64 acc (amax64 np (D64 r))) zero64) (for_ n (fun r acc => Rmax acc (vmax np (D r))) 0)).
  { induction n as [|n IH]; intros L; cbn [for_]; [apply near_zero; lra|].
    apply near_pymax; [apply IH; lia|]. apply near_amax; [exact Ln|]. intros m Lm. apply H; [lia|exact Lm]. }
  apply P. lia.
Qed.
Lemma field_error_near : near (S_field + s_w s) (k_xi + 4) (r6_omega rep) (e_omega rrep).
Proof using SP SS EA LI IF HP HN Hphi AC V.
  rewrite (vl_e_omega _ _ _ _ _ _ V), (if_e_omega IF), (sp_nf SP), (sp_np SP). lims.
  apply omega_error_near; [lra|lra|apply (li_np LI)|apply vdiff_near].
Qed.
Lemma residue_near : near (s_res s) k_pot (r6_cons rep) (e_cons rrep).
Proof using SP SS EA LI IF HP HN Hphi AC V.
  rewrite (vl_e_cons _ _ _ _ _ _ V), (if_e_cons IF). unfold t_evolve. rewrite (sp_np SP).
  generalize (mul64 vfac (z_acc_w q)) as step64. generalize (t_factor rq rk phis incomp * q_acc_w rq) as step. intros step step64.
  pose proof vcs_near as H. lims.
  assert (Z : near (s_res s) k_pot zero64 0) by (apply near_zero; lra).
  revert Z. generalize zero64 as w64. generalize 0 as w.
  induction H as [|o o' l l' Ho Hl IH]; intros w w64 N; cbn [evolve64 evolve_all]; [exact N|].
  destruct Ho as (_ & _ & C3). specialize (C3 step64 step).
  destruct (c6_evolve _ _ _ _) as [s1 x1]. destruct (k_evolve _ _ _ _ _) as [s2 x2]. cbn [snd] in C3.
  specialize (IH (Rmax w x2) (pymax64 w64 x1) (near_pymax _ _ _ _ _ _ N C3)).
  destruct (evolve64 _ _ _ _) as [c1 y1]. destruct (evolve_all _ _ _ _ _) as [c2 y2]. exact IH.
Qed.

Lemma factor_facts : 0 < q_ub rq /\ bpow radix2 (-100) <= S_diff * q_acc_J rq <= bpow radix2 300 /\
  1 <= S_factor <= 2 * bpow radix2 400 /\ bpow radix2 (-100) <= S_factor * q_acc_J rq <= 2 * bpow radix2 400 /\
  bpow radix2 (-100) <= S_factor * q_acc_w rq <= 2 * bpow radix2 400 /\
  bpow radix2 (-100) <= S_factor * q_acc_J rq * S_diff <= 2 * bpow radix2 700 /\
  bpow radix2 (-100) <= bpow radix2 100 /\ bpow radix2 100 <= bpow radix2 700 /\ 1 <= bpow radix2 300 /\
  bpow radix2 400 <= bpow radix2 700 /\ bpow radix2 (-300) <= bpow radix2 (-100).
Proof using LI.
  lims. destruct (li_acc_J LI) as [A1 A2]. destruct (li_acc_w LI) as [W1 W2]. pose proof (li_ub LI) as U.
  pose proof (bpow_gt_0 radix2 (-100)) as P. pose proof (bpow_gt_0 radix2 300) as P3. pose proof (bpow_gt_0 radix2 400) as P4.
  assert (Sd : 1 <= S_diff) by lra.
  assert (Pu : 0 < q_ub rq) by lra.
  assert (B1 : q_acc_J rq <= S_diff * q_acc_J rq).
  { rewrite <- (Rmult_1_l (q_acc_J rq)) at 1. apply Rmult_le_compat_r; lra. }
  assert (B2 : S_diff * q_acc_J rq <= bpow radix2 300).
  { apply Rle_trans with (S_diff * 1); [apply Rmult_le_compat_l; lra|lra]. }
  assert (I : 0 < / q_ub rq <= bpow radix2 100).
  { split; [apply Rinv_0_lt_compat; lra|]. replace (bpow radix2 100) with (/ bpow radix2 (-100)) by (rewrite <- bpow_opp; reflexivity).
    apply Rinv_le_contravar; assumption. }
  assert (B3 : 0 <= S_diff * q_acc_J rq / q_ub rq <= bpow radix2 400).
  { unfold Rdiv. split; [apply Rmult_le_pos; lra|]. change 400%Z with (300 + 100)%Z. rewrite bpow_plus.
    apply Rmult_le_compat; lra. }
  assert (L1 : 1 <= bpow radix2 400) by (change 1 with (bpow radix2 0); apply bpow_le; lia).
  assert (L2 : 1 <= bpow radix2 300) by (change 1 with (bpow radix2 0); apply bpow_le; lia).
  assert (F : 1 <= S_factor <= 2 * bpow radix2 400) by (unfold S_factor; lra).
  assert (G1 : forall a, bpow radix2 (-100) <= a <= 1 -> bpow radix2 (-100) <= S_factor * a <= 2 * bpow radix2 400).
  { intros a Ha. split.
    - apply Rle_trans with (1 * a); [lra|apply Rmult_le_compat_r; lra].
    - apply Rle_trans with (S_factor * 1); [apply Rmult_le_compat_l; lra|lra]. }
  pose proof (G1 _ (conj A1 A2)) as G2.
  repeat split; try lra; try (apply G1; split; assumption).
  - apply Rle_trans with (S_factor * q_acc_J rq * 1); [lra|apply Rmult_le_compat_l; lra].
  - change 700%Z with (400 + 300)%Z. rewrite bpow_plus, <- Rmult_assoc. apply Rmult_le_compat; lra.
  - apply bpow_le. lia.
  - apply bpow_le. lia.
  - apply bpow_le. lia.
  - apply bpow_le. lia.
Qed.
Lemma exact_near (x : f64) r : is64 x r -> 0 <= r -> near r 0 x r.
Proof using. clear. intros [F <-] P. apply near_exact; [exact F|]. rewrite Rabs_pos_eq; lra. Qed.
Lemma vfac_near : near S_factor (k_diff + 4) vfac (t_factor rq rk phis incomp).
Proof using SP SS EA LI IF HP HN Hphi AC V.
  pose proof (vl_factor_eq _ _ _ _ _ _ V) as H. unfold sdiv64 in H. destruct (eq0_64 _); [discriminate|]. injection H as H.
  rewrite <- H. unfold t_factor, t_change. lims. destruct factor_facts as (FF1 & FF2 & FF3 & FF4 & FF5 & FF6 & FF7 & FF8 & FF9 & FF10 & FF11).
  destruct (sp_ub SP) as [Fu Eu]. unfold S_factor. replace (k_diff + 4) with ((k_diff + 0 + 2) + 2) by ring.
  apply near_ratio; done.
  - apply near_mul; done.
    + rewrite <- (if_e_Js IF). apply volume_error_near.
    + apply exact_near; [apply (sp_acc_J SP)|]. pose proof (li_acc_J LI). pose proof (bpow_gt_0 radix2 (-100)). lra.
  - unfold S_factor in *. lra.
Qed.

Definition S_omega : R := s_w s + S_factor * q_acc_w rq * (S_field + s_w s).
Definition k_omega : R := k_diff + k_xi + 14.
Lemma fields_near : near_mat nf S_omega k_omega (x_omegas k') (v_omegas rk').
Proof using SP SS EA LI IF HP HN Hphi AC V.
  intros r m Lr L. rewrite (vl_omegas' _ _ _ _ _ _ V), (if_omegas IF). unfold t_omegas.
  apply near_mask; [|apply vM_near; exact L]. lims. destruct factor_facts as (FF1 & FF2 & FF3 & FF4 & FF5 & FF6 & FF7 & FF8 & FF9 & FF10 & FF11).
  pose proof (bpow_gt_0 radix2 (-100)) as P100.
  assert (Bt : bpow radix2 (-300) <= bpow radix2 (-100)) by (apply bpow_le; lia).
  assert (M1 : bpow radix2 (-100) <= S_factor * q_acc_w rq * (S_field + s_w s)).
  { apply Rle_trans with (S_factor * q_acc_w rq * 1); [lra|apply Rmult_le_compat_l; lra]. }
  assert (M2 : S_factor * q_acc_w rq * (S_field + s_w s) <= 4 * bpow radix2 700).
  { change 700%Z with (400 + 300)%Z. rewrite bpow_plus. pose proof (bpow_gt_0 radix2 400).
    apply Rle_trans with ((2 * bpow radix2 400) * (2 * bpow radix2 300)); [apply Rmult_le_compat; lra|lra]. }
  unfold S_omega, k_omega. replace (k_diff + k_xi + 14) with (((k_diff + 4 + 0 + 2) + (k_xi + 4) + 2) + 2) by ring.
  apply near_add; done.
  - apply (near_mono (s_w s) (s_w s) 0); done. apply w_near; assumption.
  - apply near_mul; done; [|apply vdiff_near; assumption].
    apply near_mul; done; [apply vfac_near|]. apply exact_near; [apply (sp_acc_w SP)|]. pose proof (li_acc_w LI). lra.
Qed.
(** the constraints after the step: each is related as [evolves] says *)
Definition evolves (Rel : cons64 St * St -> cons_obj St' -> Prop) (o : cons64 St * St) (o' : cons_obj St') : Prop :=
  forall A A' Js J' masks M' step step', near_mat nf (s_feat s) (k_phi + c) A A' ->
    (forall m, (m < np)%nat -> near (s_J s) 0 (Js m) (J' m)) -> 1 <= rsum np J' -> (forall m, (m < np)%nat -> mask_of (masks m) (M' m)) ->
    near (S_factor * q_acc_w rq) (k_diff + 6) step step' ->
    Rel (fst o, fst (c6_evolve (fst o) step masks (c6_prepare (fst o) A Js masks (snd o))))
        (set_state o' (fst (k_evolve (o_class o') np step' M' (k_prepare (o_class o') np A' J' M' (o_state o'))))).
Lemma constraints_near Rel : Forall2 (evolves Rel) (x_cons k) (v_cons rk) -> Forall2 Rel (x_cons k') (v_cons rk').
Proof using SP SS EA LI IF HP HN Hphi AC V.
  intros H. rewrite (vl_cons' _ _ _ _ _ _ V), (if_cons IF). unfold t_evolve. rewrite (vl_cs_eq _ _ _ _ _ _ V).
  unfold prepare64, t_cs, prepare_all. rewrite (sp_np SP).
  assert (N : near (S_factor * q_acc_w rq) (k_diff + 6) (mul64 vfac (z_acc_w q)) (t_factor rq rk phis incomp * q_acc_w rq)).
  { lims. destruct factor_facts as (FF1 & FF2 & FF3 & FF4 & FF5 & FF6 & FF7 & FF8 & FF9 & FF10 & FF11).
    replace (k_diff + 6) with (k_diff + 4 + 0 + 2) by ring. apply near_mul; done; [apply vfac_near|].
    apply exact_near; [apply (sp_acc_w SP)|]. pose proof (li_acc_w LI). pose proof (bpow_gt_0 radix2 (-100)). lra. }
  generalize zero64 as w64. generalize 0 as w.
  induction H as [|o o' l l' Ho Hl IH]; intros w w64; cbn [map evolve64 evolve_all fst snd set_state o_class o_state]; [constructor|].
  specialize (Ho vfeat feat vJ (t_J rq rk) vM (t_masks rq rk) _ _ vfeat_near vJ_near (ss_total SS) vM_near N).
  destruct (c6_evolve _ _ _ _) as [s1 x1]. destruct (k_evolve _ _ _ _ _) as [s2 x2]. cbn [fst] in Ho.
  specialize (IH (Rmax w x2) (pymax64 w64 x1)).
  destruct (evolve64 _ _ _ _) as [c1 y1]. destruct (evolve_all _ _ _ _ _) as [c2 y2]. cbn [fst] in *.
  constructor; [exact Ho|exact IH].
Qed.
Lemma vJ1_near : near_vec S_volume (2 * k_diff + 10) (vl_Js1 _ _ _ _ _ _ V) (t_J1 rq rk phis incomp).
Proof using SP SS EA LI IF HP HN Hphi AC V.
  intros m L. rewrite (vl_Js1_eq _ _ _ _ _ _ V). unfold t_J1.
  apply near_mask; [|apply vM_near; exact L]. lims. destruct factor_facts as (FF1 & FF2 & FF3 & FF4 & FF5 & FF6 & FF7 & FF8 & FF9 & FF10 & FF11).
  pose proof (bpow_gt_0 radix2 (-100)) as P100. pose proof (li_J LI) as LJ.
  assert (Bt : bpow radix2 (-300) <= bpow radix2 (-100)) by (apply bpow_le; lia).
  assert (Kt : 2 * k_diff + 8 <= k_top) by lra.
  unfold S_volume. replace (2 * k_diff + 10) with (((k_diff + 4 + 0 + 2) + k_diff + 2) + 2) by ring.
  apply near_add; done.
  - apply (near_mono (s_J s) (s_J s) 0); done. apply vJ_near; assumption.
  - apply near_mul; done; [|apply vdJ_near; assumption].
    apply near_mul; done; [apply vfac_near|]. apply exact_near; [apply (sp_acc_J SP)|]. pose proof (li_acc_J LI). lra.
Qed.
Definition S_Js : R := S_volume + (1 + INR np * S_volume).
Lemma volumes_near : near_vec S_Js k_volume (x_Js k') (v_Js rk').
Proof using SP SS EA LI IF HP HN Hphi AC V.
  intros m L. rewrite (vl_Js' _ _ _ _ _ _ V), (if_Js IF). unfold t_J2, t_shift. rewrite (sp_np SP).
  apply near_mask; [|apply vM_near; exact L]. lims. destruct factor_facts as (FF1 & FF2 & FF3 & FF4 & FF5 & FF6 & FF7 & FF8 & FF9 & FF10 & FF11).
  destruct nv_float as (Fn & En & Ln). pose proof (INR_1 _ (li_np LI)) as Pn. pose proof (li_J LI) as LJ.
  pose proof (bpow_gt_0 radix2 (-100)) as P100.
  assert (V1 : 1 <= S_volume <= 4 * bpow radix2 700) by (unfold S_volume; lra).
  assert (V2 : S_volume <= INR np * S_volume) by (apply prod_ge_r; lra).
  assert (V3 : INR np * S_volume <= bpow radix2 722).
  { change 722%Z with (22 + 700)%Z. rewrite bpow_plus. change (bpow radix2 22) with 4194304. unfold k_top in UF9.
    apply Rle_trans with (1048576 * (4 * bpow radix2 700)); [apply Rmult_le_compat; lra|lra]. }
  assert (V4 : bpow radix2 722 * 16 <= B_top).
  { change 16 with (bpow radix2 4). rewrite <- bpow_plus. apply bpow_le. lia. }
  unfold S_Js, k_volume in *. replace (2 * k_diff + 2 * INR np + 16) with ((2 * k_diff + 2 * INR np + 14) + 2) by ring.
  apply near_add; done.
  - apply (near_mono S_volume S_volume (2 * k_diff + 10)); done. apply vJ1_near; assumption.
  - replace (2 * k_diff + 2 * INR np + 14) with (((2 * k_diff + 10) + 2 * INR np + 2) + 2) by ring.
    apply near_minus; done; [apply near_one; lra|]. apply near_div_to; done. apply near_sum; done.
    intros i Li. apply vJ1_near. exact Li.
Qed.
End Real.

(** A step of the iteration in binary64 arithmetic succeeds whenever the step in
    exact arithmetic does, and all it produces is within a stated distance. *)
Definition phis_bounded (A : mat) : Prop := forall i m, (i < nc)%nat -> (m < np)%nat -> Rabs (A i m) <= s_phi s.

(** the results of a step in binary64 arithmetic are near those of a step in exact
    arithmetic *)
Record follows {G1 St1} (k' : state64 G St) (rep : report64) (rk' : kstate G1 St1) (rrep : report) : Prop := {
  fo_fields : near_mat nf S_omega k_omega (x_omegas k') (v_omegas rk');
  fo_volumes : near_vec S_Js k_volume (x_Js k') (v_Js rk');
  fo_phis : near_mat nc (s_phi s) k_phi (x_comp k') (v_phis_comp rk');
  fo_feat : near_mat nf (s_feat s) (k_phi + c) (x_featv k') (v_phis_feat rk');
  fo_e_incomp : near S_incomp (k_phi + 2 * INR nc) (r6_incomp rep) (e_incomp rrep);
  fo_e_omega : near (S_field + s_w s) (k_xi + 4) (r6_omega rep) (e_omega rrep);
  fo_e_Js : near S_diff k_diff (r6_Js rep) (e_Js rrep);
  fo_e_cons : near (s_res s) k_pot (r6_cons rep) (e_cons rrep)
}.

Theorem C96_step_accurate rk' nv rrep : iterate rq rk = Ok (rk', nv, rrep) -> phis_bounded (v_phis_comp rk') ->
  exists k' rep, iterate64 pf q k = Ok (k', nv, rep) /\ follows k' rep rk' rrep.
Proof using SP SS EA LI AC.
  intros H Hb. destruct (iterate_inv _ _ _ _ _ H) as (p0 & Q & phis & incomp & HP & HN & IF).
  assert (Hphi : forall i m, (i < nc)%nat -> (m < np)%nat -> Rabs (phis i m) <= s_phi s).
  { intros i m Li L. rewrite <- (if_comp IF). apply Hb; assumption. }
  assert (SO : exists k' rep, iterate64 pf q k = Ok (k', nv, rep)) by (eapply step_ok; eassumption).
  destruct SO as (k' & rep & HI).
  pose proof (iterate64_inv _ _ _ _ _ _ HI) as V.
  exists k', rep. split; [exact HI|].
  split; rewrite ?(if_comp IF), ?(if_feat IF), ?(vl_comp' _ _ _ _ _ _ V), ?(vl_feat' _ _ _ _ _ _ V).
  - eapply fields_near; eassumption.
  - eapply volumes_near; eassumption.
  - eapply vphis_near; eassumption.
  - eapply vfeat_near; eassumption.
  - eapply incomp_error_near; eassumption.
  - eapply field_error_near; eassumption.
  - eapply volume_error_near; eassumption.
  - eapply residue_near; eassumption.
Qed.
Lemma constraints_follow Rel rk' nv rrep k' rep : iterate rq rk = Ok (rk', nv, rrep) -> phis_bounded (v_phis_comp rk') ->
  iterate64 pf q k = Ok (k', nv, rep) -> Forall2 (evolves Rel) (x_cons k) (v_cons rk) -> Forall2 Rel (x_cons k') (v_cons rk').
Proof using SP SS EA LI AC.
  intros H Hb HI. destruct (iterate_inv _ _ _ _ _ H) as (p0 & Q & phis & incomp & HP & HN & IF).
  assert (Hphi : forall i m, (i < nc)%nat -> (m < np)%nat -> Rabs (phis i m) <= s_phi s).
  { intros i m Li L. rewrite <- (if_comp IF). apply Hb; assumption. }
  eapply constraints_near; try eassumption. exact (iterate64_inv _ _ _ _ _ _ HI).
Qed.
End Step.
