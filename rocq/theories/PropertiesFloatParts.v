(** PropertiesFloatParts.v -- the parts of the package in binary64 arithmetic meet
    the assumptions of C96. *)

From Flocq Require Import Core BinarySingleNaN.
From Coq Require Import Reals ZArith List Bool Arith Lia Lra.
From Verif Require Import Base ModelParts ModelKernel ProofsParts ProofsKernel ProofsBounds ProofsEquilibrium
  ModelFloat ModelFloatKernel ModelFloatParts PropertiesFloat ProofsFloatKernel ProofsRounding PropertiesRounding
  ProofsFloatError PropertiesFloatError.
Import ListNotations.
Open Scope R_scope.

(** Whatever the order of its additions, a dot product of numbers with errors has
    at most this error. *)
Definition dot_accurate (dot : nat -> vec64 -> vec64 -> f64) : Prop :=
  forall n Bx By kx ky x y (x' y' : vec), (1 <= n)%nat ->
    (forall i, (i < n)%nat -> near Bx kx (x i) (x' i)) -> (forall i, (i < n)%nat -> near By ky (y i) (y' i)) ->
    kx + ky + 2 + 2 * INR n <= k_top -> B_bot <= Bx * By -> INR n * (Bx * By) <= B_top ->
    near (INR n * (Bx * By)) (kx + ky + 2 + 2 * INR n) (dot n x y) (rsum n (fun i => x' i * y' i)).

Lemma dot_loop_accurate : dot_accurate dot_loop.
Proof.
  intros n Bx By kx ky x y x' y' Ln Hx Hy Lk LB LT. pose proof bot_pos. apply le_INR in Ln. cbn [INR] in Ln.
  assert (0 <= kx) by (apply (Hx O); apply INR_lt; cbn; lra). assert (0 <= ky) by (apply (Hy O); apply INR_lt; cbn; lra).
  assert (Bx * By <= INR n * (Bx * By)) by (rewrite <- (Rmult_1_l (Bx * By)) at 1; apply Rmult_le_compat_r; lra).
  apply near_sum; try lra. intros i Li. apply near_mul; auto; lra.
Qed.

(** a quotient with an inexact divisor *)
Lemma near_quot B D k kd x y r t : near B k x r -> near D kd y t -> 1 <= t -> kd * eps64 * D <= / 2 -> 1 <= D ->
  k + kd <= k_top -> B_bot <= B -> 2 * (B * D) <= B_top -> near (2 * (B * D)) (k + kd + 2) (div64 x y) (r / t).
Proof.
  intros N M Lt Ld LD Lk LB LT. pose proof (near_scale _ _ _ _ N) as PB. destruct N as (Fx & Lr & Pk & Ex), M as (Fy & LtD & Pd & Ey).
  pose proof eps_pos as Pe. pose proof bot_pos as Pb.
  assert (Y : / 2 <= B2R y) by (apply Rabs_le_inv in Ey; lra).
  assert (Iy : 0 < / B2R y <= 2).
  { split; [apply Rinv_0_lt_compat; lra|]. replace 2 with (/ / 2) by lra. apply Rinv_le_contravar; lra. }
  assert (It : 0 < / t <= 1).
  { split; [apply Rinv_0_lt_compat; lra|]. rewrite <- Rinv_1. apply Rinv_le_contravar; lra. }
  assert (BD : B <= B * D) by (rewrite <- (Rmult_1_r B) at 1; apply Rmult_le_compat_l; lra).
  assert (LY : Rabs (r / t) <= 2 * (B * D)).
  { unfold Rdiv. rewrite Rabs_mult, (Rabs_pos_eq (/ t)) by lra. apply Rle_trans with (B * 1); [|lra].
    apply Rmult_le_compat; try lra. apply Rabs_pos. }
  assert (E1 : 0 <= k * eps64) by (apply Rmult_le_pos; lra).
  assert (E2 : 0 <= kd * eps64) by (apply Rmult_le_pos; lra).
  assert (LX : Rabs (B2R x / B2R y - r / t) <= (k + kd) * eps64 * (2 * (B * D))).
  { replace (B2R x / B2R y - r / t) with ((B2R x - r) * / B2R y + (r / t) * ((t - B2R y) * / B2R y)) by (field; lra).
    apply Rle_trans with (1 := Rabs_triang _ _). rewrite !Rabs_mult, (Rabs_pos_eq (/ B2R y)) by lra.
    rewrite (Rabs_minus_sym t).
    apply Rle_trans with ((k * eps64 * B) * 2 + B * ((kd * eps64 * D) * 2)).
    - apply Rplus_le_compat.
      + apply Rmult_le_compat; try lra. apply Rabs_pos.
      + apply Rmult_le_compat; [apply Rabs_pos|apply Rmult_le_pos; [apply Rabs_pos|lra]| |].
        * unfold Rdiv. rewrite Rabs_mult, (Rabs_pos_eq (/ t)) by lra. apply Rle_trans with (B * 1); [|lra].
          apply Rmult_le_compat; try lra. apply Rabs_pos.
        * apply Rmult_le_compat; try lra. apply Rabs_pos.
    - replace ((k + kd) * eps64 * (2 * (B * D))) with ((k * eps64) * (B * D) * 2 + B * ((kd * eps64 * D) * 2)) by ring.
      apply Rplus_le_compat_r. apply Rmult_le_compat_r; [lra|]. apply Rmult_le_compat_l; lra. }
  pose proof (k_eps (k + kd) ltac:(lra)) as Ke.
  assert (F : fin (div64 x y)).
  { apply div_in_range; try assumption; [lra|]. apply small_range.
    replace (B2R x / B2R y) with (r / t + (B2R x / B2R y - r / t)) by ring.
    apply Rle_trans with (1 := Rabs_triang _ _).
    assert ((k + kd) * eps64 * (2 * (B * D)) <= 1 * (2 * (B * D))) by (apply Rmult_le_compat_r; lra). lra. }
  split; [exact F|]. split; [exact LY|]. split; [lra|].
  rewrite div_round by (try exact F; lra). destruct (RN_any (B2R x / B2R y)) as (d & e & Le1 & Le & ->). fold tiny in Le.
  assert (0 <= eps64 * (2 * (B * D))) by (apply Rmult_le_pos; lra).
  apply round_step; try assumption; try lra.
  apply Rle_trans with (1 := Le). apply tiny_bot. lra.
Qed.

Lemma is64_near B x r : is64 x r -> Rabs r <= B -> near B 0 x r.
Proof. intros [F <-] L. apply near_exact; assumption. Qed.
Lemma half_near : near (/ 2) 0 half64 (1 / 2).
Proof.
  replace (1 / 2) with (/ 2) by lra. rewrite <- B2R_half at 2. apply near_exact; [apply fin_half|].
  rewrite B2R_half, Rabs_pos_eq; lra.
Qed.
Lemma bot_half : B_bot <= / 2.
Proof. change (/ 2) with (bpow radix2 (-1)). apply bpow_le. lia. Qed.
Lemma two_near : near 2 0 two64 2.
Proof.
  apply is64_near; [|rewrite Rabs_pos_eq; lra]. destruct (B2R_ofZ 2) as [F E]; [lia|]. split; [exact F|exact E].
Qed.
Lemma first64_eq npf r : first64 npf r = nsum r npf.
Proof. induction r as [|r IH]; [reflexivity|]. cbn. unfold first64 in IH. rewrite IH. reflexivity. Qed.

(* ------------------------------------------------------------------ *)
(** * Flory-Huggins interaction and ideal gas *)

Section Mixture.
Context {St St' G' : Type}.
Variables (dot : nat -> vec64 -> vec64 -> f64) (q : kernel64) (rq : kernel) (rk : kstate G' St') (s : scales) (c : R).
Local Notation nf := (z_nf q).
Local Notation np := (z_np q).
Local Notation nc := (z_nc q).
Variables (chis64 : mat64) (coef64 : f64) (chis : mat) (sh X : R) (npf : nat -> nat) (sizes : vec).

(** the functions of the package, with [dot] for the products of matrices *)
Record flory64 : Prop := {
  fl_pot : z_potential q = fh64_potential dot nf chis64;
  fl_coef : z_coef q = fun _ _ => coef64;
  fl_ivd : z_ivd q = fh64_vd nf;
  fl_svd : z_svd q = ig64_vd nc (z_sizes q);
  fl_gas : z_feat q = ig64_feat /\ nc = nf /\ q_entropy rq = ig_compiled nc sizes \/
           z_feat q = pg64_feat npf /\ nc = nsum nf npf /\ (forall r, (r < nf)%nat -> (1 <= npf r)%nat) /\
             q_entropy rq = pg_compiled nc nf npf sizes;
  fl_inter : q_inter rq = fh_compiled nf chis sh;
  fl_chis : forall r t, (r < nf)%nat -> (t < nf)%nat -> is64 (chis64 r t) (chis r t) /\ Rabs (chis r t) <= X;
  fl_sizes : forall i, (i < nc)%nat -> is64 (z_sizes q i) (sizes i) /\ 1 <= sizes i;
  fl_coef_near : near (s_coef s) c coef64 (mat_sum nf chis + sh * INR nf * INR nf)
}.
(** scales that fit *)
Record flory_scales : Prop := {
  fs_ok : scales_ok s;
  fs_X : 1 <= X;
  fs_nf : (1 <= nf)%nat;
  fs_nc : (nf <= nc)%nat;
  fs_feat : INR nc * s_phi s <= s_feat s;
  fs_pot : INR nf * (X * s_feat s) <= s_pot s;
  fs_ivd : INR nf * (s_pot s * s_feat s) <= s_ivd s;
  fs_svd : INR nc * s_phi s <= s_svd s;
  fs_top : s_ivd s + s_svd s <= B_top;
  fs_c : 2 * INR nc + 4 <= c
}.
Hypothesis FL : flory64.
Hypothesis FS : flory_scales.
Hypothesis DA : dot_accurate dot.

Ltac fs := destruct (fs_ok FS) as [so1 so2 so3 so4 so5 so6 so7 so8 so9 so10 so11];
  pose proof (fs_X FS) as fX; pose proof (INR_1 _ (fs_nf FS)) as fn; pose proof (le_INR _ _ (fs_nc FS)) as fc;
  pose proof (fs_feat FS) as f1; pose proof (fs_pot FS) as f2; pose proof (fs_ivd FS) as f3; pose proof (fs_svd FS) as f4;
  pose proof (fs_top FS) as f5; pose proof (fs_c FS) as f6; pose proof bot_small as f7; pose proof bot_pos as f8;
  pose proof bot_half as f9.

Lemma mul_1 a b : 1 <= a -> 1 <= b -> 1 <= a * b /\ a <= a * b /\ b <= a * b.
Proof using. clear. intros. pose proof (prod_ge a b). pose proof (prod_ge_r a b). lra. Qed.

Lemma flory_pot a A A' : 0 <= a -> 2 * a + c <= k_top -> near_mat q nf (s_feat s) a A A' ->
  near_mat q nf (s_pot s) (a + c) (z_potential q A) (i_potential (q_inter rq) A').
Proof using FL FS DA.
  intros Pa La H r m Lr Lm. rewrite (fl_pot FL), (fl_inter FL). unfold fh64_potential. cbn [fh_compiled i_potential]. fs.
  destruct (mul_1 X (s_feat s)) as (M1 & _); [lra|lra|]. destruct (mul_1 (INR nf) (X * s_feat s)) as (M2 & M3 & M4); [lra|lra|].
  destruct (mul_1 (s_pot s) (s_feat s)) as (M5 & M6 & _); [lra|lra|].
  destruct (mul_1 (INR nf) (s_pot s * s_feat s)) as (_ & _ & M7); [lra|lra|].
  apply (near_mono (INR nf * (X * s_feat s)) _ (0 + a + 2 + 2 * INR nf)); [lra|lra|].
  apply (DA nf X (s_feat s) 0 a (chis64 r) (fun t => A t m) (chis r) (fun t => A' t m)); try lra; [apply (fs_nf FS)| |].
  - intros i Li. apply is64_near; apply (fl_chis FL); assumption.
  - intros i Li. apply H; assumption.
Qed.
Lemma flory_ivd a A A' P P' : 0 <= a -> 2 * a + c <= k_top -> near_mat q nf (s_feat s) a A A' -> near_mat q nf (s_pot s) a P P' ->
  near_vec q (s_ivd s) (2 * a + c) (z_ivd q P A) (i_vd (q_inter rq) P' A').
Proof using FL FS.
  intros Pa La HA HP m Lm. rewrite (fl_ivd FL), (fl_inter FL). unfold fh64_vd. cbn [fh_compiled i_vd]. fs.
  destruct (mul_1 (s_pot s) (s_feat s)) as (M1 & M2 & _); [lra|lra|].
  destruct (mul_1 (INR nf) (s_pot s * s_feat s)) as (N1 & N2 & N3); [lra|lra|].
  apply (near_mono ((0 + INR nf * (s_pot s * s_feat s)) * / 2) _ ((2 * a + 2 + 2 * INR nf) + 0 + 2)); [lra|lra|].
  apply near_mul; try lra; [|apply half_near].
  replace (rsum nf (fun r => P' r m * A' r m)) with (0 + rsum nf (fun r => P' r m * A' r m)) by ring.
  apply (near_loop 0 (s_pot s * s_feat s) (2 * a + 2) nf (fun r => mul64 (P r m) (A r m))); try lra; [apply near_zero; lra|].
  intros i Li. replace (2 * a + 2) with (a + a + 2) by ring. apply near_mul; try lra; [apply HP; assumption|apply HA; assumption].
Qed.
Lemma flory_coef a A A' : 0 <= a -> near_vec q (s_coef s) (a + c) (z_coef q A) (i_coef (q_inter rq) A').
Proof using FL.
  intros Pa m Lm. rewrite (fl_coef FL), (fl_inter FL). cbn [fh_compiled i_coef].
  apply (near_mono (s_coef s) _ c); [lra|lra|]. apply (fl_coef_near FL).
Qed.
Lemma flory_svd a A A' : 0 <= a -> 2 * a + c <= k_top -> near_mat q nc (s_phi s) a A A' ->
  near_vec q (s_svd s) (a + c) (z_svd q A) (s_vd (q_entropy rq) A').
Proof using FL FS.
  intros Pa La H m Lm. rewrite (fl_svd FL). fs.
  assert (E : s_vd (q_entropy rq) A' m = 0 - rsum nc (fun i => A' i m / sizes i)).
  { destruct (fl_gas FL) as [(_ & _ & ->)|(_ & _ & _ & ->)]; cbn [s_vd ig_compiled pg_compiled]; rewrite ig_vd_eq; ring. }
  rewrite E. unfold ig64_vd.
  destruct (mul_1 (INR nc) (s_phi s)) as (M1 & M2 & M3); [lra|lra|].
  apply (near_mono (0 + INR nc * s_phi s) _ (a + 2 + 2 * INR nc)); [lra|lra|].
  apply (near_loop_minus 0 (s_phi s) (a + 2) nc (fun i => div64 (A i m) (z_sizes q i)) (fun i => A' i m / sizes i)); try lra;
    [apply near_zero; lra|].
  intros i Li. destruct (fl_sizes FL i Li) as [[F1 F2] F3].
  apply near_div_to; try assumption; try lra. apply H; assumption.
Qed.
Lemma flory_feat a A A' : 0 <= a -> 2 * a + c <= k_top -> near_mat q nc (s_phi s) a A A' ->
  near_mat q nf (s_feat s) (a + c) (z_feat q A) (s_comp_to_feat (q_entropy rq) (v_phis_feat rk) A').
Proof using FL FS.
  intros Pa La H r m Lr Lm. fs. destruct (mul_1 (INR nc) (s_phi s)) as (M1 & M2 & M3); [lra|lra|].
  destruct (fl_gas FL) as [(-> & En & ->)|(-> & En & Hp & ->)].
  - rewrite ig_comp_to_feat by lia. apply (near_mono (s_phi s) _ a); [lra|lra|]. apply H; [lia|exact Lm].
  - cbn [s_comp_to_feat pg_compiled]. rewrite pg_comp_to_feat_spec by assumption. unfold pg64_feat. rewrite first64_eq.
    specialize (Hp r Lr). assert (Lb : (nsum r npf + npf r <= nc)%nat).
    { rewrite En. change (nsum (S r) npf <= nsum nf npf)%nat. apply nsum_mono. lia. }
    destruct (npf r) as [|n] eqn:En'; [lia|]. replace (S n - 1)%nat with n by lia.
    assert (Ln : INR (S n) <= INR nc) by (apply le_INR; lia). pose proof (pos_INR n) as Pn. rewrite S_INR in Ln.
    assert (Bn : s_phi s + INR n * s_phi s <= INR nc * s_phi s).
    { replace (s_phi s + INR n * s_phi s) with ((INR n + 1) * s_phi s) by ring. apply Rmult_le_compat_r; lra. }
    apply (near_mono (s_phi s + INR n * s_phi s) _ (a + 2 * INR n)); [lra|lra|].
    change (S n) with (1 + n)%nat. rewrite rsum_split. cbn [rsum]. rewrite Rplus_0_l. 
    rewrite Nat.add_0_r.
    rewrite (rsum_ext n _ (fun i => A' (nsum r npf + S i)%nat m)) by (intros; f_equal; lia).
    apply (near_loop (s_phi s) (s_phi s) a n (fun j => A (nsum r npf + S j)%nat m) (fun j => A' (nsum r npf + S j)%nat m)); try lra.
    + apply H; [lia|exact Lm].
    + intros i Li. apply H; [lia|exact Lm].
Qed.
End Mixture.

(* ------------------------------------------------------------------ *)
(** * Linear constraints *)

Section Constraint.
Variables (dot : nat -> vec64 -> vec64 -> f64) (q : kernel64) (s : scales) (c : R).
Local Notation nf := (z_nf q).
Local Notation np := (z_np q).
Variables (p64 : lin_par64) (p : lin_par) (X T M e : R).
Local Notation ncons := (n_cons p64).

(** the same matrix, targets and elasticity, of moderate size *)
Record same_lin : Prop := {
  sl_cons : l_cons p = ncons;
  sl_pos : (1 <= ncons)%nat;
  sl_feat64 : n_feat p64 = nf;
  sl_feat : l_feat p = nf;
  sl_Cs : forall a r, (a < ncons)%nat -> (r < nf)%nat -> is64 (n_Cs p64 a r) (l_Cs p a r) /\ Rabs (l_Cs p a r) <= X;
  sl_Ts : forall a, (a < ncons)%nat -> is64 (n_Ts p64 a) (l_Ts p a) /\ Rabs (l_Ts p a) <= T;
  sl_elast : is64 (n_elast p64) (l_elast p) /\ Rabs (l_elast p) <= e
}.
(** the same multipliers *)
Definition same_mult (cols : nat) (st : cstate64) (st' : cstate) : Prop :=
  forall a m, (a < ncons)%nat -> (m < cols)%nat -> is64 (d_mult st a m) (c_mult st' a m) /\ Rabs (c_mult st' a m) <= M.

Definition S_res : R := INR nf * (X * s_feat s) + T.
Definition S_tot : R := INR np * (S_res * s_J s).
(** scales that fit a local constraint *)
Record local_scales : Prop := {
  ls_ok : scales_ok s;
  ls_X : 1 <= X; ls_T : 1 <= T; ls_M : 1 <= M; ls_e : 1 <= e;
  ls_nf : (1 <= nf)%nat;
  ls_np : (1 <= np)%nat;
  ls_res : S_res <= s_res s;
  ls_pot : INR ncons * (X * (M + 2 * e * S_res)) <= s_cpot s;
  ls_vd : INR ncons * (S_res * (M + S_res * e)) <= s_cvd s;
  ls_top : s_cpot s + s_cvd s + s_res s <= B_top;
  ls_c : 4 * INR nf + 2 * INR ncons + 14 <= c
}.
(** scales that fit a global constraint *)
Record global_scales : Prop := {
  gs_ok : scales_ok s;
  gs_X : 1 <= X; gs_T : 1 <= T; gs_M : 1 <= M; gs_e : 1 <= e;
  gs_nf : (1 <= nf)%nat;
  gs_np : (1 <= np)%nat;
  gs_J : 2 * INR np * eps64 * (INR np * s_J s) <= / 2;
  gs_res : 2 * (S_tot * (INR np * s_J s)) <= s_res s;
  gs_pot : INR ncons * (X * (M + 2 * e * S_tot)) <= s_cpot s;
  gs_vd : INR ncons * (S_res * (M + 2 * S_tot * e)) <= s_cvd s;
  gs_top : s_cpot s + s_cvd s + s_res s <= B_top;
  gs_c : 4 * INR nf + 4 * INR np + 2 * INR ncons + 18 <= c
}.
Hypothesis DA : dot_accurate dot.
Hypothesis SL : same_lin.

Lemma mul1 a b : 1 <= a -> 1 <= b -> 1 <= a * b /\ a <= a * b /\ b <= a * b.
Proof using. clear. intros. pose proof (prod_ge a b). pose proof (prod_ge_r a b). lra. Qed.

Lemma lin_near a A A' al m : 1 <= X -> 1 <= T -> 1 <= s_feat s -> (1 <= nf)%nat ->
  0 <= a -> a + 2 * INR nf + 4 <= k_top -> S_res <= B_top -> near_mat q nf (s_feat s) a A A' ->
  (al < ncons)%nat -> (m < np)%nat -> near S_res (a + 2 * INR nf + 4) (lin_residue64 dot p64 A al m) (lin_residue p A' al m).
Proof using DA SL.
  intros HX HT Hf Ln Pa La LS H Lal Lm. unfold lin_residue64, lin_residue. rewrite (sl_feat64 SL), (sl_feat SL).
  pose proof (INR_1 _ Ln) as fn. pose proof bot_small. destruct (mul1 X (s_feat s)) as (M1 & _); [lra|lra|].
  destruct (mul1 (INR nf) (X * s_feat s)) as (M2 & M3 & M4); [lra|lra|]. unfold S_res in *.
  replace (a + 2 * INR nf + 4) with ((0 + a + 2 + 2 * INR nf) + 2) by ring. apply near_minus; try lra.
  - apply (DA nf X (s_feat s) 0 a (n_Cs p64 al) (fun r => A r m) (l_Cs p al) (fun r => A' r m)); try lra; [exact Ln| |].
    + intros i Li. apply is64_near; apply (sl_Cs SL); assumption.
    + intros i Li. apply H; assumption.
  - apply (near_mono T T 0); [lra|lra|]. apply is64_near; apply (sl_Ts SL); assumption.
Qed.

Lemma local_accurate st st' : local_scales -> same_mult np st st' ->
  cons_accurate q s c (local_class64 dot p64 np, st) {| o_class := local_class p; o_state := st' |}.
Proof using DA SL.
  intros LS SM a A A' Js J' masks M' Pa La HA HJ HT HM. cbn [fst snd o_class o_state].
  destruct (ls_ok LS) as [so1 so2 so3 so4 so5 so6 so7 so8 so9 so10 so11]. destruct LS as [_ lX lT lM le lnf lnp lr lp lv lt lc].
  pose proof (INR_1 _ lnf) as fn. pose proof (INR_1 _ (sl_pos SL)) as fc. pose proof bot_small as b1. pose proof bot_pos as b2.
  assert (R1 : 1 <= S_res).
  { unfold S_res. assert (0 <= INR nf * (X * s_feat s)) by (apply Rmult_le_pos; [lra|apply Rmult_le_pos; lra]). lra. }
  destruct (mul1 (2 * e) S_res) as (U1 & U2 & U3); [lra|lra|]. destruct (mul1 S_res e) as (W1 & W2 & W3); [lra|lra|].
  destruct (mul1 X (M + 2 * e * S_res)) as (P1 & P2 & P3); [lra|lra|].
  destruct (mul1 (INR ncons) (X * (M + 2 * e * S_res))) as (P4 & P5 & P6); [lra|lra|].
  destruct (mul1 S_res (M + S_res * e)) as (V1 & V2 & V3); [lra|lra|].
  destruct (mul1 (INR ncons) (S_res * (M + S_res * e))) as (V4 & V5 & V6); [lra|lra|].
  assert (NR : forall al m, (al < ncons)%nat -> (m < np)%nat -> near S_res (a + 2 * INR nf + 4) (lin_residue64 dot p64 A al m) (lin_residue p A' al m)).
  { intros al m Lal Lm. apply lin_near; try assumption; lra. }
  assert (NE : near e 0 (n_elast p64) (l_elast p)) by (apply is64_near; apply (sl_elast SL)).
  split; [|split].
  - intros r m Lr Lm. cbn [c6_potential local_class64 c6_prepare k_potential local_class k_prepare d_pot c_pot local_prepare64 local_prepare].
    apply near_mask; [|apply HM; exact Lm]. rewrite (sl_cons SL).
    apply (near_mono (INR ncons * (X * (M + 2 * e * S_res))) _ (0 + (a + 2 * INR nf + 10) + 2 + 2 * INR ncons)); [lra|lra|].
    apply (DA ncons X (M + 2 * e * S_res) 0 (a + 2 * INR nf + 10) (fun al => n_Cs p64 al r)
      (fun al => add64 (d_mult st al m) (mul64 (mul64 two64 (n_elast p64)) (lin_residue64 dot p64 A al m)))
      (fun al => l_Cs p al r) (fun al => c_mult st' al m + 2 * l_elast p * lin_residue p A' al m)); try lra; [apply (sl_pos SL)| |].
    + intros i Li. apply is64_near; apply (sl_Cs SL); assumption.
    + intros i Li. replace (a + 2 * INR nf + 10) with ((2 + (a + 2 * INR nf + 4) + 2) + 2) by ring. apply near_add; try lra.
      * apply (near_mono M M 0); [lra|lra|]. apply is64_near; apply SM; assumption.
      * apply near_mul; try lra; [|apply NR; assumption]. replace 2 with (0 + 0 + 2) at 2 by ring.
        apply near_mul; try lra; [apply two_near|exact NE].
  - intros m Lm. cbn [c6_vd local_class64 c6_prepare k_vd local_class k_prepare d_vold c_vold local_prepare64 local_prepare].
    apply near_mask; [|apply HM; exact Lm]. rewrite (sl_cons SL).
    match goal with |- near _ _ _ ?r => rewrite <- (Rplus_0_l r) end.
    apply (near_mono (0 + INR ncons * (S_res * (M + S_res * e))) _ ((2 * a + 4 * INR nf + 14) + 2 * INR ncons)); [lra|lra|].
    apply (near_loop 0 (S_res * (M + S_res * e)) (2 * a + 4 * INR nf + 14) ncons
      (fun al => mul64 (lin_residue64 dot p64 A al m) (add64 (d_mult st al m) (mul64 (lin_residue64 dot p64 A al m) (n_elast p64)))));
      try lra; [apply near_zero; lra|].
    intros i Li. replace (2 * a + 4 * INR nf + 14) with ((a + 2 * INR nf + 4) + ((a + 2 * INR nf + 4) + 0 + 2 + 2) + 2) by ring.
    apply near_mul; try lra; [apply NR; assumption|]. apply near_add; try lra.
    + apply (near_mono M M 0); [lra|lra|]. apply is64_near; apply SM; assumption.
    + apply near_mul; try lra; [apply NR; assumption|exact NE].
  - intros step step'. cbn [c6_evolve local_class64 c6_prepare k_evolve local_class k_prepare snd local_evolve64 local_evolve d_res c_res local_prepare64 local_prepare].
    rewrite (sl_cons SL). apply (near_mono S_res _ (a + 2 * INR nf + 4)); [lra|lra|].
    apply near_amax; [apply (sl_pos SL)|]. intros i Li. apply near_amax; [exact lnp|]. intros m Lm.
    apply near_abs. apply near_mask; [apply NR; assumption|apply HM; exact Lm].
Qed.

Lemma global_accurate st st' : global_scales -> same_mult 1 st st' ->
  cons_accurate q s c (global_class64 dot p64 np, st) {| o_class := global_class p; o_state := st' |}.
Proof using DA SL.
  intros LS SM a A A' Js J' masks M' Pa La HA HJ HT HM. cbn [fst snd o_class o_state].
  destruct (gs_ok LS) as [so1 so2 so3 so4 so5 so6 so7 so8 so9 so10 so11]. destruct LS as [_ lX lT lM le lnf lnp lJ lr lp lv lt lc].
  pose proof (INR_1 _ lnf) as fn. pose proof (INR_1 _ (sl_pos SL)) as fc. pose proof (INR_1 _ lnp) as fp. pose proof bot_small as b1. pose proof bot_pos as b2.
  assert (R1 : 1 <= S_res).
  { unfold S_res. assert (0 <= INR nf * (X * s_feat s)) by (apply Rmult_le_pos; [lra|apply Rmult_le_pos; lra]). lra. }
  destruct (mul1 S_res (s_J s)) as (J1 & J2 & J3); [lra|lra|].
  destruct (mul1 (INR np) (S_res * s_J s)) as (J4 & J5 & J6); [lra|lra|]. fold S_tot in J4, J5, J6.
  destruct (mul1 (INR np) (s_J s)) as (K4 & K5 & K6); [lra|lra|].
  destruct (mul1 S_tot (INR np * s_J s)) as (K1 & K2 & K3); [lra|lra|].
  destruct (mul1 (2 * e) S_tot) as (U1 & U2 & U3); [lra|lra|]. destruct (mul1 (2 * S_tot) e) as (W1 & W2 & W3); [lra|lra|].
  destruct (mul1 X (M + 2 * e * S_tot)) as (P1 & P2 & P3); [lra|lra|].
  destruct (mul1 (INR ncons) (X * (M + 2 * e * S_tot))) as (P4 & P5 & P6); [lra|lra|].
  destruct (mul1 S_res (M + 2 * S_tot * e)) as (V1 & V2 & V3); [lra|lra|].
  destruct (mul1 (INR ncons) (S_res * (M + 2 * S_tot * e))) as (V4 & V5 & V6); [lra|lra|].
  assert (NR : forall al m, (al < ncons)%nat -> (m < np)%nat -> near S_res (a + 2 * INR nf + 4) (lin_residue64 dot p64 A al m) (lin_residue p A' al m)).
  { intros al m Lal Lm. apply lin_near; try assumption; lra. }
  assert (NE : near e 0 (n_elast p64) (l_elast p)) by (apply is64_near; apply (sl_elast SL)).
  set (u := a + 2 * INR nf + 6 + 2 * INR np).
  assert (NT : forall al, (al < ncons)%nat ->
    near S_tot u (sum64 np (fun m => mul64 (lin_residue64 dot p64 A al m) (Js m))) (rsum np (fun m => lin_residue p A' al m * J' m))).
  { intros al Lal. apply near_sum; try lra; [|fold S_tot; lra]. intros m Lm.
    replace (a + 2 * INR nf + 6) with ((a + 2 * INR nf + 4) + 0 + 2) by ring. apply near_mul; try lra; [apply NR; assumption|apply HJ; exact Lm]. }
  split; [|split].
  - intros r m Lr Lm. cbn [c6_potential global_class64 c6_prepare k_potential global_class k_prepare d_pot c_pot global_prepare64 global_prepare].
    apply near_mask; [|apply HM; exact Lm]. rewrite (sl_cons SL).
    match goal with |- near _ _ _ ?r => rewrite <- (Rmult_1_r r) end. apply near_mask; [|left; auto].
    apply (near_mono (INR ncons * (X * (M + 2 * e * S_tot))) _ (0 + (u + 6) + 2 + 2 * INR ncons)); [lra|unfold u; lra|].
    apply (DA ncons X (M + 2 * e * S_tot) 0 (u + 6) (fun al => n_Cs p64 al r)
      (fun al => add64 (d_mult st al 0%nat) (mul64 (mul64 two64 (n_elast p64)) (sum64 np (fun m => mul64 (lin_residue64 dot p64 A al m) (Js m)))))
      (fun al => l_Cs p al r) (fun al => c_mult st' al 0%nat + 2 * l_elast p * rsum np (fun m => lin_residue p A' al m * J' m))); try lra;
      [apply (sl_pos SL)| | |unfold u; lra].
    + intros i Li. apply is64_near; apply (sl_Cs SL); assumption.
    + intros i Li. replace (u + 6) with ((2 + u + 2) + 2) by ring. apply near_add; try (unfold u; lra).
      * apply (near_mono M M 0); [lra|unfold u; lra|]. apply is64_near; apply SM; try assumption; lia.
      * apply near_mul; try (unfold u; lra); [|apply NT; assumption]. replace 2 with (0 + 0 + 2) at 2 by ring.
        apply near_mul; try lra; [apply two_near|exact NE].
  - intros m Lm. cbn [c6_vd global_class64 c6_prepare k_vd global_class k_prepare d_vold c_vold global_prepare64 global_prepare].
    apply near_mask; [|apply HM; exact Lm]. rewrite (sl_cons SL).
    match goal with |- near _ _ _ ?r => rewrite <- (Rplus_0_l r) end.
    apply (near_mono (0 + INR ncons * (S_res * (M + 2 * S_tot * e))) _ (((a + 2 * INR nf + 4) + (u + 6) + 2) + 2 * INR ncons)); [lra|unfold u; lra|].
    apply (near_loop 0 (S_res * (M + 2 * S_tot * e)) ((a + 2 * INR nf + 4) + (u + 6) + 2) ncons
      (fun al => mul64 (lin_residue64 dot p64 A al m) (add64 (d_mult st al 0%nat)
         (mul64 (mul64 two64 (sum64 np (fun m => mul64 (lin_residue64 dot p64 A al m) (Js m)))) (n_elast p64)))));
      try (unfold u; lra); [apply near_zero; unfold u; lra|].
    intros i Li. apply near_mul; try (unfold u; lra); [apply NR; assumption|].
    replace (u + 6) with ((u + 4) + 2) by ring. apply near_add; try (unfold u; lra).
    + apply (near_mono M M 0); [lra|unfold u; lra|]. apply is64_near; apply SM; try assumption; lia.
    + replace (u + 4) with ((0 + u + 2) + 0 + 2) by ring. apply near_mul; try (unfold u; lra); [|exact NE].
      apply near_mul; try (unfold u; lra); [apply two_near|apply NT; assumption].
  - intros step step'. cbn [c6_evolve global_class64 c6_prepare k_evolve global_class k_prepare snd global_evolve64 global_evolve d_res c_res global_prepare64 global_prepare].
    rewrite (sl_cons SL). apply (near_mono (2 * (S_tot * (INR np * s_J s))) _ (u + (2 * INR np) + 2)); [lra|unfold u; lra|].
    apply near_amax; [apply (sl_pos SL)|]. intros i Li.
    apply near_abs. apply near_quot; try (unfold u; lra); [apply NT; exact Li|].
    replace (2 * INR np) with (0 + 2 * INR np) by ring. apply near_sum; try lra. exact HJ.
Qed.
(** the multipliers after a step of size [step] *)
Lemma local_mult_near st st' Rt Ss ks a A A' Js J' masks M' step step' :
  local_scales -> same_mult np st st' -> is64 (n_ratio p64) (l_ratio p) /\ Rabs (l_ratio p) <= Rt -> 1 <= Rt ->
  0 <= a -> 0 <= ks -> a + ks + c <= k_top -> near_mat q nf (s_feat s) a A A' -> (forall m, (m < np)%nat -> mask_of (masks m) (M' m)) ->
  bpow radix2 (-100) <= Ss -> M + Ss * Rt * s_res s <= B_top -> near Ss ks step step' ->
  forall al m, (al < ncons)%nat -> (m < np)%nat ->
    near (M + Ss * Rt * s_res s) (a + ks + c)
      (d_mult (fst (local_evolve64 p64 np step masks (local_prepare64 dot p64 A Js masks st))) al m)
      (c_mult (fst (local_evolve p np step' M' (local_prepare p np A' J' M' st'))) al m).
Proof using DA SL.
  intros LS SM Hr LR Pa Pk La HA HM LSs LT NS al m Lal Lm.
  destruct (ls_ok LS) as [so1 so2 so3 so4 so5 so6 so7 so8 so9 so10 so11]. destruct LS as [_ lX lT lM le lnf lnp lr lp lv lt lc].
  pose proof (INR_1 _ lnf) as fn. pose proof (INR_1 _ (sl_pos SL)) as fc. pose proof bot_small as b1. pose proof bot_pos as b2.
  pose proof (bpow_gt_0 radix2 (-100)) as b3. assert (b4 : bpow radix2 (-300) <= bpow radix2 (-100)) by (apply bpow_le; lia).
  assert (E1 : Ss <= Ss * Rt) by (rewrite <- (Rmult_1_r Ss) at 1; apply Rmult_le_compat_l; lra).
  assert (E2 : Ss * Rt <= Ss * Rt * s_res s) by (rewrite <- (Rmult_1_r (Ss * Rt)) at 1; apply Rmult_le_compat_l; lra).
  cbn [fst local_evolve64 local_evolve local_prepare64 local_prepare d_mult c_mult d_res c_res].
  apply near_mask; [|apply HM; exact Lm].
  apply (near_mono (M + Ss * Rt * s_res s) _ ((ks + 0 + 2) + (a + 2 * INR nf + 4) + 2 + 2)); [lra|lra|].
  apply near_add; try lra.
  - apply (near_mono M M 0); [lra|lra|]. apply is64_near; apply SM; assumption.
  - apply near_mul; try lra.
    + apply near_mul; try lra; [exact NS|]. apply is64_near; apply Hr.
    + apply near_mask; [|apply HM; exact Lm]. apply (near_mono S_res _ (a + 2 * INR nf + 4)); [lra|lra|].
      apply lin_near; try assumption; lra.
Qed.
Lemma global_mult_near st st' Rt Ss ks a A A' Js J' masks M' step step' :
  global_scales -> same_mult 1 st st' -> is64 (n_ratio p64) (l_ratio p) /\ Rabs (l_ratio p) <= Rt -> 1 <= Rt ->
  0 <= a -> 0 <= ks -> a + ks + c <= k_top -> near_mat q nf (s_feat s) a A A' ->
  (forall m, (m < np)%nat -> near (s_J s) 0 (Js m) (J' m)) -> 1 <= rsum np J' ->
  bpow radix2 (-100) <= Ss -> M + Ss * Rt * s_res s <= B_top -> near Ss ks step step' ->
  forall al, (al < ncons)%nat ->
    near (M + Ss * Rt * s_res s) (a + ks + c)
      (d_mult (fst (global_evolve64 p64 step masks (global_prepare64 dot p64 np A Js masks st))) al 0%nat)
      (c_mult (fst (global_evolve p np step' M' (global_prepare p np A' J' M' st'))) al 0%nat).
Proof using DA SL.
  intros LS SM Hr LR Pa Pk La HA HJ HT LSs LT NS al Lal.
  destruct (gs_ok LS) as [so1 so2 so3 so4 so5 so6 so7 so8 so9 so10 so11]. destruct LS as [_ lX lT lM le lnf lnp lJ lr lp lv lt lc].
  pose proof (INR_1 _ lnf) as fn. pose proof (INR_1 _ (sl_pos SL)) as fc. pose proof (INR_1 _ lnp) as fp. pose proof bot_small as b1. pose proof bot_pos as b2.
  pose proof (bpow_gt_0 radix2 (-100)) as b3. assert (b4 : bpow radix2 (-300) <= bpow radix2 (-100)) by (apply bpow_le; lia).
  assert (E1 : Ss <= Ss * Rt) by (rewrite <- (Rmult_1_r Ss) at 1; apply Rmult_le_compat_l; lra).
  assert (E2 : Ss * Rt <= Ss * Rt * s_res s) by (rewrite <- (Rmult_1_r (Ss * Rt)) at 1; apply Rmult_le_compat_l; lra).
  assert (R1 : 1 <= S_res).
  { unfold S_res. assert (0 <= INR nf * (X * s_feat s)) by (apply Rmult_le_pos; [lra|apply Rmult_le_pos; lra]). lra. }
  destruct (mul1 S_res (s_J s)) as (J1 & J2 & J3); [lra|lra|].
  destruct (mul1 (INR np) (S_res * s_J s)) as (J4 & J5 & J6); [lra|lra|]. fold S_tot in J4, J5, J6.
  destruct (mul1 (INR np) (s_J s)) as (K4 & K5 & K6); [lra|lra|].
  destruct (mul1 S_tot (INR np * s_J s)) as (K1 & K2 & K3); [lra|lra|].
  destruct (mul1 X (M + 2 * e * S_tot)) as (P1 & P2 & P3); [lra| |].
  { assert (0 <= 2 * e * S_tot) by (apply Rmult_le_pos; lra). lra. }
  destruct (mul1 (INR ncons) (X * (M + 2 * e * S_tot))) as (P4 & P5 & P6); [lra|lra|].
  assert (Pv : 0 <= INR ncons * (S_res * (M + 2 * S_tot * e))).
  { apply Rmult_le_pos; [lra|]. apply Rmult_le_pos; [lra|]. assert (0 <= 2 * S_tot * e) by (apply Rmult_le_pos; lra). lra. }
  cbn [fst global_evolve64 global_evolve global_prepare64 global_prepare d_mult c_mult d_res c_res].
  apply (near_mono (M + Ss * Rt * s_res s) _ ((ks + 0 + 2) + ((a + 2 * INR nf + 6 + 2 * INR np) + 2 * INR np + 2) + 2 + 2)); [lra|lra|].
  apply near_add; try lra.
  - apply (near_mono M M 0); [lra|lra|]. apply is64_near; apply SM; try assumption; lia.
  - apply near_mul; try lra.
    + apply near_mul; try lra; [exact NS|]. apply is64_near; apply Hr.
    + apply (near_mono (2 * (S_tot * (INR np * s_J s))) _ ((a + 2 * INR nf + 6 + 2 * INR np) + 2 * INR np + 2)); [lra|lra|].
      apply near_quot; try lra.
      * apply near_sum; try lra; [|fold S_tot; lra]. intros m Lm.
        replace (a + 2 * INR nf + 6) with ((a + 2 * INR nf + 4) + 0 + 2) by ring. apply near_mul; try lra; [|apply HJ; exact Lm].
        apply lin_near; try assumption; lra.
      * replace (2 * INR np) with (0 + 2 * INR np) by ring. apply near_sum; try lra. exact HJ.
Qed.
End Constraint.

(* ------------------------------------------------------------------ *)
(** * The package *)

(** no constraint: all arrays are zero *)
Definition no_effect (st : cstate64) (st' : cstate) : Prop :=
  (forall r m, d_pot st r m = zero64) /\ (forall m, d_vold st m = zero64) /\
  (forall r m, c_pot st' r m = 0) /\ (forall m, c_vold st' m = 0).

Lemma no_accurate q s c n st st' : scales_ok s -> 0 <= c -> no_effect st st' ->
  cons_accurate q s c (no_class64, st) {| o_class := no_class n; o_state := st' |}.
Proof.
  intros [so1 so2 so3 so4 so5 so6 so7 so8 so9 so10 so11] Pc (E1 & E2 & E3 & E4) a A A' Js J' masks M' Pa La HA HJ HT HM.
  cbn [fst snd o_class o_state no_class64 no_class c6_prepare c6_potential c6_vd c6_evolve k_prepare k_potential k_vd k_evolve].
  split; [|split].
  - intros r m Lr Lm. rewrite E1, E3. apply near_zero; lra.
  - intros m Lm. rewrite E2, E4. apply near_zero; lra.
  - intros step step'. apply near_zero; lra.
Qed.

(** the same constraint in both arithmetics *)
Inductive same_constraint (dot : nat -> vec64 -> vec64 -> f64) (q : kernel64) (s : scales) (c : R) :
    cons64 cstate64 * cstate64 -> cons_obj cstate -> Prop :=
| sc_local p64 p X T M e st st' : same_lin q p64 p X T e -> local_scales q s c p64 X T M e ->
    same_mult p64 M (z_np q) st st' ->
    same_constraint dot q s c (local_class64 dot p64 (z_np q), st) {| o_class := local_class p; o_state := st' |}
| sc_global p64 p X T M e st st' : same_lin q p64 p X T e -> global_scales q s c p64 X T M e ->
    same_mult p64 M 1 st st' ->
    same_constraint dot q s c (global_class64 dot p64 (z_np q), st) {| o_class := global_class p; o_state := st' |}
| sc_no n st st' : no_effect st st' -> same_constraint dot q s c (no_class64, st) {| o_class := no_class n; o_state := st' |}.

Lemma package_accurate {G G'} dot q (k : state64 G cstate64) rq (rk : kstate G' cstate) s c chis64 coef64 chis sh X npf sizes :
  dot_accurate dot -> flory64 dot q rq s c chis64 coef64 chis sh X npf sizes -> flory_scales q s c X ->
  Forall2 (same_constraint dot q s c) (x_cons k) (v_cons rk) -> accurate q k rq rk s c.
Proof.
  intros DA FL FS FC. split.
  - intros. eapply flory_feat; eassumption.
  - intros. eapply flory_svd; eassumption.
  - intros. eapply flory_pot; eassumption.
  - intros. eapply flory_coef; eassumption.
  - intros. eapply flory_ivd; eassumption.
  - revert FC. generalize (x_cons k) (v_cons rk). intros l l' FC.
    induction FC as [|o o' l l' Ho Hl IH]; constructor; [|exact IH]. destruct Ho.
    + eapply local_accurate; eassumption.
    + eapply global_accurate; eassumption.
    + apply no_accurate; [apply (fs_ok _ _ _ _ FS)| |assumption]. pose proof (fs_c _ _ _ _ FS). pose proof (pos_INR (z_nc q)). lra.
Qed.

(** One step with the interaction, entropies, ensembles and constraints of the
    package. *)
Theorem C96_package {G G'} (pf : platform64 G) dot q (k : state64 G cstate64) rq (rk : kstate G' cstate)
    s kx E c chis64 coef64 chis sh X npf sizes rk' nv rrep :
  exp_accurate pf kx -> dot_accurate dot ->
  flory64 dot q rq s c chis64 coef64 chis sh X npf sizes -> flory_scales q s c X ->
  Forall2 (same_constraint dot q s c) (x_cons k) (v_cons rk) ->
  same_problem q rq -> same_state q k rq rk s E -> limits q k rq s kx E c ->
  iterate rq rk = Ok (rk', nv, rrep) -> phis_bounded q s (v_phis_comp rk') ->
  exists k' rep, iterate64 pf q k = Ok (k', nv, rep) /\ follows q k rq s kx E c k' rep rk' rrep.
Proof.
  intros EA DA FL FS FC SP SS LI. apply (C96_step_accurate pf q k rq rk s kx E c SP SS); try assumption.
  eapply package_accurate; eassumption.
Qed.

(** ** Multipliers of the constraints *)

(** the same constraint with the same acceptance ratio, whose multipliers are at
    most [M] and whose ratio is at most [Rt] *)
Inductive same_multiplier (dot : nat -> vec64 -> vec64 -> f64) (q : kernel64) (s : scales) (c M Rt : R) :
    cons64 cstate64 * cstate64 -> cons_obj cstate -> Prop :=
| sm_local p64 p X T e st st' : same_lin q p64 p X T e -> local_scales q s c p64 X T M e ->
    same_mult p64 M (z_np q) st st' -> is64 (n_ratio p64) (l_ratio p) /\ Rabs (l_ratio p) <= Rt ->
    same_multiplier dot q s c M Rt (local_class64 dot p64 (z_np q), st) {| o_class := local_class p; o_state := st' |}
| sm_global p64 p X T e st st' : same_lin q p64 p X T e -> global_scales q s c p64 X T M e ->
    same_mult p64 M 1 st st' -> is64 (n_ratio p64) (l_ratio p) /\ Rabs (l_ratio p) <= Rt ->
    same_multiplier dot q s c M Rt (global_class64 dot p64 (z_np q), st) {| o_class := global_class p; o_state := st' |}
| sm_no n st st' : no_effect st st' -> same_multiplier dot q s c M Rt (no_class64, st) {| o_class := no_class n; o_state := st' |}.
(** the same constraint, with multipliers that are near each other: one for each
    compartment if it is local, a single one if it is global, none if there is no
    constraint *)
Inductive near_multiplier (dot : nat -> vec64 -> vec64 -> f64) (np : nat) (B a : R) :
    cons64 cstate64 * cstate64 -> cons_obj cstate -> Prop :=
| nm_local p64 p st st' :
    (forall al m, (al < l_cons p)%nat -> (m < np)%nat -> near B a (d_mult st al m) (c_mult st' al m)) ->
    near_multiplier dot np B a (local_class64 dot p64 np, st) {| o_class := local_class p; o_state := st' |}
| nm_global p64 p st st' :
    (forall al, (al < l_cons p)%nat -> near B a (d_mult st al 0%nat) (c_mult st' al 0%nat)) ->
    near_multiplier dot np B a (global_class64 dot p64 np, st) {| o_class := global_class p; o_state := st' |}
| nm_no n st st' : no_effect st st' -> near_multiplier dot np B a (no_class64, st) {| o_class := no_class n; o_state := st' |}.

Lemma Forall2_imp {A B} (P Q : A -> B -> Prop) l l' : (forall x y, P x y -> Q x y) -> Forall2 P l l' -> Forall2 Q l l'.
Proof. intros H F. induction F; constructor; auto. Qed.
Lemma same_multiplier_constraint dot q s c M Rt o o' : same_multiplier dot q s c M Rt o o' -> same_constraint dot q s c o o'.
Proof. intros []; [eapply sc_local|eapply sc_global|apply sc_no]; eassumption. Qed.

(** In the step of C96 the multipliers of the constraints, too, are near those in
    exact arithmetic. *)
Theorem C96_multipliers {G G'} (pf : platform64 G) dot q (k : state64 G cstate64) rq (rk : kstate G' cstate)
    s kx E c chis64 coef64 chis sh X npf sizes M Rt rk' nv rrep :
  exp_accurate pf kx -> dot_accurate dot ->
  flory64 dot q rq s c chis64 coef64 chis sh X npf sizes -> flory_scales q s c X ->
  Forall2 (same_multiplier dot q s c M Rt) (x_cons k) (v_cons rk) -> 1 <= Rt ->
  M + S_factor q k rq s * q_acc_w rq * Rt * s_res s <= B_top ->
  same_problem q rq -> same_state q k rq rk s E -> limits q k rq s kx E c ->
  iterate rq rk = Ok (rk', nv, rrep) -> phis_bounded q s (v_phis_comp rk') ->
  exists k' rep, iterate64 pf q k = Ok (k', nv, rep) /\ follows q k rq s kx E c k' rep rk' rrep /\
    Forall2 (near_multiplier dot (z_np q) (M + S_factor q k rq s * q_acc_w rq * Rt * s_res s) (2 * k_diff q k kx E c))
      (x_cons k') (v_cons rk').
Proof.
  intros EA DA FL FS FM LR LT SP SS LI H Hb.
  assert (FC : Forall2 (same_constraint dot q s c) (x_cons k) (v_cons rk)).
  { revert FM. apply Forall2_imp. intros o o'. apply same_multiplier_constraint. }
  assert (AC : accurate q k rq rk s c) by (eapply package_accurate; eassumption).
  destruct (C96_step_accurate pf q k rq rk s kx E c SP SS AC EA LI rk' nv rrep H Hb) as (k' & rep & HI & FO).
  exists k', rep. split; [exact HI|]. split; [exact FO|].
  eapply constraints_follow; try eassumption.
  destruct (factor_facts _ _ _ _ _ _ _ LI) as (_ & _ & _ & _ & [FF _] & _).
  destruct (unit_facts _ _ _ _ _ _ _ LI) as (U1 & U2 & U3 & U4 & U5 & U6 & U7 & _).
  assert (Lk : k_phi q kx E + c + (k_diff q k kx E c + 6) + c <= 2 * k_diff q k kx E c).
  { assert (k_phi q kx E + 2 * c <= k_energy q k kx E c).
    { assert (k_phi q kx E + 2 * c <= k_pot q kx E c) by (unfold k_pot; pose proof (pos_INR (z_nc q)); lra). lra. }
    assert (k_phi q kx E + 2 * c + 6 <= k_diff q k kx E c) by (unfold k_diff; pose proof (pos_INR (z_np q)); lra). lra. }
  pose proof (pos_INR (z_np q)) as Pn.
  revert FM. apply Forall2_imp. intros o o' Ho A A' Js J' masks M' step step' HA HJ HT HM HS. destruct Ho as [p64 p X' T e st st' SL LS SM Hr|p64 p X' T e st st' SL LS SM Hr|n st st' NE].
  - cbn [fst snd o_class o_state set_state]. apply nm_local. rewrite (sl_cons _ _ _ _ _ _ SL). intros al m Lal Lm.
    eapply near_mono; [apply Rle_refl|exact Lk|].
    eapply local_mult_near; try eassumption; lra.
  - cbn [fst snd o_class o_state set_state]. apply nm_global. rewrite (sl_cons _ _ _ _ _ _ SL). intros al Lal.
    eapply near_mono; [apply Rle_refl|exact Lk|].
    eapply global_mult_near; try eassumption; lra.
  - cbn [fst snd o_class o_state set_state no_class64 no_class c6_evolve c6_prepare k_evolve k_prepare]. apply nm_no. exact NE.
Qed.
