(** ProofsKernel.v -- lemmas about one iteration and about metasteps. *)

From Coq Require Import Reals Lra Lia List Bool Arith ZArith.
From Verif Require Import Base ModelParts ModelKernel.
Import ListNotations.
Open Scope R_scope.

(* ------------------------------------------------------------------ *)
(** * Masks *)

Lemma make_masks_spec J thr m :
  make_masks J thr m = if Rltb thr (J m) then 1 else 0.
Proof.
  unfold make_masks, rsign, Rltb.
  destruct (Rlt_dec 0 (J m - thr)), (Rlt_dec thr (J m)); try lra.
  - rewrite Rmax_left; lra.
  - destruct (Rlt_dec (J m - thr) 0); rewrite Rmax_right; lra.
Qed.

Lemma mask_alive J thr m : thr < J m -> make_masks J thr m = 1.
Proof. intros H. rewrite make_masks_spec. apply Rltb_true in H. now rewrite H. Qed.
Lemma mask_dead J thr m : J m <= thr -> make_masks J thr m = 0.
Proof. intros H. rewrite make_masks_spec. apply Rltb_false in H. now rewrite H. Qed.
Lemma mask_cases J thr m :
  (thr < J m /\ make_masks J thr m = 1) \/ (J m <= thr /\ make_masks J thr m = 0).
Proof.
  destruct (Rlt_le_dec thr (J m)); [left|right]; split; auto;
    [now apply mask_alive|now apply mask_dead].
Qed.
Lemma mask_idem J thr m : make_masks J thr m * make_masks J thr m = make_masks J thr m.
Proof. destruct (mask_cases J thr m) as [[_ ->]|[_ ->]]; lra. Qed.

Lemma masks_sum np J thr : rsum np (make_masks J thr) = INR (count_valid np J thr).
Proof.
  unfold count_valid. rewrite ncount_rsum. apply rsum_ext. intros. apply make_masks_spec.
Qed.

Lemma Int_part_INR n : Int_part (INR n) = Z.of_nat n.
Proof.
  unfold Int_part. rewrite INR_IZR_INZ.
  assert (up (IZR (Z.of_nat n)) = (Z.of_nat n + 1)%Z); [|lia].
  symmetry. apply tech_up; rewrite plus_IZR; lra.
Qed.

Lemma py_int_INR n : py_int (INR n) = Z.of_nat n.
Proof.
  unfold py_int. destruct (Rle_dec 0 (INR n)) as [_|N].
  - apply Int_part_INR.
  - exfalso. apply N, pos_INR.
Qed.

Lemma n_valid_count np J thr : py_int (rsum np (make_masks J thr)) = Z.of_nat (count_valid np J thr).
Proof. now rewrite masks_sum, py_int_INR. Qed.

Lemma IZR_count n : IZR (Z.of_nat n) = INR n.
Proof. now rewrite INR_IZR_INZ. Qed.

Lemma count_valid_pos np J thr :
  (0 < count_valid np J thr)%nat <-> exists m, (m < np)%nat /\ thr < J m.
Proof.
  unfold count_valid. rewrite ncount_pos. split; intros (m & Hm & H); exists m; split; auto;
    now apply Rltb_true.
Qed.

(* ------------------------------------------------------------------ *)
(** * Shape of one iteration *)

Section Iter.
Context {G St : Type}.
Implicit Types (q : kernel) (k : kstate G St).

(** Intermediate values of an iteration, given the fractions [phis] and the
    incompressibility [incomp] computed by entropy and ensemble. *)
Definition t_masks q k : vec := make_masks (v_Js k) (q_thr q).
Definition t_nv q k : nat := count_valid (q_np q) (v_Js k) (q_thr q).
(** [n_valid_phase] as a number; equal to [INR (t_nv q k)]. *)
Definition t_n q k : R := IZR (py_int (rsum (q_np q) (t_masks q k))).
Definition t_J q k : vec := fun m => v_Js k m * t_masks q k m.
Definition t_feat q k phis : mat := s_comp_to_feat (q_entropy q) (v_phis_feat k) phis.
Definition t_cs q k phis := prepare_all (q_np q) (t_feat q k phis) (t_J q k) (t_masks q k) (v_cons k).
Definition t_pot q k phis : mat := i_potential (q_inter q) (t_feat q k phis).
Definition t_xi q k phis incomp : vec :=
  xi_of (q_nf q) (i_coef (q_inter q) (t_feat q k phis)) incomp (t_masks q k) (v_omegas k)
    (t_pot q k phis) (t_cs q k phis).
Definition t_otemp q k phis incomp : mat :=
  omega_temp_of (t_pot q k phis) (t_cs q k phis) (t_xi q k phis incomp).
Definition t_le q k phis incomp : vec :=
  local_energy_of (q_nf q) (i_vd (q_inter q) (t_pot q k phis) (t_feat q k phis))
    (s_vd (q_entropy q) phis) (t_xi q k phis incomp) incomp (t_cs q k phis)
    (t_otemp q k phis incomp) (t_feat q k phis).
Definition t_mean q k phis incomp : R :=
  rsum (q_np q) (fun m => t_le q k phis incomp m * t_J q k m) / t_n q k.
Definition t_Jdiff q k phis incomp : vec :=
  fun m => (t_mean q k phis incomp - t_le q k phis incomp m) * t_masks q k m.
Definition t_maxJ q k phis incomp : R := vmax (q_np q) (fun m => Rabs (t_Jdiff q k phis incomp m)).
Definition t_change q k phis incomp : R := Rmax (t_maxJ q k phis incomp * q_acc_J q) (q_ub q).
Definition t_factor q k phis incomp : R := q_ub q / t_change q k phis incomp.
Definition t_J1 q k phis incomp : vec :=
  fun m => (t_J q k m + t_factor q k phis incomp * q_acc_J q * t_Jdiff q k phis incomp m) * t_masks q k m.
Definition t_shift q k phis incomp : R := 1 - rsum (q_np q) (t_J1 q k phis incomp) / t_n q k.
Definition t_J2 q k phis incomp : vec :=
  fun m => (t_J1 q k phis incomp m + t_shift q k phis incomp) * t_masks q k m.
Definition t_diff q k phis incomp : mat :=
  fun r m => (t_otemp q k phis incomp r m - v_omegas k r m) * t_masks q k m.
Definition t_omegas q k phis incomp : mat :=
  fun r m => (v_omegas k r m + t_factor q k phis incomp * q_acc_w q * t_diff q k phis incomp r m) * t_masks q k m.
Definition t_evolve q k phis incomp :=
  evolve_all (q_np q) (t_factor q k phis incomp * q_acc_w q) (t_masks q k) 0 (t_cs q k phis).

Lemma t_n_eq q k : t_n q k = INR (t_nv q k).
Proof. unfold t_n, t_masks. now rewrite n_valid_count, IZR_count. Qed.

(** [iterate] in terms of these values (by unfolding only). *)
Lemma iterate_eq q k :
  iterate q k =
  bind (s_partition (q_entropy q) (q_np q) (v_phis_comp k) (v_omegas k) (t_J q k))
    (fun '(phis0, Qs) =>
  bind (n_normalize (q_ensemble q) phis0 Qs (t_masks q k))
    (fun '(phis, incomp) =>
  if Z.eqb (py_int (rsum (q_np q) (t_masks q k))) 0 then Err ZeroDivisionError else
  if Reqb (t_change q k phis incomp) 0 then Err ZeroDivisionError else
  let '(cs', residue) := t_evolve q k phis incomp in
  Ok ({| v_omegas := t_omegas q k phis incomp; v_Js := t_J2 q k phis incomp;
         v_phis_comp := phis; v_phis_feat := t_feat q k phis;
         v_cons := cs'; v_g := v_g k |},
      py_int (rsum (q_np q) (t_masks q k)),
      {| e_incomp := vmax (q_np q) (fun m => Rabs (incomp m));
         e_omega := max_omega_diff (q_nf q) (q_np q) (t_diff q k phis incomp);
         e_Js := t_maxJ q k phis incomp;
         e_cons := residue |}))).
Proof. reflexivity. Qed.

(** Everything an [Ok] iteration tells. *)
Record iter_facts q k (phis : mat) (incomp : vec) (k' : kstate G St) (nv : Z) (rep : report) : Prop := {
  if_nv : nv = Z.of_nat (t_nv q k);
  if_nv_pos : (0 < t_nv q k)%nat;
  if_change : t_change q k phis incomp <> 0;
  if_omegas : v_omegas k' = t_omegas q k phis incomp;
  if_Js : v_Js k' = t_J2 q k phis incomp;
  if_comp : v_phis_comp k' = phis;
  if_feat : v_phis_feat k' = t_feat q k phis;
  if_cons : v_cons k' = fst (t_evolve q k phis incomp);
  if_g : v_g k' = v_g k;
  if_e_incomp : e_incomp rep = vmax (q_np q) (fun m => Rabs (incomp m));
  if_e_omega : e_omega rep = max_omega_diff (q_nf q) (q_np q) (t_diff q k phis incomp);
  if_e_Js : e_Js rep = t_maxJ q k phis incomp;
  if_e_cons : e_cons rep = snd (t_evolve q k phis incomp)
}.

Lemma iterate_inv q k k' nv rep :
  iterate q k = Ok (k', nv, rep) ->
  exists phis0 Qs phis incomp,
    s_partition (q_entropy q) (q_np q) (v_phis_comp k) (v_omegas k) (t_J q k) = Ok (phis0, Qs) /\
    n_normalize (q_ensemble q) phis0 Qs (t_masks q k) = Ok (phis, incomp) /\
    iter_facts q k phis incomp k' nv rep.
Proof.
  rewrite iterate_eq. intros H.
  apply bind_Ok in H. destruct H as ([phis0 Qs] & HP & H).
  apply bind_Ok in H. destruct H as ([phis incomp] & HN & H).
  exists phis0, Qs, phis, incomp. split; [exact HP|]. split; [exact HN|].
  unfold t_masks at 1 2 in H. rewrite n_valid_count in H. fold (t_nv q k) in H.
  destruct (Z.eqb_spec (Z.of_nat (t_nv q k)) 0) as [E|E]; [discriminate|].
  destruct (Reqb (t_change q k phis incomp) 0) eqn:EC; [discriminate|].
  apply Reqb_false in EC.
  destruct (t_evolve q k phis incomp) as [cs' residue] eqn:EE.
  inversion H; subst; clear H.
  constructor; simpl; auto; try rewrite EE; auto. lia.
Qed.

(** Conversely, an iteration whose divisors do not vanish succeeds. *)
Lemma iterate_ok q k phis0 Qs phis incomp :
  s_partition (q_entropy q) (q_np q) (v_phis_comp k) (v_omegas k) (t_J q k) = Ok (phis0, Qs) ->
  n_normalize (q_ensemble q) phis0 Qs (t_masks q k) = Ok (phis, incomp) ->
  (0 < t_nv q k)%nat -> t_change q k phis incomp <> 0 ->
  exists k' nv rep, iterate q k = Ok (k', nv, rep).
Proof.
  intros HP HN Hv HC. rewrite iterate_eq, HP. simpl bind. rewrite HN. simpl bind.
  unfold t_masks at 1. rewrite n_valid_count. fold (t_nv q k).
  destruct (Z.eqb_spec (Z.of_nat (t_nv q k)) 0) as [E|E]; [lia|].
  apply Reqb_false in HC. rewrite HC.
  destruct (t_evolve _ _ _ _) as [cs' residue]. eauto.
Qed.

Lemma t_change_pos q k phis incomp : 0 < q_ub q -> 0 < t_change q k phis incomp.
Proof. intros H. unfold t_change. eapply Rlt_le_trans; [exact H|apply Rmax_r]. Qed.

(* ------------------------------------------------------------------ *)
(** * Volumes after an iteration *)

Lemma t_J1_masked q k phis incomp m :
  t_J1 q k phis incomp m * t_masks q k m = t_J1 q k phis incomp m.
Proof. unfold t_J1. rewrite Rmult_assoc. unfold t_masks. now rewrite mask_idem. Qed.

Lemma t_J_masked q k m : t_J q k m * t_masks q k m = t_J q k m.
Proof. unfold t_J. rewrite Rmult_assoc. unfold t_masks. now rewrite mask_idem. Qed.

Lemma t_J2_eq q k phis incomp m :
  t_J2 q k phis incomp m = t_J1 q k phis incomp m + t_shift q k phis incomp * t_masks q k m.
Proof. unfold t_J2. rewrite Rmult_plus_distr_r, t_J1_masked. reflexivity. Qed.

Lemma t_J2_sum q k phis incomp :
  (0 < t_nv q k)%nat -> rsum (q_np q) (t_J2 q k phis incomp) = INR (t_nv q k).
Proof.
  intros Hv. rewrite (rsum_ext _ _ _ (fun m _ => t_J2_eq q k phis incomp m)).
  rewrite rsum_plus, rsum_scal_l. unfold t_masks. rewrite masks_sum. fold (t_nv q k).
  unfold t_shift. rewrite t_n_eq. field. now apply INR_neq0.
Qed.

Lemma t_J2_dead q k phis incomp m : v_Js k m <= q_thr q -> t_J2 q k phis incomp m = 0.
Proof.
  intros H. unfold t_J2, t_masks. rewrite mask_dead by auto. lra.
Qed.

End Iter.
Arguments if_nv {G St q k phis incomp k' nv rep}.
Arguments if_nv_pos {G St q k phis incomp k' nv rep}.
Arguments if_change {G St q k phis incomp k' nv rep}.
Arguments if_omegas {G St q k phis incomp k' nv rep}.
Arguments if_Js {G St q k phis incomp k' nv rep}.
Arguments if_comp {G St q k phis incomp k' nv rep}.
Arguments if_feat {G St q k phis incomp k' nv rep}.
Arguments if_cons {G St q k phis incomp k' nv rep}.
Arguments if_g {G St q k phis incomp k' nv rep}.
Arguments if_e_incomp {G St q k phis incomp k' nv rep}.
Arguments if_e_omega {G St q k phis incomp k' nv rep}.
Arguments if_e_Js {G St q k phis incomp k' nv rep}.
Arguments if_e_cons {G St q k phis incomp k' nv rep}.
