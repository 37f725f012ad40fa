(** PropertiesNorm.v -- C77: the equilibration error with any [order]. *)

From Coq Require Import Reals Lra Lia List Bool Arith ZArith.
From Verif Require Import Base ModelCommon ModelFreeEnergy ProofsFreeEnergy PropertiesFreeEnergy ModelNorm.
Import ListNotations.
Open Scope R_scope.

(* ------------------------------------------------------------------ *)
(** * Norms *)

Lemma rpow_nonneg x p : 0 <= rpow x p.
Proof. unfold rpow. destruct (Req_EM_T x 0); [lra|]. unfold Rpower. left. apply exp_pos. Qed.

Lemma rpow_mono x y p : 0 <= x -> x <= y -> 0 < p -> rpow x p <= rpow y p.
Proof.
  intros Hx Hxy Hp. unfold rpow at 1. destruct (Req_EM_T x 0); [apply rpow_nonneg|].
  unfold rpow. destruct (Req_EM_T y 0); [lra|]. apply Rle_Rpower_l; lra.
Qed.

Lemma rpow_inv x p : 0 <= x -> 0 < p -> rpow (rpow x p) (/ p) = x.
Proof.
  intros Hx Hp. unfold rpow at 2. destruct (Req_EM_T x 0) as [->|Hn].
  - unfold rpow. destruct (Req_EM_T 0 0); [reflexivity|congruence].
  - unfold rpow. destruct (Req_EM_T (Rpower x p) 0) as [E|_].
    + exfalso. unfold Rpower in E. pose proof (exp_pos (p * ln x)). lra.
    + rewrite Rpower_mult, Rinv_r, Rpower_1; lra.
Qed.

Lemma rsum_ge_one n (f : nat -> R) i : (forall j, (j < n)%nat -> 0 <= f j) -> (i < n)%nat -> f i <= rsum n f.
Proof.
  intros H. induction n as [|n IH]; intros Hi; [lia|]. cbn [rsum].
  assert (0 <= rsum n f) by (apply rsum_nonneg; intros; apply H; lia).
  destruct (Nat.eq_dec i n) as [->|]; [lra|]. assert (f i <= rsum n f) by (apply IH; [intros; apply H; lia|lia]).
  pose proof (H n ltac:(lia)). lra.
Qed.

(** orders that see every entry *)
Definition seeing (o : order) : Prop := match o with Onone | Oinf => True | Oninf => False | Onum p => 0 < p end.

Lemma sqrt_bound n f i : (i < n)%nat -> Rabs (f i) <= sqrt (rsum n (fun i => f i * f i)).
Proof.
  intros Hi. rewrite <- sqrt_Rsqr_abs. apply sqrt_le_1_alt. unfold Rsqr.
  apply (rsum_ge_one n (fun i => f i * f i)); [intros; apply Rle_0_sqr|exact Hi].
Qed.

Lemma vnorm_bound o n f i : seeing o -> (i < n)%nat -> Rabs (f i) <= vnorm o n f.
Proof.
  destruct o as [| | |p]; cbn [seeing vnorm]; intros HS Hi.
  - now apply sqrt_bound.
  - now apply (vmax_ge n (fun i => Rabs (f i))).
  - contradiction.
  - rewrite (proj2 (Reqb_false p 0)) by lra. destruct (Reqb p 1).
    + apply (rsum_ge_one n (fun i => Rabs (f i))); [intros; apply Rabs_pos|exact Hi].
    + destruct (Reqb p 2); [now apply sqrt_bound|]. rewrite (proj2 (Rltb_true 0 p)) by lra.
      rewrite <- (rpow_inv (Rabs (f i)) p) at 1 by (auto using Rabs_pos).
      apply rpow_mono; [apply rpow_nonneg| |now apply Rinv_0_lt_compat].
      apply (rsum_ge_one n (fun i => rpow (Rabs (f i)) p)); [intros; apply rpow_nonneg|exact Hi].
Qed.

Lemma vmax_zero n f : (forall i, (i < n)%nat -> f i = 0) -> vmax n f = 0.
Proof.
  destruct n as [|n]; [reflexivity|]. intros H. destruct (vmax_in (S n) f ltac:(lia)) as (i & Hi & E). rewrite E. auto.
Qed.

Lemma vnorm_zero o n f : seeing o \/ o = Onum 0 -> (forall i, (i < n)%nat -> f i = 0) -> vnorm o n f = 0.
Proof.
  intros HS H. assert (HA : forall i, (i < n)%nat -> Rabs (f i) = 0) by (intros; rewrite H, Rabs_R0; auto).
  assert (H2 : sqrt (rsum n (fun i => f i * f i)) = 0).
  { rewrite rsum_zero; [apply sqrt_0|]. intros i Hi. rewrite H by auto. ring. }
  destruct o as [| | |p]; cbn [vnorm].
  - exact H2.
  - now apply vmax_zero.
  - destruct HS; [contradiction|discriminate].
  - destruct (Reqb p 0) eqn:E0.
    + rewrite (proj2 (ncount_none _ _)); [reflexivity|]. intros i Hi. rewrite (proj2 (Reqb_true _ _)) by auto. reflexivity.
    + apply Reqb_false in E0. destruct HS as [HS|HS]; [|congruence]. cbn in HS.
      destruct (Reqb p 1); [now apply rsum_zero|]. destruct (Reqb p 2); [exact H2|].
      rewrite (proj2 (Rltb_true 0 p)) by lra. rewrite (rsum_zero n).
      * unfold rpow. destruct (Req_EM_T 0 0); [reflexivity|congruence].
      * intros i Hi. rewrite HA by auto. unfold rpow. destruct (Req_EM_T 0 0); [reflexivity|congruence].
Qed.

Lemma vnorm_zero_inv o n f : seeing o \/ o = Onum 0 -> vnorm o n f = 0 -> forall i, (i < n)%nat -> f i = 0.
Proof.
  intros [HS| ->] E i Hi.
  - pose proof (vnorm_bound o n f i HS Hi) as B. rewrite E in B. pose proof (Rabs_pos (f i)).
    destruct (Req_dec (f i) 0) as [|Hn]; [assumption|]. apply Rabs_pos_lt in Hn. lra.
  - cbn in E. rewrite (proj2 (Reqb_true 0 0)) in E by reflexivity. apply (INR_eq _ 0) in E.
    apply ncount_none with (i := i) in E; [|exact Hi]. apply negb_false_iff in E. now apply Reqb_true.
Qed.

(* ------------------------------------------------------------------ *)
(** * Deviations *)

Lemma lsum_nth {A} (l : list A) d (g : A -> R) : lsum l g = rsum (length l) (fun p => g (nth p l d)).
Proof.
  induction l as [|a l IH] using rev_ind; [reflexivity|]. rewrite lsum_app, app_length, Nat.add_1_r. cbn [lsum length rsum].
  rewrite IH, app_nth2, Nat.sub_diag by lia. cbn [nth]. rewrite Rplus_0_r. f_equal. apply rsum_ext. intros p Hp. now rewrite app_nth1.
Qed.

Lemma dev_length n mus : length (deviations n mus) = length mus.
Proof. unfold deviations. now rewrite !map_length. Qed.

Lemma dev_entry n mus p i : (p < length mus)%nat ->
  dev_matrix n mus p i = nan_to_num (nth i (nth p mus []) NaN)
    - rsum (length mus) (fun q => nan_to_num (nth i (nth q mus []) NaN)) / INR (length mus).
Proof.
  intros Hp. unfold dev_matrix, deviations. set (val := fun (m : list xr) (i : nat) => nan_to_num (nth i m NaN)).
  change (map (fun m i => nan_to_num (nth i m NaN)) mus) with (map val mus).
  set (dv := fun (m : nat -> R) (i : nat) => m i - lsum (map val mus) (fun m0 => m0 i) / INR (length (map val mus))).
  change (nth p (map dv (map val mus)) (fun _ => 0) i = val (nth p mus []) i - rsum (length mus) (fun q => val (nth q mus []) i) / INR (length mus)).
  rewrite (nth_indep _ _ (dv (val []))) by (rewrite !map_length; lia).
  rewrite map_nth, map_nth. unfold dv. rewrite map_length, lsum_map, (lsum_nth mus []). reflexivity.
Qed.

(** the deviations of a component add up to zero *)
Lemma dev_sum n mus i : (0 < length mus)%nat -> rsum (length mus) (fun p => dev_matrix n mus p i) = 0.
Proof.
  intros H. rewrite (rsum_ext _ _ _ (fun p Hp => dev_entry n mus p i Hp)). unfold Rminus.
  rewrite rsum_plus, rsum_const. field. apply not_0_INR. lia.
Qed.

(* ------------------------------------------------------------------ *)
(** * C77 *)

(** What singular values are: the largest is the maximum of |D x| over unit
    vectors x; the smallest bounds |D^T y| from below (fewer rows than columns). *)
Definition largest_sv (np n : nat) (D : mat) (s : R) : Prop :=
  0 <= s /\
  (forall x, rsum np (fun p => Rsqr (rsum n (fun i => D p i * x i))) <= Rsqr s * rsum n (fun i => Rsqr (x i))) /\
  exists x, rsum n (fun i => Rsqr (x i)) = 1 /\ rsum np (fun p => Rsqr (rsum n (fun i => D p i * x i))) = Rsqr s.
Definition smallest_sv (np n : nat) (D : mat) (s : R) : Prop :=
  0 <= s /\
  forall y, Rsqr s * rsum np (fun p => Rsqr (y p)) <= rsum n (fun i => Rsqr (rsum np (fun p => D p i * y p))).

Section Norm.
Context (smax smin : nat -> nat -> mat -> R).
Notation err := (equilibration_error_ord smax smin).
Definition smax_at (n : nat) (mus : list (list xr)) : Prop :=
  largest_sv (length mus) n (dev_matrix n mus) (smax (length mus) n (dev_matrix n mus)).

(** Without [order]: the function of C48. *)
Theorem C77_default F c axis : err F c Onone axis = equilibration_error F c axis.
Proof.
  unfold equilibration_error_ord, equilibration_error. destruct (chemical_potentials F c) as [mus|e]; [|reflexivity]. cbn [bind].
  destruct axis; cbn [vnorm mnorm bind]; apply f_equal.
  - unfold listed. apply map_ext_in. intros i _. apply f_equal. rewrite (@lsum_nth vec _ (fun _ => 0)), dev_length. reflexivity.
  - rewrite <- (dev_length (fe_nc F) mus). unfold dev_matrix. generalize (deviations (fe_nc F) mus). intros d.
    unfold listed. transitivity (map (fun m : vec => sqrt (rsum (fe_nc F) (fun i => m i * m i))) (map (fun p => nth p d (fun _ => 0)) (seq 0 (length d)))).
    + now rewrite map_map.
    + f_equal. apply (nth_ext _ _ (fun _ => 0) (fun _ => 0)); [now rewrite map_length, seq_length|]. rewrite map_length, seq_length.
      intros p Hp. rewrite (nth_indep _ _ (nth 0 d (fun _ => 0))) by (rewrite map_length, seq_length; lia).
      rewrite (map_nth (fun p => nth p d (fun _ => 0))), seq_nth by lia. reflexivity.
  - rewrite (@lsum_nth vec _ (fun _ => 0)), dev_length. reflexivity.
Qed.

(** orders for which the error measures all deviations *)
Definition measures (o : order) (axis : err_axis) : Prop :=
  match axis with
  | ByBoth => o = Onone \/ o = Oinf \/ o = Onum 1 \/ o = Onum 2
  | _ => seeing o
  end.

Lemma smax_bound np n D p i : largest_sv np n D (smax np n D) -> (p < np)%nat -> (i < n)%nat -> Rabs (D p i) <= smax np n D.
Proof.
  intros HS Hp Hi. destruct HS as (S0 & SB & _). specialize (SB (fun j => if Nat.eqb j i then 1 else 0)). cbv beta in SB.
  rewrite (rsum_single n (fun j => Rsqr (if Nat.eqb j i then 1 else 0)) i Hi) in SB.
  2: { intros j Hj Hne. destruct (Nat.eqb_spec j i); [congruence|]. unfold Rsqr. ring. }
  rewrite Nat.eqb_refl in SB. replace (Rsqr 1) with 1 in SB by (unfold Rsqr; ring). rewrite Rmult_1_r in SB.
  rewrite <- (Rabs_pos_eq (smax np n D) S0). apply Rsqr_le_abs_0.
  eapply Rle_trans; [|exact SB].
  eapply Rle_trans; [|apply (rsum_ge_one np (fun p => Rsqr (rsum n (fun j => D p j * (if Nat.eqb j i then 1 else 0)))) p); [intros; apply Rle_0_sqr|exact Hp]].
  cbv beta. right. f_equal. rewrite (rsum_single n (fun j => D p j * (if Nat.eqb j i then 1 else 0)) i Hi).
  - rewrite Nat.eqb_refl. ring.
  - intros j Hj Hne. destruct (Nat.eqb_spec j i); [congruence|ring].
Qed.

(** the largest error bounds every deviation *)
Lemma err_bound F c o axis errs mus eps : (axis = ByBoth -> o = Onum 2 -> smax_at (fe_nc F) mus) ->
  measures o axis -> err F c o axis = Ok errs -> chemical_potentials F c = Ok mus -> Forall (fun e => e <= eps) errs ->
  forall p i, (p < length mus)%nat -> (i < fe_nc F)%nat -> Rabs (dev_matrix (fe_nc F) mus p i) <= eps.
Proof.
  intros HS HM HE Hmu HF p i Hp Hi. unfold equilibration_error_ord in HE. rewrite Hmu in HE. cbn [bind] in HE.
  set (D := dev_matrix (fe_nc F) mus) in *. rewrite Forall_forall in HF. destruct axis.
  - injection HE as <-. eapply Rle_trans; [apply (vnorm_bound o (length mus) (fun p => D p i) p HM Hp)|].
    apply HF. unfold listed. apply in_map_iff. exists i. split; [reflexivity|]. apply in_seq. lia.
  - injection HE as <-. eapply Rle_trans; [apply (vnorm_bound o (fe_nc F) (D p) i HM Hi)|].
    apply HF. unfold listed. apply in_map_iff. exists p. split; [reflexivity|]. apply in_seq. lia.
  - cbn [measures] in HM. destruct HM as [->|[->|[->| ->]]]; cbn [mnorm bind] in HE.
    + injection HE as <-. eapply Rle_trans; [|apply HF; left; reflexivity].
      rewrite <- sqrt_Rsqr_abs. apply sqrt_le_1_alt.
      eapply Rle_trans; [|apply (rsum_ge_one (length mus) (fun p => rsum (fe_nc F) (fun i => D p i * D p i)) p); [|exact Hp]].
      * apply (rsum_ge_one (fe_nc F) (fun i => D p i * D p i)); [intros; apply Rle_0_sqr|exact Hi].
      * intros q _. apply rsum_nonneg. intros; apply Rle_0_sqr.
    + injection HE as <-. eapply Rle_trans; [|apply HF; left; reflexivity].
      eapply Rle_trans; [|apply (vmax_ge (length mus) (fun p => rsum (fe_nc F) (fun i => Rabs (D p i))) p Hp)].
      apply (rsum_ge_one (fe_nc F) (fun i => Rabs (D p i))); [intros; apply Rabs_pos|exact Hi].
    + rewrite (proj2 (Reqb_true 1 1)) in HE by reflexivity. cbn [bind] in HE. injection HE as <-. eapply Rle_trans; [|apply HF; left; reflexivity].
      eapply Rle_trans; [|apply (vmax_ge (fe_nc F) (fun i => rsum (length mus) (fun p => Rabs (D p i))) i Hi)].
      apply (rsum_ge_one (length mus) (fun p => Rabs (D p i))); [intros; apply Rabs_pos|exact Hp].
    + rewrite (proj2 (Reqb_false 2 1)), (proj2 (Reqb_false 2 (-1))), (proj2 (Reqb_true 2 2)) in HE by lra.
      cbn [bind] in HE. injection HE as <-. eapply Rle_trans; [|apply HF; left; reflexivity].
      apply smax_bound; auto. apply HS; auto.
Qed.

(** If no error exceeds eps, the (finite) chemical potentials of any component
    in any two phases differ by at most 2 eps. *)
Theorem C77_bound F c o axis errs mus eps p q i a b : (axis = ByBoth -> o = Onum 2 -> smax_at (fe_nc F) mus) ->
  measures o axis -> err F c o axis = Ok errs -> chemical_potentials F c = Ok mus -> Forall (fun e => e <= eps) errs ->
  (i < fe_nc F)%nat -> nth i (nth p mus []) NaN = Fin a -> nth i (nth q mus []) NaN = Fin b -> Rabs (a - b) <= 2 * eps.
Proof.
  intros HS HM HE Hmu HF Hi Ha Hb.
  assert (L : forall p a, nth i (nth p mus []) NaN = Fin a -> (p < length mus)%nat).
  { intros p0 a0 E. destruct (lt_dec p0 (length mus)) as [|N]; [assumption|]. rewrite (nth_overflow mus) in E by lia.
    destruct i; discriminate. }
  pose proof (err_bound F c o axis errs mus eps HS HM HE Hmu HF) as B.
  pose proof (B p i (L _ _ Ha) Hi) as B1. pose proof (B q i (L _ _ Hb) Hi) as B2.
  rewrite dev_entry in B1, B2 by eauto. rewrite Ha in B1. rewrite Hb in B2. cbn [nan_to_num] in *.
  set (m := rsum _ _ / _) in *. replace (a - b) with ((a - m) + - (b - m)) by ring.
  eapply Rle_trans; [apply Rabs_triang|]. rewrite Rabs_Ropp. lra.
Qed.

Lemma err_zero F c o axis mus : (axis = ByBoth -> o = Onum 2 -> smax_at (fe_nc F) mus) -> (0 < fe_nc F)%nat ->
  measures o axis \/ (axis <> ByBoth /\ o = Onum 0) -> chemical_potentials F c = Ok mus -> (0 < length mus)%nat ->
  exists errs, err F c o axis = Ok errs /\
    (Forall (fun e => e = 0) errs <-> forall p i, (p < length mus)%nat -> (i < fe_nc F)%nat -> dev_matrix (fe_nc F) mus p i = 0).
Proof.
  intros HS Hn HM Hmu Hl. unfold equilibration_error_ord. rewrite Hmu. cbn [bind]. set (D := dev_matrix (fe_nc F) mus).
  destruct axis.
  - assert (HO : seeing o \/ o = Onum 0) by (destruct HM as [HM|(_ & HM)]; auto).
    eexists. split; [reflexivity|]. rewrite Forall_forall. unfold listed. split.
    + intros H p i Hp Hi. apply (vnorm_zero_inv o (length mus) (fun p => D p i)); auto. apply H. apply in_map_iff.
      exists i. split; [reflexivity|]. apply in_seq. lia.
    + intros H e He. apply in_map_iff in He. destruct He as (i & <- & Hi). apply in_seq in Hi. apply vnorm_zero; auto. intros p Hp. apply H; lia.
  - assert (HO : seeing o \/ o = Onum 0) by (destruct HM as [HM|(_ & HM)]; auto).
    eexists. split; [reflexivity|]. rewrite Forall_forall. unfold listed. split.
    + intros H p i Hp Hi. apply (vnorm_zero_inv o (fe_nc F) (D p)); auto. apply H. apply in_map_iff.
      exists p. split; [reflexivity|]. apply in_seq. lia.
    + intros H e He. apply in_map_iff in He. destruct He as (p & <- & Hp). apply in_seq in Hp. apply vnorm_zero; auto. intros i Hi. apply H; lia.
  - destruct HM as [HM|(HM & _)]; [|congruence].
    assert (exists e, mnorm smax smin o (length mus) (fe_nc F) D = Ok e /\
      ((forall p i, (p < length mus)%nat -> (i < fe_nc F)%nat -> D p i = 0) -> e = 0)) as (e & Ee & Hz).
    { destruct HM as [->|[->|[->| ->]]]; cbn [mnorm].
      - eexists. split; [reflexivity|]. intros H. rewrite rsum_zero; [apply sqrt_0|]. intros p Hp. apply rsum_zero. intros i Hi.
        rewrite H by auto. ring.
      - eexists. split; [reflexivity|]. intros H. apply vmax_zero. intros p Hp. apply rsum_zero. intros i Hi. rewrite H by auto. apply Rabs_R0.
      - rewrite (proj2 (Reqb_true 1 1)) by reflexivity. eexists. split; [reflexivity|]. intros H. apply vmax_zero. intros i Hi.
        apply rsum_zero. intros p Hp. rewrite H by auto. apply Rabs_R0.
      - rewrite (proj2 (Reqb_false 2 1)), (proj2 (Reqb_false 2 (-1))), (proj2 (Reqb_true 2 2)) by lra.
        eexists. split; [reflexivity|]. intros H. destruct (HS eq_refl eq_refl) as (_ & _ & x & _ & Ex).
        rewrite rsum_zero in Ex.
        + symmetry in Ex. now apply Rsqr_0_uniq.
        + intros p Hp. rewrite rsum_zero; [apply Rsqr_0|]. intros i Hi. rewrite H by auto. ring. }
    rewrite Ee. cbn [bind]. eexists. split; [reflexivity|]. split.
    + intros HF p i Hp Hi.
      assert (HE : err F c o ByBoth = Ok [e]) by (unfold equilibration_error_ord; rewrite Hmu; cbn [bind]; fold D; now rewrite Ee).
      pose proof (err_bound F c o ByBoth [e] mus 0 HS HM HE Hmu) as B.
      assert (HB : Forall (fun e => e <= 0) [e]) by (inversion HF; subst; repeat constructor; lra).
      specialize (B HB p i Hp Hi). fold D in B. pose proof (Rabs_pos (D p i)).
      destruct (Req_dec (D p i) 0) as [|Hne]; [assumption|]. apply Rabs_pos_lt in Hne. lra.
    + intros H. rewrite (Hz H). repeat constructor.
Qed.

(** For positive compositions all errors vanish iff all phases have the same
    chemical potentials: for every positive order and inf, for order 0, and
    with axis=None for None, inf, 1 and 2. *)
Theorem C77_zero F c o axis :
  (forall mus, chemical_potentials F c = Ok mus -> axis = ByBoth -> o = Onum 2 -> smax_at (fe_nc F) mus) ->
  wf_fe F -> comp_shaped c -> comp_cols c = fe_nc F -> positive c -> (0 < fe_nc F)%nat -> comp_rows c <> [] ->
  measures o axis \/ (axis <> ByBoth /\ o = Onum 0) ->
  exists errs mus, err F c o axis = Ok errs /\ chemical_potentials F c = Ok mus /\
    (Forall (fun e => e = 0) errs <-> forall m m', In m mus -> In m' mus -> m = m').
Proof.
  intros HS WF SH CC HP Hn Hne HM.
  destruct (C48_zero F c WF SH CC HP) as (errs0 & mus & E0 & Hmu & _ & HL & IFF).
  assert (Hl : (0 < length mus)%nat) by (rewrite HL; destruct (comp_rows c); [congruence|cbn; lia]).
  destruct (err_zero F c o axis mus (HS mus Hmu) Hn HM Hmu Hl) as (errs & E & Z).
  exists errs, mus. split; [exact E|]. split; [exact Hmu|]. rewrite Z, <- IFF.
  rewrite <- (C77_default F c ByPhase) in E0.
  destruct (err_zero F c Onone ByPhase mus ltac:(discriminate) Hn (or_introl I) Hmu Hl) as (errs1 & E1 & Z1).
  rewrite E0 in E1. injection E1 as <-. symmetry. exact Z1.
Qed.

(** order=-2 with axis=None is useless: with at most as many phases as
    components it is always zero. *)
Theorem C77_least F c mus : chemical_potentials F c = Ok mus -> (0 < length mus <= fe_nc F)%nat ->
  smallest_sv (length mus) (fe_nc F) (dev_matrix (fe_nc F) mus) (smin (length mus) (fe_nc F) (dev_matrix (fe_nc F) mus)) ->
  err F c (Onum (-2)) ByBoth = Ok [0].
Proof.
  intros Hmu Hl HS. unfold equilibration_error_ord. rewrite Hmu. cbn [bind mnorm].
  rewrite (proj2 (Reqb_false (-2) 1)), (proj2 (Reqb_false (-2) (-1))), (proj2 (Reqb_false (-2) 2)), (proj2 (Reqb_true (-2) (-2))) by lra.
  cbn [bind]. do 2 f_equal. destruct HS as (S0 & SB).
  specialize (SB (fun _ => 1)). cbv beta in SB. rewrite (rsum_zero (fe_nc F)) in SB.
  - rewrite rsum_const in SB. assert (0 < INR (length mus)) by (apply lt_0_INR; lia).
    pose proof (Rle_0_sqr (smin (length mus) (fe_nc F) (dev_matrix (fe_nc F) mus))) as S1.
    apply Rsqr_0_uniq. assert (Rsqr 1 = 1) by (unfold Rsqr; ring). rewrite H0, Rmult_1_r in SB. nra.
  - intros i Hi. rewrite (rsum_ext _ _ (fun p => dev_matrix (fe_nc F) mus p i)) by (intros; ring).
    rewrite dev_sum by lia. apply Rsqr_0.
Qed.

(** With axis=None numpy knows no other orders. *)
Theorem C77_unknown F c p mus : chemical_potentials F c = Ok mus -> p <> 1 -> p <> -1 -> p <> 2 -> p <> -2 ->
  err F c (Onum p) ByBoth = Err ValueError.
Proof.
  intros Hmu H1 H2 H3 H4. unfold equilibration_error_ord. rewrite Hmu. cbn [bind mnorm].
  now rewrite (proj2 (Reqb_false p 1)), (proj2 (Reqb_false p (-1))), (proj2 (Reqb_false p 2)), (proj2 (Reqb_false p (-2))).
Qed.

(** Negative orders do not measure balance: one balanced component suffices for
    zero errors. *)
Theorem C77_negative o F c mus i : (o = Oninf \/ exists p, o = Onum p /\ p < 0) ->
  chemical_potentials F c = Ok mus -> (i < fe_nc F)%nat ->
  (forall p, (p < length mus)%nat -> dev_matrix (fe_nc F) mus p i = 0) ->
  exists errs, err F c o ByPhase = Ok errs /\ Forall (fun e => e = 0) errs.
Proof.
  intros HO Hmu Hi H. unfold equilibration_error_ord. rewrite Hmu. cbn [bind]. eexists. split; [reflexivity|].
  apply Forall_forall. intros e He. unfold listed in He. apply in_map_iff in He. destruct He as (p & <- & Hp). apply in_seq in Hp.
  destruct HO as [->|(r & -> & Hr)]; cbn [vnorm].
  - destruct (vmin_in (fe_nc F) (fun i => Rabs (dev_matrix (fe_nc F) mus p i)) ltac:(lia)) as (j & Hj & E).
    pose proof (vmin_le (fe_nc F) (fun i => Rabs (dev_matrix (fe_nc F) mus p i)) i Hi) as L. cbv beta in L.
    rewrite H, Rabs_R0 in L by lia. rewrite E in *. pose proof (Rabs_pos (dev_matrix (fe_nc F) mus p j)). lra.
  - rewrite (proj2 (Reqb_false r 0)), (proj2 (Reqb_false r 1)), (proj2 (Reqb_false r 2)), (proj2 (Rltb_false 0 r)) by lra.
    rewrite (proj2 (Nat.ltb_lt 0 _)); [reflexivity|]. apply ncount_pos. exists i. split; [exact Hi|]. apply Reqb_true. apply H. lia.
Qed.
End Norm.

(* ------------------------------------------------------------------ *)
(** * Concrete cases *)

Definition ideal3 : fe := {| fe_nc := 3; fe_chis := fun _ _ => 0; fe_sizes := fun _ => 1 |}.
Definition two_mix : comps := Many 3 [[1/2; 1/4; 1/4]; [1/2; 1/8; 3/8]].

Lemma two_mix_mus : exists mus, chemical_potentials ideal3 two_mix = Ok mus /\ length mus = 2%nat /\
  nth 0 (nth 0 mus []) NaN = nth 0 (nth 1 mus []) NaN /\ nth 1 (nth 0 mus []) NaN <> nth 1 (nth 1 mus []) NaN.
Proof.
  assert (WF : wf_fe ideal3) by (split; cbn; intros; lra).
  unfold chemical_potentials. rewrite check_ok.
  - cbn [bind]. eexists. split; [reflexivity|]. split; [reflexivity|].
    assert (V : forall phi i, Forall (fun x => 0 < x) phi -> length phi = 3%nat -> (i < 3)%nat -> rsum 3 (entries phi) = 1 ->
       nth i (listed 3 (potential_at ideal3 (entries phi))) NaN = Fin (ln (entries phi i))).
    { intros phi i Hp Hl Hi HS. rewrite listed_nth by auto. rewrite potential_fin; auto.
      - f_equal. unfold mu_of, fh, dfh. cbn [ideal3 fe_nc fe_chis fe_sizes]. cbn [rsum] in *.
        transitivity (ln (entries phi i) + 1 - (0 + entries phi 0%nat + entries phi 1%nat + entries phi 2%nat)); [field|rewrite HS; ring].
      - intros j Hj. left. apply positive_entries; auto. cbn in Hj. lia.
      - apply positive_entries; auto. lia. }
    cbn [each rows_of two_mix map nth].
    rewrite !V by (cbn; try lia; try (repeat constructor; lra); try (unfold entries; cbn; lra)).
    unfold entries. cbn [nth]. split; [reflexivity|]. intros E. injection E as E. apply ln_inv in E; lra.
  - reflexivity.
  - unfold nonneg, two_mix. cbn. repeat constructor; lra.
Qed.

(** Every negative order calls these two phases balanced by phase, although the
    potentials of the second component differ; with axis=None order -2 as well.
    Order 0 and every order that sees all entries report an error. *)
Theorem C77_negative_refuted smax smin : exists F c mus, wf_fe F /\ positive c /\ comp_cols c = fe_nc F /\
  chemical_potentials F c = Ok mus /\ (exists m m', In m mus /\ In m' mus /\ m <> m') /\
  (forall o, (o = Oninf \/ exists p, o = Onum p /\ p < 0) ->
     exists errs, equilibration_error_ord smax smin F c o ByPhase = Ok errs /\ Forall (fun e => e = 0) errs) /\
  (smallest_sv 2 3 (dev_matrix 3 mus) (smin 2%nat 3%nat (dev_matrix 3 mus)) -> equilibration_error_ord smax smin F c (Onum (-2)) ByBoth = Ok [0]) /\
  (forall o, seeing o \/ o = Onum 0 ->
     exists errs, equilibration_error_ord smax smin F c o ByPhase = Ok errs /\ ~ Forall (fun e => e = 0) errs).
Proof.
  destruct two_mix_mus as (mus & Hmu & HL & H0 & H1).
  assert (WF : wf_fe ideal3) by (split; cbn; intros; lra).
  assert (HP : positive two_mix) by (unfold positive, two_mix; cbn; repeat constructor; lra).
  assert (HD : exists m m', In m mus /\ In m' mus /\ m <> m').
  { exists (nth 0 mus []), (nth 1 mus []). split; [apply nth_In; lia|]. split; [apply nth_In; lia|]. intros E. apply H1. now rewrite E. }
  exists ideal3, two_mix, mus. split; [exact WF|]. split; [exact HP|]. split; [reflexivity|]. split; [exact Hmu|]. split; [exact HD|].
  split; [|split].
  - intros o HO. apply (C77_negative smax smin o ideal3 two_mix mus 0 HO Hmu); [cbn; lia|].
    intros p Hp. rewrite dev_entry by exact Hp. rewrite HL in *. cbn [rsum].
    destruct p as [|[|p]]; [| |lia]; rewrite H0; cbn [INR]; field.
  - intros HS. apply (C77_least smax smin ideal3 two_mix mus Hmu); rewrite HL; [cbn; lia|exact HS].
  - intros o HO.
    destruct (C77_zero smax smin ideal3 two_mix o ByPhase ltac:(intros; discriminate) WF ltac:(repeat constructor) eq_refl HP ltac:(cbn; lia) ltac:(discriminate)) as (errs & mus' & E & Hmu' & IFF).
    + destruct HO as [HO|HO]; [left; exact HO|right; split; [discriminate|exact HO]].
    + exists errs. split; [exact E|]. rewrite IFF. rewrite Hmu in Hmu'. injection Hmu' as <-.
      intros HA. destruct HD as (m & m' & I1 & I2 & Hne). apply Hne. auto.
Qed.

(** largest singular value of a matrix with rows d and -d *)
Lemma cauchy n (d x : vec) : Rsqr (rsum n (fun i => d i * x i)) <= rsum n (fun i => Rsqr (d i)) * rsum n (fun i => Rsqr (x i)).
Proof.
  set (a := rsum n (fun i => Rsqr (d i))). set (b := rsum n (fun i => d i * x i)). set (c := rsum n (fun i => Rsqr (x i))).
  assert (Q : forall t, 0 <= c - 2 * t * b + t * t * a).
  { intros t. replace (c - 2 * t * b + t * t * a) with (rsum n (fun i => Rsqr (x i - t * d i))); [apply rsum_nonneg; intros; apply Rle_0_sqr|].
    unfold a, b, c. rewrite <- (rsum_scal_l n (2 * t)), <- (rsum_scal_l n (t * t)), <- rsum_minus, <- rsum_plus.
    apply rsum_ext. intros i _. unfold Rsqr. ring. }
  assert (Ha : 0 <= a) by (apply rsum_nonneg; intros; apply Rle_0_sqr).
  destruct (Req_dec a 0) as [E|Hn].
  - rewrite E in *. unfold Rsqr. destruct (Req_dec b 0) as [E0|Hb]; [rewrite E0; lra|]. exfalso.
    pose proof (Q ((c + 1) / (2 * b))) as H. replace (2 * ((c + 1) / (2 * b)) * b) with (c + 1) in H by (field; auto). lra.
  - pose proof (Q (b / a)) as H. assert (0 < a) by lra. apply (Rmult_le_compat_l a) in H; [|lra].
    replace (a * (c - 2 * (b / a) * b + b / a * (b / a) * a)) with (a * c - b * b) in H by (field; auto). unfold Rsqr. lra.
Qed.

Example case_largest_sv n (d : vec) : 0 < rsum n (fun i => Rsqr (d i)) ->
  largest_sv 2 n (fun p i => if Nat.eqb p 0 then d i else - d i) (sqrt (2 * rsum n (fun i => Rsqr (d i)))).
Proof.
  intros H. set (a := rsum n (fun i => Rsqr (d i))) in *. split; [apply sqrt_pos|]. rewrite Rsqr_sqrt by lra.
  assert (V : forall x, rsum 2 (fun p => Rsqr (rsum n (fun i => (if Nat.eqb p 0 then d i else - d i) * x i))) = 2 * Rsqr (rsum n (fun i => d i * x i))).
  { intros x. cbn [rsum Nat.eqb]. rewrite (rsum_ext n (fun i => - d i * x i) (fun i => - (d i * x i))) by (intros; ring).
    rewrite rsum_opp. unfold Rsqr. ring. }
  split.
  - intros x. rewrite V. pose proof (cauchy n d x). fold a in H0. lra.
  - exists (fun i => d i * / sqrt a). assert (Hs : sqrt a <> 0) by (apply Rgt_not_eq, sqrt_lt_R0; lra).
    rewrite V. rewrite (rsum_ext n (fun i => Rsqr (d i * / sqrt a)) (fun i => Rsqr (d i) * Rsqr (/ sqrt a))) by (intros; apply Rsqr_mult).
    rewrite (rsum_ext n (fun i => d i * (d i * / sqrt a)) (fun i => Rsqr (d i) * / sqrt a)) by (intros; unfold Rsqr; ring).
    rewrite !rsum_scal_r. fold a. rewrite Rsqr_mult, Rsqr_inv'. rewrite Rsqr_sqrt by lra. unfold Rsqr. split; field; lra.
Qed.

(** order=3 for the two phases above: the errors are not all below a third of
    the difference of the second potentials *)
Example case_C77_bound smax smin mus a b errs : chemical_potentials ideal3 two_mix = Ok mus ->
  nth 1 (nth 0 mus []) NaN = Fin a -> nth 1 (nth 1 mus []) NaN = Fin b -> a <> b ->
  equilibration_error_ord smax smin ideal3 two_mix (Onum 3) ByPhase = Ok errs -> ~ Forall (fun e => e <= Rabs (a - b) / 3) errs.
Proof.
  intros Hmu Ha Hb Hne HE HF.
  pose proof (C77_bound smax smin ideal3 two_mix (Onum 3) ByPhase errs mus _ 0 1 1 a b ltac:(discriminate) ltac:(cbn; lra) HE Hmu HF ltac:(cbn; lia) Ha Hb).
  assert (0 < Rabs (a - b)) by (apply Rabs_pos_lt; lra). lra.
Qed.
