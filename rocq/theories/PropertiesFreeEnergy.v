(** PropertiesFreeEnergy.v -- C41-C48: free energies and their derivatives. *)

From Coquelicot Require Import Coquelicot.
From Coq Require Import Reals Lra Lia List Bool Arith ZArith Permutation.
From Verif Require Import Base ModelCommon ModelFreeEnergy ProofsFreeEnergy ProofsPhases.
Import ListNotations.
Open Scope R_scope.

(** the rows of the array passed by the user *)
Definition comp_rows (c : comps) : list (list R) := match c with One phi => [phi] | Many _ rows => rows end.
(** well-shaped arrays: a 2D array has rows of the stated length *)
Definition comp_shaped (c : comps) : Prop :=
  match c with One _ => True | Many n rows => Forall (fun r => length r = n) rows end.
Definition comp_cols (c : comps) : nat := match c with One phi => length phi | Many n _ => n end.
(** acceptable fractions *)
Definition nonneg (c : comps) : Prop := Forall (Forall (fun x => 0 <= x)) (comp_rows c).
Definition positive (c : comps) : Prop := Forall (Forall (fun x => 0 < x)) (comp_rows c).
(** result by row *)
Definition by_row {A} (c : comps) (o : out A) (P : list R -> A -> Prop) : Prop :=
  match c, o with
  | One phi, Single a => P phi a
  | Many _ rows, Rows l => Forall2 P rows l
  | _, _ => False
  end.

Lemma nonneg_entries phi n : Forall (fun x => 0 <= x) phi -> forall i, (i < n)%nat -> 0 <= entries phi i.
Proof.
  intros H i _. unfold entries. destruct (Nat.lt_ge_cases i (length phi)) as [L|L].
  - rewrite Forall_forall in H. apply H. now apply nth_In.
  - rewrite nth_overflow by auto. lra.
Qed.

Lemma positive_entries phi i : Forall (fun x => 0 < x) phi -> (i < length phi)%nat -> 0 < entries phi i.
Proof. intros H Hi. unfold entries. rewrite Forall_forall in H. apply H. now apply nth_In. Qed.

Lemma positive_nonneg c : positive c -> nonneg c.
Proof.
  unfold positive, nonneg. intros H. eapply Forall_impl; [|exact H]. intros r Hr. eapply Forall_impl; [|exact Hr].
  intros; cbn in *; lra.
Qed.

Lemma check_ok F c : comp_cols c = fe_nc F -> nonneg c -> check_fractions F c = Ok tt.
Proof.
  intros H1 H2. unfold check_fractions.
  replace (match c with One phi => (length phi, [phi]) | Many n rows => (n, rows) end) with (comp_cols c, comp_rows c)
    by (destruct c; reflexivity).
  rewrite H1, Nat.eqb_refl. cbn [negb].
  destruct (existsb _ (comp_rows c)) eqn:E; [|reflexivity]. exfalso.
  apply existsb_exists in E. destruct E as (r & Hr & E). apply existsb_exists in E. destruct E as (x & Hx & E).
  apply Rltb_true in E. unfold nonneg in H2. rewrite Forall_forall in H2. specialize (H2 r Hr).
  rewrite Forall_forall in H2. specialize (H2 x Hx). lra.
Qed.

Lemma by_row_each {A} (c : comps) (f : vec -> A) (P : list R -> A -> Prop) :
  (forall r, In r (comp_rows c) -> P r (f (entries r))) -> by_row c (each f c) P.
Proof.
  intros H. destruct c as [phi|n rows]; cbn in *; [auto|].
  induction rows as [|r rows IH]; cbn; constructor; [apply H; now left|]. apply IH. intros r' Hr'. apply H. now right.
Qed.

Lemma by_row_impl {A} (c : comps) (o : out A) (P Q : list R -> A -> Prop) :
  (forall r a, In r (comp_rows c) -> P r a -> Q r a) -> by_row c o P -> by_row c o Q.
Proof.
  intros H. destruct c as [phi|n rows], o as [a|l]; cbn in *; auto.
  intros H2. induction H2; constructor; [apply H; [now left|auto]|]. apply IHForall2. intros r a Hr. apply H. now right.
Qed.

Lemma row_length F c r : comp_shaped c -> comp_cols c = fe_nc F -> In r (comp_rows c) -> length r = fe_nc F.
Proof.
  destruct c as [phi|n rows]; cbn; intros HS HC HI.
  - destruct HI as [<-|[]]. exact HC.
  - rewrite Forall_forall in HS. rewrite HS; auto.
Qed.

(* ------------------------------------------------------------------ *)
(** * C41 -- free energy density *)

Theorem C41_value F c : wf_fe F -> comp_shaped c -> comp_cols c = fe_nc F -> nonneg c ->
  exists o, free_energy_density F c = Ok o /\
    by_row c o (fun phi f => f = Fin (fh (fe_nc F) (fe_chis F) (fe_sizes F) (entries phi))).
Proof.
  intros WF HS HC HN. unfold free_energy_density. rewrite check_ok by auto. cbn [bind].
  eexists. split; [reflexivity|]. apply by_row_each. intros r Hr. apply energy_fin; auto.
  apply nonneg_entries. unfold nonneg in HN. rewrite Forall_forall in HN. auto.
Qed.

Theorem C41_rejected F c : 
  (comp_cols c <> fe_nc F \/ exists r x, In r (comp_rows c) /\ In x r /\ x < 0) ->
  free_energy_density F c = Err VolumeFractionError /\ jacobian F c None = Err VolumeFractionError /\
  hessian F c None = Err VolumeFractionError /\ chemical_potentials F c = Err VolumeFractionError.
Proof.
  intros H. assert (E : check_fractions F c = Err VolumeFractionError).
  { unfold check_fractions.
    replace (match c with One phi => (length phi, [phi]) | Many n rows => (n, rows) end) with (comp_cols c, comp_rows c)
      by (destruct c; reflexivity).
    destruct (Nat.eqb_spec (comp_cols c) (fe_nc F)); [|reflexivity]. cbn [negb].
    destruct H as [H|(r & x & Hr & Hx & H)]; [congruence|].
    rewrite (proj2 (existsb_exists _ _)); [reflexivity|]. exists r. split; auto. apply existsb_exists. exists x. split; auto.
    now apply Rltb_true. }
  unfold free_energy_density, jacobian, hessian, chemical_potentials. rewrite E. auto.
Qed.

(** x ln x is continuous on [0, oo) *)
Lemma xlnx_small x : 0 <= x -> x <= 1 -> Rabs (x * ln x) <= 2 * sqrt x.
Proof.
  intros H0 H1. destruct (Req_dec x 0) as [->|Hx].
  - rewrite Rmult_0_l, Rabs_R0, sqrt_0. lra.
  - assert (Hp : 0 < x) by lra. pose proof (sqrt_lt_R0 x Hp) as Hs.
    assert (Hln : ln x <= 0) by (rewrite <- ln_1; destruct (Req_dec x 1) as [->|]; [lra|left; apply ln_increasing; lra]).
    rewrite Rabs_left1 by (rewrite <- (Rmult_0_r x); apply Rmult_le_compat_l; lra).
    assert (E : ln x = 2 * ln (sqrt x)).
    { rewrite <- (sqrt_sqrt x) at 1 by lra. rewrite ln_mult by auto. ring. }
    assert (Hi : - ln (sqrt x) <= / sqrt x).
    { rewrite <- ln_Rinv by auto. pose proof (Rinv_0_lt_compat _ Hs) as Hi.
      pose proof (exp_ineq1_le (ln (/ sqrt x))) as HE. rewrite exp_ln in HE by auto. lra. }
    rewrite E. replace (- (x * (2 * ln (sqrt x)))) with (2 * x * - ln (sqrt x)) by ring.
    replace (2 * sqrt x) with (2 * x * / sqrt x).
    + apply Rmult_le_compat_l; lra.
    + rewrite <- (sqrt_sqrt x) at 1 by lra. field. lra.
Qed.

Lemma xlnx_cont x : 0 <= x -> forall eps, 0 < eps -> exists delta, 0 < delta /\
  forall y, 0 <= y -> Rabs (y - x) < delta -> Rabs (y * ln y - x * ln x) < eps.
Proof.
  intros Hx eps He. destruct (Req_dec x 0) as [->|Hx0].
  - exists (Rmin 1 ((eps / 2 * (eps / 2)))). split; [apply Rmin_pos; [lra|apply Rmult_lt_0_compat; lra]|].
    intros y Hy Hd. rewrite Rminus_0_r in Hd. rewrite (Rabs_pos_eq y Hy) in Hd.
    rewrite Rmult_0_l, Rminus_0_r. eapply Rle_lt_trans; [apply xlnx_small; auto|].
    + pose proof (Rmin_l 1 (eps / 2 * (eps / 2))). lra.
    + pose proof (Rmin_r 1 (eps / 2 * (eps / 2))). assert (S : sqrt y < eps / 2).
      { rewrite <- (sqrt_square (eps / 2)) by lra. apply sqrt_lt_1; lra. }
      lra.
  - assert (C : continuity_pt (fun z => z * ln z) x).
    { apply continuity_pt_mult; [apply continuity_pt_id|]. apply derivable_continuous_pt.
      exists (/ x). apply derivable_pt_lim_ln. lra. }
    destruct (C eps He) as (d & Hd & HC). exists d. split; auto. intros y Hy Hyd.
    destruct (Req_dec y x) as [->|Hne]; [rewrite Rminus_diag_eq, Rabs_R0 by auto; auto|].
    apply HC. split; [split; [exact I|auto]|]. exact Hyd.
Qed.

Lemma rsum_cont n (g : nat -> vec -> R) phi (D : vec -> Prop) m :
  (forall i, (i < n)%nat -> forall eps, 0 < eps -> exists delta, 0 < delta /\
     forall psi, D psi -> (forall k, (k < m)%nat -> Rabs (psi k - phi k) < delta) -> Rabs (g i psi - g i phi) < eps) ->
  forall eps, 0 < eps -> exists delta, 0 < delta /\
     forall psi, D psi -> (forall k, (k < m)%nat -> Rabs (psi k - phi k) < delta) ->
       Rabs (rsum n (fun i => g i psi) - rsum n (fun i => g i phi)) < eps.
Proof.
  induction n as [|n IH]; intros H eps He.
  - exists 1. split; [lra|]. intros. cbn. rewrite Rminus_0_r, Rabs_R0. auto.
  - destruct (IH ltac:(intros; apply H; auto; lia) (eps / 2) ltac:(lra)) as (d1 & P1 & H1).
    destruct (H n ltac:(lia) (eps / 2) ltac:(lra)) as (d2 & P2 & H2).
    exists (Rmin d1 d2). split; [now apply Rmin_pos|]. intros psi HD Hk. cbn [rsum].
    specialize (H1 psi HD ltac:(intros k Hkm; specialize (Hk k Hkm); pose proof (Rmin_l d1 d2); lra)).
    specialize (H2 psi HD ltac:(intros k Hkm; specialize (Hk k Hkm); pose proof (Rmin_r d1 d2); lra)).
    replace (_ - _) with ((rsum n (fun i => g i psi) - rsum n (fun i => g i phi)) + (g n psi - g n phi)) by ring.
    eapply Rle_lt_trans; [apply Rabs_triang|]. lra.
Qed.

(** continuity at every non-negative composition, the boundary included *)
Theorem C41_continuous nc chi l phi : (forall i, (i < nc)%nat -> 0 <= phi i) ->
  forall eps, 0 < eps -> exists delta, 0 < delta /\
    forall psi, (forall i, (i < nc)%nat -> 0 <= psi i) -> (forall i, (i < nc)%nat -> Rabs (psi i - phi i) < delta) ->
      Rabs (fh nc chi l psi - fh nc chi l phi) < eps.
Proof.
  intros Hphi eps He. set (D := fun psi : vec => forall i, (i < nc)%nat -> 0 <= psi i).
  destruct (rsum_cont nc (fun i psi => psi i * ln (psi i) / l i) phi D nc) with (eps := eps / 2) as (d1 & P1 & H1); [|lra|].
  { intros i Hi e Hee. set (s := Rabs (/ l i)).
    assert (Hs : 0 <= s) by apply Rabs_pos.
    destruct (xlnx_cont (phi i) (Hphi i Hi) (e / (s + 1))) as (d & Pd & Hd).
    { apply Rdiv_lt_0_compat; lra. }
    exists d. split; auto. intros psi HD Hk. specialize (Hd (psi i) (HD i Hi) (Hk i Hi)).
    replace (_ - _) with ((psi i * ln (psi i) - phi i * ln (phi i)) * / l i) by (unfold Rdiv; ring).
    rewrite Rabs_mult. fold s.
    apply Rle_lt_trans with (e / (s + 1) * s); [apply Rmult_le_compat_r; lra|].
    apply Rmult_lt_reg_r with (s + 1); [lra|]. field_simplify; [|lra]. lra. }
  destruct (rsum_cont nc (fun i psi => rsum nc (fun j => chi i j * psi i * psi j)) phi D nc) with (eps := eps / 2)
    as (d2 & P2 & H2); [|lra|].
  { intros i Hi. apply (rsum_cont nc (fun j psi => chi i j * psi i * psi j) phi D nc). intros j Hj e Hee.
    set (B := Rabs (chi i j) + 1). set (M := Rabs (phi i) + Rabs (phi j) + 1).
    assert (HB : 1 <= B) by (unfold B; pose proof (Rabs_pos (chi i j)); lra).
    assert (HM : 1 <= M) by (unfold M; pose proof (Rabs_pos (phi i)); pose proof (Rabs_pos (phi j)); lra).
    exists (Rmin 1 (e / (2 * B * M))). split.
    { apply Rmin_pos; [lra|]. apply Rdiv_lt_0_compat; [lra|]. apply Rmult_lt_0_compat; lra. }
    intros psi HD Hk. pose proof (Hk i Hi) as Ki. pose proof (Hk j Hj) as Kj. set (d := Rmin 1 (e / (2 * B * M))) in *.
    assert (d1' : d <= 1) by apply Rmin_l. assert (d2' : d <= e / (2 * B * M)) by apply Rmin_r.
    replace (_ - _) with (chi i j * ((psi i - phi i) * psi j + phi i * (psi j - phi j))) by ring.
    rewrite Rabs_mult.
    assert (Hj' : Rabs (psi j) <= Rabs (phi j) + 1).
    { replace (psi j) with (phi j + (psi j - phi j)) by ring. eapply Rle_trans; [apply Rabs_triang|]. lra. }
    assert (T : Rabs ((psi i - phi i) * psi j + phi i * (psi j - phi j)) <= d * M).
    { eapply Rle_trans; [apply Rabs_triang|]. rewrite !Rabs_mult.
      pose proof (Rabs_pos (psi i - phi i)). pose proof (Rabs_pos (psi j - phi j)). pose proof (Rabs_pos (phi i)).
      pose proof (Rabs_pos (psi j)).
      apply Rle_trans with (d * (Rabs (phi j) + 1) + Rabs (phi i) * d).
      - apply Rplus_le_compat; [apply Rmult_le_compat; lra|apply Rmult_le_compat_l; lra].
      - unfold M. lra. }
    assert (Hd0 : 0 <= d) by (pose proof (Rabs_pos (psi i - phi i)); lra).
    apply Rle_lt_trans with (Rabs (chi i j) * (d * M)); [apply Rmult_le_compat_l; [apply Rabs_pos|auto]|].
    assert (Q : d * M <= e / (2 * B)).
    { apply Rle_trans with (e / (2 * B * M) * M); [apply Rmult_le_compat_r; lra|]. right. field. lra. }
    apply Rle_lt_trans with (Rabs (chi i j) * (e / (2 * B))); [apply Rmult_le_compat_l; [apply Rabs_pos|auto]|].
    apply Rlt_le_trans with (B * (e / (2 * B))).
    - apply Rmult_lt_compat_r; [apply Rdiv_lt_0_compat; lra|unfold B; lra].
    - replace (B * (e / (2 * B))) with (e / 2) by (field; lra). lra. }
  exists (Rmin d1 d2). split; [now apply Rmin_pos|]. intros psi HD Hk.
  specialize (H1 psi HD ltac:(intros k Hkm; specialize (Hk k Hkm); pose proof (Rmin_l d1 d2); lra)).
  specialize (H2 psi HD ltac:(intros k Hkm; specialize (Hk k Hkm); pose proof (Rmin_r d1 d2); lra)).
  unfold fh. cbn beta in H1, H2. apply Rabs_def2 in H1. apply Rabs_def2 in H2. apply Rabs_def1; lra.
Qed.

(* ------------------------------------------------------------------ *)
(** * C42 -- the Jacobian is the gradient *)

(** [f F] as a function of real compositions (C41) *)
Definition density (F : fe) : vec -> R := fh (fe_nc F) (fe_chis F) (fe_sizes F).

Theorem C42_gradient F c : wf_fe F -> comp_shaped c -> comp_cols c = fe_nc F -> positive c ->
  exists o, jacobian F c None = Ok o /\
    by_row c o (fun phi j => length j = fe_nc F /\
      exists g : vec, (forall i, (i < fe_nc F)%nat -> nth i j NaN = Fin (g i)) /\
        (forall i, (i < fe_nc F)%nat -> slope (density F) (entries phi) (unit_vec i) (g i)) /\
        (forall y, slope (density F) (entries phi) y (rsum (fe_nc F) (fun i => y i * g i)))).
Proof.
  intros WF HS HC HP. unfold jacobian. rewrite check_ok by (auto using positive_nonneg). cbn [bind].
  eexists. split; [reflexivity|]. apply by_row_each. intros r Hr. split; [apply listed_length|].
  pose proof (row_length F c r HS HC Hr) as HL.
  assert (Hpos : forall i, (i < fe_nc F)%nat -> 0 < entries r i).
  { intros i Hi. apply positive_entries; [|lia]. unfold positive in HP. rewrite Forall_forall in HP. auto. }
  destruct WF as [WF1 WF2].
  exists (dfh (fe_nc F) (fe_chis F) (fe_sizes F) (entries r)). split; [|split].
  - intros i Hi. rewrite listed_nth by auto. apply jacobian_fin; auto. now split.
  - intros i Hi. unfold density. rewrite <- (rsum_unit (fe_nc F) i (dfh _ _ _ (entries r)) Hi). now apply fh_slope.
  - intros y. now apply fh_slope.
Qed.

(* ------------------------------------------------------------------ *)
(** * C43 -- the conserved Jacobian *)

(** component [i] grows at the expense of component [k] *)
Definition exchange (i k : nat) : vec := fun a => unit_vec i a - unit_vec k a.
(** the python index [z] denotes component [k] of [n] *)
Definition denotes (n : nat) (z : Z) (k : nat) : Prop :=
  (k < n)%nat /\ (z = Z.of_nat k \/ z = (Z.of_nat k - Z.of_nat n)%Z).

Lemma axis_index_ok n z k : denotes n z k -> axis_index n z = Ok k.
Proof.
  unfold denotes, axis_index. intros [H1 H2]. 
  destruct (Z.ltb_spec z (- Z.of_nat n)); [lia|]. destruct (Z.leb_spec (Z.of_nat n) z); [lia|]. cbn [orb].
  f_equal. destruct (Z.ltb_spec z 0); lia.
Qed.

Lemma axis_index_bad n z : (z < - Z.of_nat n \/ Z.of_nat n <= z)%Z -> axis_index n z = Err IndexError.
Proof.
  unfold axis_index. intros H.
  destruct (Z.ltb_spec z (- Z.of_nat n)); [reflexivity|]. destruct (Z.leb_spec (Z.of_nat n) z); [reflexivity|lia].
Qed.

Theorem C43_conserved F c z k : wf_fe F -> comp_shaped c -> comp_cols c = fe_nc F -> positive c ->
  denotes (fe_nc F) z k ->
  exists o, jacobian F c (Some z) = Ok o /\
    by_row c o (fun phi j => length j = (fe_nc F - 1)%nat /\
      forall a, (a < fe_nc F - 1)%nat -> exists v, nth a j NaN = Fin v /\
        (* the a-th entry belongs to the a-th component other than k *)
        slope (density F) (entries phi) (exchange (skip k a) k) v).
Proof.
  intros WF HS HC HP HD. unfold jacobian. rewrite check_ok by (auto using positive_nonneg). cbn [bind].
  rewrite (axis_index_ok _ _ _ HD). cbn [bind]. destruct HD as [Hk _].
  eexists. split; [reflexivity|]. apply by_row_each. intros r Hr.
  pose proof (row_length F c r HS HC Hr) as HL.
  assert (Hpos : forall i, (i < fe_nc F)%nat -> 0 < entries r i).
  { intros i Hi. apply positive_entries; [|lia]. unfold positive in HP. rewrite Forall_forall in HP. auto. }
  split; [rewrite map_length, delete_length; rewrite listed_length; lia|].
  intros a Ha. set (g := dfh (fe_nc F) (fe_chis F) (fe_sizes F) (entries r)).
  exists (g (skip k a) - g k). split.
  - rewrite delete_listed by auto. rewrite listed_map, listed_nth by auto.
    rewrite listed_nth by auto. rewrite !jacobian_fin by (auto using skip_lt). reflexivity.
  - destruct WF as [WF1 WF2].
    replace (g (skip k a) - g k) with (rsum (fe_nc F) (fun i => exchange (skip k a) k i * g i)).
    + now apply fh_slope.
    + rewrite (rsum_ext _ _ (fun i => unit_vec (skip k a) i * g i - unit_vec k i * g i)) by (intros; unfold exchange; ring).
      rewrite rsum_minus, !rsum_unit by (auto using skip_lt). reflexivity.
Qed.

Theorem C43_bad_index F c z : comp_cols c = fe_nc F -> nonneg c -> (z < - Z.of_nat (fe_nc F) \/ Z.of_nat (fe_nc F) <= z)%Z ->
  jacobian F c (Some z) = Err IndexError /\ hessian F c (Some z) = Err IndexError /\
  exchange_chemical_potentials F c z = Err IndexError /\ pressure F c z = Err IndexError.
Proof.
  intros HC HN Hz. unfold jacobian, hessian, exchange_chemical_potentials, pressure, jacobian, chemical_potentials.
  rewrite check_ok by auto. cbn [bind]. rewrite axis_index_bad by auto. auto.
Qed.

(* ------------------------------------------------------------------ *)
(** * C44 -- the Hessian *)

Definition entry (m : list (list xr)) (i j : nat) : xr := nth j (nth i m []) NaN.

Lemma entry_listed n (f : nat -> nat -> xr) i j : (i < n)%nat -> (j < n)%nat ->
  entry (listed n (fun i => listed n (f i))) i j = f i j.
Proof. intros Hi Hj. unfold entry. rewrite listed_nth by auto. now rewrite listed_nth by auto. Qed.

Lemma hessian_entries F c : comp_shaped c -> comp_cols c = fe_nc F -> positive c ->
  exists o, hessian F c None = Ok o /\
    by_row c o (fun phi m => length m = fe_nc F /\ Forall (fun r => length r = fe_nc F) m /\
      forall i j, (i < fe_nc F)%nat -> (j < fe_nc F)%nat ->
        entry m i j = Fin (fe_chis F i j + if Nat.eqb i j then fe_sizes F i / entries phi i else 0)).
Proof.
  intros HS HC HP. unfold hessian. rewrite check_ok by (auto using positive_nonneg). cbn [bind].
  eexists. split; [reflexivity|]. apply by_row_each. intros r Hr.
  pose proof (row_length F c r HS HC Hr) as HL.
  unfold hessian_rows. split; [apply listed_length|]. split.
  - apply Forall_forall. intros row H. unfold listed in H. apply in_map_iff in H. destruct H as (i & <- & _). apply listed_length.
  - intros i j Hi Hj. rewrite entry_listed by auto. apply hessian_fin; auto.
    assert (0 < entries r i); [|lra]. apply positive_entries; [|lia].
    unfold positive in HP. rewrite Forall_forall in HP. auto.
Qed.

(** Off the diagonal the entry is the second derivative; on the diagonal it is
    so exactly when the molecule size is one. *)
Theorem C44_when F c : wf_fe F -> comp_shaped c -> comp_cols c = fe_nc F -> positive c ->
  exists o, hessian F c None = Ok o /\
    by_row c o (fun phi m => forall i j, (i < fe_nc F)%nat -> (j < fe_nc F)%nat ->
      exists h, entry m i j = Fin h /\
        (slope2 (density F) (entries phi) (unit_vec i) (unit_vec j) h <-> (i <> j \/ fe_sizes F i * fe_sizes F i = 1))).
Proof.
  intros [WF1 WF2] HS HC HP. destruct (hessian_entries F c HS HC HP) as (o & E & HB). exists o. split; auto.
  assert (K : forall phi, In phi (comp_rows c) -> forall i, (i < fe_nc F)%nat -> 0 < entries phi i).
  { intros phi Hphi i Hi. apply positive_entries; [|rewrite (row_length F c phi); auto].
    unfold positive in HP. rewrite Forall_forall in HP. auto. }
  assert (G : forall phi m, In phi (comp_rows c) -> (length m = fe_nc F /\ Forall (fun r => length r = fe_nc F) m /\
      forall i j, (i < fe_nc F)%nat -> (j < fe_nc F)%nat ->
        entry m i j = Fin (fe_chis F i j + if Nat.eqb i j then fe_sizes F i / entries phi i else 0)) ->
      forall i j, (i < fe_nc F)%nat -> (j < fe_nc F)%nat ->
      exists h, entry m i j = Fin h /\
        (slope2 (density F) (entries phi) (unit_vec i) (unit_vec j) h <-> (i <> j \/ fe_sizes F i * fe_sizes F i = 1))).
  { intros phi m Hphi (_ & _ & HE) i j Hi Hj. eexists. split; [apply HE; auto|].
    pose proof (K phi Hphi) as Hpos.
    pose proof (fh_slope2 (fe_nc F) (fe_chis F) (fe_sizes F) (entries phi) (unit_vec i) (unit_vec j) WF1 Hpos WF2) as T.
    rewrite d2fh_unit in T by auto. fold (density F) in T.
    specialize (Hpos i Hi). specialize (WF1 i Hi). set (li := fe_sizes F i) in *. set (p := entries phi i) in *.
    destruct (Nat.eqb_spec i j) as [->|Hne].
    - split.
      + intros S. right. pose proof (slope2_unique _ _ _ _ _ _ S T) as Eq.
        assert (Eq' : li / p = 1 / (li * p)) by lra.
        replace (li * li) with (li / p * (li * p)) by (field; lra). rewrite Eq'. field. lra.
      + intros [|Hl]; [congruence|]. replace (li / p) with (1 / (li * p)); [exact T|].
        rewrite <- Hl. field. lra.
    - split; [now left|]. intros _. exact T. }
  eapply by_row_impl; [|exact HB]. exact G.
Qed.

(** With unit sizes the Hessian is exact. *)
Theorem C44_unit_sizes F c : wf_fe F -> comp_shaped c -> comp_cols c = fe_nc F -> positive c ->
  (forall i, (i < fe_nc F)%nat -> fe_sizes F i = 1) ->
  exists o, hessian F c None = Ok o /\
    by_row c o (fun phi m => forall i j, (i < fe_nc F)%nat -> (j < fe_nc F)%nat ->
      exists h, entry m i j = Fin h /\ slope2 (density F) (entries phi) (unit_vec i) (unit_vec j) h).
Proof.
  intros WF HS HC HP H1. destruct (C44_when F c WF HS HC HP) as (o & E & HB). exists o. split; auto.
  eapply by_row_impl; [|exact HB]. cbn beta. intros phi m _ H i j Hi Hj. destruct (H i j Hi Hj) as (h & E1 & HI).
  exists h. split; auto. apply HI. right. rewrite H1; auto; lra.
Qed.

(** False as soon as one component has another size. *)
Theorem C44_refuted F phi i : wf_fe F -> length phi = fe_nc F -> Forall (fun x => 0 < x) phi ->
  (i < fe_nc F)%nat -> 0 < fe_sizes F i -> fe_sizes F i <> 1 ->
  exists m h, hessian F (One phi) None = Ok (Single m) /\ entry m i i = Fin h /\
    ~ slope2 (density F) (entries phi) (unit_vec i) (unit_vec i) h.
Proof.
  intros WF HL HP Hi Hs Hs1.
  destruct (C44_when F (One phi) WF I HL) as (o & E & HB); [repeat constructor; auto|].
  destruct o as [m|]; [|contradiction]. cbn in HB. destruct (HB i i Hi Hi) as (h & Eh & HI).
  exists m, h. split; auto. split; auto. rewrite HI. intros [|K]; [congruence|]. apply Hs1.
  assert ((fe_sizes F i - 1) * (fe_sizes F i + 1) = 0) by lra. apply Rmult_integral in H. lra.
Qed.

(* ------------------------------------------------------------------ *)
(** * C45 -- symmetry and the reduced Hessian *)

Definition xval (x : xr) : R := match x with Fin a => a | _ => 0 end.
Definition finite (x : xr) : Prop := exists a, x = Fin a.
(** quadratic form of the leading [n] x [n] block *)
Definition quad (n : nat) (m : list (list xr)) (y : vec) : R :=
  rsum n (fun i => rsum n (fun j => xval (entry m i j) * y i * y j)).

Definition square (n : nat) (m : list (list xr)) : Prop :=
  length m = n /\ Forall (fun r => length r = n) m /\
  (forall i j, (i < n)%nat -> (j < n)%nat -> finite (entry m i j)) /\
  (forall i j, (i < n)%nat -> (j < n)%nat -> entry m i j = entry m j i).

Definition full_h (F : fe) (phi : vec) (i j : nat) : R :=
  fe_chis F i j + if Nat.eqb i j then fe_sizes F i / phi i else 0.

Lemma full_sym F phi i j : wf_fe F -> (i < fe_nc F)%nat -> (j < fe_nc F)%nat -> full_h F phi i j = full_h F phi j i.
Proof.
  intros [_ WF2] Hi Hj. unfold full_h. rewrite (WF2 i j) by auto. rewrite (Nat.eqb_sym j i).
  destruct (Nat.eqb_spec i j) as [->|]; reflexivity.
Qed.

Lemma reduced_rows F phi k : (k < fe_nc F)%nat -> (forall i, (i < fe_nc F)%nat -> phi i <> 0) ->
  hessian_rows F (Some k) phi =
  listed (fe_nc F - 1) (fun i => listed (fe_nc F - 1) (fun j =>
    Fin (full_h F phi (skip k i) (skip k j) - full_h F phi k (skip k j) - full_h F phi (skip k i) k + full_h F phi k k))).
Proof.
  intros Hk Hp. unfold hessian_rows. rewrite listed_map, delete_listed by auto.
  apply listed_ext. intros i Hi. rewrite delete_listed by auto. apply listed_ext. intros j Hj.
  rewrite !hessian_fin by (auto using skip_lt). reflexivity.
Qed.

Lemma full_rows F phi : (forall i, (i < fe_nc F)%nat -> phi i <> 0) ->
  hessian_rows F None phi = listed (fe_nc F) (fun i => listed (fe_nc F) (fun j => Fin (full_h F phi i j))).
Proof.
  intros Hp. unfold hessian_rows. apply listed_ext. intros i Hi. apply listed_ext. intros j Hj.
  now rewrite hessian_fin by auto.
Qed.

Lemma listed_square n (A : mat) : (forall i j, (i < n)%nat -> (j < n)%nat -> A i j = A j i) ->
  square n (listed n (fun i => listed n (fun j => Fin (A i j)))).
Proof.
  intros H. split; [apply listed_length|]. split; [|split].
  - apply Forall_forall. intros r Hr. unfold listed in Hr. apply in_map_iff in Hr. destruct Hr as (i & <- & _). apply listed_length.
  - intros i j Hi Hj. rewrite entry_listed by auto. eexists. reflexivity.
  - intros i j Hi Hj. rewrite !entry_listed by auto. f_equal. auto.
Qed.

Lemma quad_listed n (A : mat) y :
  quad n (listed n (fun i => listed n (fun j => Fin (A i j)))) y = rsum n (fun i => rsum n (fun j => A i j * y i * y j)).
Proof.
  unfold quad. apply rsum_ext. intros i Hi. apply rsum_ext. intros j Hj. now rewrite entry_listed by auto.
Qed.

(** quadratic forms on volume-conserving directions *)
Lemma quad_reduced n k (H : mat) y : (k < n)%nat -> rsum n y = 0 ->
  rsum n (fun i => rsum n (fun j => H i j * y i * y j)) =
  rsum (n - 1) (fun i => rsum (n - 1) (fun j =>
    (H (skip k i) (skip k j) - H k (skip k j) - H (skip k i) k + H k k) * y (skip k i) * y (skip k j))).
Proof.
  intros Hk Hy. set (n' := (n - 1)%nat). set (s := fun i => y (skip k i)).
  assert (Yk : y k = - rsum n' s) by (rewrite (rsum_skip n k y Hk) in Hy; unfold s, n'; lra).
  rewrite (rsum_skip n k _ Hk). rewrite (rsum_skip n k _ Hk). fold n'.
  rewrite (rsum_ext n' (fun i => rsum n (fun j => H (skip k i) j * y (skip k i) * y j))
     (fun i => H (skip k i) k * s i * y k + rsum n' (fun j => H (skip k i) (skip k j) * s i * s j))).
  2:{ intros i Hi. rewrite (rsum_skip n k _ Hk). reflexivity. }
  rewrite rsum_plus.
  rewrite (rsum_ext n' (fun i => rsum n' (fun j =>
    (H (skip k i) (skip k j) - H k (skip k j) - H (skip k i) k + H k k) * y (skip k i) * y (skip k j)))
    (fun i => rsum n' (fun j => H (skip k i) (skip k j) * s i * s j) - s i * rsum n' (fun j => H k (skip k j) * s j)
              - H (skip k i) k * s i * rsum n' s + H k k * s i * rsum n' s)).
  2:{ intros i Hi. rewrite <- !rsum_scal_l. rewrite <- rsum_minus, <- rsum_minus, <- rsum_plus.
      apply rsum_ext. intros j Hj. unfold s. ring. }
  rewrite rsum_plus, !rsum_minus. rewrite Yk.
  rewrite !rsum_scal_r.
  rewrite (rsum_scal_l n' (H k k) s).
  rewrite (rsum_ext n' (fun i => H k (skip k i) * - rsum n' s * y (skip k i)) (fun i => - rsum n' s * (H k (skip k i) * s i)))
    by (intros; unfold s; ring).
  rewrite rsum_scal_l. ring.
Qed.

Theorem C45_reduced F c z k : wf_fe F -> comp_shaped c -> comp_cols c = fe_nc F -> positive c -> denotes (fe_nc F) z k ->
  exists o o', hessian F c None = Ok o /\ hessian F c (Some z) = Ok o' /\
    by_row c o (fun _ m => square (fe_nc F) m) /\
    by_row c o' (fun _ m' => square (fe_nc F - 1) m') /\
    match o, o' with
    | Single m, Single m' => forall y, rsum (fe_nc F) y = 0 ->
        quad (fe_nc F - 1) m' (fun a => y (skip k a)) = quad (fe_nc F) m y
    | Rows ms, Rows ms' => Forall2 (fun m m' => forall y, rsum (fe_nc F) y = 0 ->
        quad (fe_nc F - 1) m' (fun a => y (skip k a)) = quad (fe_nc F) m y) ms ms'
    | _, _ => False
    end.
Proof.
  intros WF HS HC HP HD. unfold hessian. rewrite check_ok by (auto using positive_nonneg). cbn [bind].
  rewrite (axis_index_ok _ _ _ HD). cbn [bind]. destruct HD as [Hk _].
  assert (K : forall phi, In phi (comp_rows c) -> forall i, (i < fe_nc F)%nat -> entries phi i <> 0).
  { intros phi Hphi i Hi. assert (0 < entries phi i); [|lra]. apply positive_entries; [|rewrite (row_length F c phi); auto].
    unfold positive in HP. rewrite Forall_forall in HP. auto. }
  assert (Q : forall phi, In phi (comp_rows c) -> forall y, rsum (fe_nc F) y = 0 ->
     quad (fe_nc F - 1) (hessian_rows F (Some k) (entries phi)) (fun a => y (skip k a)) =
     quad (fe_nc F) (hessian_rows F None (entries phi)) y).
  { intros phi Hphi y Hy. rewrite reduced_rows, full_rows by (auto; now apply K). rewrite !quad_listed.
    symmetry. apply (quad_reduced (fe_nc F) k (full_h F (entries phi)) y Hk Hy). }
  do 2 eexists. split; [reflexivity|]. split; [reflexivity|]. split; [|split].
  - apply by_row_each. intros r Hr. rewrite full_rows by now apply K. apply listed_square. intros. now apply full_sym.
  - apply by_row_each. intros r Hr. rewrite reduced_rows by (auto; now apply K). apply listed_square.
    intros i j Hi Hj. rewrite (full_sym F _ (skip k i) (skip k j)), (full_sym F _ k (skip k j)), (full_sym F _ (skip k i) k) by (auto using skip_lt).
    ring.
  - destruct c as [phi|n rows]; cbn in *.
    + apply Q. auto.
    + clear K HS HC HP. induction rows as [|r rows IH]; cbn; constructor; [apply Q; now left|]. apply IH. intros; apply Q; auto. now right.
Qed.

(* ------------------------------------------------------------------ *)
(** * C46 -- chemical potentials *)

(** everything for one strictly positive composition *)
Theorem C46_relations F phi z s : wf_fe F -> length phi = fe_nc F -> Forall (fun x => 0 < x) phi -> denotes (fe_nc F) z s ->
  exists f mu ex jac p,
    free_energy_density F (One phi) = Ok (Single (Fin f)) /\
    chemical_potentials F (One phi) = Ok [listed (fe_nc F) (fun i => Fin (mu i))] /\
    exchange_chemical_potentials F (One phi) z = Ok (Single (listed (fe_nc F) (fun i => Fin (ex i)))) /\
    jacobian F (One phi) (Some z) = Ok (Single (listed (fe_nc F - 1) (fun a => Fin (jac a)))) /\
    pressure F (One phi) z = Ok [Fin p] /\
    (forall i, (i < fe_nc F)%nat -> ex i = mu i - mu s) /\ ex s = 0 /\
    (forall a, (a < fe_nc F - 1)%nat -> jac a = ex (skip s a)) /\
    p = - mu s /\
    (rsum (fe_nc F) (entries phi) = 1 ->
       rsum (fe_nc F) (fun i => entries phi i * mu i) = f /\
       p = rsum (fe_nc F) (fun i => entries phi i * ex i) - f).
Proof.
  intros WF HL HP HD. pose proof HD as [Hs _]. set (n := fe_nc F) in *.
  assert (Hpos : forall i, (i < n)%nat -> 0 < entries phi i) by (intros i Hi; apply positive_entries; auto; lia).
  assert (Hnn : forall i, (i < n)%nat -> 0 <= entries phi i) by (intros i Hi; specialize (Hpos i Hi); lra).
  assert (Hc : check_fractions F (One phi) = Ok tt).
  { apply check_ok; auto. apply positive_nonneg. repeat constructor. auto. }
  set (g := dfh n (fe_chis F) (fe_sizes F) (entries phi)).
  exists (fh n (fe_chis F) (fe_sizes F) (entries phi)), (mu_of F (entries phi)), (fun i => g i - g s),
    (fun a => g (skip s a) - g s), (- mu_of F (entries phi) s).
  assert (EJ : listed n (jacobian_at F (entries phi)) = listed n (fun i => Fin (g i))).
  { apply listed_ext. intros i Hi. apply jacobian_fin; auto. }
  assert (EM : listed n (potential_at F (entries phi)) = listed n (fun i => Fin (mu_of F (entries phi) i))).
  { apply listed_ext. intros i Hi. apply potential_fin; auto. }
  unfold free_energy_density, chemical_potentials, exchange_chemical_potentials, pressure, chemical_potentials, jacobian.
  rewrite !Hc. cbn [bind each rows_of map omap]. fold n. rewrite !(axis_index_ok _ _ _ HD). cbn [bind]. rewrite EJ, EM.
  split; [now rewrite energy_fin by auto|]. split; [reflexivity|]. split.
  { do 2 f_equal. rewrite listed_map. apply listed_ext. intros i Hi. now rewrite listed_nth by auto. }
  split. { do 2 f_equal. rewrite delete_listed by auto. rewrite listed_map. apply listed_ext. intros i Hi. now rewrite listed_nth by auto. }
  split. { cbn [map]. rewrite listed_nth by auto. reflexivity. }
  split. { intros i Hi. unfold mu_of. fold n g. ring. }
  split; [ring|]. split; [reflexivity|]. split; [reflexivity|]. intros H1.
  assert (M : rsum n (fun i => entries phi i * mu_of F (entries phi) i) = fh n (fe_chis F) (fe_sizes F) (entries phi)).
  { unfold mu_of. fold n g. rewrite (rsum_ext n _ (fun i => entries phi i * (fh n (fe_chis F) (fe_sizes F) (entries phi) - rsum n (fun k => entries phi k * g k)) + entries phi i * g i)) by (intros; ring).
    rewrite rsum_plus, rsum_scal_r, H1. ring. }
  split; [exact M|]. rewrite <- M.
  rewrite (rsum_ext n (fun i => entries phi i * (g i - g s)) (fun i => entries phi i * mu_of F (entries phi) i - entries phi i * mu_of F (entries phi) s)).
  - rewrite rsum_minus, rsum_scal_r, H1. ring.
  - intros i Hi. unfold mu_of. fold n g. ring.
Qed.

(* ------------------------------------------------------------------ *)
(** * C47 -- stability *)

(** the list returned for the [n] x [n] matrix [A] consists of eigenvalues: A is
    diagonalised by an orthonormal basis *)
Definition eigen_result (n : nat) (A : mat) (l : list xr) : Prop :=
  exists ev V, l = listed n (fun k => Fin (ev k)) /\
    (forall i j, (i < n)%nat -> (j < n)%nat -> A i j = rsum n (fun k => ev k * V i k * V j k)) /\
    (forall k k', (k < n)%nat -> (k' < n)%nat -> rsum n (fun i => V i k * V i k') = if Nat.eqb k k' then 1 else 0).

Definition real_matrix (n : nat) (A : mat) : list (list xr) := listed n (fun i => listed n (fun j => Fin (A i j))).

Lemma no_negative n ev : length (filter xlt0 (listed n (fun k => Fin (ev k)))) = O <-> forall k, (k < n)%nat -> 0 <= ev k.
Proof.
  rewrite length_zero_iff_nil. split.
  - intros H k Hk. destruct (Rle_dec 0 (ev k)); auto. exfalso.
    assert (I : In (Fin (ev k)) (filter xlt0 (listed n (fun k => Fin (ev k))))).
    { apply filter_In. split; [unfold listed; apply in_map_iff; exists k; split; auto; apply in_seq; lia|].
      cbn. apply Rltb_true. lra. }
    rewrite H in I. contradiction.
  - intros H. destruct (filter _ _) as [|x l] eqn:E; auto. exfalso.
    assert (I : In x (filter xlt0 (listed n (fun k => Fin (ev k))))) by (rewrite E; now left).
    apply filter_In in I. destruct I as [I1 I2]. unfold listed in I1. apply in_map_iff in I1. destruct I1 as (k & <- & Hk).
    apply in_seq in Hk. cbn in I2. apply Rltb_true in I2. specialize (H k ltac:(lia)). lra.
Qed.

Lemma psd_eigen n A l : eigen_result n A l ->
  (length (filter xlt0 l) = O <-> forall y, 0 <= rsum n (fun i => rsum n (fun j => A i j * y i * y j))).
Proof.
  intros (ev & V & -> & HA & HO). rewrite no_negative.
  assert (Q : forall y, rsum n (fun i => rsum n (fun j => A i j * y i * y j)) =
     rsum n (fun k => ev k * (rsum n (fun i => V i k * y i) * rsum n (fun i => V i k * y i)))).
  { intros y.
    rewrite (rsum_ext n (fun i => rsum n (fun j => A i j * y i * y j))
       (fun i => rsum n (fun k => rsum n (fun j => ev k * (V i k * y i) * (V j k * y j))))).
    - rewrite (rsum_swap n n (fun i k => rsum n (fun j => ev k * (V i k * y i) * (V j k * y j)))). apply rsum_ext. intros k Hk.
      rewrite (rsum_ext n _ (fun i => (V i k * y i) * (ev k * rsum n (fun j => V j k * y j)))).
      + rewrite rsum_scal_r. ring.
      + intros i Hi. rewrite rsum_scal_l. ring.
    - intros i Hi. rewrite (rsum_swap n n (fun k j => ev k * (V i k * y i) * (V j k * y j))). apply rsum_ext. intros j Hj.
      rewrite (HA i j Hi Hj). rewrite Rmult_assoc, <- rsum_scal_r. apply rsum_ext. intros. ring. }
  split.
  - intros H y. rewrite Q. apply rsum_nonneg. intros k Hk. apply Rmult_le_pos; [auto|apply Rle_0_sqr].
  - intros H k Hk. specialize (H (fun i => V i k)). rewrite Q in H.
    rewrite (rsum_single n _ k Hk) in H.
    + rewrite (HO k k Hk Hk), Nat.eqb_refl in H. lra.
    + intros k' Hk' Hne. rewrite (HO k' k Hk' Hk). destruct (Nat.eqb_spec k' k); [congruence|ring].
Qed.

Section Stable.
Variable eigvalsh : list (list xr) -> list xr.

(** the contract of eigvalsh, for the one matrix it is applied to *)
Definition eig_ok (n : nat) (m : list (list xr)) : Prop :=
  exists A, m = real_matrix n A /\ eigen_result n A (eigvalsh m).

(** the code's own criterion: no volume-conserving direction lowers the
    quadratic form of the code's Hessian *)
Lemma stable_spec F phi (conserved : bool) : wf_fe F -> length phi = fe_nc F -> Forall (fun x => 0 < x) phi ->
  (conserved = true -> (0 < fe_nc F)%nat) ->
  (let k := if conserved then Some O else None in
   let n := if conserved then (fe_nc F - 1)%nat else fe_nc F in
   eig_ok n (hessian_rows F k (entries phi))) ->
  exists b, is_stable eigvalsh F (One phi) conserved = Ok (Single b) /\
    (b = true <-> forall y, (conserved = true -> rsum (fe_nc F) y = 0) ->
       0 <= rsum (fe_nc F) (fun i => rsum (fe_nc F) (fun j => full_h F (entries phi) i j * y i * y j))).
Proof using.
  intros WF HL HP Hn HE. set (n := fe_nc F) in *.
  assert (Hpos : forall i, (i < n)%nat -> entries phi i <> 0).
  { intros i Hi. assert (0 < entries phi i); [|lra]. apply positive_entries; auto; lia. }
  assert (Hc : check_fractions F (One phi) = Ok tt).
  { apply check_ok; auto. apply positive_nonneg. repeat constructor. auto. }
  unfold is_stable, num_unstable_modes, hessian. rewrite Hc. cbn [bind].
  destruct conserved; cbn zeta in HE.
  - specialize (Hn eq_refl).
    assert (D : denotes (fe_nc F) 0%Z 0) by (split; [exact Hn|now left]).
    rewrite (axis_index_ok _ _ _ D). cbn [bind each omap]. eexists. split; [reflexivity|].
    rewrite Nat.eqb_eq. destruct HE as (A & EA & ER). rewrite (psd_eigen _ A _ ER).
    rewrite reduced_rows in EA by auto. fold n in EA.
    set (B := fun i j => full_h F (entries phi) (skip 0 i) (skip 0 j) - full_h F (entries phi) 0 (skip 0 j) - full_h F (entries phi) (skip 0 i) 0 + full_h F (entries phi) 0 0).
    assert (AB : forall i j, (i < n - 1)%nat -> (j < n - 1)%nat -> A i j = B i j).
    { intros i j Hi Hj. apply (f_equal (fun m => entry m i j)) in EA. unfold real_matrix in EA.
      rewrite !entry_listed in EA by auto. injection EA as EA. symmetry. exact EA. }
    assert (QA : forall y, rsum (n - 1) (fun i => rsum (n - 1) (fun j => A i j * y i * y j)) =
                           rsum (n - 1) (fun i => rsum (n - 1) (fun j => B i j * y i * y j))).
    { intros y. apply rsum_ext; intros i Hi. apply rsum_ext; intros j Hj. now rewrite AB by auto. }
    split; intros H y.
    + intros Hy. specialize (Hy eq_refl). rewrite (quad_reduced n 0 (full_h F (entries phi)) y Hn Hy).
      specialize (H (fun a => y (skip 0 a))). rewrite QA in H. exact H.
    + rewrite QA. set (y' := fun a => match a with O => - rsum (n - 1) y | S b => y b end).
      assert (Hy' : rsum n y' = 0).
      { rewrite (rsum_skip n 0 y' Hn). rewrite (rsum_ext (n - 1) (fun i => y' (skip 0 i)) y); [cbn; lra|].
        intros i Hi. unfold skip. cbn. reflexivity. }
      specialize (H y' (fun _ => Hy')). rewrite (quad_reduced n 0 (full_h F (entries phi)) y' Hn Hy') in H.
      exact H.
  - cbn [bind each omap]. eexists. split; [reflexivity|]. rewrite Nat.eqb_eq. destruct HE as (A & EA & ER).
    rewrite (psd_eigen _ A _ ER). rewrite full_rows in EA by auto. fold n in EA.
    assert (AB : forall i j, (i < n)%nat -> (j < n)%nat -> A i j = full_h F (entries phi) i j).
    { intros i j Hi Hj. apply (f_equal (fun m => entry m i j)) in EA. unfold real_matrix in EA.
      rewrite !entry_listed in EA by auto. injection EA as EA. symmetry. exact EA. }
    assert (QA : forall y, rsum n (fun i => rsum n (fun j => A i j * y i * y j)) =
                           rsum n (fun i => rsum n (fun j => full_h F (entries phi) i j * y i * y j))).
    { intros y. apply rsum_ext; intros i Hi. apply rsum_ext; intros j Hj. now rewrite AB by auto. }
    split; intros H y.
    + intros _. rewrite <- QA. apply H.
    + rewrite QA. apply H. discriminate 1.
Qed.

(** With unit sizes: stable means that the second derivative of the free energy
    is non-negative in every (volume-conserving) direction. *)
Theorem C47_unit_sizes F phi (conserved : bool) : wf_fe F -> length phi = fe_nc F -> Forall (fun x => 0 < x) phi ->
  (0 < fe_nc F)%nat -> (forall i, (i < fe_nc F)%nat -> fe_sizes F i = 1) ->
  (let k := if conserved then Some O else None in
   let n := if conserved then (fe_nc F - 1)%nat else fe_nc F in
   eig_ok n (hessian_rows F k (entries phi))) ->
  exists b, is_stable eigvalsh F (One phi) conserved = Ok (Single b) /\
    (b = true <-> forall y h, (conserved = true -> rsum (fe_nc F) y = 0) ->
       slope2 (density F) (entries phi) y y h -> 0 <= h).
Proof using.
  intros WF HL HP Hn H1 HE. destruct (stable_spec F phi conserved WF HL HP (fun _ => Hn) HE) as (b & E & HB).
  exists b. split; auto. rewrite HB. clear HB HE E.
  assert (Hpos : forall i, (i < fe_nc F)%nat -> 0 < entries phi i) by (intros i Hi; apply positive_entries; auto; lia).
  assert (T : forall y, slope2 (density F) (entries phi) y y
             (rsum (fe_nc F) (fun i => rsum (fe_nc F) (fun j => full_h F (entries phi) i j * y i * y j)))).
  { intros y. destruct WF as [WF1 WF2].
    pose proof (fh_slope2 (fe_nc F) (fe_chis F) (fe_sizes F) (entries phi) y y WF1 Hpos WF2) as T.
    replace (rsum _ _) with (d2fh (fe_nc F) (fe_chis F) (fe_sizes F) (entries phi) y y); [exact T|].
    unfold d2fh. rewrite <- rsum_plus. apply rsum_ext. intros i Hi. unfold full_h.
    rewrite (rsum_ext _ (fun j => (fe_chis F i j + (if Nat.eqb i j then fe_sizes F i / entries phi i else 0)) * y i * y j)
              (fun j => unit_vec i j * (y i * y j / entries phi i) + fe_chis F i j * y i * y j)).
    - rewrite rsum_plus, rsum_unit by auto. rewrite H1 by auto. f_equal. field. specialize (Hpos i Hi). lra.
    - intros j Hj. unfold unit_vec. rewrite (Nat.eqb_sym j i). rewrite H1 by auto. destruct (Nat.eqb i j); unfold Rdiv; ring. }
  split.
  - intros H y h Hy HS. rewrite (slope2_unique _ _ _ _ _ _ HS (T y)). auto.
  - intros H y Hy. exact (H y _ Hy (T y)).
Qed.

(** The answer does not depend on the eliminated component: eliminating any
    component [k] gives a positive semidefinite matrix exactly when eliminating
    component 0 does. *)
Theorem C47_any_component F phi k z : wf_fe F -> length phi = fe_nc F -> Forall (fun x => 0 < x) phi ->
  denotes (fe_nc F) z k -> eig_ok (fe_nc F - 1) (hessian_rows F (Some O) (entries phi)) ->
  exists b m, is_stable eigvalsh F (One phi) true = Ok (Single b) /\
    hessian F (One phi) (Some z) = Ok (Single m) /\
    (b = true <-> forall y, 0 <= quad (fe_nc F - 1) m y).
Proof using.
  intros WF HL HP HD HE. pose proof HD as [Hk _].
  destruct (stable_spec F phi true WF HL HP) as (b & E & HB); [lia|exact HE|].
  destruct (C45_reduced F (One phi) z k WF I HL) as (o & o' & EH & EH' & _ & _ & HQ); [repeat constructor; auto|auto|].
  destruct o as [m|], o' as [m'|]; try contradiction.
  2:{ unfold hessian in EH'. destruct (check_fractions F (One phi)); [|discriminate EH']. cbn [bind] in EH'.
      rewrite (axis_index_ok _ _ _ HD) in EH'. discriminate EH'. }
  exists b, m'. split; [auto|]. split; [auto|]. rewrite HB. clear HB.
  assert (Hpos : forall i, (i < fe_nc F)%nat -> entries phi i <> 0).
  { intros i Hi. assert (0 < entries phi i); [|lra]. apply positive_entries; auto; lia. }
  assert (Em : m = hessian_rows F None (entries phi)).
  { unfold hessian in EH. destruct (check_fractions F (One phi)); [|discriminate EH]. cbn [bind each] in EH. congruence. }
  rewrite full_rows in Em by auto.
  split.
  - intros H y. set (y' := fun a => if Nat.eqb a k then - rsum (fe_nc F - 1) y else if Nat.ltb a k then y a else y (a - 1)%nat).
    assert (Es : forall i, y' (skip k i) = y i).
    { intros i. unfold y', skip. destruct (Nat.ltb_spec i k).
      - destruct (Nat.eqb_spec i k); [lia|]. destruct (Nat.ltb_spec i k); [reflexivity|lia].
      - destruct (Nat.eqb_spec (S i) k); [lia|]. destruct (Nat.ltb_spec (S i) k); [lia|]. f_equal. lia. }
    assert (Hy' : rsum (fe_nc F) y' = 0).
    { rewrite (rsum_skip _ k y' Hk). rewrite (rsum_ext _ (fun i => y' (skip k i)) y) by (intros; apply Es).
      unfold y'. rewrite Nat.eqb_refl. lra. }
    specialize (HQ y' Hy'). rewrite Em, quad_listed in HQ. specialize (H y' (fun _ => Hy')). rewrite <- HQ in H.
    unfold quad in *. rewrite (rsum_ext _ _ (fun i => rsum (fe_nc F - 1) (fun j => xval (entry m' i j) * y' (skip k i) * y' (skip k j)))).
    + exact H.
    + intros i Hi. apply rsum_ext. intros j Hj. now rewrite !Es.
  - intros H y Hy. specialize (Hy eq_refl). specialize (HQ y Hy). rewrite Em, quad_listed in HQ. rewrite <- HQ. apply H.
Qed.
End Stable.

(** Wrong for other sizes: a symmetric blend of two polymers of length 2 with
    chi = 2 at equal fractions is unstable but reported stable, whatever
    (correct) eigenvalue routine is used. *)
Theorem C47_refuted (eigvalsh : list (list xr) -> list xr) (phi := [1 / 2; 1 / 2])
  (F := {| fe_nc := 2; fe_chis := fun i j => if Nat.eqb i j then 0 else 2; fe_sizes := fun _ => 2 |}) :
  eig_ok eigvalsh 1 (hessian_rows F (Some O) (entries phi)) ->
  is_stable eigvalsh F (One phi) true = Ok (Single true) /\
  exists y h, rsum 2 y = 0 /\ slope2 (density F) (entries phi) y y h /\ h < 0.
Proof.
  intros HE.
  assert (WF : wf_fe F).
  { split; cbn; [intros; lra|]. intros i j _ _. now rewrite Nat.eqb_sym. }
  assert (HP : Forall (fun x => 0 < x) phi) by (repeat constructor; lra).
  split.
  - destruct (stable_spec eigvalsh F phi true WF eq_refl HP (fun _ => Nat.lt_0_succ 1) HE) as (b & E & HB).
    rewrite E. do 2 f_equal. apply HB. intros y Hy. specialize (Hy eq_refl). cbn in Hy |- *. unfold full_h. cbn. unfold entries. cbn.
    replace (y 1%nat) with (- y 0%nat) by lra.
    replace (_ + _ + _) with (4 * (y 0%nat * y 0%nat)) by field. pose proof (Rle_0_sqr (y 0%nat)). unfold Rsqr in *. lra.
  - set (y := fun i : nat => if Nat.eqb i 0 then 1 else -1).
    exists y, (d2fh 2 (fe_chis F) (fe_sizes F) (entries phi) y y). split; [cbn; lra|]. split.
    + apply fh_slope2; cbn; intros; try lra; [|now rewrite Nat.eqb_sym].
      destruct i as [|[|i]]; cbn; try lra; lia.
    + unfold d2fh. cbn. unfold entries. cbn. lra.
Qed.

(* ------------------------------------------------------------------ *)
(** * C48 -- equilibration error *)

Lemma sum_sq_zero n f : sqrt (rsum n (fun i => f i * f i)) = 0 <-> forall i, (i < n)%nat -> f i = 0.
Proof.
  split.
  - intros H. apply sqrt_eq_0 in H; [|apply rsum_nonneg; intros; apply Rle_0_sqr]. now apply rsum_sq_zero.
  - intros H. rewrite rsum_zero; [apply sqrt_0|]. intros i Hi. rewrite H by auto. ring.
Qed.

(** deviations from the mean vanish iff all values agree *)
Lemma deviations_zero n (mus : list (list xr)) :
  (forall d, In d (deviations n mus) -> forall i, (i < n)%nat -> d i = 0) <->
  (forall m m', In m mus -> In m' mus -> forall i, (i < n)%nat -> nan_to_num (nth i m NaN) = nan_to_num (nth i m' NaN)).
Proof.
  unfold deviations. set (val := fun (m : list xr) (i : nat) => nan_to_num (nth i m NaN)).
  change (map (fun m i => nan_to_num (nth i m NaN)) mus) with (map val mus). rewrite map_length. split.
  - intros H m m' Hm Hm' i Hi.
    assert (K : forall q, In q mus -> val q i = lsum (map val mus) (fun m => m i) / INR (length mus)).
    { intros q Hq. specialize (H (fun i => val q i - lsum (map val mus) (fun m => m i) / INR (length mus))).
      cbn beta in H. rewrite <- (Rplus_0_r (lsum _ _ / _)). rewrite <- (H ltac:(apply in_map_iff; exists (val q); split; [reflexivity|now apply in_map]) i Hi). ring. }
    change (val m i = val m' i). rewrite (K m Hm), (K m' Hm'). reflexivity.
  - intros H d Hd i Hi. apply in_map_iff in Hd. destruct Hd as (v & <- & Hv). apply in_map_iff in Hv. destruct Hv as (q & <- & Hq).
    assert (E : lsum (map val mus) (fun m => m i) = INR (length mus) * val q i).
    { rewrite lsum_map. rewrite (lsum_ext mus (fun a => val a i) (fun _ => val q i)) by (intros a Ha; apply (H a q Ha Hq i Hi)).
      clear. induction mus as [|x l IH]; [cbn; ring|]. cbn [lsum length]. rewrite IH, S_INR. ring. }
    rewrite E. field. apply INR_neq0. destruct mus; [contradiction|cbn; lia].
Qed.

(** For positive compositions the error (by phase) vanishes for all phases iff
    all phases have the same chemical potentials. *)
Theorem C48_zero F c : wf_fe F -> comp_shaped c -> comp_cols c = fe_nc F -> positive c ->
  exists errs mus, equilibration_error F c ByPhase = Ok errs /\ chemical_potentials F c = Ok mus /\
    length errs = length (comp_rows c) /\ length mus = length (comp_rows c) /\
    (Forall (fun e => e = 0) errs <-> forall m m', In m mus -> In m' mus -> m = m').
Proof.
  intros WF HS HC HP. unfold equilibration_error, chemical_potentials. rewrite check_ok by (auto using positive_nonneg). cbn [bind].
  set (n := fe_nc F). set (mus := rows_of (each (fun phi => listed n (potential_at F phi)) c)).
  assert (EM : mus = map (fun phi => listed n (fun i => Fin (mu_of F (entries phi) i))) (comp_rows c)).
  { unfold mus. assert (G : forall phi, In phi (comp_rows c) -> listed n (potential_at F (entries phi)) = listed n (fun i => Fin (mu_of F (entries phi) i))).
    { intros phi Hphi. pose proof (row_length F c phi HS HC Hphi) as HL.
      unfold positive in HP. rewrite Forall_forall in HP. specialize (HP phi Hphi).
      apply listed_ext. intros i Hi. apply potential_fin; auto.
      - intros j Hj. left. apply positive_entries; auto. lia.
      - apply positive_entries; auto. lia. }
    destruct c as [phi|k rows]; cbn in *; [now rewrite G by auto|]. apply map_ext_in. auto. }
  do 2 eexists. split; [reflexivity|]. split; [reflexivity|]. split; [|split].
  - rewrite map_length. unfold deviations. rewrite !map_length. rewrite EM. apply map_length.
  - rewrite EM. apply map_length.
  - transitivity (forall d, In d (deviations n mus) -> forall i, (i < n)%nat -> d i = 0).
    + rewrite Forall_forall. split.
      * intros H d Hd. apply sum_sq_zero. apply H. apply in_map_iff. eauto.
      * intros H e He. apply in_map_iff in He. destruct He as (d & <- & Hd). apply sum_sq_zero. auto.
    + rewrite deviations_zero. rewrite EM. split.
      * intros H m m' Hm Hm'. apply in_map_iff in Hm, Hm'. destruct Hm as (p & <- & Hp), Hm' as (p' & <- & Hp').
        apply listed_ext. intros i Hi.
        specialize (H (listed n (fun i => Fin (mu_of F (entries p) i))) (listed n (fun i => Fin (mu_of F (entries p') i)))
          ltac:(apply in_map_iff; eauto) ltac:(apply in_map_iff; eauto) i Hi).
        rewrite !listed_nth in H by auto. cbn in H. now f_equal.
      * intros H m m' Hm Hm' i Hi. now rewrite (H m m' Hm Hm').
Qed.

(** one phase is always balanced with itself *)
Theorem C48_single F phi : wf_fe F -> length phi = fe_nc F -> Forall (fun x => 0 <= x) phi ->
  equilibration_error F (One phi) ByPhase = Ok [0].
Proof.
  intros WF HL HN. unfold equilibration_error, chemical_potentials. rewrite check_ok; [|auto|repeat constructor; auto].
  cbn [bind each rows_of deviations map length lsum INR]. do 2 f_equal. apply sum_sq_zero. intros i Hi. lra.
Qed.

(** With vanishing fractions the error can be zero for unbalanced phases: two
    pure phases have potentials (0, -oo) and (-oo, 0). *)
Theorem C48_boundary_refuted :
  let F := {| fe_nc := 2; fe_chis := fun _ _ => 0; fe_sizes := fun _ => 1 |} in
  let c := Many 2 [[1; 0]; [0; 1]] in
  wf_fe F /\ equilibration_error F c ByPhase = Ok [0; 0] /\
  chemical_potentials F c = Ok [[Fin 0; NInf]; [NInf; Fin 0]].
Proof.
  intros F c.
  assert (E : chemical_potentials F c = Ok [[Fin 0; NInf]; [NInf; Fin 0]]).
  { unfold chemical_potentials, check_fractions. cbn.
    rewrite (proj2 (Rltb_false 1 0)) by lra. rewrite (proj2 (Rltb_false 0 0)) by lra. cbn.
    unfold potential_at, jacobian_at, energy_at, ent_energy, int_jacobian, ent_jacobian, int_energy, jacobian_fractions_at,
      ent_jacobian_fractions, int_jacobian, entries. cbn [F fe_nc fe_chis fe_sizes xsum nth].
    rewrite !xlogx_fin by lra. rewrite !xlog_fin by lra. unfold xlog. destruct (Req_EM_T 0 0); [|congruence].
    cbn [xdiv]. destruct (Req_EM_T 1 0); [lra|]. destruct (Rlt_dec 1 0); [lra|]. cbn. rewrite ln_1.
    repeat f_equal; field. }
  split; [split; cbn; intros; lra|]. split; [|exact E].
  unfold equilibration_error. rewrite E. cbn. repeat f_equal.
  all: transitivity (sqrt 0); [f_equal; field|apply sqrt_0].
Qed.

(* ------------------------------------------------------------------ *)
(** * Several compositions at once *)

(** Every function treats the rows of a 2D array independently, with the result
    it would give for the row alone (part of C41-C47). *)
Definition stacked {A} (f : comps -> res (out A)) (n : nat) (rows : list (list R)) : Prop :=
  exists l, f (Many n rows) = Ok (Rows l) /\ Forall2 (fun r a => f (One r) = Ok (Single a)) rows l.

Lemma stacked_each {A} F (g : vec -> A) (f : comps -> res (out A)) n rows :
  (forall c, check_fractions F c = Ok tt -> f c = Ok (each g c)) ->
  n = fe_nc F -> Forall (fun r => length r = n) rows -> nonneg (Many n rows) -> stacked f n rows.
Proof.
  intros Hf Hn HS HN. exists (map (fun p => g (entries p)) rows). split; [now rewrite Hf by (apply check_ok; auto)|].
  unfold nonneg in HN. cbn [comp_rows] in HN. clear - Hf Hn HS HN. induction rows as [|r rows IH]; cbn [map]; constructor.
  - rewrite Hf; [reflexivity|]. apply check_ok; [inversion HS; subst; auto|]. constructor; [inversion HN; subst; auto|constructor].
  - apply IH; [inversion HS; subst; auto|inversion HN; subst; auto].
Qed.

Lemma each_omap {A B} (g : A -> B) (f : vec -> A) c : omap g (each f c) = each (fun phi => g (f phi)) c.
Proof. destruct c; cbn; [reflexivity|]. now rewrite map_map. Qed.

Theorem C41_rowwise eig F n rows z k conserved :
  n = fe_nc F -> Forall (fun r => length r = n) rows -> nonneg (Many n rows) -> denotes n z k ->
  stacked (free_energy_density F) n rows /\
  stacked (fun c => jacobian F c None) n rows /\ stacked (fun c => jacobian F c (Some z)) n rows /\
  stacked (fun c => hessian F c None) n rows /\ stacked (fun c => hessian F c (Some z)) n rows /\
  stacked (fun c => exchange_chemical_potentials F c z) n rows /\
  stacked (fun c => is_stable eig F c conserved) n rows /\
  exists mus ps, chemical_potentials F (Many n rows) = Ok mus /\ pressure F (Many n rows) z = Ok ps /\
    Forall2 (fun r m => chemical_potentials F (One r) = Ok [m]) rows mus /\
    Forall2 (fun r p => pressure F (One r) z = Ok [p]) rows ps.
Proof.
  intros Hn HS HN HD. assert (E : axis_index (fe_nc F) z = Ok k) by (apply axis_index_ok; now rewrite <- Hn).
  assert (E0 : axis_index (fe_nc F) 0%Z = Ok O) by (apply axis_index_ok; split; [rewrite <- Hn; destruct HD; lia|now left]).
  repeat match goal with |- _ /\ _ => split end.
  - eapply stacked_each; eauto. intros c H. unfold free_energy_density. rewrite H. reflexivity.
  - eapply stacked_each; eauto. intros c H. unfold jacobian. rewrite H. reflexivity.
  - eapply stacked_each; eauto. intros c H. unfold jacobian. rewrite H. cbn [bind]. rewrite E. reflexivity.
  - eapply stacked_each; eauto. intros c H. unfold hessian. rewrite H. reflexivity.
  - eapply stacked_each; eauto. intros c H. unfold hessian. rewrite H. cbn [bind]. rewrite E. reflexivity.
  - eapply stacked_each; eauto. intros c H. unfold exchange_chemical_potentials, jacobian. rewrite H. cbn [bind]. rewrite E. cbn [bind].
    rewrite each_omap. reflexivity.
  - destruct conserved.
    + eapply stacked_each; eauto. intros c H. unfold is_stable, num_unstable_modes, hessian. rewrite H. cbn [bind].
      rewrite E0. cbn [bind]. rewrite !each_omap. reflexivity.
    + eapply stacked_each; eauto. intros c H. unfold is_stable, num_unstable_modes, hessian. rewrite H. cbn [bind].
      rewrite !each_omap. reflexivity.
  - unfold pressure, chemical_potentials. rewrite check_ok by auto. cbn [bind]. rewrite E. cbn [bind].
    do 2 eexists. split; [reflexivity|]. split; [reflexivity|]. cbn [rows_of each].
    unfold nonneg in HN. cbn [comp_rows] in HN. clear - Hn HS HN E. induction rows as [|r rows IH]; cbn [map]; [split; constructor|].
    inversion HS; subst; inversion HN; subst. destruct IH as [I1 I2]; auto.
    split; constructor; auto; rewrite check_ok by (auto; repeat constructor; auto); cbn [bind]; rewrite ?E; reflexivity.
Qed.

(* ------------------------------------------------------------------ *)
(** * C58 -- component labels do not matter (free energies) *)

Lemma xadd_comm x y : xadd x y = xadd y x.
Proof. destruct x, y; cbn; auto. f_equal. ring. Qed.
Lemma xadd_assoc x y z : xadd x (xadd y z) = xadd (xadd x y) z.
Proof. destruct x, y, z; cbn; auto. f_equal. ring. Qed.
Lemma xadd_0_l x : xadd (Fin 0) x = x.
Proof. destruct x; cbn; auto. f_equal. ring. Qed.

Lemma xsum_ext n f g : (forall i, (i < n)%nat -> f i = g i) -> xsum n f = xsum n g.
Proof. induction n; intros H; cbn [xsum]; auto. rewrite IHn, H; auto. Qed.

Lemma xsum_remove n f k : (k < n)%nat -> xsum n f = xadd (f k) (xsum n (fun i => if Nat.eqb i k then Fin 0 else f i)).
Proof.
  induction n as [|n IH]; intros H; [lia|]. cbn [xsum]. destruct (Nat.eqb_spec n k) as [->|Hne].
  - rewrite (xsum_ext k (fun i => if Nat.eqb i k then Fin 0 else f i) f).
    + rewrite (xadd_comm (xsum k f) (Fin 0)), xadd_0_l. apply xadd_comm.
    + intros i Hi. destruct (Nat.eqb_spec i k); [lia|reflexivity].
  - rewrite IH by lia. now rewrite xadd_assoc.
Qed.

Lemma xsum_perm n (s : nat -> nat) f :
  (forall i, (i < n)%nat -> (s i < n)%nat) ->
  (forall i j, (i < n)%nat -> (j < n)%nat -> s i = s j -> i = j) ->
  xsum n (fun i => f (s i)) = xsum n f.
Proof.
  revert s f. induction n as [|n IH]; intros s f Hb Hi; auto.
  set (k := s n). assert (Hk : (k < S n)%nat) by (apply Hb; lia).
  set (s' := fun i => if Nat.eqb (s i) n then k else s i).
  assert (Hne : forall i, (i < n)%nat -> s i <> k) by (intros i Hin E; apply Hi in E; lia).
  assert (B : forall i, (i < n)%nat -> (s' i < n)%nat).
  { intros i Hin. unfold s'. destruct (Nat.eqb_spec (s i) n) as [E|E].
    - specialize (Hne i Hin). lia.
    - specialize (Hb i ltac:(lia)). lia. }
  assert (I : forall i j, (i < n)%nat -> (j < n)%nat -> s' i = s' j -> i = j).
  { intros i j Hin Hjn. unfold s'. pose proof (Hne i Hin). pose proof (Hne j Hjn).
    destruct (Nat.eqb_spec (s i) n), (Nat.eqb_spec (s j) n); intros E; try congruence; apply Hi; lia. }
  set (g := fun i => if Nat.eqb i k then f n else f i).
  cbn [xsum]. fold k.
  rewrite (xsum_ext n (fun i => f (s i)) (fun i => g (s' i))).
  2:{ intros i Hin. unfold g, s'. pose proof (Hne i Hin). destruct (Nat.eqb_spec (s i) n) as [E|E].
      - rewrite Nat.eqb_refl. now rewrite E.
      - destruct (Nat.eqb_spec (s i) k); [congruence|reflexivity]. }
  rewrite (IH s' g B I). unfold g. destruct (Nat.eq_dec k n) as [E|E].
  - rewrite E. f_equal. apply xsum_ext. intros i Hin. destruct (Nat.eqb_spec i n); [lia|reflexivity].
  - rewrite (xsum_remove n (fun i => if Nat.eqb i k then f n else f i) k) by lia. rewrite Nat.eqb_refl.
    rewrite (xsum_remove n f k) by lia.
    rewrite (xsum_ext n (fun i => if Nat.eqb i k then Fin 0 else (if Nat.eqb i k then f n else f i)) (fun i => if Nat.eqb i k then Fin 0 else f i)).
    + rewrite (xadd_comm (f n)). rewrite <- xadd_assoc. rewrite (xadd_comm (f n) (f k)).
      rewrite xadd_assoc. rewrite (xadd_comm (xsum n _) (f k)). reflexivity.
    + intros i Hin. destruct (Nat.eqb i k); reflexivity.
Qed.

(** component [i] of the second mixture is component [s i] of the first *)
Definition renamed_fe (s : nat -> nat) (F G : fe) : Prop :=
  fe_nc G = fe_nc F /\ (forall i, (i < fe_nc F)%nat -> (s i < fe_nc F)%nat) /\
  (forall i j, (i < fe_nc F)%nat -> (j < fe_nc F)%nat -> s i = s j -> i = j) /\
  (forall i j, (i < fe_nc F)%nat -> (j < fe_nc F)%nat -> fe_chis G i j = fe_chis F (s i) (s j)) /\
  (forall i, (i < fe_nc F)%nat -> fe_sizes G i = fe_sizes F (s i)).

Theorem C58_free_energy s F G phi psi : renamed_fe s F G ->
  length phi = fe_nc F -> length psi = fe_nc F -> Forall (fun x => 0 <= x) phi ->
  (forall i, (i < fe_nc F)%nat -> nth i psi 0 = nth (s i) phi 0) ->
  exists f jF jG mF mG,
    free_energy_density F (One phi) = Ok (Single f) /\ free_energy_density G (One psi) = Ok (Single f) /\
    jacobian F (One phi) None = Ok (Single jF) /\ jacobian G (One psi) None = Ok (Single jG) /\
    chemical_potentials F (One phi) = Ok [mF] /\ chemical_potentials G (One psi) = Ok [mG] /\
    length jG = fe_nc F /\ length mG = fe_nc F /\
    (forall i, (i < fe_nc F)%nat -> nth i jG NaN = nth (s i) jF NaN) /\
    (forall i, (i < fe_nc F)%nat -> nth i mG NaN = nth (s i) mF NaN).
Proof.
  intros (En & Hb & Hi & Hc & Hl) HL1 HL2 HN HE. set (n := fe_nc F) in *.
  assert (HN2 : Forall (fun x => 0 <= x) psi).
  { apply Forall_forall. intros x Hx. destruct (In_nth psi x 0 Hx) as (i & Hin & <-). rewrite HE by lia.
    apply (nonneg_entries phi n); auto. apply Hb. lia. }
  assert (C1 : check_fractions F (One phi) = Ok tt) by (apply check_ok; [auto|repeat constructor; auto]).
  assert (C2 : check_fractions G (One psi) = Ok tt) by (apply check_ok; [cbn; lia|repeat constructor; auto]).
  assert (EE : forall i, (i < n)%nat -> entries psi i = entries phi (s i)) by exact HE.
  assert (E1 : energy_at G (entries psi) = energy_at F (entries phi)).
  { unfold energy_at, int_energy, ent_energy. rewrite En. fold n. f_equal.
    - do 2 f_equal.
      rewrite <- (rsum_perm n s (fun i => rsum n (fun j => entries phi i * entries phi j * fe_chis F i j))) by auto.
      apply rsum_ext. intros i Hin.
      rewrite <- (rsum_perm n s (fun j => entries phi (s i) * entries phi j * fe_chis F (s i) j)) by auto.
      apply rsum_ext. intros j Hjn. now rewrite Hc, !EE by auto.
    - rewrite <- (xsum_perm n s (fun i => xdiv (xlogx (entries phi i)) (fe_sizes F i))) by auto.
      apply xsum_ext. intros i Hin. now rewrite Hl, EE by auto. }
  assert (EI : forall i, (i < n)%nat -> int_jacobian n (fe_chis G) (entries psi) i = int_jacobian n (fe_chis F) (entries phi) (s i)).
  { intros i Hin. unfold int_jacobian. f_equal.
    rewrite <- (rsum_perm n s (fun j => entries phi j * fe_chis F j (s i))) by auto. apply rsum_ext. intros j Hjn. rewrite Hc, EE by auto. reflexivity. }
  assert (E2 : forall i, (i < n)%nat -> jacobian_at G (entries psi) i = jacobian_at F (entries phi) (s i)).
  { intros i Hin. unfold jacobian_at, ent_jacobian. rewrite En. fold n. now rewrite EI, Hl, EE by auto. }
  assert (E3 : xsum n (jacobian_fractions_at G (entries psi)) = xsum n (jacobian_fractions_at F (entries phi))).
  { rewrite <- (xsum_perm n s (jacobian_fractions_at F (entries phi))) by auto. apply xsum_ext. intros i Hin.
    unfold jacobian_fractions_at, ent_jacobian_fractions. rewrite En. fold n. now rewrite EI, Hl, EE by auto. }
  do 5 eexists. unfold free_energy_density, jacobian, chemical_potentials. rewrite C1, C2. cbn [bind each rows_of].
  rewrite E1. do 6 (split; [reflexivity|]). rewrite En. fold n. split; [apply listed_length|]. split; [apply listed_length|].
  split; intros i Hin; rewrite !listed_nth by auto; [auto|].
  unfold potential_at. rewrite En. fold n. now rewrite E1, E2, E3 by auto.
Qed.
