(** ProofsFreeEnergy.v -- lemmas about the free-energy model. *)

From Coq Require Import Reals Lra Lia List Bool Arith ZArith.
From Coquelicot Require Import Coquelicot.
From Verif Require Import Base ModelCommon ModelFreeEnergy.
Import ListNotations.
Open Scope R_scope.

(* ------------------------------------------------------------------ *)
(** * Vocabulary of the statements *)

(** Flory-Huggins free energy density of a real composition. *)
Definition fh (nc : nat) (chi : mat) (l phi : vec) : R :=
  rsum nc (fun i => phi i * ln (phi i) / l i)
  + 1 / 2 * rsum nc (fun i => rsum nc (fun j => chi i j * phi i * phi j)).
(** its gradient *)
Definition dfh (nc : nat) (chi : mat) (l phi : vec) (i : nat) : R :=
  (ln (phi i) + 1) / l i + rsum nc (fun j => chi i j * phi j).

(** moving from [phi] in direction [y] *)
Definition along (phi y : vec) (t : R) : vec := fun i => phi i + t * y i.
Definition unit_vec (i : nat) : vec := fun j => if Nat.eqb j i then 1 else 0.

(** [v] is the derivative of [f] at [phi] in direction [y] *)
Definition slope (f : vec -> R) (phi y : vec) (v : R) : Prop := is_derive (fun t => f (along phi y t)) 0 v.
(** second derivative: first in direction [y], then in direction [z] *)
Definition slope2 (f : vec -> R) (phi y z : vec) (h : R) : Prop :=
  exists g, locally 0 (fun t => slope f (along phi z t) y (g t)) /\ is_derive g 0 h.

(* ------------------------------------------------------------------ *)
(** * Lists *)

Lemma listed_length {A} n (f : nat -> A) : length (listed n f) = n.
Proof. unfold listed. now rewrite map_length, seq_length. Qed.

Lemma listed_nth {A} n (f : nat -> A) i d : (i < n)%nat -> nth i (listed n f) d = f i.
Proof.
  intros H. unfold listed. rewrite (nth_indep _ d (f O)) by (rewrite map_length, seq_length; lia).
  rewrite map_nth, seq_nth by lia. reflexivity.
Qed.

Lemma listed_ext {A} n (f g : nat -> A) : (forall i, (i < n)%nat -> f i = g i) -> listed n f = listed n g.
Proof. intros H. unfold listed. apply map_ext_in. intros a Ha. apply in_seq in Ha. apply H. lia. Qed.

Lemma listed_map {A B} (g : A -> B) n f : map g (listed n f) = listed n (fun i => g (f i)).
Proof. unfold listed. now rewrite map_map. Qed.

Lemma listed_of_list {A} (l : list A) d : listed (length l) (fun i => nth i l d) = l.
Proof.
  unfold listed. induction l as [|x l IH]; [reflexivity|].
  cbn [length seq map nth]. f_equal. rewrite <- seq_shift, map_map. exact IH.
Qed.

(** position [i] of a list from which entry [k] was removed *)
Definition skip (k i : nat) : nat := if Nat.ltb i k then i else S i.

Lemma skip_neq k i : skip k i <> k.
Proof. unfold skip. destruct (Nat.ltb_spec i k); lia. Qed.
Lemma skip_lt n k i : (i < n - 1)%nat -> (skip k i < n)%nat.
Proof. unfold skip. destruct (Nat.ltb_spec i k); lia. Qed.

Lemma delete_nth {A} k (l : list A) i d : (k < length l)%nat -> nth i (delete k l) d = nth (skip k i) l d.
Proof.
  unfold delete, skip. revert l i. induction k as [|k IH]; intros [|x l] i H; simpl in H; try lia.
  - cbn [firstn app skipn]. destruct (Nat.ltb_spec i 0); [lia|]. reflexivity.
  - cbn [firstn skipn app]. destruct i as [|i]; [reflexivity|]. cbn [nth].
    rewrite IH by lia. change (S i <? S k)%nat with (i <? k)%nat. destruct (Nat.ltb_spec i k); reflexivity.
Qed.

Lemma delete_length {A} k (l : list A) : (k < length l)%nat -> length (delete k l) = (length l - 1)%nat.
Proof. intros H. unfold delete. rewrite app_length, firstn_length, skipn_length. lia. Qed.

Lemma delete_listed {A} k n (f : nat -> A) : (k < n)%nat -> delete k (listed n f) = listed (n - 1) (fun i => f (skip k i)).
Proof.
  intros H. destruct n as [|n]; [lia|]. set (d := f O).
  apply (nth_ext _ _ d d).
  - rewrite delete_length; rewrite !listed_length; lia.
  - intros i Hi. rewrite delete_length in Hi by (rewrite listed_length; lia). rewrite listed_length in Hi.
    rewrite delete_nth by (rewrite listed_length; lia). rewrite listed_nth by (apply skip_lt; lia).
    rewrite listed_nth by lia. reflexivity.
Qed.

(** sums over all entries but one *)
Lemma rsum_skip n k f : (k < n)%nat -> rsum n f = f k + rsum (n - 1) (fun i => f (skip k i)).
Proof.
  revert k. induction n as [|n IH]; intros k H; [lia|].
  cbn [rsum]. replace (S n - 1)%nat with n by lia.
  destruct (Nat.eq_dec k n) as [->|Hk].
  - rewrite (rsum_ext n (fun i => f (skip n i)) f); [lra|]. intros i Hi. unfold skip. destruct (Nat.ltb_spec i n); [reflexivity|lia].
  - rewrite (IH k) by lia. destruct n as [|n]; [lia|]. replace (S n - 1)%nat with n by lia. cbn [rsum].
    assert (E : skip k n = S n) by (unfold skip; destruct (Nat.ltb_spec n k); lia). rewrite E. lra.
Qed.

(* ------------------------------------------------------------------ *)
(** * Values on the domain *)

Definition wf_fe (F : fe) : Prop :=
  (forall i, (i < fe_nc F)%nat -> fe_sizes F i <> 0) /\
  (forall i j, (i < fe_nc F)%nat -> (j < fe_nc F)%nat -> fe_chis F i j = fe_chis F j i).

Lemma xdiv_fin a b : b <> 0 -> xdiv (Fin a) b = Fin (a / b).
Proof. intros H. unfold xdiv. destruct (Req_EM_T b 0); [congruence|reflexivity]. Qed.

Lemma xlogx_fin x : 0 <= x -> xlogx x = Fin (x * ln x).
Proof.
  intros H. unfold xlogx. destruct (Req_EM_T x 0) as [->|]; [f_equal; ring|].
  destruct (Rlt_dec x 0); [lra|reflexivity].
Qed.

Lemma xlog_fin x : 0 < x -> xlog x = Fin (ln x).
Proof. intros H. unfold xlog. destruct (Req_EM_T x 0); [lra|]. destruct (Rlt_dec x 0); [lra|reflexivity]. Qed.

Lemma xsum_fin n f g : (forall i, (i < n)%nat -> f i = Fin (g i)) -> xsum n f = Fin (rsum n g).
Proof.
  induction n as [|n IH]; intros H; [reflexivity|]. cbn [xsum rsum]. rewrite IH by (intros; apply H; lia).
  now rewrite H by lia.
Qed.

Section Values.
Variable F : fe.
Hypothesis WF : wf_fe F.
Let nc := fe_nc F.
Let chi := fe_chis F.
Let l := fe_sizes F.

Lemma energy_fin phi : (forall i, (i < nc)%nat -> 0 <= phi i) -> energy_at F phi = Fin (fh nc chi l phi).
Proof using WF.
  intros H. unfold energy_at, int_energy, ent_energy.
  rewrite (xsum_fin _ _ (fun i => phi i * ln (phi i) / l i)).
  - cbn [xadd]. f_equal. unfold fh. rewrite Rplus_comm. f_equal. f_equal.
    apply rsum_ext; intros; apply rsum_ext; intros; fold chi; ring.
  - intros i Hi. rewrite xlogx_fin by auto. apply xdiv_fin. now apply WF.
Qed.

Lemma jacobian_fin phi i : (i < nc)%nat -> 0 < phi i -> jacobian_at F phi i = Fin (dfh nc chi l phi i).
Proof using WF.
  intros Hi H. unfold jacobian_at, int_jacobian, ent_jacobian. rewrite xlog_fin by auto.
  assert (Hl : l i <> 0) by now apply WF. fold l. rewrite !xdiv_fin by auto. cbn [xadd]. f_equal. unfold dfh.
  rewrite Rplus_comm. f_equal; [field; auto|]. apply rsum_ext; intros j Hj. fold nc chi.
  unfold chi. rewrite (proj2 WF j i) by auto. ring.
Qed.

Lemma hessian_fin phi i j : (i < nc)%nat -> phi i <> 0 ->
  hessian_at F phi i j = Fin (chi i j + if Nat.eqb i j then l i / phi i else 0).
Proof using.
  intros Hi H. unfold hessian_at, int_hessian, ent_hessian. destruct (Nat.eqb i j).
  - rewrite xdiv_fin by auto. cbn [xscale xadd]. f_equal. fold chi l. field. auto.
  - cbn [xadd]. f_equal. fold chi. ring.
Qed.

Lemma jf_fin phi : (forall i, (i < nc)%nat -> 0 <= phi i) ->
  xsum nc (jacobian_fractions_at F phi) =
  Fin (rsum nc (fun i => phi i * dfh nc chi l phi i)).
Proof using WF.
  intros H. apply xsum_fin. intros i Hi. unfold jacobian_fractions_at, int_jacobian, ent_jacobian_fractions.
  rewrite xlogx_fin by auto. assert (Hl : l i <> 0) by now apply WF. fold l. rewrite !xdiv_fin by auto.
  cbn [xscale xadd]. f_equal. unfold dfh. fold nc.
  rewrite (rsum_ext nc (fun j => phi j * fe_chis F j i) (fun j => chi i j * phi j)).
  - field. auto.
  - intros j Hj. unfold chi. rewrite (proj2 WF j i) by auto. ring.
Qed.

(** chemical potential of component [i] *)
Definition mu_of (phi : vec) (i : nat) : R :=
  fh nc chi l phi - rsum nc (fun k => phi k * dfh nc chi l phi k) + dfh nc chi l phi i.

Lemma potential_fin phi i : (forall j, (j < nc)%nat -> 0 <= phi j) -> (i < nc)%nat -> 0 < phi i ->
  potential_at F phi i = Fin (mu_of phi i).
Proof using WF.
  intros H Hi Hp. unfold potential_at. rewrite energy_fin by auto. fold nc. rewrite jf_fin by auto.
  rewrite jacobian_fin by auto. reflexivity.
Qed.
End Values.

(* ------------------------------------------------------------------ *)
(** * Derivatives *)

Lemma is_derive_rsum n (f : nat -> R -> R) (d : nat -> R) x :
  (forall i, (i < n)%nat -> is_derive (f i) x (d i)) -> is_derive (fun t => rsum n (fun i => f i t)) x (rsum n d).
Proof.
  induction n as [|n IH]; intros H; cbn [rsum].
  - apply @is_derive_const.
  - apply (@is_derive_plus R_AbsRing R_NormedModule (fun t => rsum n (fun i => f i t)) (f n)); auto.
Qed.

(** derivative of the free energy along a line, at any point of it *)
Definition line1 (nc : nat) (chi : mat) (l phi y : vec) (t : R) : R :=
  rsum nc (fun i => y i * ((ln (along phi y t i) + 1) / l i))
  + 1 / 2 * rsum nc (fun i => rsum nc (fun j => chi i j * (y i * along phi y t j + along phi y t i * y j))).

Lemma fh_line nc chi l phi y t : (forall i, (i < nc)%nat -> l i <> 0) ->
  (forall i, (i < nc)%nat -> 0 < along phi y t i) ->
  is_derive (fun s => fh nc chi l (along phi y s)) t (line1 nc chi l phi y t).
Proof.
  intros Hl Hp. unfold fh, line1.
  apply (@is_derive_plus R_AbsRing R_NormedModule).
  - apply is_derive_rsum. intros i Hi. specialize (Hp i Hi). specialize (Hl i Hi). unfold along in *. auto_derive; [auto|field; lra].
  - apply (is_derive_scal (fun s => rsum nc (fun i => rsum nc (fun j => chi i j * along phi y s i * along phi y s j)))).
    apply is_derive_rsum. intros i Hi. apply is_derive_rsum. intros j Hj. unfold along. auto_derive; [auto|ring].
Qed.

Lemma line1_0 nc chi l phi y : (forall i j, (i < nc)%nat -> (j < nc)%nat -> chi i j = chi j i) ->
  line1 nc chi l phi y 0 = rsum nc (fun i => y i * dfh nc chi l phi i).
Proof.
  intros HS. unfold line1, dfh. 
  rewrite (rsum_ext nc (fun i => y i * ((ln (phi i) + 1) / l i + rsum nc (fun j => chi i j * phi j)))
            (fun i => y i * ((ln (along phi y 0 i) + 1) / l i) + rsum nc (fun j => chi i j * y i * phi j))).
  - rewrite rsum_plus. f_equal.
    rewrite (rsum_ext nc _ (fun i => rsum nc (fun j => chi i j * y i * phi j) + rsum nc (fun j => chi i j * phi i * y j))).
    + rewrite rsum_plus. rewrite (rsum_swap nc nc (fun i j => chi i j * phi i * y j)).
      rewrite (rsum_ext nc (fun j => rsum nc (fun i => chi i j * phi i * y j)) (fun i => rsum nc (fun j => chi i j * y i * phi j))).
      * lra.
      * intros i Hi. apply rsum_ext. intros j Hj. rewrite (HS j i) by auto. ring.
    + intros i Hi. rewrite <- rsum_plus. apply rsum_ext. intros j Hj. unfold along. ring.
  - intros i Hi. unfold along. rewrite Rmult_0_l, Rplus_0_r, Rmult_plus_distr_l. f_equal.
    rewrite <- rsum_scal_l. apply rsum_ext. intros. ring.
Qed.

(** positivity is kept near a positive composition *)
Lemma along_pos n phi y : (forall i, (i < n)%nat -> 0 < phi i) ->
  locally 0 (fun t => forall i, (i < n)%nat -> 0 < along phi y t i).
Proof.
  induction n as [|n IH]; intros H.
  - exists posreal_one. intros t _ i Hi. lia.
  - assert (H1 : locally 0 (fun t => 0 < along phi y t n)).
    { assert (C : continuous (fun t => along phi y t n) 0).
      { apply (@ex_derive_continuous R_AbsRing R_NormedModule). unfold along. auto_derive. auto. }
      apply (C (fun z => 0 < z)). unfold along. rewrite Rmult_0_l, Rplus_0_r.
      apply (open_gt 0). apply H. lia. }
    specialize (IH ltac:(intros; apply H; lia)).
    generalize (filter_and _ _ H1 IH). apply filter_imp. intros t [A B] i Hi.
    destruct (Nat.eq_dec i n) as [->|]; [auto|apply B; lia].
Qed.

(** exact second derivative *)
Definition d2fh (nc : nat) (chi : mat) (l phi y z : vec) : R :=
  rsum nc (fun i => y i * z i / (l i * phi i)) + rsum nc (fun i => rsum nc (fun j => chi i j * y i * z j)).

Lemma fh_slope nc chi l phi y : (forall i, (i < nc)%nat -> l i <> 0) -> (forall i, (i < nc)%nat -> 0 < phi i) ->
  (forall i j, (i < nc)%nat -> (j < nc)%nat -> chi i j = chi j i) ->
  slope (fh nc chi l) phi y (rsum nc (fun i => y i * dfh nc chi l phi i)).
Proof.
  intros Hl Hp HS. unfold slope. rewrite <- line1_0 by auto. apply fh_line; auto.
  intros i Hi. unfold along. rewrite Rmult_0_l, Rplus_0_r. auto.
Qed.

Lemma fh_slope2 nc chi l phi y z : (forall i, (i < nc)%nat -> l i <> 0) -> (forall i, (i < nc)%nat -> 0 < phi i) ->
  (forall i j, (i < nc)%nat -> (j < nc)%nat -> chi i j = chi j i) ->
  slope2 (fh nc chi l) phi y z (d2fh nc chi l phi y z).
Proof.
  intros Hl Hp HS. exists (fun t => rsum nc (fun i => y i * dfh nc chi l (along phi z t) i)). split.
  - generalize (along_pos nc phi z Hp). apply filter_imp. intros t Ht. now apply fh_slope.
  - unfold d2fh, dfh. rewrite <- rsum_plus. apply is_derive_rsum. intros i Hi.
    specialize (Hl i Hi). specialize (Hp i Hi).
    evar_last.
    { apply is_derive_scal. apply (@is_derive_plus R_AbsRing R_NormedModule (fun t => (ln (along phi z t i) + 1) / l i)).
      - unfold along. auto_derive; [rewrite Rmult_0_l, Rplus_0_r; auto|reflexivity].
      - apply (is_derive_rsum nc (fun j t => chi i j * along phi z t j) (fun j => chi i j * z j)).
        intros j Hj. unfold along. auto_derive; [auto|ring]. }
    cbn. rewrite (rsum_ext nc (fun j => chi i j * y i * z j) (fun j => y i * (chi i j * z j))) by (intros; ring).
    rewrite rsum_scal_l. unfold plus. cbn. field. lra.
Qed.

Lemma slope_unique f phi y v w : slope f phi y v -> slope f phi y w -> v = w.
Proof. intros H1 H2. apply is_derive_unique in H1, H2. congruence. Qed.

Lemma slope2_unique f phi y z v w : slope2 f phi y z v -> slope2 f phi y z w -> v = w.
Proof.
  intros (g1 & L1 & D1) (g2 & L2 & D2).
  assert (E : locally 0 (fun t => g1 t = g2 t)).
  { generalize (filter_and _ _ L1 L2). apply filter_imp. intros t [A B]. eapply slope_unique; eauto. }
  apply is_derive_unique in D2. rewrite <- D2. symmetry. apply is_derive_unique.
  apply (is_derive_ext_loc g1); auto.
Qed.

(** unit vectors *)
Lemma rsum_unit n i f : (i < n)%nat -> rsum n (fun j => unit_vec i j * f j) = f i.
Proof.
  intros H. rewrite (rsum_single n _ i H).
  - unfold unit_vec. rewrite Nat.eqb_refl. ring.
  - intros j Hj Hne. unfold unit_vec. destruct (Nat.eqb_spec j i); [congruence|ring].
Qed.

Lemma d2fh_unit nc chi l phi i j : (i < nc)%nat -> (j < nc)%nat ->
  d2fh nc chi l phi (unit_vec i) (unit_vec j) = chi i j + if Nat.eqb i j then 1 / (l i * phi i) else 0.
Proof.
  intros Hi Hj. unfold d2fh.
  rewrite (rsum_ext nc _ (fun k => unit_vec i k * (unit_vec j k / (l k * phi k)))) by (intros; unfold Rdiv; ring).
  rewrite rsum_unit by auto.
  rewrite (rsum_ext nc (fun a => rsum nc (fun b => chi a b * unit_vec i a * unit_vec j b))
             (fun a => unit_vec i a * rsum nc (fun b => unit_vec j b * chi a b))).
  - rewrite rsum_unit by auto. rewrite rsum_unit by auto. unfold unit_vec. destruct (Nat.eqb_spec i j); unfold Rdiv; ring.
  - intros a Ha. rewrite <- rsum_scal_l. apply rsum_ext. intros. ring.
Qed.
