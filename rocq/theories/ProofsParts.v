(** ProofsParts.v -- closed forms of the built-in entropies, ensembles and
    constraints. *)

From Coq Require Import Reals Lra Lia List Bool Arith ZArith.
From Verif Require Import Base ModelParts ModelKernel.
Import ListNotations.
Open Scope R_scope.

(** sum of natural numbers; [nsum r npf] is the first component of feature [r]. *)
Fixpoint nsum (n : nat) (f : nat -> nat) : nat :=
  match n with O => O | S k => (nsum k f + f k)%nat end.

Lemma nsum_mono n m f : (n <= m)%nat -> (nsum n f <= nsum m f)%nat.
Proof. induction 1; simpl; lia. Qed.

Lemma nsum_block_lt n f r j : (r < n)%nat -> (j < f r)%nat -> (nsum r f + j < nsum n f)%nat.
Proof.
  intros Hr Hj. pose proof (nsum_mono (S r) n f ltac:(lia)). simpl in H. lia.
Qed.

(** Every index below the total lies in exactly one block. *)
Lemma nsum_find n f i : (i < nsum n f)%nat ->
  exists r j, (r < n)%nat /\ (j < f r)%nat /\ i = (nsum r f + j)%nat.
Proof.
  induction n; simpl; intros H; [lia|].
  destruct (lt_dec i (nsum n f)) as [L|L].
  - destruct (IHn L) as (r & j & Hr & Hj & E). exists r, j. repeat split; auto.
  - exists n, (i - nsum n f)%nat. repeat split; lia.
Qed.

Lemma nsum_unique n f r j r' j' :
  (r < n)%nat -> (j < f r)%nat -> (r' < n)%nat -> (j' < f r')%nat ->
  (nsum r f + j = nsum r' f + j')%nat -> r = r' /\ j = j'.
Proof.
  intros Hr Hj Hr' Hj' E.
  destruct (Nat.lt_trichotomy r r') as [L|[L|L]].
  - pose proof (nsum_mono (S r) r' f ltac:(lia)). simpl in H. lia.
  - subst. split; lia.
  - pose proof (nsum_mono (S r') r f ltac:(lia)). simpl in H. lia.
Qed.

Lemma rsum_blocks n f (g : nat -> R) :
  rsum (nsum n f) g = rsum n (fun r => rsum (f r) (fun j => g (nsum r f + j)%nat)).
Proof.
  induction n; simpl; auto. rewrite rsum_split, IHn. reflexivity.
Qed.

(* ------------------------------------------------------------------ *)
(** * Ideal gas *)

Definition ig_Q np (w J : vec) size : R :=
  rsum np (fun m => boltzmann (w m) size * J m) / rsum np J.

Lemma ig_partition_spec nc sizes np phis w J phis' Qs :
  ig_partition nc sizes np phis w J = Ok (phis', Qs) ->
  rsum np J <> 0 /\
  (forall i m, (i < nc)%nat -> phis' i m = boltzmann (w i m) (sizes i)) /\
  (forall i, (i < nc)%nat -> Qs i = ig_Q np (w i) J (sizes i)).
Proof.
  unfold ig_partition. destruct (Reqb (rsum np J) 0) eqn:E; [discriminate|].
  intros H. injection H as H. split; [now apply Reqb_false|].
  cut ((forall i m, (i < nc)%nat -> fst (phis', Qs) i m = boltzmann (w i m) (sizes i)) /\
       (forall i, (i < nc)%nat -> snd (phis', Qs) i = ig_Q np (w i) J (sizes i))); [auto|].
  rewrite <- H. clear H phis' Qs E.
  induction nc.
  - split; intros; lia.
  - rewrite for_S. destruct (for_ nc _ (phis, fun _ => 0)) as [p Q]. destruct IHnc as [I1 I2].
    simpl in *. split.
    + intros i m Hi. unfold upd_row, upd. destruct (Nat.eqb_spec i nc); [subst; auto|apply I1; lia].
    + intros i Hi. unfold upd. destruct (Nat.eqb_spec i nc); [subst; auto|apply I2; lia].
Qed.

Lemma ig_partition_ok nc sizes np phis w J :
  rsum np J <> 0 -> exists phis' Qs, ig_partition nc sizes np phis w J = Ok (phis', Qs).
Proof.
  intros H. unfold ig_partition. apply Reqb_false in H. rewrite H.
  destruct (for_ _ _ _) as [p Q]. eauto.
Qed.

Lemma ig_comp_to_feat nc sizes f c r m :
  (r < nc)%nat -> s_comp_to_feat (ig_compiled nc sizes) f c r m = c r m.
Proof.
  simpl. induction nc; intros H; [lia|]. rewrite for_S. unfold upd_row, upd at 1.
  destruct (Nat.eqb_spec r nc); [subst; auto|]. apply IHnc; lia.
Qed.

Lemma ig_vd_eq nc sizes phis m : ig_vd nc sizes phis m = - rsum nc (fun i => phis i m / sizes i).
Proof. unfold ig_vd. induction nc; simpl; [lra|]. rewrite IHnc; lra. Qed.

Lemma boltzmann_pos w s : 0 < boltzmann w s.
Proof. apply exp_pos. Qed.

Lemma ln_boltzmann w s : ln (boltzmann w s) = - (w * s).
Proof. unfold boltzmann. rewrite ln_exp. lra. Qed.

(** partition functions are positive for non-negative, non-vanishing volumes *)
Lemma ig_Q_pos np w J size :
  (forall m, (m < np)%nat -> 0 <= J m) -> (exists m, (m < np)%nat /\ 0 < J m) ->
  0 < ig_Q np w J size.
Proof.
  intros HJ (m0 & Hm & HJm). unfold ig_Q, Rdiv. apply Rmult_lt_0_compat.
  - apply rsum_pos.
    + intros m Hm'. specialize (HJ m Hm'). pose proof (boltzmann_pos (w m) size). nra.
    + exists m0. split; auto. apply Rmult_lt_0_compat; auto. apply boltzmann_pos.
  - apply Rinv_0_lt_compat. apply rsum_pos; eauto.
Qed.

(* ------------------------------------------------------------------ *)
(** * Polydispersed ideal gas *)

Lemma pg_partition_spec nf npf sizes np phis w J phis' Qs :
  pg_partition nf npf sizes np phis w J = Ok (phis', Qs) ->
  rsum np J <> 0 /\
  (forall r j m, (r < nf)%nat -> (j < npf r)%nat ->
     phis' (nsum r npf + j)%nat m = boltzmann (w r m) (sizes (nsum r npf + j)%nat)) /\
  (forall r j, (r < nf)%nat -> (j < npf r)%nat ->
     Qs (nsum r npf + j)%nat = ig_Q np (w r) J (sizes (nsum r npf + j)%nat)).
Proof.
  unfold pg_partition. destruct (Reqb (rsum np J) 0) eqn:E; [discriminate|].
  intros H. split; [now apply Reqb_false|].
  match type of H with (let '(_, _) := ?t in _) = _ => remember t as st eqn:Est end.
  destruct st as [[i0 p0] Q0]. injection H as <- <-.
  cut (fst (fst (i0, p0, Q0)) = nsum nf npf /\
       (forall r j m, (r < nf)%nat -> (j < npf r)%nat ->
          snd (fst (i0, p0, Q0)) (nsum r npf + j)%nat m = boltzmann (w r m) (sizes (nsum r npf + j)%nat)) /\
       (forall r j, (r < nf)%nat -> (j < npf r)%nat ->
          snd (i0, p0, Q0) (nsum r npf + j)%nat = ig_Q np (w r) J (sizes (nsum r npf + j)%nat)));
    [tauto|].
  rewrite Est. clear Est i0 p0 Q0 E.
  induction nf as [|nf IH].
  - simpl. repeat split; auto; intros; lia.
  - rewrite for_S.
    revert IH. match goal with |- context [for_ (npf nf) ?b ?x] => generalize x end. intros s IHs.
    assert (GEN : forall n, (n <= npf nf)%nat ->
      let t := for_ n (fun _ '(i, phis, Qs) =>
          let row := fun m => boltzmann (w nf m) (sizes i) in
          (S i, upd_row phis i row, upd Qs i (rsum np (fun m => row m * J m) / rsum np J))) s in
      fst (fst t) = (nsum nf npf + n)%nat /\
      (forall r j m, ((r < nf)%nat /\ (j < npf r)%nat \/ (r = nf /\ (j < n)%nat)) ->
          snd (fst t) (nsum r npf + j)%nat m = boltzmann (w r m) (sizes (nsum r npf + j)%nat)) /\
      (forall r j, ((r < nf)%nat /\ (j < npf r)%nat \/ (r = nf /\ (j < n)%nat)) ->
          snd t (nsum r npf + j)%nat = ig_Q np (w r) J (sizes (nsum r npf + j)%nat))).
    { induction n; intros Hn; cbv zeta.
      - destruct IHs as (I0 & I1 & I2). simpl. split; [lia|]. split.
        + intros r j m [[Hr Hj]|[_ Hj]]; [auto|lia].
        + intros r j [[Hr Hj]|[_ Hj]]; [auto|lia].
      - specialize (IHn ltac:(lia)). cbv zeta in IHn. rewrite for_S.
        destruct (for_ n _ s) as [[i p] Q]. simpl in IHn. destruct IHn as (I0 & I1 & I2).
        simpl. subst i. split; [lia|]. unfold upd_row, upd. split.
        + intros r j m H. destruct (Nat.eqb_spec (nsum r npf + j) (nsum nf npf + n)) as [Eq|Ne].
          * destruct H as [[Hr Hj]|[-> Hj]].
            -- exfalso. pose proof (nsum_block_lt nf npf r j Hr Hj). lia.
            -- assert (j = n) by lia. subst j. reflexivity.
          * apply I1. destruct H as [[Hr Hj]|[-> Hj]]; [left; auto|right; split; auto]. lia.
        + intros r j H. destruct (Nat.eqb_spec (nsum r npf + j) (nsum nf npf + n)) as [Eq|Ne].
          * destruct H as [[Hr Hj]|[-> Hj]].
            -- exfalso. pose proof (nsum_block_lt nf npf r j Hr Hj). lia.
            -- assert (j = n) by lia. subst j. reflexivity.
          * apply I2. destruct H as [[Hr Hj]|[-> Hj]]; [left; auto|right; split; auto]. lia. }
    specialize (GEN (npf nf) (Nat.le_refl _)). cbv zeta in GEN.
    destruct GEN as (I0 & I1 & I2). simpl nsum. split; [exact I0|]. split.
    + intros r j m Hr Hj. apply I1. destruct (Nat.eq_dec r nf); [right; subst; auto|left; split; auto; lia].
    + intros r j Hr Hj. apply I2. destruct (Nat.eq_dec r nf); [right; subst; auto|left; split; auto; lia].
Qed.

Lemma pg_partition_ok nf npf sizes np phis w J :
  rsum np J <> 0 -> exists phis' Qs, pg_partition nf npf sizes np phis w J = Ok (phis', Qs).
Proof.
  intros H. unfold pg_partition. apply Reqb_false in H. rewrite H.
  destruct (for_ _ _ _) as [[i p] Q]. eauto.
Qed.

Lemma pg_comp_to_feat_spec nf npf f c r m :
  (forall r, (r < nf)%nat -> (1 <= npf r)%nat) -> (r < nf)%nat ->
  pg_comp_to_feat nf npf f c r m = rsum (npf r) (fun j => c (nsum r npf + j)%nat m).
Proof.
  intros Hpos Hr. unfold pg_comp_to_feat.
  match goal with |- snd ?t r m = _ =>
    cut (fst t = nsum nf npf /\ forall r m, (r < nf)%nat ->
           snd t r m = rsum (npf r) (fun j => c (nsum r npf + j)%nat m)) end.
  { intros [_ H]. auto. }
  clear Hr r m. induction nf as [|nf IH].
  - simpl. split; auto. intros; lia.
  - rewrite for_S. destruct (for_ nf _ (O, f)) as [i g].
    destruct (IH ltac:(intros; apply Hpos; lia)) as [I0 I1]. simpl in I0, I1. clear IH. subst i.
    cbv beta iota.
    assert (GEN : forall n, (S n <= npf nf)%nat ->
      let t := for_ n (fun _ '(i, f) => (S i, upd_row f nf (fun m => f nf m + c i m)))
                 (S (nsum nf npf), upd_row g nf (c (nsum nf npf))) in
      fst t = (nsum nf npf + S n)%nat /\
      (forall r m, (r < nf)%nat -> snd t r m = g r m) /\
      (forall m, snd t nf m = rsum (S n) (fun j => c (nsum nf npf + j)%nat m))).
    { induction n; intros Hn; cbv zeta.
      - simpl. split; [lia|]. split.
        + intros r m Hr. unfold upd_row. rewrite upd_neq by lia. auto.
        + intros m. unfold upd_row. rewrite upd_eq, Nat.add_0_r. lra.
      - specialize (IHn ltac:(lia)). cbv zeta in IHn. rewrite for_S.
        destruct (for_ n _ _) as [i h]. destruct IHn as (J0 & J1 & J2). simpl in J0, J1, J2.
        simpl. split; [lia|]. split.
        + intros r m Hr. unfold upd_row. rewrite upd_neq by lia. auto.
        + intros m. unfold upd_row. rewrite upd_eq. rewrite J2, J0. simpl. reflexivity. }
    assert (1 <= npf nf)%nat by (apply Hpos; lia).
    specialize (GEN (npf nf - 1)%nat ltac:(lia)). cbv zeta in GEN.
    replace (S (npf nf - 1)) with (npf nf) in GEN by lia.
    destruct GEN as (J0 & J1 & J2). split.
    + simpl. lia.
    + intros r m Hr. destruct (Nat.eq_dec r nf) as [->|N]; [apply J2|].
      rewrite J1 by lia. apply I1; lia.
Qed.

(* ------------------------------------------------------------------ *)
(** * Ensembles *)

Definition row_incomp nc (phis : mat) (masks : vec) : vec :=
  fun m => (rsum nc (fun i => phis i m) - 1) * masks m.

Lemma norm_loop nc (a : vec) phis masks phis' incomp :
  for_ nc (fun i '(phis, incomp) =>
       let row := fun m => a i * phis i m * masks m in
       (upd_row phis i row, fun m => incomp m + row m))
      (phis, fun _ => -1) = (phis', incomp) ->
  (forall i m, (i < nc)%nat -> phis' i m = a i * phis i m * masks m) /\
  (forall i m, (nc <= i)%nat -> phis' i m = phis i m) /\
  (forall m, incomp m = rsum nc (fun i => phis' i m) - 1).
Proof.
  revert phis' incomp. induction nc; intros phis' incomp.
  - simpl. intros H; injection H as <- <-. split; [intros; lia|split; [auto|intros; lra]].
  - rewrite for_S. destruct (for_ nc _ _) as [p x]. intros H; injection H as <- <-.
    destruct (IHnc p x eq_refl) as (I1 & I2 & I3). clear IHnc.
    assert (A : forall i m, (i < S nc)%nat ->
      upd_row p nc (fun m => a nc * p nc m * masks m) i m = a i * phis i m * masks m).
    { intros i m Hi. unfold upd_row, upd. destruct (Nat.eqb_spec i nc).
      - subst. rewrite I2 by lia. auto.
      - apply I1; lia. }
    split; [exact A|]. split.
    + intros i m Hi. unfold upd_row. rewrite upd_neq by lia. apply I2; lia.
    + intros m. rewrite I3. simpl. unfold upd_row at 2. rewrite upd_eq.
      rewrite (rsum_ext nc (fun i => upd_row p nc (fun m0 => a nc * p nc m0 * masks m0) i m) (fun i => p i m)).
      * lra.
      * intros i Hi. unfold upd_row. rewrite upd_neq by lia. auto.
Qed.

Lemma can_normalize_spec nc pm phis Qs masks phis' incomp :
  can_normalize nc pm phis Qs masks = Ok (phis', incomp) ->
  (forall i, (i < nc)%nat -> Qs i <> 0) /\
  (forall i m, (i < nc)%nat -> phis' i m = pm i / Qs i * phis i m * masks m) /\
  (forall m, incomp m = row_incomp nc phis' masks m).
Proof.
  unfold can_normalize. destruct (Nat.eqb_spec (ncount nc (fun i => Reqb (Qs i) 0)) 0) as [E|]; [|discriminate].
  simpl. destruct (for_ nc _ _) as [p x] eqn:F. intros H; injection H as <- <-.
  apply (norm_loop nc (fun i => pm i / Qs i)) in F. destruct F as (F1 & F2 & F3).
  split; [|split; [exact F1|intros m; unfold row_incomp; now rewrite F3]].
  intros i Hi. apply Reqb_false. revert i Hi. apply ncount_none. exact E.
Qed.

Lemma can_normalize_ok nc pm phis Qs masks :
  (forall i, (i < nc)%nat -> Qs i <> 0) ->
  exists phis' incomp, can_normalize nc pm phis Qs masks = Ok (phis', incomp).
Proof.
  intros H. unfold can_normalize.
  replace (ncount nc (fun i => Reqb (Qs i) 0)) with O.
  - simpl. destruct (for_ _ _ _) as [p x]. eauto.
  - symmetry. apply ncount_none. intros i Hi. apply Reqb_false. auto.
Qed.

Lemma gc_normalize_spec nc a phis Qs masks phis' incomp :
  gc_normalize nc a phis Qs masks = Ok (phis', incomp) ->
  (forall i m, (i < nc)%nat -> phis' i m = a i * phis i m * masks m) /\
  (forall m, incomp m = row_incomp nc phis' masks m).
Proof.
  unfold gc_normalize. destruct (for_ nc _ _) as [p x] eqn:F. intros H; injection H as <- <-.
  apply norm_loop in F. destruct F as (F1 & F2 & F3).
  split; [exact F1|intros m; unfold row_incomp; now rewrite F3].
Qed.

Lemma gc_normalize_ok nc a phis Qs masks :
  exists phis' incomp, gc_normalize nc a phis Qs masks = Ok (phis', incomp).
Proof. unfold gc_normalize. destruct (for_ _ _ _) as [p x]. eauto. Qed.
