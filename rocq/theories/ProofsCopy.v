(** ProofsCopy.v -- revival by copy. *)

From Coq Require Import Reals Lra Lia List Bool Arith ZArith.
From Verif Require Import Base ModelParts ModelKernel ProofsKernel.
Import ListNotations.
Open Scope R_scope.

Section Copy.
Context {G : Type} (ops : rng_ops G) (HR : rng_contract ops).

(** [m] is one of the first [lc] donors *)
Definition InL (living : nat -> option nat) (lc m : nat) : Prop :=
  exists p, (p < lc)%nat /\ living p = Some m.

Definition validL (living : nat -> option nat) (lc : nat) : Prop :=
  forall p, (p < lc)%nat -> exists m, living p = Some m.

Lemma find_donor_spec J thr lc : forall living g ref living' lc' g',
  validL living lc ->
  find_donor ops J thr lc living g = Ok (ref, living', lc', g') ->
  2 * thr < J ref /\ InL living lc ref /\ (lc' <= lc)%nat /\ validL living' lc' /\
  (forall m, InL living' lc' m -> InL living lc m) /\
  (forall m, InL living lc m -> 2 * thr < J m -> InL living' lc' m).
Proof.
  induction lc as [|k IH]; intros living g ref living' lc' g' HV; simpl; [discriminate|].
  destruct (g_integers ops g (S k)) as [pos g1] eqn:EG.
  assert (Hpos : (pos < S k)%nat).
  { pose proof (integers_range ops HR g (S k) ltac:(lia)) as H. rewrite EG in H. exact H. }
  destruct (living pos) as [rf|] eqn:EL; [|discriminate].
  destruct (Rltb (2 * thr) (J rf)) eqn:ET.
  - intros H; injection H as <- <- <- <-. apply Rltb_true in ET.
    split; auto. split; [exists pos; auto|]. repeat split; auto.
  - apply Rltb_false in ET.
    set (l1 := upd (upd living pos (living k)) k None) in *.
    assert (HV1 : validL l1 k).
    { intros p Hp. unfold l1. rewrite upd_neq by lia. unfold upd.
      destruct (Nat.eqb_spec p pos); apply HV; lia. }
    assert (A : forall m, InL l1 k m -> InL living (S k) m).
    { intros m (p & Hp & E). unfold l1 in E. rewrite upd_neq in E by lia.
      unfold upd in E. destruct (Nat.eqb_spec p pos).
      - exists k. split; [lia|auto].
      - exists p. split; [lia|auto]. }
    assert (B : forall m, InL living (S k) m -> 2 * thr < J m -> InL l1 k m).
    { intros m (p & Hp & E) Hm.
      assert (p <> pos) by (intros ->; rewrite EL in E; injection E as ->; lra).
      destruct (Nat.eq_dec p k) as [->|N].
      - exists pos. split; [lia|]. unfold l1. rewrite upd_neq by lia. rewrite upd_eq. auto.
      - exists p. split; [lia|]. unfold l1. rewrite upd_neq by lia. rewrite upd_neq by auto. auto. }
    intros H. apply IH in H; auto. destruct H as (H1 & H2 & H3 & H4 & H5 & H6).
    split; auto. split; [auto|]. split; [lia|]. split; [auto|]. split; auto.
Qed.

Lemma find_donor_ok J thr lc : forall living g,
  validL living lc -> (exists m, InL living lc m /\ 2 * thr < J m) ->
  exists r, find_donor ops J thr lc living g = Ok r.
Proof.
  induction lc as [|k IH]; intros living g HV (m & (p & Hp & E) & Hm); [lia|]. simpl.
  destruct (g_integers ops g (S k)) as [pos g1] eqn:EG.
  assert (Hpos : (pos < S k)%nat).
  { pose proof (integers_range ops HR g (S k) ltac:(lia)) as H. rewrite EG in H. exact H. }
  destruct (HV pos Hpos) as [rf EL]. rewrite EL.
  destruct (Rltb (2 * thr) (J rf)) eqn:ET; [eauto|]. apply Rltb_false in ET.
  apply IH.
  - intros p' Hp'. rewrite upd_neq by lia. unfold upd.
    destruct (Nat.eqb_spec p' pos); apply HV; lia.
  - exists m. split; auto.
    assert (p <> pos) by (intros ->; rewrite EL in E; injection E as ->; lra).
    destruct (Nat.eq_dec p k) as [->|N].
    + exists pos. split; [lia|]. rewrite upd_neq by lia. rewrite upd_eq. auto.
    + exists p. split; [lia|]. rewrite upd_neq by lia. rewrite upd_neq by auto. auto.
Qed.

(** never an index error *)
Lemma find_donor_err J thr lc : forall living g e,
  validL living lc -> find_donor ops J thr lc living g = Err e -> e = DonorsExhausted.
Proof.
  induction lc as [|k IH]; intros living g e HV; simpl.
  - intros H; injection H as <-; auto.
  - destruct (g_integers ops g (S k)) as [pos g1] eqn:EG.
    assert (Hpos : (pos < S k)%nat).
    { pose proof (integers_range ops HR g (S k) ltac:(lia)) as H. rewrite EG in H. exact H. }
    destruct (HV pos Hpos) as [rf EL]. rewrite EL.
    destruct (Rltb (2 * thr) (J rf)); [discriminate|]. apply IH.
    intros p' Hp'. rewrite upd_neq by lia. unfold upd.
    destruct (Nat.eqb_spec p' pos); apply HV; lia.
Qed.

(* ------------------------------------------------------------------ *)

Lemma classify_spec np J thr living lc dead :
  0 <= thr -> classify np J thr = (living, lc, dead) ->
  validL living lc /\
  (forall m, InL living lc m <-> (m < np)%nat /\ 2 * thr < J m) /\
  (forall m, In m dead <-> (m < np)%nat /\ J m <= thr) /\
  NoDup dead /\ (lc + length dead <= np)%nat /\
  length dead = ncount np (fun m => Rleb (J m) thr).
Proof.
  intros Ht. unfold classify. revert living lc dead. induction np; intros living lc dead.
  - simpl. intros H; injection H as <- <- <-.
    split; [intros p Hp; lia|]. split; [intros m; split; [intros (p & Hp & _)|]; lia|].
    split; [intros m; split; [intros []|lia]|]. split; [constructor|]. simpl; lia.
  - rewrite for_S. destruct (for_ np _ _) as [[l1 lc1] d1].
    destruct (IHnp l1 lc1 d1 eq_refl) as (V & L & D & ND & LE & CN). cbn [ncount].
    destruct (Rltb (2 * thr) (J np)) eqn:E1.
    + apply Rltb_true in E1. intros H; injection H as <- <- <-.
      assert (Rleb (J np) thr = false) as -> by (apply Rleb_false; lra).
      split; [|split; [|split; [|split; [|split]]]]; auto; try lia.
      * intros p Hp. unfold upd. destruct (Nat.eqb_spec p lc1); [eauto|]. apply V; lia.
      * intros m. split.
        -- intros (p & Hp & E). unfold upd in E. destruct (Nat.eqb_spec p lc1).
           ++ injection E as <-. split; auto.
           ++ destruct (proj1 (L m)) as [Hm HJ]; [exists p; split; [lia|auto]|]. split; [lia|auto].
        -- intros [Hm HJ]. destruct (Nat.eq_dec m np) as [->|N].
           ++ exists lc1. split; [lia|]. apply upd_eq.
           ++ destruct (proj2 (L m)) as (p & Hp & E); [split; [lia|auto]|].
              exists p. split; [lia|]. rewrite upd_neq by lia. auto.
      * intros m. rewrite D. split; intros [Hm HJ]; split; auto; try lia.
        destruct (Nat.eq_dec m np) as [->|N]; [lra|lia].
    + apply Rltb_false in E1. destruct (Rleb (J np) thr) eqn:E2.
      * apply Rleb_true in E2. intros H; injection H as <- <- <-.
        split; [|split; [|split; [|split; [|split]]]]; auto.
        -- intros m. rewrite L. split; intros [Hm HJ]; split; auto; try lia.
           destruct (Nat.eq_dec m np) as [->|N]; [lra|lia].
        -- intros m. rewrite in_app_iff, D. simpl. split.
           ++ intros [[Hm HJ]|[<-|[]]]; split; auto; lia.
           ++ intros [Hm HJ]. destruct (Nat.eq_dec m np) as [->|N]; [auto|]. left; split; [lia|auto].
        -- pose proof (NoDup_Add (Add_app np d1 [])) as HA. rewrite app_nil_r in HA.
           apply HA. split; [exact ND|]. intros HI. apply D in HI. lia.
        -- rewrite app_length. simpl. lia.
        -- rewrite app_length. simpl. lia.
      * apply Rleb_false in E2. intros H; injection H as <- <- <-.
        split; [|split; [|split; [|split; [|split]]]]; auto; try lia.
        -- intros m. rewrite L. split; intros [Hm HJ]; split; auto; try lia.
           destruct (Nat.eq_dec m np) as [->|N]; [lra|lia].
        -- intros m. rewrite D. split; intros [Hm HJ]; split; auto; try lia.
           destruct (Nat.eq_dec m np) as [->|N]; [lra|lia].
Qed.

(* ------------------------------------------------------------------ *)
(** * Invariant of the revival loop *)

(** volume of compartment [m] counted for origin [a]; [D0] are the dead
    compartments that are still to be revived *)
Definition share (D0 : list nat) (o : nat -> nat) (J : vec) (a m : nat) : R :=
  if in_dec Nat.eq_dec m D0 then 0 else if Nat.eqb (o m) a then J m else 0.

Record copy_inv (np : nat) (J0 : vec) (t0 : mat) (thr : R) (D0 : list nat)
    (o : nat -> nat) (s : copy_state G) : Prop := {
  ci_alive : forall m, (m < np)%nat -> thr < J0 m -> o m = m;
  ci_dom : forall m, (m < np)%nat -> ~ In m D0 -> (o m < np)%nat /\ thr < J0 (o m);
  ci_targets : forall i m, (m < np)%nat -> ~ In m D0 -> y_targets s i m = t0 i (o m);
  ci_pos : forall m, (m < np)%nat -> ~ In m D0 -> thr < y_Js s m;
  ci_share : forall a, (a < np)%nat -> thr < J0 a -> rsum np (share D0 o (y_Js s) a) = J0 a;
  ci_valid : validL (y_living s) (y_lc s);
  ci_list : forall m, InL (y_living s) (y_lc s) m -> (m < np)%nat /\ ~ In m D0;
  ci_complete : forall m, (m < np)%nat -> ~ In m D0 -> 2 * thr < y_Js s m -> InL (y_living s) (y_lc s) m;
  ci_len : (y_lc s + length D0 <= np)%nat
}.

Lemma copy_one_inv np J0 t0 thr d D0 o s s' :
  0 <= thr -> (d < np)%nat -> NoDup (d :: D0) -> J0 d <= thr ->
  copy_inv np J0 t0 thr (d :: D0) o s -> copy_one ops np thr d s = Ok s' ->
  (exists o', copy_inv np J0 t0 thr D0 o' s') /\ y_count s' = S (y_count s).
Proof.
  intros Ht Hd ND HJd HI H. unfold copy_one in H.
  apply bind_Ok in H. destruct H as ([[[ref living] lc] g1] & HF & H).
  destruct (Nat.ltb_spec lc np) as [Hlc|]; simpl in H; [|discriminate].
  injection H as <-. split; [|reflexivity].
  apply find_donor_spec in HF; [|apply (ci_valid _ _ _ _ _ _ _ HI)].
  destruct HF as (H1 & H2 & H3 & H4 & H5 & H6).
  destruct HI as [CA CD CT CP CS CV CL CC CN].
  destruct (CL _ H2) as [Href Hnr]. simpl in Hnr.
  assert (Hrd : ref <> d) by (intros ->; apply Hnr; auto).
  assert (HdR : ~ In d D0) by (inversion ND; auto).
  exists (upd o d (o ref)). constructor; simpl.
  - intros m Hm HJ. rewrite upd_neq; auto. intros ->. lra.
  - intros m Hm HnR. unfold upd. destruct (Nat.eqb_spec m d) as [->|N].
    + apply CD; auto.
    + apply CD; auto. simpl. intuition.
  - intros i m Hm HnR. unfold upd. destruct (Nat.eqb_spec m d) as [->|N].
    + apply CT; auto.
    + apply CT; auto. simpl. intuition.
  - intros m Hm HnR. unfold upd. destruct (Nat.eqb_spec m ref); [lra|].
    destruct (Nat.eqb_spec m d); [lra|]. apply CP; auto. simpl. intuition.
  - intros a Ha HJa. rewrite <- (CS a Ha HJa).
    set (x := if Nat.eqb (o ref) a then 1/2 * y_Js s ref else 0).
    rewrite (rsum_ext np _ (fun m => share (d :: D0) o (y_Js s) a m
         + (if Nat.eqb m d then x else 0) - (if Nat.eqb m ref then x else 0))).
    + rewrite rsum_minus, rsum_plus, !rsum_indicator by auto. lra.
    + intros m Hm. unfold share, upd, x.
      destruct (Nat.eqb_spec m d) as [->|N1].
      * destruct (in_dec Nat.eq_dec d D0); [contradiction|].
        destruct (in_dec Nat.eq_dec d (d :: D0)) as [_|NI]; [|exfalso; apply NI; simpl; auto].
        destruct (Nat.eqb_spec d ref); [lia|]. destruct (Nat.eqb (o ref) a); lra.
      * destruct (Nat.eqb_spec m ref) as [->|N2].
        -- destruct (in_dec Nat.eq_dec ref D0); [exfalso; tauto|].
           destruct (in_dec Nat.eq_dec ref (d :: D0)) as [NI|_]; [exfalso; simpl in NI; tauto|].
           destruct (Nat.eqb (o ref) a); lra.
        -- destruct (in_dec Nat.eq_dec m D0), (in_dec Nat.eq_dec m (d :: D0)) as [I|NI];
             try (exfalso; simpl in *; intuition congruence).
           ++ lra.
           ++ destruct (Nat.eqb (o m) a); lra.
  - intros p Hp. unfold upd. destruct (Nat.eqb_spec p lc); [eauto|]. apply H4; lia.
  - intros m (p & Hp & E). unfold upd in E. destruct (Nat.eqb_spec p lc) as [->|N].
    + injection E as <-. auto.
    + destruct (CL m) as [Hm HnR]; [apply H5; exists p; split; [lia|auto]|].
      split; auto. simpl in HnR. tauto.
  - intros m Hm HnR HJ. unfold upd in HJ.
    destruct (Nat.eq_dec m d) as [->|N].
    + exists lc. split; [lia|]. apply upd_eq.
    + assert (2 * thr < y_Js s m).
      { destruct (Nat.eqb_spec m ref) as [->|]; [auto|]. destruct (Nat.eqb_spec m d); [lia|auto]. }
      destruct (H6 m) as (p & Hp & E); [apply CC; auto; simpl; intuition|auto|].
      exists p. split; [lia|]. rewrite upd_neq by lia. auto.
  - simpl in CN. lia.
Qed.

Lemma copy_all_inv np J0 t0 thr D0 : forall o s s',
  0 <= thr -> (forall d, In d D0 -> (d < np)%nat /\ J0 d <= thr) -> NoDup D0 ->
  copy_inv np J0 t0 thr D0 o s -> copy_all ops np thr D0 s = Ok s' ->
  (exists o', copy_inv np J0 t0 thr [] o' s') /\ y_count s' = (length D0 + y_count s)%nat.
Proof.
  induction D0 as [|d D0 IH]; intros o s s' Ht HD ND HI H; simpl in H.
  - injection H as <-. split; [eauto|auto].
  - apply bind_Ok in H. destruct H as (s1 & H1 & H2).
    destruct (HD d (or_introl eq_refl)) as [Hd HJd].
    destruct (copy_one_inv _ _ _ _ _ _ _ _ _ Ht Hd ND HJd HI H1) as [[o1 HI1] HC].
    assert (ND1 : NoDup D0) by (inversion ND; auto).
    destruct (IH o1 s1 s' Ht (fun d' Hd' => HD d' (or_intror Hd')) ND1 HI1 H2) as [E1 E2].
    split; auto. rewrite E2, HC. simpl. lia.
Qed.

Lemma copy_inv_init np J t thr living lc dead g :
  0 <= thr -> classify np J thr = (living, lc, dead) ->
  copy_inv np J t thr dead (fun m => m)
    {| y_Js := J; y_targets := t; y_living := living; y_lc := lc; y_g := g; y_count := O |}.
Proof.
  intros Ht HC. destruct (classify_spec _ _ _ _ _ _ Ht HC) as (V & L & D & ND & LE & _).
  assert (A : forall m, (m < np)%nat -> ~ In m dead -> thr < J m).
  { intros m Hm HN. destruct (Rlt_le_dec thr (J m)); auto. exfalso. apply HN, D. auto. }
  constructor; simpl; auto.
  - intros a Ha HJa. rewrite (rsum_ext np _ (fun m => if Nat.eqb m a then J a else 0)).
    + now apply rsum_indicator.
    + intros m Hm. unfold share. destruct (Nat.eqb_spec m a) as [->|N].
      * destruct (in_dec Nat.eq_dec a dead) as [I|]; auto. apply D in I. lra.
      * destruct (in_dec Nat.eq_dec m dead); auto.
  - intros m HL. apply L in HL. destruct HL as [Hm HJ]. split; auto.
    intros HI. apply D in HI. lra.
  - intros m Hm _ HJ. apply L. auto.
Qed.

(** The specification of revival by copy: every compartment of the result
    originates from a living compartment of the input. *)
Lemma revive_by_copy_spec np J t thr g n J' t' g' :
  0 <= thr -> revive_by_copy ops np J t thr g = Ok (n, J', t', g') ->
  n = ncount np (fun m => Rleb (J m) thr) /\
  exists o : nat -> nat,
    (forall m, (m < np)%nat -> thr < J m -> o m = m) /\
    (forall m, (m < np)%nat -> (o m < np)%nat /\ thr < J (o m)) /\
    (forall i m, (m < np)%nat -> t' i m = t i (o m)) /\
    (forall m, (m < np)%nat -> thr < J' m) /\
    (forall a, (a < np)%nat -> thr < J a ->
       rsum np (fun m => if Nat.eqb (o m) a then J' m else 0) = J a).
Proof.
  intros Ht H. unfold revive_by_copy in H.
  destruct (classify np J thr) as [[living lc] dead] eqn:EC.
  apply bind_Ok in H. destruct H as (s & HA & H). injection H as <- <- <- <-.
  pose proof (copy_inv_init np J t thr living lc dead g Ht EC) as HI.
  destruct (classify_spec _ _ _ _ _ _ Ht EC) as (V & L & D & ND & LE & CN).
  destruct (copy_all_inv np J t thr dead _ _ s Ht (fun d Hd => proj1 (D d) Hd) ND HI HA) as [[o HO] HC].
  simpl in HC. split; [lia|].
  destruct HO. exists o. split; [auto|]. split; [intros; apply ci_dom0; auto|].
  split; [intros; apply ci_targets0; auto|]. split; [intros; apply ci_pos0; auto|].
  intros a Ha HJa. rewrite <- (ci_share0 a Ha HJa). apply rsum_ext. intros m Hm.
  unfold share. destruct (in_dec Nat.eq_dec m []) as [[]|_]; reflexivity.
Qed.

(** Weighted totals. *)
Lemma origin_total np J J' (o : nat -> nat) thr (x : vec) :
  (forall m, (m < np)%nat -> (o m < np)%nat /\ thr < J (o m)) ->
  (forall a, (a < np)%nat -> thr < J a ->
     rsum np (fun m => if Nat.eqb (o m) a then J' m else 0) = J a) ->
  rsum np (fun m => J' m * x (o m)) = rsum np (fun m => if Rltb thr (J m) then J m * x m else 0).
Proof.
  intros HD HS.
  rewrite (rsum_ext np (fun m => J' m * x (o m))
    (fun m => rsum np (fun a => if Nat.eqb a (o m) then J' m * x (o m) else 0))).
  2: { intros m Hm. symmetry. apply rsum_indicator. apply HD; auto. }
  rewrite rsum_swap. apply rsum_ext. intros a Ha.
  destruct (Rltb thr (J a)) eqn:E.
  - apply Rltb_true in E. rewrite <- (HS a Ha E), <- rsum_scal_r. apply rsum_ext. intros m Hm.
    rewrite (Nat.eqb_sym a). destruct (Nat.eqb_spec (o m) a); [subst; lra|lra].
  - apply Rltb_false in E. apply rsum_zero. intros m Hm.
    destruct (Nat.eqb_spec a (o m)) as [->|]; auto. destruct (HD m Hm). lra.
Qed.

(** ** Success *)

Lemma living_total np J0 t0 thr D0 o s :
  (forall d, In d D0 -> (d < np)%nat /\ J0 d <= thr) -> copy_inv np J0 t0 thr D0 o s ->
  rsum np (fun m => if in_dec Nat.eq_dec m D0 then 0 else y_Js s m) =
  rsum np (fun m => if Rltb thr (J0 m) then J0 m else 0).
Proof.
  intros HR' [CA CD CT CP CS _ _ _ _].
  rewrite (rsum_ext np (fun m => if in_dec Nat.eq_dec m D0 then 0 else y_Js s m)
    (fun m => rsum np (fun a => if Nat.eqb a (o m) then (if in_dec Nat.eq_dec m D0 then 0 else y_Js s m) else 0))).
  2: { intros m Hm. destruct (in_dec Nat.eq_dec m D0) as [I|NI].
       - symmetry. apply rsum_zero. intros. destruct (Nat.eqb _ _); auto.
       - symmetry. apply rsum_indicator. apply CD; auto. }
  rewrite rsum_swap. apply rsum_ext. intros a Ha. destruct (Rltb thr (J0 a)) eqn:E.
  - apply Rltb_true in E. rewrite <- (CS a Ha E) at 1. apply rsum_ext. intros m Hm. unfold share.
    rewrite (Nat.eqb_sym a). destruct (in_dec Nat.eq_dec m D0); auto. destruct (Nat.eqb _ _); auto.
  - apply Rltb_false in E. apply rsum_zero. intros m Hm.
    destruct (Nat.eqb_spec a (o m)) as [->|]; auto.
    destruct (in_dec Nat.eq_dec m D0); auto. destruct (CD m Hm n). lra.
Qed.

Lemma copy_one_ok np J0 t0 thr d D0 o s :
  0 <= thr -> (d < np)%nat -> (forall d', In d' (d :: D0) -> (d' < np)%nat /\ J0 d' <= thr) ->
  copy_inv np J0 t0 thr (d :: D0) o s ->
  2 * thr * (INR np - 1) < rsum np (fun m => if Rltb thr (J0 m) then J0 m else 0) ->
  exists s', copy_one ops np thr d s = Ok s'.
Proof.
  intros Ht Hd HRd HI HV.
  assert (HX : exists m, (m < np)%nat /\ ~ In m (d :: D0) /\ 2 * thr < y_Js s m).
  { rewrite <- (living_total _ _ _ _ _ _ _ HRd HI) in HV.
    assert (EQ : 2 * thr * (INR np - 1) = rsum np (fun m => if Nat.eqb m d then 0 else 2 * thr)).
    { pose proof (rsum_remove np (fun _ => 2 * thr) d Hd) as HR1.
      rewrite rsum_const in HR1. lra. }
    rewrite EQ in HV.
    assert (HN : ~ (forall m, (m < np)%nat ->
        (if in_dec Nat.eq_dec m (d :: D0) then 0 else y_Js s m) <= (if Nat.eqb m d then 0 else 2 * thr))).
    { intros HN. apply rsum_le in HN. lra. }
    assert (HC : forall n, (n <= np)%nat ->
      (exists m, (m < n)%nat /\ (if Nat.eqb m d then 0 else 2 * thr) <
           (if in_dec Nat.eq_dec m (d :: D0) then 0 else y_Js s m)) \/
      (forall m, (m < n)%nat ->
        (if in_dec Nat.eq_dec m (d :: D0) then 0 else y_Js s m) <= (if Nat.eqb m d then 0 else 2 * thr))).
    { induction n; intros Hn; [right; intros; lia|].
      destruct (IHn ltac:(lia)) as [(m & Hm & E)|F]; [left; exists m; split; [lia|auto]|].
      destruct (Rlt_le_dec (if Nat.eqb n d then 0 else 2 * thr)
                 (if in_dec Nat.eq_dec n (d :: D0) then 0 else y_Js s n)) as [L|L].
      - left. exists n. split; [lia|auto].
      - right. intros m Hm. destruct (Nat.eq_dec m n) as [->|N]; [auto|]. apply F; lia. }
    destruct (HC np (Nat.le_refl _)) as [(m & Hm & E)|F]; [|contradiction].
    exists m. destruct (in_dec Nat.eq_dec m (d :: D0)) as [I|NI].
    - exfalso. destruct (Nat.eqb m d); lra.
    - split; auto. split; auto. destruct (Nat.eqb_spec m d) as [->|]; auto.
      exfalso. apply NI. simpl; auto. }
  destruct HX as (m & Hm & Hn & HJ).
  destruct HI as [CA CD CT CP CS CV CL CC CN].
  destruct (find_donor_ok (y_Js s) thr (y_lc s) (y_living s) (y_g s) CV) as [[[[ref living] lc] g1] EF].
  { exists m. split; auto. }
  destruct (find_donor_spec _ _ _ _ _ _ _ _ _ CV EF) as (_ & _ & H3 & _).
  unfold copy_one. rewrite EF. simpl. simpl in CN.
  destruct (Nat.ltb_spec lc np); [simpl; eauto|lia].
Qed.

Lemma copy_all_ok np J0 t0 thr D0 : forall o s,
  0 <= thr -> (forall d, In d D0 -> (d < np)%nat /\ J0 d <= thr) -> NoDup D0 ->
  copy_inv np J0 t0 thr D0 o s ->
  2 * thr * (INR np - 1) < rsum np (fun m => if Rltb thr (J0 m) then J0 m else 0) ->
  exists s', copy_all ops np thr D0 s = Ok s'.
Proof.
  induction D0 as [|d D0 IH]; intros o s Ht HD ND HI HV; simpl; [eauto|].
  destruct (HD d (or_introl eq_refl)) as [Hd HJd].
  destruct (copy_one_ok _ _ _ _ _ _ _ _ Ht Hd HD HI HV) as [s1 E1]. rewrite E1. simpl.
  destruct (copy_one_inv _ _ _ _ _ _ _ _ _ Ht Hd ND HJd HI E1) as [[o1 HI1] _].
  apply (IH o1); auto.
  - intros d' Hd'. apply HD. right; auto.
  - inversion ND; auto.
Qed.

Lemma copy_all_err np J0 t0 thr D0 : forall o s e,
  0 <= thr -> (forall d, In d D0 -> (d < np)%nat /\ J0 d <= thr) -> NoDup D0 ->
  copy_inv np J0 t0 thr D0 o s -> copy_all ops np thr D0 s = Err e -> e = DonorsExhausted.
Proof.
  induction D0 as [|d D0 IH]; intros o s e Ht HD ND HI H; simpl in H; [discriminate|].
  destruct (HD d (or_introl eq_refl)) as [Hd HJd].
  destruct (copy_one ops np thr d s) as [s1|e1] eqn:E1.
  - destruct (copy_one_inv _ _ _ _ _ _ _ _ _ Ht Hd ND HJd HI E1) as [[o1 HI1] _].
    simpl in H. apply (IH o1 s1 e Ht); auto.
    + intros d' Hd'. apply HD. right; auto.
    + inversion ND; auto.
  - simpl in H. injection H as <-. unfold copy_one in E1.
    destruct (find_donor ops (y_Js s) thr (y_lc s) (y_living s) (y_g s)) as [[[[ref living] lc] g1]|e2] eqn:EF.
    + destruct (find_donor_spec _ _ _ _ _ _ _ _ _ (ci_valid _ _ _ _ _ _ _ HI) EF) as (_ & _ & H3 & _).
      pose proof (ci_len _ _ _ _ _ _ _ HI) as CN. simpl in CN, E1.
      destruct (Nat.ltb_spec lc np); [discriminate|lia].
    + simpl in E1. injection E1 as <-.
      apply find_donor_err in EF; auto. apply (ci_valid _ _ _ _ _ _ _ HI).
Qed.

Lemma revive_by_copy_ok np J t thr g :
  0 <= thr ->
  2 * thr * (INR np - 1) < rsum np (fun m => if Rltb thr (J m) then J m else 0) ->
  exists n J' t' g', revive_by_copy ops np J t thr g = Ok (n, J', t', g').
Proof.
  intros Ht HV. unfold revive_by_copy.
  destruct (classify np J thr) as [[living lc] dead] eqn:EC.
  pose proof (copy_inv_init np J t thr living lc dead g Ht EC) as HI.
  destruct (classify_spec _ _ _ _ _ _ Ht EC) as (V & L & D & ND & LE & CN).
  destruct (copy_all_ok np J t thr dead _ _ Ht (fun d Hd => proj1 (D d) Hd) ND HI HV) as [s E].
  rewrite E. simpl. eauto.
Qed.

Lemma revive_by_copy_err np J t thr g e :
  0 <= thr -> revive_by_copy ops np J t thr g = Err e -> e = DonorsExhausted.
Proof.
  intros Ht H. unfold revive_by_copy in H.
  destruct (classify np J thr) as [[living lc] dead] eqn:EC.
  pose proof (copy_inv_init np J t thr living lc dead g Ht EC) as HI.
  destruct (classify_spec _ _ _ _ _ _ Ht EC) as (V & L & D & ND & LE & CN).
  destruct (copy_all ops np thr dead _) as [s|e1] eqn:EA; simpl in H; [discriminate|].
  injection H as <-.
  eapply copy_all_err; [exact Ht|exact (fun d Hd => proj1 (D d) Hd)|exact ND|exact HI|exact EA].
Qed.

End Copy.

(** No draws and no change when nothing is dead. *)
Lemma revive_by_copy_none {G} (ops : rng_ops G) np J t thr g :
  0 <= thr -> (forall m, (m < np)%nat -> thr < J m) ->
  revive_by_copy ops np J t thr g = Ok (O, J, t, g).
Proof.
  intros Ht HA. unfold revive_by_copy.
  destruct (classify np J thr) as [[living lc] dead] eqn:EC.
  destruct (classify_spec _ _ _ _ _ _ Ht EC) as (_ & _ & D & _ & _ & _).
  destruct dead as [|d dead]; [reflexivity|].
  exfalso. destruct (proj1 (D d) (or_introl eq_refl)) as [Hd HJ]. specialize (HA d Hd). lra.
Qed.
