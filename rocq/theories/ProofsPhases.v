(** ProofsPhases.v -- lists: stable sorting, grouping, weighted sums. *)

From Coq Require Import Reals Lra Lia List Bool Arith ZArith Permutation Sorted.
From Verif Require Import Base ModelCommon ModelKernel ModelPhases.
Import ListNotations.
Open Scope R_scope.

Lemma lsum_perm {A} (l l' : list A) f : Permutation l l' -> lsum l f = lsum l' f.
Proof. induction 1; simpl; lra. Qed.

Lemma map_nth_seq {A} (d : A) l : map (fun p => nth p l d) (seq 0 (length l)) = l.
Proof.
  induction l as [|a l IH]; [reflexivity|]. cbn [length seq map]. f_equal.
  rewrite <- seq_shift, map_map. exact IH.
Qed.

Lemma map_nth_seq' {A} (d : A) l n : n = length l -> map (fun p => nth p l d) (seq 0 n) = l.
Proof. intros ->. apply map_nth_seq. Qed.

Lemma nth_map_in {A B} (f : A -> B) l i d d' : (i < length l)%nat -> nth i (map f l) d' = f (nth i l d).
Proof. revert i. induction l; intros [|i] H; simpl in *; try lia; auto. apply IHl. lia. Qed.

Lemma combine_map {A B C} (f : C -> A) (g : C -> B) l : combine (map f l) (map g l) = map (fun c => (f c, g c)) l.
Proof. induction l; simpl; auto. now rewrite IHl. Qed.

Lemma StronglySorted_nth {A} (Q : A -> A -> Prop) l d : StronglySorted Q l ->
  forall a b, (a < b < length l)%nat -> Q (nth a l d) (nth b l d).
Proof.
  induction 1 as [|x l H IH HF]; intros a b Hab; simpl in Hab; [lia|].
  destruct b as [|b]; [lia|]. destruct a as [|a]; simpl.
  - rewrite Forall_forall in HF. apply HF. apply nth_In. lia.
  - apply IH. lia.
Qed.

Lemma nth_StronglySorted {A} (Q : A -> A -> Prop) l d :
  (forall a b, (a < b < length l)%nat -> Q (nth a l d) (nth b l d)) -> StronglySorted Q l.
Proof.
  induction l as [|x l IH]; intros H; constructor.
  - apply IH. intros a b Hab. apply (H (S a) (S b)). simpl. lia.
  - apply Forall_forall. intros y Hy. apply (In_nth _ _ d) in Hy. destruct Hy as (n & Hn & <-).
    apply (H 0%nat (S n)). simpl. lia.
Qed.

(* ------------------------------------------------------------------ *)
(** * Stable insertion sort *)
Section Sort.
Context {A : Type} (le : A -> A -> bool).

Lemma insert_perm x l : Permutation (insert_by le x l) (x :: l).
Proof.
  induction l as [|y l IH]; simpl; [reflexivity|]. destruct (le x y); [reflexivity|].
  rewrite IH. apply perm_swap.
Qed.

Lemma sort_perm l : Permutation (sort_by le l) l.
Proof. induction l as [|x l IH]; simpl; [constructor|]. rewrite insert_perm. now constructor. Qed.

Lemma sort_length l : length (sort_by le l) = length l.
Proof. apply Permutation_length, sort_perm. Qed.

Lemma insert_le_all x l : Forall (fun y => le x y = true) l -> insert_by le x l = x :: l.
Proof. intros H. destruct l as [|y l]; [reflexivity|]. inversion H; subst. simpl. now rewrite H2. Qed.

(** a sorted list is not changed *)
Lemma sort_sorted_id l : StronglySorted (fun a b => le a b = true) l -> sort_by le l = l.
Proof.
  induction 1 as [|x l H IH HF]; [reflexivity|]. change (insert_by le x (sort_by le l) = x :: l). rewrite IH.
  now apply insert_le_all.
Qed.

Hypothesis total : forall a b, le a b = false -> le b a = true.
Hypothesis trans : forall a b c, le a b = true -> le b c = true -> le a c = true.

(** sorted, and equivalent elements keep the order [before] of the input *)
Lemma sort_stable (before : A -> A -> Prop) l : StronglySorted before l ->
  StronglySorted (fun a b => le a b = true /\ (le b a = true -> before a b)) (sort_by le l).
Proof using total trans.
  induction 1 as [|x l H IH HF]; [constructor|].
  change (StronglySorted (fun a b => le a b = true /\ (le b a = true -> before a b)) (insert_by le x (sort_by le l))).
  assert (HF' : Forall (before x) (sort_by le l)).
  { eapply Permutation_Forall; [symmetry; apply sort_perm|exact HF]. }
  revert IH HF'. generalize (sort_by le l). clear H HF. intros s IH HF.
  induction IH as [|y s HS IH' HY]; simpl; [repeat constructor|].
  inversion HF as [|? ? HF1 HF2]; subst. destruct (le x y) eqn:E.
  - constructor; [constructor; auto|]. constructor; [split; auto|].
    rewrite Forall_forall in *. intros z Hz. specialize (HY z Hz). destruct HY as [HY _].
    split; [eauto|]. intros _. now apply HF2.
  - constructor; [now apply IH'|]. eapply Permutation_Forall; [symmetry; apply insert_perm|].
    constructor; auto. split; [now apply total|congruence].
Qed.

Lemma sort_sorted l : StronglySorted (fun a b => le a b = true) (sort_by le l).
Proof using total trans.
  assert (H : StronglySorted (fun a b => le a b = true /\ (le b a = true -> True)) (sort_by le l)).
  { apply sort_stable. clear. induction l; constructor; auto. apply Forall_forall. auto. }
  induction H; constructor; auto. eapply Forall_impl; [|exact H0]. simpl. tauto.
Qed.
End Sort.

Lemma lex_le_total a : forall b, lex_le a b = false -> lex_le b a = true.
Proof.
  induction a as [|x a IH]; intros [|y b]; simpl; try discriminate; auto.
  destruct (Nat.ltb_spec x y); [discriminate|]. destruct (Nat.eqb_spec x y) as [->|N].
  - rewrite Nat.ltb_irrefl, Nat.eqb_refl. apply IH.
  - intros _. destruct (Nat.ltb_spec y x); [auto|lia].
Qed.

Lemma lex_le_trans a : forall b c, lex_le a b = true -> lex_le b c = true -> lex_le a c = true.
Proof.
  induction a as [|x a IH]; intros [|y b] [|z c]; simpl; try discriminate; auto.
  destruct (Nat.ltb_spec x y); destruct (Nat.ltb_spec y z); destruct (Nat.ltb_spec x z); auto;
    destruct (Nat.eqb_spec x y); destruct (Nat.eqb_spec y z); destruct (Nat.eqb_spec x z); try discriminate; try lia.
  apply IH.
Qed.

Lemma lex_le_head x a y b : lex_le (x :: a) (y :: b) = true -> (x <= y)%nat.
Proof. simpl. destruct (Nat.ltb_spec x y); [lia|]. destruct (Nat.eqb_spec x y); [lia|discriminate]. Qed.

Lemma lex_le_refl a : lex_le a a = true.
Proof. induction a; simpl; auto. now rewrite Nat.ltb_irrefl, Nat.eqb_refl. Qed.

Lemma lex_le_antisym a : forall b, length a = length b -> lex_le a b = true -> lex_le b a = true -> a = b.
Proof.
  induction a as [|x a IH]; intros [|y b] HL; simpl in *; try discriminate; auto.
  destruct (Nat.ltb_spec x y); destruct (Nat.ltb_spec y x); try lia;
    destruct (Nat.eqb_spec x y), (Nat.eqb_spec y x); try lia; try discriminate.
  intros. f_equal; auto.
Qed.

(* ------------------------------------------------------------------ *)
(** * Grouping by labels *)

Lemma select_cons {A} a labels n (x : A) l :
  select (a :: labels) n (x :: l) = if Nat.eqb a n then x :: select labels n l else select labels n l.
Proof. unfold select. simpl. destruct (Nat.eqb a n); reflexivity. Qed.

Lemma select_combine {A B} labels n (l : list A) (l' : list B) :
  length l = length labels -> length l' = length labels ->
  combine (select labels n l) (select labels n l') = select labels n (combine l l').
Proof.
  revert l l'. induction labels as [|a labels IH]; intros [|x l] [|y l'] H H'; simpl in *; try discriminate; auto.
  rewrite !select_cons. specialize (IH l l' ltac:(lia) ltac:(lia)).
  destruct (Nat.eqb a n); simpl; now rewrite IH.
Qed.

Lemma select_length {A B} labels n (l : list A) (l' : list B) :
  length l = length l' -> length (select labels n l) = length (select labels n l').
Proof.
  unfold select. rewrite !map_length. revert l l'. induction labels as [|a labels IH]; intros [|x l] [|y l'] H; simpl in *; try discriminate; auto.
  destruct (Nat.eqb a n); simpl; auto.
Qed.

Lemma select_In {A} labels n (l : list A) x : In x (select labels n l) -> In x l.
Proof.
  revert l. induction labels as [|a labels IH]; intros [|y l]; try (now unfold select; simpl).
  rewrite select_cons. destruct (Nat.eqb a n); simpl; intros [H|H] || intros H; auto.
Qed.

Lemma select_nonempty {A} labels n (l : list A) :
  length l = length labels -> In n labels -> select labels n l <> [].
Proof.
  revert l. induction labels as [|a labels IH]; intros [|y l] HL HI; simpl in *; try discriminate; try contradiction.
  rewrite select_cons. destruct (Nat.eqb_spec a n); [discriminate|].
  destruct HI as [->|HI]; [congruence|]. apply IH; auto.
Qed.

(** Grouping by distinct labels keeps every sum. *)
Lemma lsum_groups {A} labels ns (l : list A) f :
  length l = length labels -> NoDup ns -> incl labels ns ->
  lsum ns (fun n => lsum (select labels n l) f) = lsum l f.
Proof.
  intros HL HN HI. revert l HL. induction labels as [|a labels IH]; intros [|x l] HL; simpl in HL; try discriminate.
  - simpl. apply lsum_zero. reflexivity.
  - rewrite (lsum_ext ns _ (fun n => (if Nat.eqb a n then f x else 0) + lsum (select labels n l) f)).
    2: { intros n _. rewrite select_cons. destruct (Nat.eqb a n); simpl; lra. }
    rewrite lsum_plus, IH by (auto; intros y Hy; apply HI; now right). simpl. f_equal.
    assert (Ha : In a ns) by (apply HI; now left). clear -HN Ha.
    induction HN as [|y ns Hy HN IHN]; simpl in *; [contradiction|].
    destruct (Nat.eqb_spec a y) as [<-|Ne].
    + rewrite lsum_zero; [lra|]. intros n Hn. destruct (Nat.eqb_spec a n); [congruence|reflexivity].
    + destruct Ha as [Ha|Ha]; [congruence|]. rewrite IHN by auto. lra.
Qed.

Lemma np_unique_spec l : NoDup (np_unique l) /\ (forall x, In x (np_unique l) <-> In x l) /\
  length (np_unique l) = length (nodup Nat.eq_dec l).
Proof.
  unfold np_unique. pose proof (sort_perm Nat.leb (nodup Nat.eq_dec l)) as HP. split; [|split].
  - eapply Permutation_NoDup; [symmetry; exact HP|apply NoDup_nodup].
  - intros x. split; intros H.
    + apply (nodup_In Nat.eq_dec). eapply Permutation_in; [exact HP|auto].
    + eapply Permutation_in; [symmetry; exact HP|]. now apply nodup_In.
  - now apply Permutation_length.
Qed.

Lemma lsum_pos {A} (l : list A) f : l <> [] -> (forall a, In a l -> 0 < f a) -> 0 < lsum l f.
Proof.
  destruct l as [|a l]; [easy|]. intros _. revert a. induction l as [|b l IH]; intros a H; simpl.
  - specialize (H a (or_introl eq_refl)). lra.
  - pose proof (H a (or_introl eq_refl)). assert (0 < lsum (b :: l) f) by (apply IH; intros; apply H; now right).
    simpl in *. lra.
Qed.

Lemma lsum_nonneg {A} (l : list A) f : (forall a, In a l -> 0 <= f a) -> 0 <= lsum l f.
Proof.
  induction l as [|a l IH]; simpl; intros H; [lra|]. pose proof (H a (or_introl eq_refl)).
  specialize (IH ltac:(auto)). lra.
Qed.

Lemma lsum_le {A} (l : list A) f g : (forall a, In a l -> f a <= g a) -> lsum l f <= lsum l g.
Proof. induction l as [|a l IH]; simpl; intros H; [lra|]. pose proof (H a (or_introl eq_refl)). specialize (IH ltac:(auto)). lra. Qed.

Lemma lsum_seq_rsum n f : lsum (seq 0 n) f = rsum n f.
Proof.
  induction n; [reflexivity|]. rewrite seq_S, lsum_app, IHn. simpl. lra.
Qed.

Lemma lsum_nth l : lsum l (fun x => x) = rsum (length l) (fun i => nth i l 0).
Proof. rewrite <- lsum_seq_rsum. rewrite <- (map_nth_seq 0 l) at 1. now rewrite lsum_map. Qed.

Lemma lsum_combine_fst {A B} (l : list A) (l' : list B) f : length l = length l' ->
  lsum (combine l l') (fun '(a, _) => f a) = lsum l f.
Proof. revert l'. induction l as [|a l IH]; intros [|b l'] H; simpl in *; try discriminate; auto. rewrite IH; lia || auto. Qed.
