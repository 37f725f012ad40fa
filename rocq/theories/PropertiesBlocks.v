(** PropertiesBlocks.v -- C33 for arrays of any number of dimensions. *)

From Coq Require Import Reals Lra Lia List Bool Arith.
From Verif Require Import Base ModelCommon ModelObjects ModelBlocks PropertiesObjects.
Import ListNotations.

Lemma at_axis_length k f l : length (at_axis k f l) = length l.
Proof. revert k. induction l as [|x l IH]; intros [|k]; cbn; auto. Qed.

Lemma at_axis_nth k f l j : nth j (at_axis k f l) O = if (Nat.eqb j k && Nat.ltb j (length l))%bool then f (nth j l O) else nth j l O.
Proof.
  revert k j. induction l as [|x l IH]; intros k j.
  - destruct k, j; cbn; rewrite ?andb_false_r; reflexivity.
  - destruct k as [|k], j as [|j]; try reflexivity. cbn [at_axis nth]. rewrite IH. reflexivity.
Qed.

(** apply [f] at the positions below [k] *)
Definition below (k : nat) (f : nat -> nat) (l : list nat) : list nat := map f (firstn k l) ++ skipn k l.

Lemma below_all f l : below (length l) f l = map f l.
Proof. unfold below. now rewrite firstn_all, skipn_all, app_nil_r. Qed.

Lemma below_nth k f l j : nth j (below k f l) O = if (Nat.ltb j k && Nat.ltb j (length l))%bool then f (nth j l O) else nth j l O.
Proof.
  unfold below. revert k j. induction l as [|x l IH]; intros k j.
  - rewrite firstn_nil, skipn_nil. destruct j; cbn; rewrite ?andb_false_r; reflexivity.
  - destruct k as [|k]; [reflexivity|]. destruct j as [|j]; [reflexivity|]. cbn [firstn map skipn app nth]. rewrite IH. reflexivity.
Qed.

Lemma below_length k f l : length (below k f l) = length l.
Proof. unfold below. rewrite app_length, map_length, <- app_length, firstn_skipn. reflexivity. Qed.

Lemma at_axis_below k f l : (k < length l)%nat -> below k f (at_axis k f l) = below (S k) f l.
Proof.
  intros Hk. apply (nth_ext _ _ O O); [now rewrite !below_length, at_axis_length|].
  intros j _. rewrite !below_nth, at_axis_nth, at_axis_length.
  destruct (Nat.ltb_spec j k), (Nat.ltb_spec j (S k)), (Nat.eqb_spec j k), (Nat.ltb_spec j (length l)); cbn; try reflexivity; lia.
Qed.

Section Loop.
Variables (sizes : list nat) (n : nat).
Hypothesis HL : length sizes = n.
Let pos (i : nat) : nat := nth i (np_repeat (seq 0 (length sizes)) sizes) O.

Lemma loop_axes a : Forall (eq n) (nd_shape a) -> forall k, (k <= length (nd_shape a))%nat ->
  exists b, repeat_axes sizes a (seq 0 k) = Ok b /\
    nd_shape b = below k (fun _ => list_sum sizes) (nd_shape a) /\
    forall idx, length idx = length (nd_shape a) -> nd_at b idx = nd_at a (below k pos idx).
Proof.
  intros HA k. assert (SP : forall l1 l2 x, repeat_axes sizes x (l1 ++ l2) = let* y := repeat_axes sizes x l1 in repeat_axes sizes y l2).
  { induction l1 as [|q l1 IH]; intros l2 x; [reflexivity|]. cbn. destruct (repeat_axis sizes x q); [|reflexivity]. cbn. apply IH. }
  induction k as [|k IH]; intros Hk.
  - exists a. split; [reflexivity|]. split; [reflexivity|]. intros idx _. reflexivity.
  - destruct (IH ltac:(lia)) as (b & E & S & A). rewrite seq_S, SP, E. cbn [bind plus repeat_axes].
    unfold repeat_axis. rewrite S, below_nth, Nat.ltb_irrefl. cbn [andb].
    assert (Hn : nth k (nd_shape a) O = n).
    { rewrite Forall_forall in HA. symmetry. apply HA. apply nth_In. lia. }
    rewrite Hn, HL, Nat.eqb_refl. cbn [bind]. eexists. split; [reflexivity|]. cbn [nd_shape nd_at]. split.
    + apply (nth_ext _ _ O O); [now rewrite at_axis_length, !below_length|]. intros j _.
      rewrite at_axis_nth, !below_nth, below_length.
      destruct (Nat.ltb_spec j k), (Nat.ltb_spec j (Datatypes.S k)), (Nat.eqb_spec j k), (Nat.ltb_spec j (length (nd_shape a))); cbn; try reflexivity; lia.
    + intros idx Hidx. rewrite A by (now rewrite at_axis_length). f_equal.
      rewrite <- HL. apply (at_axis_below k pos). lia.
Qed.
End Loop.

Lemma one_value_iff l : one_value l = true <-> l <> [] /\ Forall (eq (hd O l)) l.
Proof.
  destruct l as [|x l]; cbn.
  - split; [discriminate|]. intros [H _]. congruence.
  - rewrite forallb_forall. split.
    + intros H. split; [discriminate|]. constructor; [reflexivity|]. apply Forall_forall. intros y Hy. apply H in Hy. now apply Nat.eqb_eq in Hy.
    + intros [_ H] y Hy. apply Nat.eqb_eq. inversion H; subst. rewrite Forall_forall in *. auto.
Qed.

(** Any number of dimensions: entry (i, j, ...) is the entry of the input at the
    blocks in which i, j, ... lie. *)
Theorem C33_any (a : nd) sizes n : nd_shape a <> [] -> Forall (eq n) (nd_shape a) -> length sizes = n ->
  exists b, make_square_blocks_nd a sizes = Ok b /\
    nd_shape b = map (fun _ => list_sum sizes) (nd_shape a) /\
    forall idx blocks, length idx = length (nd_shape a) -> Forall2 (in_block sizes) blocks idx -> nd_at b idx = nd_at a blocks.
Proof.
  intros H0 HA HL. unfold make_square_blocks_nd.
  assert (Hh : hd O (nd_shape a) = n) by (destruct (nd_shape a); [congruence|inversion HA; auto]).
  rewrite (proj2 (one_value_iff _)) by (rewrite Hh; auto). rewrite Hh, HL, Nat.eqb_refl. cbn [negb orb].
  destruct (loop_axes sizes n HL a HA (length (nd_shape a)) (le_n _)) as (b & E & S & A).
  exists b. split; [exact E|]. split; [now rewrite S, below_all|].
  intros idx blocks Hidx HB. rewrite A by auto. f_equal. rewrite <- Hidx, below_all.
  clear - HB. induction HB as [|r i bl id H HB IH]; [reflexivity|]. cbn. rewrite IH. f_equal.
  rewrite (np_repeat_nth _ sizes O r i) by (auto; now rewrite seq_length). rewrite seq_nth; [reflexivity|]. apply H.
Qed.

(** everything else is rejected, scalars included *)
Theorem C33_any_rejected (a : nd) sizes :
  make_square_blocks_nd a sizes = Err ValueError <->
  ~ (nd_shape a <> [] /\ Forall (eq (length sizes)) (nd_shape a)).
Proof.
  split.
  - intros E [H0 HA]. destruct (C33_any a sizes (length sizes) H0 HA eq_refl) as (b & E' & _). congruence.
  - intros H. unfold make_square_blocks_nd. destruct (one_value (nd_shape a)) eqn:O1; [|reflexivity].
    apply one_value_iff in O1. destruct O1 as [H0 HA]. destruct (Nat.eqb_spec (length sizes) (hd O (nd_shape a))) as [E|]; [|reflexivity].
    exfalso. apply H. split; [auto|]. now rewrite E.
Qed.

Open Scope R_scope.
(** blocks of a three-dimensional array *)
Example case_C33_any : let a := {| nd_shape := [2; 2; 2]%nat; nd_at := fun idx => INR (nth 0 idx O + 2 * nth 1 idx O + 4 * nth 2 idx O) |} in
  exists b, make_square_blocks_nd a [2; 1]%nat = Ok b /\ nd_shape b = [3; 3; 3]%nat /\
    nd_at b [1; 2; 0]%nat = INR 2 /\ nd_at b [2; 0; 2]%nat = INR 5.
Proof.
  intros a. destruct (C33_any a [2; 1]%nat 2%nat ltac:(discriminate) ltac:(repeat constructor) eq_refl) as (b & E & S & A).
  exists b. split; [exact E|]. split; [exact S|]. split.
  - rewrite (A _ [0; 1; 0]%nat); [reflexivity|reflexivity|]. repeat constructor; cbn; lia.
  - rewrite (A _ [1; 0; 1]%nat); [reflexivity|reflexivity|]. repeat constructor; cbn; lia.
Qed.
