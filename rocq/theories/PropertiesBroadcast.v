(** PropertiesBroadcast.v -- C34 for arrays and targets of any number of
    dimensions. *)

From Coq Require Import Reals Lra Lia List Bool Arith ZArith.
From Verif Require Import Base ModelCommon ModelObjects PropertiesObjects.
Import ListNotations.
Open Scope R_scope.

(** The shape [src] is aligned with the last axes of [dst]; an axis of length one
    fits every axis, any other must have the same length. *)
Definition fits (src dst : list nat) : Prop :=
  exists pre post, dst = pre ++ post /\ Forall2 (fun a b => a = b \/ a = 1%nat) src post.

Lemma bc_ok_iff : forall s d, bc_ok s d = true <-> exists d1 d2, d = d1 ++ d2 /\ Forall2 (fun a b => a = b \/ a = 1%nat) s d1.
Proof.
  induction s as [|a s IH]; intros d.
  - cbn. split; [|auto]. intros _. exists [], d. split; [reflexivity|constructor].
  - destruct d as [|b d]; cbn [bc_ok].
    + split; [discriminate|]. intros (d1 & d2 & E & F). inversion F; subst. discriminate E.
    + rewrite andb_true_iff, orb_true_iff, !Nat.eqb_eq, IH. split.
      * intros (H & d1 & d2 & -> & F). exists (b :: d1), d2. split; [reflexivity|]. now constructor.
      * intros (d1 & d2 & E & F). inversion F as [|? b' ? l' H F']; subst. injection E as <- ->.
        split; [assumption|]. exists l', d2. auto.
Qed.

Lemma Forall2_rev {A B} (P : A -> B -> Prop) l l' : Forall2 P l l' -> Forall2 P (rev l) (rev l').
Proof.
  induction 1; cbn; [constructor|]. apply Forall2_app; [assumption|]. constructor; [assumption|constructor].
Qed.

Lemma bc_ok_fits s d : bc_ok (rev s) (rev d) = true <-> fits s d.
Proof.
  rewrite bc_ok_iff. unfold fits. split.
  - intros (d1 & d2 & E & F). exists (rev d2), (rev d1). split.
    + rewrite <- rev_app_distr, <- E. symmetry. apply rev_involutive.
    + apply Forall2_rev in F. now rewrite rev_involutive in F.
  - intros (pre & post & -> & F). exists (rev post), (rev pre). split; [apply rev_app_distr|]. now apply Forall2_rev.
Qed.

(** The entry of the source that is used: index 0 along axes of length one. *)
Definition source_index (src idx : list nat) : list nat :=
  map (fun '(a, i) => if Nat.eqb a 1 then O else i) (combine src idx).

Lemma combine_snoc {A B} (l : list A) (l' : list B) a b : length l = length l' ->
  combine (l ++ [a]) (l' ++ [b]) = combine l l' ++ [(a, b)].
Proof.
  revert l'. induction l as [|x l IH]; intros [|y l'] H; try discriminate H; [reflexivity|]. cbn. f_equal. apply IH. now injection H.
Qed.

Lemma combine_rev {A B} (l : list A) : forall (l' : list B), length l = length l' -> combine (rev l) (rev l') = rev (combine l l').
Proof.
  induction l as [|x l IH]; intros [|y l'] H; try discriminate H; [reflexivity|]. cbn. injection H as H.
  rewrite combine_snoc by (now rewrite !rev_length). now rewrite IH.
Qed.

Lemma bc_idx_source s : forall i1 i2, length i1 = length s -> bc_idx s (i1 ++ i2) = source_index s i1.
Proof.
  induction s as [|a s IH]; intros [|i i1] i2 H; try discriminate H; [destruct i2; reflexivity|].
  cbn. f_equal. apply IH. now injection H.
Qed.

(** C34 for every number of dimensions (scalars count as arrays of shape (1,)):
    the call succeeds exactly for fitting shapes and repeats entries along
    missing axes and axes of length one. *)
Theorem C34_any a shape : let src := match nd_shape a with [] => [1%nat] | s => s end in
  (fits src shape ->
     exists b, convert_and_broadcast a shape = Ok b /\ nd_shape b = shape /\
       forall pre post, length (pre ++ post) = length shape -> length post = length src ->
         nd_at b (pre ++ post) = nd_at a (match nd_shape a with [] => [] | s => source_index s post end)) /\
  (~ fits src shape -> convert_and_broadcast a shape = Err ValueError).
Proof.
  intros src. unfold convert_and_broadcast, broadcast_to.
  assert (S : nd_shape (atleast_1d a) = src) by (unfold atleast_1d, src; destruct (nd_shape a) eqn:E; [reflexivity|exact E]).
  rewrite S. split; intros H.
  - rewrite (proj2 (bc_ok_fits src shape) H). eexists. split; [reflexivity|]. split; [reflexivity|].
    intros pre post HL HP. cbn [nd_at]. rewrite rev_app_distr, bc_idx_source by (now rewrite !rev_length).
    unfold source_index. rewrite combine_rev, map_rev, rev_involutive by (symmetry; exact HP).
    unfold atleast_1d, src. destruct (nd_shape a) eqn:E; reflexivity.
  - destruct (bc_ok (rev src) (rev shape)) eqn:E; [|reflexivity]. apply bc_ok_fits in E. contradiction.
Qed.

(** The matrix of a linear constraint: two constraints on three features. *)
Example case_C34_any : exists b,
  convert_and_broadcast {| nd_shape := [2%nat; 1%nat]; nd_at := fun idx => INR (nth 0 idx O) + 1 |} [2%nat; 3%nat] = Ok b /\
  nd_at b [1%nat; 2%nat] = 2 /\ nd_at b [0%nat; 2%nat] = 1 /\
  convert_and_broadcast {| nd_shape := [2%nat]; nd_at := fun _ => 0 |} [2%nat; 3%nat] = Err ValueError.
Proof.
  destruct (C34_any {| nd_shape := [2%nat; 1%nat]; nd_at := fun idx => INR (nth 0 idx O) + 1 |} [2%nat; 3%nat]) as [H _].
  destruct H as (b & E & _ & H).
  - exists [], [2%nat; 3%nat]. split; [reflexivity|]. constructor; [now left|]. constructor; [now right|constructor].
  - exists b. split; [exact E|]. pose proof (H [] [1%nat; 2%nat] eq_refl eq_refl) as H1. pose proof (H [] [0%nat; 2%nat] eq_refl eq_refl) as H2.
    cbn in H1, H2. rewrite H1, H2. split; [lra|]. split; [lra|].
    reflexivity.
Qed.

(* ------------------------------------------------------------------ *)
(** * Linear constraints: one constraint per row *)

(** number of constraints for a matrix of this shape *)
Definition rows_of_shape (s : list nat) : option nat :=
  match s with [] | [_] => Some 1%nat | [n; _] => Some n | _ => None end.
Definition as_1d (s : list nat) : list nat := match s with [] => [1%nat] | a :: t => a :: t end.
(** index along an axis of length [w] *)
Definition pick (w i : nat) : nat := if Nat.eqb w 1 then O else i.

Theorem C34_linear s nf Cs Ts n :
  (rows_of_shape (nd_shape Cs) = Some n -> fits (as_1d (nd_shape Cs)) [n; nf] -> fits (as_1d (nd_shape Ts)) [n] ->
     exists s' o, lin_new s nf Cs Ts = Ok (s', o) /\ lo_cons o = n /\ lo_feat o = nf /\
       (forall a r, z_at (st_cell s' (lo_Cs o)) a r =
          nd_at Cs (match nd_shape Cs with [] => [] | [w] => [pick w r] | m :: w :: _ => [pick m a; pick w r] end)) /\
       (forall z a, z_at (st_cell s' (lo_Ts o)) z a = nd_at Ts (match nd_shape Ts with [] => [] | w :: _ => [pick w a] end))) /\
  (rows_of_shape (nd_shape Cs) = Some n -> ~ fits (as_1d (nd_shape Cs)) [n; nf] \/ ~ fits (as_1d (nd_shape Ts)) [n] ->
     lin_new s nf Cs Ts = Err ValueError) /\
  (rows_of_shape (nd_shape Cs) = None -> lin_new s nf Cs Ts = Err ValueError).
Proof.
  assert (S : nd_shape (atleast_1d Cs) = as_1d (nd_shape Cs)) by (unfold atleast_1d, as_1d; destruct (nd_shape Cs) eqn:E; [reflexivity|exact E]).
  assert (R : rows_of_shape (nd_shape Cs) = Some n ->
    lin_new s nf Cs Ts = (let* (s1, o1) := lin_set_Cs s {| lo_cons := n; lo_feat := nf; lo_Cs := O; lo_Ts := O |} Cs in lin_set_Ts s1 o1 Ts)).
  { intros HR. unfold lin_new. rewrite S. unfold as_1d. destruct (nd_shape Cs) as [|x [|y [|z t]]]; cbn in HR |- *; try discriminate HR; injection HR as <-; reflexivity. }
  destruct (C34_any Cs [n; nf]) as [C1 C2]. destruct (C34_any Ts [n]) as [T1 T2].
  fold (as_1d (nd_shape Cs)) in C1, C2. fold (as_1d (nd_shape Ts)) in T1, T2.
  split; [|split].
  - intros HR FC FT. rewrite (R HR). destruct (C1 FC) as (b & Eb & _ & Hb). destruct (T1 FT) as (t & Et & _ & Ht).
    unfold lin_set_Cs. cbn [lo_cons lo_feat]. rewrite Eb. cbn [bind alloc]. unfold lin_set_Ts. cbn [lo_cons]. rewrite Et. cbn [bind alloc].
    eexists. eexists. split; [reflexivity|]. cbn. split; [reflexivity|]. split; [reflexivity|]. split.
    + intros a r. unfold upd. destruct (Nat.eqb_spec (st_next s) (Datatypes.S (st_next s))); [lia|]. rewrite Nat.eqb_refl. cbn. unfold mat_of_nd.
      destruct (nd_shape Cs) as [|x [|y [|z u]]]; cbn in HR; try discriminate HR.
      * exact (Hb [a] [r] eq_refl eq_refl).
      * exact (Hb [a] [r] eq_refl eq_refl).
      * exact (Hb [] [a; r] eq_refl eq_refl).
    + intros z a. unfold upd. rewrite Nat.eqb_refl. cbn. unfold row_of_nd.
      destruct FT as (pre & post & EQ & FF). destruct (nd_shape Ts) as [|x [|y u]] eqn:ET.
      * exact (Ht [] [a] eq_refl eq_refl).
      * exact (Ht [] [a] eq_refl eq_refl).
      * exfalso. assert (FL : length (x :: y :: u) = length post) by (clear - FF; cbn [as_1d] in FF; revert FF; generalize (x :: y :: u); intros v FF; induction FF; cbn; auto). apply (f_equal (@length nat)) in EQ. rewrite app_length in EQ. cbn in EQ, FL. lia.
  - intros HR [FC|FT]; rewrite (R HR); unfold lin_set_Cs; cbn [lo_cons lo_feat].
    + now rewrite (C2 FC).
    + destruct (convert_and_broadcast Cs [n; nf]) as [b|e] eqn:Eb.
      * cbn [bind alloc]. unfold lin_set_Ts. cbn [lo_cons]. now rewrite (T2 FT).
      * cbn [bind]. unfold convert_and_broadcast, broadcast_to in Eb. destruct (bc_ok _ _); [discriminate Eb|]. now injection Eb as <-.
  - intros HR. unfold lin_new. rewrite S. unfold as_1d. destruct (nd_shape Cs) as [|x [|y [|z t]]]; cbn in HR |- *; try discriminate HR. reflexivity.
Qed.

(** Two constraints on three features with a common target; the transposed
    matrix is refused. *)
Example case_C34_linear s : exists s' o,
  lin_new s 3 {| nd_shape := [2%nat; 3%nat]; nd_at := fun idx => INR (nth 0 idx O) + 1 |} {| nd_shape := []; nd_at := fun _ => 1 / 4 |} = Ok (s', o) /\
  lo_cons o = 2%nat /\ z_at (st_cell s' (lo_Cs o)) 1%nat 2%nat = 2 /\ z_at (st_cell s' (lo_Ts o)) 0%nat 1%nat = 1 / 4 /\
  lin_new s 3 {| nd_shape := [3%nat; 2%nat]; nd_at := fun _ => 1 |} {| nd_shape := []; nd_at := fun _ => 1 / 4 |} = Err ValueError.
Proof.
  destruct (C34_linear s 3 {| nd_shape := [2%nat; 3%nat]; nd_at := fun idx => INR (nth 0 idx O) + 1 |} {| nd_shape := []; nd_at := fun _ => 1 / 4 |} 2) as (H & _).
  destruct H as (s' & o & E & E1 & _ & E2 & E3).
  - reflexivity.
  - exists [], [2%nat; 3%nat]. split; [reflexivity|]. repeat constructor.
  - exists [], [2%nat]. split; [reflexivity|]. constructor; [now right|constructor].
  - exists s', o. split; [exact E|]. split; [exact E1|]. split; [rewrite E2; cbn; lra|]. split; [rewrite E3; reflexivity|]. reflexivity.
Qed.
