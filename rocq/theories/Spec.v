(** Spec.v -- vocabulary of the property statements, independent of the model
    (only [rsum n f], the finite sum f 0 + ... + f (n-1), is shared). *)

From Coq Require Import Reals Lra Lia List Bool Arith ZArith.
From Verif Require Import Base.
Import ListNotations.
Open Scope R_scope.

(** A compartment of relative volume [J m] is alive if it exceeds the threshold. *)
Definition alive (thr : R) (J : nat -> R) (m : nat) : Prop := thr < J m.
Definition dead (thr : R) (J : nat -> R) (m : nat) : Prop := J m <= thr.

(** Number of living / dead compartments among the first [np]. *)
Definition num_alive (np : nat) (thr : R) (J : nat -> R) : nat :=
  length (filter (fun m => if Rlt_dec thr (J m) then true else false) (seq 0 np)).
Definition num_dead (np : nat) (thr : R) (J : nat -> R) : nat := (np - num_alive np thr J)%nat.

(** Volumes with the dead compartments removed. *)
Definition living (thr : R) (J : nat -> R) : nat -> R :=
  fun m => if Rlt_dec thr (J m) then J m else 0.

(** [x] is the maximum / minimum of [f 0 .. f (n-1)]. *)
Definition is_max (n : nat) (f : nat -> R) (x : R) : Prop :=
  (exists i, (i < n)%nat /\ f i = x) /\ forall i, (i < n)%nat -> f i <= x.
Definition is_min (n : nat) (f : nat -> R) (x : R) : Prop :=
  (exists i, (i < n)%nat /\ f i = x) /\ forall i, (i < n)%nat -> x <= f i.

(** Volume-weighted mean of [x]. *)
Definition wmean (np : nat) (J x : nat -> R) : R :=
  rsum np (fun m => J m * x m) / rsum np J.

(** [n]-fold application. *)
Fixpoint times {A} (n : nat) (f : A -> A) (x : A) : A :=
  match n with O => x | S k => f (times k f x) end.

(* ------------------------------------------------------------------ *)
(** Bridges to the model's helpers. *)

Lemma ncount_filter n p : ncount n p = length (filter p (seq 0 n)).
Proof.
  induction n; [reflexivity|].
  rewrite seq_S, filter_app, app_length, <- IHn. simpl. destruct (p n); simpl; lia.
Qed.

Lemma num_alive_ncount np thr J : num_alive np thr J = ncount np (fun m => Rltb thr (J m)).
Proof. rewrite ncount_filter. reflexivity. Qed.

Lemma num_alive_le np thr J : (num_alive np thr J <= np)%nat.
Proof. rewrite num_alive_ncount. apply ncount_le. Qed.

Lemma num_alive_pos np thr J :
  (0 < num_alive np thr J)%nat <-> exists m, (m < np)%nat /\ alive thr J m.
Proof.
  rewrite num_alive_ncount, ncount_pos. unfold alive.
  split; intros (m & Hm & H); exists m; split; auto; now apply Rltb_true.
Qed.

Lemma vmax_is_max n f : (0 < n)%nat -> is_max n f (vmax n f).
Proof.
  intros H. split.
  - destruct (vmax_in n f H) as (i & Hi & E). exists i. auto.
  - intros. now apply vmax_ge.
Qed.

Lemma vmin_is_min n f : (0 < n)%nat -> is_min n f (vmin n f).
Proof.
  intros H. split.
  - destruct (vmin_in n f H) as (i & Hi & E). exists i. auto.
  - intros. now apply vmin_le.
Qed.

Lemma is_max_unique n f x y : is_max n f x -> is_max n f y -> x = y.
Proof.
  intros [(i & Hi & Ei) Hx] [(j & Hj & Ej) Hy].
  specialize (Hx j Hj). specialize (Hy i Hi). lra.
Qed.

Lemma is_min_unique n f x y : is_min n f x -> is_min n f y -> x = y.
Proof.
  intros [(i & Hi & Ei) Hx] [(j & Hj & Ej) Hy].
  specialize (Hx j Hj). specialize (Hy i Hi). lra.
Qed.
