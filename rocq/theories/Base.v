(** Base.v -- finite sums, maxima, loops and results used by the model.

    Arrays of the numeric code are functions of their indices; the sizes are
    passed explicitly and only indices below the size are meaningful. *)

From Coq Require Import Reals Lra Lia List Bool Arith ZArith.
Import ListNotations.
Open Scope R_scope.

(** 1D float array (numpy [float64[::1]]). *)
Definition vec := nat -> R.
(** 2D float array, [A i m] is [A[i, m]]. *)
Definition mat := nat -> nat -> R.

(** Python exceptions that the modelled code can raise. *)
Inductive exn :=
| ZeroDivisionError
| ValueError
| ComponentNumberError
| FeatureNumberError
| VolumeFractionError
| AttributeError
| UnboundLocalError
| IndexError
| TypeError
| DonorsExhausted.

(** Outcome of a python call: a value or an exception. *)
Inductive res (A : Type) :=
| Ok (a : A)
| Err (e : exn).
Arguments Ok {A} a.
Arguments Err {A} e.

Definition bind {A B} (x : res A) (k : A -> res B) : res B :=
  match x with Ok a => k a | Err e => Err e end.

Notation "'let*' x ':=' e 'in' k" := (bind e (fun x => k))
  (at level 200, x pattern, e at level 100, k at level 200, right associativity).

(** [for i in range(n): s = body(i, s)] *)
Fixpoint for_ {A} (n : nat) (body : nat -> A -> A) (s : A) : A :=
  match n with
  | O => s
  | S k => body k (for_ k body s)
  end.

(** [f(0) + ... + f(n-1)]: numpy [sum]. *)
Fixpoint rsum (n : nat) (f : nat -> R) : R :=
  match n with
  | O => 0
  | S k => rsum k f + f k
  end.

(** numpy [max] of the [n >= 1] entries [f(0) ... f(n-1)]. *)
Fixpoint vmax (n : nat) (f : nat -> R) : R :=
  match n with
  | O => 0
  | S O => f O
  | S k => Rmax (vmax k f) (f k)
  end.

(** numpy [min] of the [n >= 1] entries [f(0) ... f(n-1)]. *)
Fixpoint vmin (n : nat) (f : nat -> R) : R :=
  match n with
  | O => 0
  | S O => f O
  | S k => Rmin (vmin k f) (f k)
  end.

(** number of indices below [n] satisfying [p]: numpy [(...).sum()] of booleans. *)
Fixpoint ncount (n : nat) (p : nat -> bool) : nat :=
  match n with
  | O => O
  | S k => (ncount k p + if p k then 1 else 0)%nat
  end.

(** sum over a python list / tuple. *)
Fixpoint lsum {A} (l : list A) (f : A -> R) : R :=
  match l with
  | [] => 0
  | a :: l' => f a + lsum l' f
  end.

(** boolean comparisons *)
Definition Rltb (x y : R) : bool := if Rlt_dec x y then true else false.
Definition Rleb (x y : R) : bool := if Rle_dec x y then true else false.
Definition Reqb (x y : R) : bool := if Req_EM_T x y then true else false.

(** array writes *)
Definition upd {A} (f : nat -> A) (i : nat) (x : A) : nat -> A :=
  fun j => if Nat.eqb j i then x else f j.
(** [A[i, m] = x] *)
Definition upd2 (A : mat) (i m : nat) (x : R) : mat :=
  fun i' m' => if andb (Nat.eqb i' i) (Nat.eqb m' m) then x else A i' m'.

(* ------------------------------------------------------------------ *)
(** * Lemmas *)

Lemma Rltb_true x y : Rltb x y = true <-> x < y.
Proof. unfold Rltb; destruct (Rlt_dec x y); split; intros; auto; try discriminate; lra. Qed.
Lemma Rltb_false x y : Rltb x y = false <-> y <= x.
Proof. unfold Rltb; destruct (Rlt_dec x y); split; intros; auto; try discriminate; lra. Qed.
Lemma Rleb_true x y : Rleb x y = true <-> x <= y.
Proof. unfold Rleb; destruct (Rle_dec x y); split; intros; auto; try discriminate; lra. Qed.
Lemma Rleb_false x y : Rleb x y = false <-> y < x.
Proof. unfold Rleb; destruct (Rle_dec x y); split; intros; auto; try discriminate; lra. Qed.
Lemma Reqb_true x y : Reqb x y = true <-> x = y.
Proof. unfold Reqb; destruct (Req_EM_T x y); split; intros; auto; try discriminate; lra. Qed.
Lemma Reqb_false x y : Reqb x y = false <-> x <> y.
Proof. unfold Reqb; destruct (Req_EM_T x y); split; intros; auto; try discriminate; lra. Qed.

Lemma bind_Ok {A B} (x : res A) (k : A -> res B) b :
  bind x k = Ok b <-> exists a, x = Ok a /\ k a = Ok b.
Proof.
  destruct x; simpl; split; intros H.
  - eauto.
  - destruct H as (a' & E & H); inversion E; subst; auto.
  - discriminate.
  - destruct H as (a' & E & H); discriminate.
Qed.

(** ** sums *)

Lemma rsum_ext n f g : (forall i, (i < n)%nat -> f i = g i) -> rsum n f = rsum n g.
Proof.
  induction n; simpl; intros H; auto.
  rewrite IHn by (intros; apply H; lia). now rewrite (H n) by lia.
Qed.

Lemma rsum_plus n f g : rsum n (fun i => f i + g i) = rsum n f + rsum n g.
Proof. induction n; simpl; [lra|]. rewrite IHn; lra. Qed.

Lemma rsum_minus n f g : rsum n (fun i => f i - g i) = rsum n f - rsum n g.
Proof. induction n; simpl; [lra|]. rewrite IHn; lra. Qed.

Lemma rsum_opp n f : rsum n (fun i => - f i) = - rsum n f.
Proof. induction n; simpl; [lra|]. rewrite IHn; lra. Qed.

Lemma rsum_scal_l n a f : rsum n (fun i => a * f i) = a * rsum n f.
Proof. induction n; simpl; [lra|]. rewrite IHn; lra. Qed.

Lemma rsum_scal_r n a f : rsum n (fun i => f i * a) = rsum n f * a.
Proof. induction n; simpl; [lra|]. rewrite IHn; lra. Qed.

Lemma rsum_div n a f : rsum n (fun i => f i / a) = rsum n f / a.
Proof. unfold Rdiv; apply rsum_scal_r. Qed.

Lemma rsum_const n c : rsum n (fun _ => c) = INR n * c.
Proof. induction n; simpl rsum; [simpl; lra|]. rewrite IHn, S_INR; lra. Qed.

Lemma rsum_zero n f : (forall i, (i < n)%nat -> f i = 0) -> rsum n f = 0.
Proof.
  intros H. rewrite (rsum_ext n f (fun _ => 0)) by auto. rewrite rsum_const; lra.
Qed.

Lemma rsum_nonneg n f : (forall i, (i < n)%nat -> 0 <= f i) -> 0 <= rsum n f.
Proof.
  induction n; simpl; intros H; [lra|].
  assert (0 <= f n) by (apply H; lia).
  assert (0 <= rsum n f) by (apply IHn; intros; apply H; lia). lra.
Qed.

Lemma rsum_le n f g : (forall i, (i < n)%nat -> f i <= g i) -> rsum n f <= rsum n g.
Proof.
  induction n; simpl; intros H; [lra|].
  assert (f n <= g n) by (apply H; lia).
  assert (rsum n f <= rsum n g) by (apply IHn; intros; apply H; lia). lra.
Qed.

Lemma rsum_lt n f g :
  (forall i, (i < n)%nat -> f i <= g i) ->
  (exists i, (i < n)%nat /\ f i < g i) -> rsum n f < rsum n g.
Proof.
  induction n; intros H (i & Hi & Hlt); [lia|]. simpl.
  assert (Hn : f n <= g n) by (apply H; lia).
  destruct (Nat.eq_dec i n) as [->|E].
  - assert (rsum n f <= rsum n g) by (apply rsum_le; intros; apply H; lia). lra.
  - assert (rsum n f < rsum n g).
    { apply IHn; [intros; apply H; lia|]. exists i; split; [lia|auto]. }
    lra.
Qed.

Lemma rsum_pos n f :
  (forall i, (i < n)%nat -> 0 <= f i) ->
  (exists i, (i < n)%nat /\ 0 < f i) -> 0 < rsum n f.
Proof.
  intros H1 H2.
  assert (rsum n (fun _ => 0) < rsum n f) by (apply rsum_lt; auto).
  rewrite rsum_const in H; lra.
Qed.

Lemma rsum_pos_inv n f : 0 < rsum n f -> exists i, (i < n)%nat /\ 0 < f i.
Proof.
  induction n; simpl; intros H; [lra|].
  destruct (Rlt_dec 0 (f n)).
  - exists n; split; [lia|auto].
  - destruct IHn as (i & Hi & Hp); [lra|]. exists i; split; [lia|auto].
Qed.

Lemma rsum_gt_inv n f c :
  INR n * c < rsum n f -> exists i, (i < n)%nat /\ c < f i.
Proof.
  intros H. destruct (rsum_pos_inv n (fun i => f i - c)) as (i & Hi & Hp).
  - rewrite rsum_minus, rsum_const; lra.
  - exists i; split; [auto|lra].
Qed.

Lemma rsum_ge_inv n f c :
  (0 < n)%nat -> INR n * c <= rsum n f -> exists i, (i < n)%nat /\ c <= f i.
Proof.
  intros Hn. revert Hn f. induction n; intros Hn f H; [lia|].
  destruct (Rle_dec c (f n)) as [Hc|Hc].
  - exists n; split; [lia|auto].
  - destruct n as [|n].
    + exfalso. simpl in H. lra.
    + destruct (IHn ltac:(lia) f) as (i & Hi & Hp).
      * rewrite S_INR in H. change (rsum (S (S n)) f) with (rsum (S n) f + f (S n)) in H. lra.
      * exists i; split; [lia|auto].
Qed.

Lemma rsum_swap n m (f : nat -> nat -> R) :
  rsum n (fun i => rsum m (fun j => f i j)) = rsum m (fun j => rsum n (fun i => f i j)).
Proof.
  induction n; simpl.
  - symmetry; apply rsum_zero; auto.
  - rewrite IHn, <- rsum_plus. reflexivity.
Qed.

Lemma rsum_Rabs n f : Rabs (rsum n f) <= rsum n (fun i => Rabs (f i)).
Proof.
  induction n; simpl; [rewrite Rabs_R0; lra|].
  eapply Rle_trans; [apply Rabs_triang|]. lra.
Qed.

Lemma rsum_S_first n f : rsum (S n) f = f O + rsum n (fun i => f (S i)).
Proof.
  induction n; simpl; [lra|]. simpl in IHn. rewrite IHn. lra.
Qed.

Lemma rsum_split n m f : rsum (n + m) f = rsum n f + rsum m (fun i => f (n + i)%nat).
Proof.
  induction m; simpl.
  - rewrite Nat.add_0_r; lra.
  - rewrite Nat.add_succ_r; simpl. rewrite IHm; lra.
Qed.

Lemma rsum_single n f k :
  (k < n)%nat -> (forall i, (i < n)%nat -> i <> k -> f i = 0) -> rsum n f = f k.
Proof.
  induction n; intros Hk H; [lia|]. simpl.
  destruct (Nat.eq_dec k n) as [->|E].
  - rewrite rsum_zero; [lra|]. intros; apply H; lia.
  - rewrite IHn by (try lia; intros; apply H; lia). rewrite (H n) by lia. lra.
Qed.

Lemma rsum_indicator n k (a : R) :
  (k < n)%nat -> rsum n (fun i => if Nat.eqb i k then a else 0) = a.
Proof.
  intros Hk. rewrite (rsum_single n _ k); auto.
  - now rewrite Nat.eqb_refl.
  - intros i _ Hi. apply Nat.eqb_neq in Hi; now rewrite Hi.
Qed.

(** remove one term *)
Lemma rsum_remove n f k :
  (k < n)%nat -> rsum n f = f k + rsum n (fun i => if Nat.eqb i k then 0 else f i).
Proof.
  intros Hk.
  rewrite <- (rsum_indicator n k (f k)) at 1 by auto.
  rewrite <- rsum_plus. apply rsum_ext. intros i Hi.
  destruct (Nat.eqb_spec i k); subst; lra.
Qed.

Lemma rsum_upd n f k x :
  (k < n)%nat -> rsum n (upd f k x) = rsum n f - f k + x.
Proof.
  intros Hk. rewrite (rsum_remove n (upd f k x) k) by auto.
  rewrite (rsum_remove n f k) by auto. unfold upd at 1. rewrite Nat.eqb_refl.
  rewrite (rsum_ext n (fun i => if Nat.eqb i k then 0 else upd f k x i)
             (fun i => if Nat.eqb i k then 0 else f i)).
  - lra.
  - intros i Hi. unfold upd. destruct (Nat.eqb_spec i k); auto.
Qed.

Lemma rsum_upd_out n f k x : (n <= k)%nat -> rsum n (upd f k x) = rsum n f.
Proof.
  intros Hk. apply rsum_ext. intros i Hi. unfold upd.
  destruct (Nat.eqb_spec i k); auto; lia.
Qed.

Lemma rsum_mul_rsum n m f g :
  rsum n f * rsum m g = rsum n (fun i => rsum m (fun j => f i * g j)).
Proof.
  rewrite <- rsum_scal_r. apply rsum_ext; intros. now rewrite rsum_scal_l.
Qed.

Lemma rsum_sq_zero n f :
  rsum n (fun i => f i * f i) = 0 -> forall i, (i < n)%nat -> f i = 0.
Proof.
  induction n; intros H i Hi; [lia|]. simpl in H.
  assert (0 <= rsum n (fun i => f i * f i)) by (apply rsum_nonneg; intros; nra).
  assert (f n = 0) by nra.
  destruct (Nat.eq_dec i n) as [->|]; auto.
  apply IHn; [nra|lia].
Qed.

(** sum over a permutation of the indices *)
Lemma rsum_perm n (s : nat -> nat) f :
  (forall i, (i < n)%nat -> (s i < n)%nat) ->
  (forall i j, (i < n)%nat -> (j < n)%nat -> s i = s j -> i = j) ->
  rsum n (fun i => f (s i)) = rsum n f.
Proof.
  revert s f. induction n; intros s f Hb Hi; auto.
  simpl.
  (* s' swaps so that n is fixed *)
  set (k := s n).
  pose (s' := fun i => if Nat.eqb (s i) n then k else s i).
  assert (Hk : (k < S n)%nat) by (apply Hb; lia).
  assert (Hs'b : forall i, (i < n)%nat -> (s' i < n)%nat).
  { intros i Hlt. unfold s'. destruct (Nat.eqb_spec (s i) n) as [E|E].
    - unfold k in *. assert (s n <> n).
      { intros E2. assert (i = n) by (apply Hi; try lia; congruence). lia. }
      lia.
    - assert (s i < S n)%nat by (apply Hb; lia). lia. }
  assert (Hs'i : forall i j, (i < n)%nat -> (j < n)%nat -> s' i = s' j -> i = j).
  { intros i j Hi1 Hj1. unfold s'.
    destruct (Nat.eqb_spec (s i) n) as [E1|E1], (Nat.eqb_spec (s j) n) as [E2|E2]; intros E.
    - apply Hi; try lia; congruence.
    - exfalso. assert (n = j) by (apply Hi; try lia; auto). lia.
    - exfalso. assert (i = n) by (apply Hi; try lia; auto). lia.
    - apply Hi; try lia; auto. }
  destruct (Nat.eq_dec k n) as [Ek|Ek].
  - rewrite Ek. f_equal. apply (IHn s f).
    + intros i Hlt. assert (s i < S n)%nat by (apply Hb; lia).
      assert (s i <> n). { intros E. assert (i = n) by (apply Hi; try lia; unfold k in Ek; congruence). lia. }
      lia.
    + intros; apply Hi; auto; lia.
  - (* some i0 < n with s i0 = n: from counting; we compare sums via s' *)
    specialize (IHn s' f Hs'b Hs'i).
    assert (Hex : exists i0, (i0 < n)%nat /\ s i0 = n).
    { (* pigeonhole by finite search *)
      destruct (in_dec Nat.eq_dec n (map s (seq 0 n))) as [Hin|Hnin].
      - apply in_map_iff in Hin. destruct Hin as (x & E & Hx). apply in_seq in Hx.
        exists x; split; [lia|auto].
      - exfalso.
        assert (Hnd : NoDup (map s (seq 0 (S n)))).
        { assert (G : forall l, NoDup l -> (forall x, In x l -> (x < S n)%nat) -> NoDup (map s l)).
          { induction l as [|a l IHl]; simpl; intros Hd Hl; [constructor|].
            inversion Hd; subst. constructor.
            - intros Hin. apply in_map_iff in Hin. destruct Hin as (x & E & Hx).
              assert (x = a) by (apply Hi; auto). subst; auto.
            - apply IHl; auto. }
          apply G; [apply seq_NoDup|]. intros x Hx. apply in_seq in Hx. lia. }
        assert (Hincl : incl (map s (seq 0 (S n))) (seq 0 n)).
        { intros y Hy. apply in_map_iff in Hy. destruct Hy as (x & E & Hx).
          apply in_seq in Hx. apply in_seq. subst y. split; [lia|]. simpl.
          destruct (Nat.eq_dec x n) as [->|Hxn].
          - unfold k in Hk, Ek. lia.
          - assert (s x < S n)%nat by (apply Hb; lia).
            assert (s x <> n).
            { intros E. apply Hnin. apply in_map_iff. exists x; split; auto.
              apply in_seq; lia. }
            lia. }
        pose proof (NoDup_incl_length Hnd Hincl) as L.
        rewrite map_length, !seq_length in L. lia. }
    destruct Hex as (i0 & Hi0 & Es).
    rewrite (rsum_remove n (fun i => f (s i)) i0) by auto.
    rewrite (rsum_remove n (fun i => f (s' i)) i0) in IHn by auto.
    replace (s' i0) with k in IHn by (unfold s'; rewrite Es, Nat.eqb_refl; auto).
    rewrite (rsum_ext n (fun i => if Nat.eqb i i0 then 0 else f (s' i))
               (fun i => if Nat.eqb i i0 then 0 else f (s i))) in IHn.
    + rewrite Es. lra.
    + intros i Hlt. destruct (Nat.eqb_spec i i0) as [|N]; auto. unfold s'.
      destruct (Nat.eqb_spec (s i) n) as [E|]; auto.
      exfalso. apply N. apply Hi; try lia; congruence.
Qed.

(** ** counting *)

Lemma ncount_le n p : (ncount n p <= n)%nat.
Proof. induction n; simpl; [lia|]. destruct (p n); lia. Qed.

Lemma ncount_ext n p q : (forall i, (i < n)%nat -> p i = q i) -> ncount n p = ncount n q.
Proof.
  induction n; simpl; intros H; auto.
  rewrite IHn by (intros; apply H; lia). now rewrite H by lia.
Qed.

Lemma ncount_mono n p q :
  (forall i, (i < n)%nat -> p i = true -> q i = true) -> (ncount n p <= ncount n q)%nat.
Proof.
  induction n; simpl; intros H; [lia|].
  assert (ncount n p <= ncount n q)%nat by (apply IHn; intros; apply H; auto; lia).
  specialize (H n ltac:(lia)).
  destruct (p n), (q n); try lia; try (specialize (H eq_refl); discriminate).
Qed.

Lemma ncount_pos n p : (0 < ncount n p)%nat <-> exists i, (i < n)%nat /\ p i = true.
Proof.
  induction n; simpl; split; intros H; try lia.
  - destruct H as (i & Hi & _); lia.
  - destruct (p n) eqn:E.
    + exists n; split; [lia|auto].
    + destruct (proj1 IHn) as (i & Hi & Hp); [lia|]. exists i; split; [lia|auto].
  - destruct H as (i & Hi & Hp). destruct (Nat.eq_dec i n) as [->|N].
    + rewrite Hp; lia.
    + assert (0 < ncount n p)%nat by (apply IHn; exists i; split; [lia|auto]). lia.
Qed.

Lemma ncount_all n p : ncount n p = n <-> forall i, (i < n)%nat -> p i = true.
Proof.
  induction n; simpl; split; intros H.
  - intros i Hi; lia.
  - reflexivity.
  - pose proof (ncount_le n p). destruct (p n) eqn:E; [|lia].
    intros i Hi. destruct (Nat.eq_dec i n) as [->|N]; auto.
    apply IHn; lia.
  - rewrite (H n) by lia. assert (ncount n p = n) by (apply IHn; intros; apply H; lia). lia.
Qed.

Lemma ncount_none n p : ncount n p = O <-> forall i, (i < n)%nat -> p i = false.
Proof.
  induction n; simpl; split; intros H.
  - intros i Hi; lia.
  - reflexivity.
  - intros i Hi. destruct (p n) eqn:E; [lia|]. destruct (Nat.eq_dec i n) as [->|N]; auto.
    apply IHn; lia.
  - rewrite (H n) by lia. assert (ncount n p = O) by (apply IHn; intros; apply H; lia). lia.
Qed.

Lemma ncount_same n p q :
  (forall i, (i < n)%nat -> p i = true -> q i = true) -> ncount n p = ncount n q ->
  forall i, (i < n)%nat -> p i = q i.
Proof.
  induction n; intros H E i Hi; [lia|]. simpl in E.
  assert (ncount n p <= ncount n q)%nat by (apply ncount_mono; intros; apply H; auto; lia).
  pose proof (H n ltac:(lia)) as Hn.
  destruct (Nat.eq_dec i n) as [->|N].
  - destruct (p n), (q n); auto; try lia; try (specialize (Hn eq_refl); discriminate).
  - apply IHn; [intros; apply H; auto; lia| |lia].
    destruct (p n), (q n); try lia; try (specialize (Hn eq_refl); discriminate).
Qed.

Lemma ncount_rsum n p :
  INR (ncount n p) = rsum n (fun i => if p i then 1 else 0).
Proof.
  induction n; simpl rsum; simpl ncount; auto.
  rewrite plus_INR, IHn. destruct (p n); simpl; lra.
Qed.

Lemma ncount_negb n p : (ncount n p + ncount n (fun i => negb (p i)) = n)%nat.
Proof. induction n; simpl; auto. destruct (p n); simpl; lia. Qed.

(** ** maxima *)

Lemma vmax_S n f : vmax (S (S n)) f = Rmax (vmax (S n) f) (f (S n)).
Proof. reflexivity. Qed.
Lemma vmin_S n f : vmin (S (S n)) f = Rmin (vmin (S n) f) (f (S n)).
Proof. reflexivity. Qed.

Lemma vmax_ge n f i : (i < n)%nat -> f i <= vmax n f.
Proof.
  revert i. induction n as [|[|n] IHn]; intros i Hi; [lia| |].
  - replace i with O by lia. simpl; lra.
  - rewrite vmax_S. destruct (Nat.eq_dec i (S n)) as [->|N].
    + apply Rmax_r.
    + eapply Rle_trans; [apply (IHn i); lia|apply Rmax_l].
Qed.

Lemma vmax_in n f : (0 < n)%nat -> exists i, (i < n)%nat /\ vmax n f = f i.
Proof.
  induction n as [|[|n] IHn]; intros Hn; [lia| |].
  - exists O; split; auto.
  - destruct (IHn ltac:(lia)) as (i & Hi & E). rewrite vmax_S.
    unfold Rmax. destruct (Rle_dec (vmax (S n) f) (f (S n))).
    + exists (S n); split; auto.
    + exists i; split; [lia|auto].
Qed.

Lemma vmax_le n f c : (0 < n)%nat -> (forall i, (i < n)%nat -> f i <= c) -> vmax n f <= c.
Proof.
  intros Hn H. destruct (vmax_in n f Hn) as (i & Hi & ->). auto.
Qed.

Lemma vmax_lt n f c : vmax n f < c -> forall i, (i < n)%nat -> f i < c.
Proof. intros H i Hi. pose proof (vmax_ge n f i Hi). lra. Qed.

Lemma vmax_ext n f g : (forall i, (i < n)%nat -> f i = g i) -> vmax n f = vmax n g.
Proof.
  induction n as [|[|n] IHn]; intros H; auto.
  - simpl. apply H; lia.
  - rewrite !vmax_S. rewrite IHn by (intros; apply H; lia). now rewrite H by lia.
Qed.

Lemma vmin_le n f i : (i < n)%nat -> vmin n f <= f i.
Proof.
  revert i. induction n as [|[|n] IHn]; intros i Hi; [lia| |].
  - replace i with O by lia. simpl; lra.
  - rewrite vmin_S. destruct (Nat.eq_dec i (S n)) as [->|N].
    + apply Rmin_r.
    + eapply Rle_trans; [apply Rmin_l|apply (IHn i); lia].
Qed.

Lemma vmin_in n f : (0 < n)%nat -> exists i, (i < n)%nat /\ vmin n f = f i.
Proof.
  induction n as [|[|n] IHn]; intros Hn; [lia| |].
  - exists O; split; auto.
  - destruct (IHn ltac:(lia)) as (i & Hi & E). rewrite vmin_S.
    unfold Rmin. destruct (Rle_dec (vmin (S n) f) (f (S n))).
    + exists i; split; [lia|auto].
    + exists (S n); split; auto.
Qed.

Lemma vmin_ext n f g : (forall i, (i < n)%nat -> f i = g i) -> vmin n f = vmin n g.
Proof.
  induction n as [|[|n] IHn]; intros H; auto.
  - simpl. apply H; lia.
  - rewrite !vmin_S. rewrite IHn by (intros; apply H; lia). now rewrite H by lia.
Qed.

Lemma vmin_le_vmax n f : (0 < n)%nat -> vmin n f <= vmax n f.
Proof.
  intros Hn. eapply Rle_trans; [apply (vmin_le n f 0); lia|apply vmax_ge; lia].
Qed.

Lemma vmax_abs_nonneg n f : 0 <= vmax n (fun i => Rabs (f i)).
Proof.
  destruct n; [simpl; lra|].
  eapply Rle_trans; [apply Rabs_pos|]. apply (vmax_ge (S n) (fun i => Rabs (f i)) 0); lia.
Qed.

(** characterisation: the greatest entry *)
Lemma vmax_unique n f c :
  (0 < n)%nat -> (forall i, (i < n)%nat -> f i <= c) -> (exists i, (i < n)%nat /\ f i = c) ->
  vmax n f = c.
Proof.
  intros Hn H (i & Hi & E). apply Rle_antisym.
  - apply vmax_le; auto.
  - rewrite <- E. apply vmax_ge; auto.
Qed.

(** ** list sums *)

Lemma lsum_ext {A} (l : list A) f g : (forall a, In a l -> f a = g a) -> lsum l f = lsum l g.
Proof. induction l; simpl; intros H; auto. rewrite (H a) by auto. rewrite IHl; auto. Qed.

Lemma lsum_plus {A} (l : list A) f g : lsum l (fun a => f a + g a) = lsum l f + lsum l g.
Proof. induction l; simpl; [lra|]. rewrite IHl; lra. Qed.

Lemma lsum_scal_l {A} (l : list A) c f : lsum l (fun a => c * f a) = c * lsum l f.
Proof. induction l; simpl; [lra|]. rewrite IHl; lra. Qed.

Lemma lsum_scal_r {A} (l : list A) c f : lsum l (fun a => f a * c) = lsum l f * c.
Proof. induction l; simpl; [lra|]. rewrite IHl; lra. Qed.

Lemma lsum_zero {A} (l : list A) f : (forall a, In a l -> f a = 0) -> lsum l f = 0.
Proof. induction l; simpl; intros H; auto. rewrite (H a) by auto. rewrite IHl; auto; lra. Qed.

Lemma lsum_map {A B} (g : A -> B) (l : list A) f : lsum (map g l) f = lsum l (fun a => f (g a)).
Proof. induction l; simpl; auto. now rewrite IHl. Qed.

Lemma lsum_app {A} (l1 l2 : list A) f : lsum (l1 ++ l2) f = lsum l1 f + lsum l2 f.
Proof. induction l1; simpl; [lra|]. rewrite IHl1; lra. Qed.

Lemma lsum_rsum {A} n (l : list A) (f : A -> nat -> R) :
  rsum n (fun i => lsum l (fun a => f a i)) = lsum l (fun a => rsum n (f a)).
Proof.
  induction l; simpl.
  - apply rsum_zero; auto.
  - rewrite rsum_plus, IHl. reflexivity.
Qed.

(** ** loops *)

Lemma for_S {A} n (body : nat -> A -> A) s : for_ (S n) body s = body n (for_ n body s).
Proof. reflexivity. Qed.

Lemma for_ind {A} (P : nat -> A -> Prop) n body s :
  P O s -> (forall i x, (i < n)%nat -> P i x -> P (S i) (body i x)) -> P n (for_ n body s).
Proof.
  intros H0 HS. assert (G : forall k, (k <= n)%nat -> P k (for_ k body s)).
  { induction k; intros Hk; auto. simpl. apply HS; [lia|apply IHk; lia]. }
  apply G; lia.
Qed.

Lemma for_ext {A} n (f g : nat -> A -> A) s :
  (forall i x, (i < n)%nat -> f i x = g i x) -> for_ n f s = for_ n g s.
Proof.
  induction n; simpl; intros H; auto.
  rewrite IHn by (intros; apply H; lia). apply H; lia.
Qed.

(** ** updates *)

Lemma upd_eq {A} (f : nat -> A) i x : upd f i x i = x.
Proof. unfold upd; now rewrite Nat.eqb_refl. Qed.
Lemma upd_neq {A} (f : nat -> A) i j x : j <> i -> upd f i x j = f j.
Proof. intros H; unfold upd. apply Nat.eqb_neq in H; now rewrite H. Qed.
Lemma upd2_eq A i m x : upd2 A i m x i m = x.
Proof. unfold upd2; now rewrite !Nat.eqb_refl. Qed.
Lemma upd2_neq A i m x i' m' : (i' <> i \/ m' <> m) -> upd2 A i m x i' m' = A i' m'.
Proof.
  intros H; unfold upd2. destruct (Nat.eqb_spec i' i), (Nat.eqb_spec m' m); simpl; auto.
  destruct H; congruence.
Qed.

Lemma INR_pos n : (0 < n)%nat -> 0 < INR n.
Proof. intros; apply lt_0_INR; auto. Qed.
Lemma INR_neq0 n : (0 < n)%nat -> INR n <> 0.
Proof. intros; apply not_0_INR; lia. Qed.

Lemma Rabs_le_inv x y : Rabs x <= y -> - y <= x <= y.
Proof. intros H. unfold Rabs in H. destruct (Rcase_abs x); lra. Qed.
Lemma Rabs_lt_inv x y : Rabs x < y -> - y < x < y.
Proof. intros H. unfold Rabs in H. destruct (Rcase_abs x); lra. Qed.
