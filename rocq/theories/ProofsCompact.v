(** ProofsCompact.v -- approximate solutions of continuous equations on a box
    are close to exact ones. *)

From Coquelicot Require Import Coquelicot.
From Coq Require Import Reals Lra Lia Classical.
From Verif Require Import Base.
Open Scope R_scope.

(* ------------------------------------------------------------------ *)
(** * Boxes *)

(** [x] lies in the box, [x] and [t] differ by less than [d] *)
Definition inbox (n : nat) (lo hi x : vec) : Prop := forall j, (j < n)%nat -> lo j <= x j <= hi j.
Definition near (n : nat) (d : R) (x t : vec) : Prop := forall j, (j < n)%nat -> Rabs (x j - t j) < d.

(** vectors as nested pairs, as in Coquelicot's theorem *)
Fixpoint pack (n : nat) (x : vec) : Tn n R :=
  match n with O => tt | S n => (x 0%nat, pack n (fun j => x (S j))) end.
Fixpoint unpack (n : nat) : Tn n R -> vec :=
  match n with
  | O => fun _ _ => 0
  | S n => fun t j => match j with O => fst t | S j => unpack n (snd t) j end
  end.

Lemma bounded_inbox n : forall lo hi t, bounded_n n (pack n lo) (pack n hi) t <-> inbox n lo hi (unpack n t).
Proof.
  induction n as [|n IH]; intros lo hi t.
  - split; [intros _ j Hj; lia|easy].
  - destruct t as [t1 t2]. cbn [pack bounded_n unpack fst snd]. rewrite IH. unfold inbox. split.
    + intros (A & B) [|j] Hj; [exact A|]. apply B. lia.
    + intros H. split; [apply (H 0%nat); lia|]. intros j Hj. apply (H (S j)). lia.
Qed.

Lemma close_near n d : forall x t, close_n n d x t <-> near n d (unpack n x) (unpack n t).
Proof.
  induction n as [|n IH]; intros x t.
  - split; [intros _ j Hj; lia|easy].
  - destruct x as [x1 x2], t as [t1 t2]. cbn [close_n unpack fst snd]. rewrite IH. unfold near. split.
    + intros (A & B) [|j] Hj; [exact A|]. apply B. lia.
    + intros H. split; [apply (H 0%nat); lia|]. intros j Hj. apply (H (S j)). lia.
Qed.

Lemma unpack_pack n : forall x j, (j < n)%nat -> unpack n (pack n x) j = x j.
Proof.
  induction n as [|n IH]; intros x j Hj; [lia|]. cbn [pack unpack]. destruct j; [reflexivity|]. cbn [snd]. rewrite IH by lia. reflexivity.
Qed.

(** What holds near every point of the box at some scale holds on the whole box
    at a common scale. *)
Lemma uniform n lo hi (P : vec -> R -> Prop) :
  (forall x y d, (forall j, (j < n)%nat -> x j = y j) -> P x d -> P y d) ->
  (forall x d d', d' <= d -> P x d -> P x d') ->
  (forall t, inbox n lo hi t -> exists d, 0 < d /\ forall x, inbox n lo hi x -> near n d x t -> P x d) ->
  exists d, 0 < d /\ forall x, inbox n lo hi x -> P x d.
Proof.
  intros EXT MON LOC.
  set (good := fun (t : vec) (d : R) => inbox n lo hi t -> forall x, inbox n lo hi x -> near n d x t -> P x d).
  set (E := fun (t : vec) (d : R) => 0 < d <= 1 /\ good t d).
  assert (EX : forall t, exists d, E t d).
  { intros t. destruct (classic (inbox n lo hi t)) as [I|I].
    - destruct (LOC t I) as (d & D & H). exists (Rmin d 1). unfold E, good. split.
      + split; [apply Rmin_glb_lt; lra|apply Rmin_r].
      + intros _ x Hx Hn. apply (MON x d); [apply Rmin_l|]. apply H; [exact Hx|]. intros j Hj.
        eapply Rlt_le_trans; [apply Hn, Hj|apply Rmin_l].
    - exists 1. split; [lra|]. intros J. contradiction. }
  assert (LUB : forall t, exists d, E t d /\ real (Lub_Rbar (E t)) / 2 < d /\ 0 < real (Lub_Rbar (E t)) / 2).
  { intros t. destruct (EX t) as (d0 & E0). destruct (Lub_Rbar_correct (E t)) as (U & L).
    destruct (Lub_Rbar (E t)) as [s| |].
    - cbn [real]. assert (S0 : d0 <= s) by exact (U d0 E0). destruct E0 as ((D0 & _) & G0).
      destruct (classic (exists d, E t d /\ s / 2 < d)) as [(d & Ed & Hd)|N]; [exists d; split; [exact Ed|lra]|exfalso].
      assert (B : Rbar_le (Finite s) (Finite (s / 2))).
      { apply L. intros d Ed. cbn. apply Rnot_lt_le. intros Hd. apply N. eauto. }
      cbn in B. lra.
    - exfalso. assert (B : Rbar_le p_infty (Finite 1)) by (apply L; intros d ((_ & D) & _); exact D). exact B.
    - exfalso. exact (U d0 E0). }
  assert (POS : forall t, 0 < real (Lub_Rbar (E t)) / 2) by (intros t; destruct (LUB t) as (d & _ & _ & H); exact H).
  destruct (compactness_value n (pack n lo) (pack n hi) (fun t => mkposreal _ (POS (unpack n t)))) as (d & D).
  exists d. split; [apply cond_pos|]. intros x Hx.
  specialize (D (pack n x)). apply NNPP. intros N. apply D.
  - apply bounded_inbox. intros j Hj. rewrite unpack_pack by exact Hj. apply Hx, Hj.
  - intros (t & Bt & Ct & Dt). apply N. cbn [pos] in *. apply bounded_inbox in Bt. apply close_near in Ct.
    destruct (LUB (unpack n t)) as (e & (_ & Ge) & He & _).
    apply (MON x e); [eapply Rle_trans; [exact Dt|lra]|]. apply (Ge Bt); [exact Hx|]. intros j Hj.
    specialize (Ct j Hj). rewrite unpack_pack in Ct by exact Hj. cbn in Ct. lra.
Qed.

(* ------------------------------------------------------------------ *)
(** * Continuity *)

Definition cont (n : nat) (f : vec -> R) (t : vec) : Prop :=
  forall e, 0 < e -> exists d, 0 < d /\ forall x, near n d x t -> Rabs (f x - f t) < e.

Lemma cont_const n c t : cont n (fun _ => c) t.
Proof. intros e He. exists 1. split; [lra|]. intros x _. rewrite Rminus_diag_eq, Rabs_R0; auto. Qed.

Lemma cont_proj n j t : (j < n)%nat -> cont n (fun x => x j) t.
Proof. intros Hj e He. exists e. split; [exact He|]. intros x H. apply H, Hj. Qed.

Lemma cont_ext n f g t : (forall x, f x = g x) -> cont n f t -> cont n g t.
Proof. intros E H e He. destruct (H e He) as (d & D & K). exists d. split; [exact D|]. intros x Hx. rewrite <- !E. auto. Qed.

Lemma cont_comp n f (h : R -> R) t : cont n f t -> continuity_pt h (f t) -> cont n (fun x => h (f x)) t.
Proof.
  intros F H e He. destruct (H e He) as (a & A & K). destruct (F a A) as (d & D & L). exists d. split; [exact D|].
  intros x Hx. destruct (Req_dec (f x) (f t)) as [E|E].
  - rewrite E, Rminus_diag_eq, Rabs_R0; auto.
  - apply (K (f x)). split; [split; [exact I|auto]|]. apply L, Hx.
Qed.

Lemma cont_plus n f g t : cont n f t -> cont n g t -> cont n (fun x => f x + g x) t.
Proof.
  intros F G e He. destruct (F (e / 2)) as (d1 & D1 & K1); [lra|]. destruct (G (e / 2)) as (d2 & D2 & K2); [lra|].
  exists (Rmin d1 d2). split; [now apply Rmin_glb_lt|]. intros x Hx.
  assert (A : Rabs (f x - f t) < e / 2) by (apply K1; intros j Hj; eapply Rlt_le_trans; [apply Hx, Hj|apply Rmin_l]).
  assert (B : Rabs (g x - g t) < e / 2) by (apply K2; intros j Hj; eapply Rlt_le_trans; [apply Hx, Hj|apply Rmin_r]).
  replace (f x + g x - (f t + g t)) with ((f x - f t) + (g x - g t)) by ring.
  eapply Rle_lt_trans; [apply Rabs_triang|]. lra.
Qed.

Lemma cont_mult n f g t : cont n f t -> cont n g t -> cont n (fun x => f x * g x) t.
Proof.
  intros F G.
  assert (SQ : forall h, cont n h t -> cont n (fun x => h x * h x) t).
  { intros h H. apply (cont_comp n h (fun y => y * y) t H).
    apply continuity_pt_mult; apply derivable_continuous_pt, derivable_pt_id. }
  assert (SC : forall c h, cont n h t -> cont n (fun x => c * h x) t).
  { intros c h H. apply (cont_comp n h (fun y => c * y) t H).
    apply continuity_pt_mult; [apply continuity_pt_const; intros ? ?; reflexivity|apply derivable_continuous_pt, derivable_pt_id]. }
  apply (cont_ext n (fun x => (1 / 4) * ((f x + g x) * (f x + g x)) + (- (1 / 4)) * ((f x + (- 1) * g x) * (f x + (- 1) * g x)))).
  { intros x. field. }
  apply cont_plus; apply SC; apply SQ; apply cont_plus; auto.
Qed.

Lemma cont_scal n c f t : cont n f t -> cont n (fun x => c * f x) t.
Proof. intros H. apply cont_mult; [apply cont_const|exact H]. Qed.

Lemma cont_minus n f g t : cont n f t -> cont n g t -> cont n (fun x => f x - g x) t.
Proof. intros F G. apply (cont_ext n (fun x => f x + (- 1) * g x)); [intros; ring|]. apply cont_plus; [exact F|now apply cont_scal]. Qed.

Lemma cont_div n f c t : cont n f t -> cont n (fun x => f x / c) t.
Proof. intros H. apply (cont_ext n (fun x => / c * f x)); [intros; unfold Rdiv; ring|]. now apply cont_scal. Qed.

Lemma cont_rsum n m (f : nat -> vec -> R) t : (forall i, (i < m)%nat -> cont n (f i) t) -> cont n (fun x => rsum m (fun i => f i x)) t.
Proof.
  induction m as [|m IH]; intros H; [exact (cont_const n 0 t)|]. apply (cont_ext n (fun x => rsum m (fun i => f i x) + f m x)).
  - intros x. reflexivity.
  - apply cont_plus; [apply IH; intros; apply H; lia|apply H; lia].
Qed.

Lemma cont_ln n f t : 0 < f t -> cont n f t -> cont n (fun x => ln (f x)) t.
Proof.
  intros P H. apply (cont_comp n f ln t H). apply derivable_continuous_pt. exists (/ f t). now apply derivable_pt_lim_ln.
Qed.

(* ------------------------------------------------------------------ *)
(** * Approximate solutions *)

(** Every point of the box at which all equations of a family hold
    approximately is close to a point at which all hold exactly. *)
Lemma approximate n lo hi (S : (vec -> R) -> Prop) :
  (forall g t, S g -> inbox n lo hi t -> cont n g t) ->
  forall e, 0 < e -> exists d, 0 < d /\ forall x, inbox n lo hi x -> (forall g, S g -> Rabs (g x) <= d) ->
    exists t, inbox n lo hi t /\ near n e x t /\ forall g, S g -> g t = 0.
Proof.
  intros C e He.
  set (P := fun (x : vec) (d : R) => (forall g, S g -> Rabs (g x) <= d) -> inbox n lo hi x ->
    exists t, inbox n lo hi t /\ near n e x t /\ forall g, S g -> g t = 0).
  destruct (uniform n lo hi P) as (d & D & H).
  - intros x y d E H G B.
    assert (BX : inbox n lo hi x) by (intros j Hj; rewrite (E j Hj); apply B, Hj).
    destruct H as (t & T1 & T2 & T3); [|exact BX|].
    + intros g Sg. replace (g x) with (g y); [now apply G|]. apply Rminus_diag_uniq. apply NNPP. intros N.
      destruct (C g x Sg BX (Rabs (g y - g x))) as (a & A & K); [now apply Rabs_pos_lt|].
      specialize (K y). apply (Rlt_irrefl (Rabs (g y - g x))). apply K. intros j Hj. rewrite (E j Hj), Rminus_diag_eq, Rabs_R0; auto.
    + exists t. split; [exact T1|]. split; [|exact T3]. intros j Hj. rewrite <- (E j Hj). apply T2, Hj.
  - intros x d d' L H G B. apply H; [|exact B]. intros g Sg. eapply Rle_trans; [apply G, Sg|exact L].
  - intros t Bt. destruct (classic (forall g, S g -> g t = 0)) as [Z|N].
    + exists e. split; [exact He|]. intros x Bx Nx _ _. exists t. auto.
    + apply not_all_ex_not in N. destruct N as (g & N). apply imply_to_and in N. destruct N as (Sg & N).
      assert (V : 0 < Rabs (g t)) by now apply Rabs_pos_lt.
      destruct (C g t Sg Bt (Rabs (g t) / 2)) as (a & A & K); [lra|].
      exists (Rmin a (Rabs (g t) / 4)). split; [apply Rmin_glb_lt; lra|]. intros x Bx Nx G _. exfalso.
      assert (K1 : Rabs (g x - g t) < Rabs (g t) / 2).
      { apply K. intros j Hj. eapply Rlt_le_trans; [apply Nx, Hj|apply Rmin_l]. }
      assert (K2 : Rabs (g x) <= Rabs (g t) / 4) by (eapply Rle_trans; [apply G, Sg|apply Rmin_r]).
      assert (K3 : Rabs (g t) <= Rabs (g x) + Rabs (g x - g t)).
      { replace (g t) with (g x + - (g x - g t)) at 1 by ring. eapply Rle_trans; [apply Rabs_triang|]. rewrite Rabs_Ropp. lra. }
      lra.
  - exists d. split; [exact D|]. intros x Bx G. exact (H x Bx G Bx).
Qed.
