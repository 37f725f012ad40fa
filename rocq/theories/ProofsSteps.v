(** ProofsSteps.v -- invariants of revival by random, of steps and metasteps. *)

From Coq Require Import Reals Lra Lia List Bool Arith ZArith.
From Verif Require Import Base ModelParts ModelKernel ProofsKernel ProofsParts.
Import ListNotations.
Open Scope R_scope.

(* ------------------------------------------------------------------ *)
(** * Random revival *)

Section Rand.
Context {G : Type} (ops : rng_ops G).

Fixpoint iter {A} (n : nat) (f : A -> A) (x : A) : A :=
  match n with O => x | S k => f (iter k f x) end.

Lemma iter_add {A} a b (f : A -> A) x : iter (a + b) f x = iter a f (iter b f x).
Proof. induction a; simpl; congruence. Qed.

Definition next (g : G) : G := snd (g_uniform ops g).

Lemma redraw_column_spec nf np t0 scaler m t g t' g' :
  redraw_column ops nf np t0 scaler m (t, g) = (t', g') ->
  g' = iter nf next g /\
  (forall i m', (m' <> m \/ (nf <= i)%nat) -> t' i m' = t i m') /\
  (forall i, (i < nf)%nat -> exists gi,
     t' i m = target_center np t0 i + target_width np t0 i * scaler * fst (g_uniform ops gi)).
Proof.
  unfold redraw_column. revert t' g'. induction nf; intros t' g'.
  - simpl. intros H; injection H as <- <-. split; [auto|split]; intros; [auto|lia].
  - rewrite for_S. destruct (for_ nf _ (t, g)) as [t1 g1].
    destruct (IHnf t1 g1 eq_refl) as (I1 & I2 & I3).
    destruct (g_uniform ops g1) as [u g2] eqn:EU. intros H; injection H as <- <-.
    split; [simpl; rewrite <- I1; unfold next; now rewrite EU|]. split.
    + intros i m' H. rewrite upd2_neq by lia. apply I2. lia.
    + intros i Hi. destruct (Nat.eq_dec i nf) as [->|N].
      * exists g1. rewrite upd2_eq, EU. reflexivity.
      * rewrite upd2_neq by lia. apply I3. lia.
Qed.

Lemma revive_by_random_spec nf np J t thr g scaler count J' t' g' :
  revive_by_random ops nf np J t thr g scaler = (count, J', t', g') ->
  count = ncount np (fun m => Rleb (J m) thr) /\
  g' = iter (count * nf) next g /\
  (forall m, (m < np)%nat -> J m <= thr -> J' m = 1) /\
  (forall m, (np <= m)%nat \/ thr < J m -> J' m = J m) /\
  (forall i m, (nf <= i)%nat \/ (np <= m)%nat \/ thr < J m -> t' i m = t i m) /\
  (forall i m, (i < nf)%nat -> (m < np)%nat -> J m <= thr -> exists gi,
     t' i m = target_center np t i + target_width np t i * scaler * fst (g_uniform ops gi)).
Proof.
  unfold revive_by_random. 
  assert (GEN : forall n, (n <= np)%nat -> forall count J' t' g',
    for_ n (fun m '(count, J, t1, g) =>
     if Rleb (J m) thr then
       let '(t', g') := redraw_column ops nf np t scaler m (t1, g) in
       (S count, upd J m 1, t', g')
     else (count, J, t1, g)) (O, J, t, g) = (count, J', t', g') ->
  count = ncount n (fun m => Rleb (J m) thr) /\
  g' = iter (count * nf) next g /\
  (forall m, (m < n)%nat -> J m <= thr -> J' m = 1) /\
  (forall m, (n <= m)%nat \/ thr < J m -> J' m = J m) /\
  (forall i m, (nf <= i)%nat \/ (n <= m)%nat \/ thr < J m -> t' i m = t i m) /\
  (forall i m, (i < nf)%nat -> (m < n)%nat -> J m <= thr -> exists gi,
     t' i m = target_center np t i + target_width np t i * scaler * fst (g_uniform ops gi))).
  { clear count J' t' g'. induction n; intros Hn count J' t' g'.
    - simpl. intros H; injection H as <- <- <- <-. repeat split; auto; intros; lia.
    - rewrite for_S. destruct (for_ n _ _) as [[[c1 J1] t1] g1].
      destruct (IHn ltac:(lia) c1 J1 t1 g1 eq_refl) as (I0 & I1 & I2 & I3 & I4 & I5).
      assert (EJ : J1 n = J n) by (apply I3; lia). rewrite EJ.
      cbn [ncount]. destruct (Rleb (J n) thr) eqn:ED.
      + destruct (redraw_column ops nf np t scaler n (t1, g1)) as [t2 g2] eqn:ER.
        apply redraw_column_spec in ER. destruct ER as (R1 & R2 & R3).
        intros H; injection H as <- <- <- <-. apply Rleb_true in ED.
        split; [lia|]. split; [|split; [|split; [|split]]].
        * rewrite R1, I1. simpl. now rewrite iter_add.
        * intros m Hm Hd. destruct (Nat.eq_dec m n) as [->|N].
          -- apply upd_eq.
          -- rewrite upd_neq by auto. apply I2; auto; lia.
        * intros m Hm. destruct (Nat.eq_dec m n) as [->|N].
          -- destruct Hm; [lia|lra].
          -- rewrite upd_neq by auto. apply I3. destruct Hm; [left; lia|auto].
        * intros i m Hm. rewrite R2.
          -- apply I4. destruct Hm as [?|[?|?]]; auto. right; left; lia.
          -- destruct Hm as [?|[?|?]]; auto; left; intros ->; [lia|lra].
        * intros i m Hi Hm Hd. destruct (Nat.eq_dec m n) as [->|N].
          -- apply R3; auto.
          -- rewrite R2 by auto. apply I5; auto; lia.
      + intros H; injection H as <- <- <- <-. apply Rleb_false in ED.
        split; [lia|]. split; [auto|]. split; [|split; [|split]].
        * intros m Hm Hd. destruct (Nat.eq_dec m n) as [->|N]; [lra|]. apply I2; auto; lia.
        * intros m Hm. destruct (Nat.eq_dec m n) as [->|N]; [auto|]. apply I3. destruct Hm; [left; lia|auto].
        * intros i m Hm. destruct (Nat.eq_dec m n) as [->|N].
          -- apply I4. auto.
          -- apply I4. destruct Hm as [?|[?|?]]; auto. right; left; lia.
        * intros i m Hi Hm Hd. destruct (Nat.eq_dec m n) as [->|N]; [lra|]. apply I5; auto; lia. }
  intros H. apply (GEN np (Nat.le_refl _) _ _ _ _ H).
Qed.

Lemma dead_count np J thr :
  (ncount np (fun m => Rleb (J m) thr) = np - count_valid np J thr)%nat.
Proof.
  unfold count_valid.
  pose proof (ncount_negb np (fun m => Rltb thr (J m))) as H.
  rewrite (ncount_ext np (fun m => Rleb (J m) thr) (fun m => negb (Rltb thr (J m)))); [lia|].
  intros m _. destruct (Rltb thr (J m)) eqn:E; simpl.
  - apply Rltb_true in E. now apply Rleb_false.
  - apply Rltb_false in E. now apply Rleb_true.
Qed.

End Rand.

(* ------------------------------------------------------------------ *)
(** * Steps *)

Section Steps.
Context {G St : Type} (ops : rng_ops G).
Implicit Types (q : kernel) (k : kstate G St) (w : mstate G St).

Definition start k : mstate G St := {| w_k := k; w_count := O; w_valid := 0%Z; w_rep := None |}.

(** [v_Js] has a living compartment. *)
Definition some_alive q (J : vec) : Prop := exists m, (m < q_np q)%nat /\ q_thr q < J m.

(** What [maybe_revive] may do. *)
Lemma maybe_revive_cases q tries count k count' k' :
  maybe_revive ops q tries count k = (count', k') ->
  (count' = count /\ k' = k /\
     ((tries <= Z.of_nat count)%Z \/ forall m, (m < q_np q)%nat -> q_thr q < v_Js k m)) \/
  ((Z.of_nat count < tries)%Z /\
   exists c J t g,
     revive_by_random ops (q_nf q) (q_np q) (v_Js k) (v_omegas k) (q_thr q) (v_g k) (q_scaler q)
       = (c, J, t, g) /\ (0 < c)%nat /\ (c <= q_np q)%nat /\
     count' = (count + c)%nat /\
     k' = {| v_omegas := t; v_Js := J; v_phis_comp := v_phis_comp k;
             v_phis_feat := v_phis_feat k; v_cons := v_cons k; v_g := g |}).
Proof.
  unfold maybe_revive. destruct (Z.ltb_spec (Z.of_nat count) tries) as [L|L].
  - destruct (Nat.eqb_spec (count_valid (q_np q) (v_Js k) (q_thr q)) (q_np q)) as [E|E].
    + intros H; injection H as <- <-. left. repeat split; auto. right.
      intros m Hm. unfold count_valid in E. rewrite ncount_all in E. apply Rltb_true. auto.
    + destruct (revive_by_random _ _ _ _ _ _ _ _) as [[[c J] t] g] eqn:ER.
      intros H; injection H as <- <-. right. split; auto. exists c, J, t, g.
      repeat split; auto; apply revive_by_random_spec in ER; destruct ER as (-> & _);
        rewrite dead_count; unfold count_valid in *;
        pose proof (ncount_le (q_np q) (fun m => Rltb (q_thr q) (v_Js k m))); lia.
  - intros H; injection H as <- <-. left. auto.
Qed.

(** Revival keeps (or creates) living compartments. *)
Lemma maybe_revive_alive q tries count k count' k' :
  q_thr q < 1 -> some_alive q (v_Js k) ->
  maybe_revive ops q tries count k = (count', k') -> some_alive q (v_Js k').
Proof.
  intros Ht (m & Hm & HJ) H. apply maybe_revive_cases in H.
  destruct H as [(_ & -> & _)|(_ & c & J & t & g & ER & _ & _ & _ & ->)].
  - exists m; auto.
  - apply revive_by_random_spec in ER. destruct ER as (_ & _ & _ & R3 & _ & _).
    exists m. split; auto. simpl. rewrite R3 by auto. auto.
Qed.

(** An iteration keeps a living compartment. *)
Lemma iterate_alive q k k' nv rep :
  q_thr q < 1 -> iterate q k = Ok (k', nv, rep) -> some_alive q (v_Js k').
Proof.
  intros Ht H. apply iterate_inv in H. destruct H as (p0 & Q & phis & inc & _ & _ & F).
  rewrite (if_Js F).
  destruct (lt_dec 0 (count_valid (q_np q) (t_J2 q k phis inc) (q_thr q))) as [L|L].
  { apply count_valid_pos in L. exact L. }
  exfalso. assert (E : count_valid (q_np q) (t_J2 q k phis inc) (q_thr q) = O) by lia.
  unfold count_valid in E. rewrite ncount_none in E.
  pose proof (t_J2_sum q k phis inc (if_nv_pos F)) as S.
  assert (rsum (q_np q) (t_J2 q k phis inc) <= rsum (q_np q) (fun m => q_thr q * t_masks q k m)).
  { apply rsum_le. intros m Hm. specialize (E m Hm). apply Rltb_false in E.
    unfold t_masks. destruct (mask_cases (v_Js k) (q_thr q) m) as [[_ EM]|[HD EM]]; rewrite EM; [lra|].
    rewrite t_J2_dead by auto. lra. }
  rewrite rsum_scal_l in H. unfold t_masks in H. rewrite masks_sum in H. fold (t_nv q k) in H.
  pose proof (INR_pos _ (if_nv_pos F)). nra.
Qed.

(** Entropy and ensemble never raise for admissible volumes. *)
Definition parts_total q : Prop :=
  forall phis (w : mat) J masks,
    (forall m, (m < q_np q)%nat -> 0 <= J m) -> (exists m, (m < q_np q)%nat /\ 0 < J m) ->
    exists phis0 Qs phis1 inc,
      s_partition (q_entropy q) (q_np q) phis w J = Ok (phis0, Qs) /\
      n_normalize (q_ensemble q) phis0 Qs masks = Ok (phis1, inc).

Lemma t_J_nonneg q k : 0 <= q_thr q -> forall m, 0 <= t_J q k m.
Proof.
  intros Ht m. unfold t_J, t_masks.
  destruct (mask_cases (v_Js k) (q_thr q) m) as [[H ->]|[_ ->]]; lra.
Qed.

Lemma t_J_some_pos q k : 0 <= q_thr q -> some_alive q (v_Js k) ->
  exists m, (m < q_np q)%nat /\ 0 < t_J q k m.
Proof.
  intros Ht (m & Hm & HJ). exists m. split; auto. unfold t_J, t_masks.
  rewrite mask_alive by auto. lra.
Qed.

Lemma iterate_total q k :
  parts_total q -> 0 <= q_thr q -> 0 < q_ub q -> some_alive q (v_Js k) ->
  exists k' nv rep, iterate q k = Ok (k', nv, rep).
Proof.
  intros HP Ht Hu HA.
  destruct (HP (v_phis_comp k) (v_omegas k) (t_J q k) (t_masks q k)) as (p0 & Q & p1 & inc & H1 & H2).
  - intros; now apply t_J_nonneg.
  - now apply t_J_some_pos.
  - eapply iterate_ok; eauto.
    + unfold t_nv. apply count_valid_pos. exact HA.
    + apply Rgt_not_eq. now apply t_change_pos.
Qed.

Lemma one_step_total q tries w :
  parts_total q -> 0 <= q_thr q < 1 -> 0 < q_ub q -> some_alive q (v_Js (w_k w)) ->
  exists w', one_step ops q tries w = Ok w' /\ some_alive q (v_Js (w_k w')).
Proof.
  intros HP Ht Hu HA. unfold one_step.
  destruct (maybe_revive ops q tries (w_count w) (w_k w)) as [c k1] eqn:EM.
  apply maybe_revive_alive in EM; [|lra|auto].
  destruct (iterate_total q k1 HP ltac:(lra) Hu EM) as (k' & nv & rep & E).
  rewrite E. simpl. eexists. split; [reflexivity|]. simpl.
  eapply iterate_alive; eauto. lra.
Qed.

Lemma steps_total q tries n w :
  parts_total q -> 0 <= q_thr q < 1 -> 0 < q_ub q -> some_alive q (v_Js (w_k w)) ->
  exists w', steps ops q tries n w = Ok w' /\ some_alive q (v_Js (w_k w')).
Proof.
  intros HP Ht Hu HA. induction n; simpl; [eauto|].
  destruct IHn as (w1 & -> & HA1). simpl. now apply one_step_total.
Qed.

Lemma steps_S_rep q tries n w w' : steps ops q tries (S n) w = Ok w' -> exists rep, w_rep w' = Some rep.
Proof.
  simpl. intros H. apply bind_Ok in H. destruct H as (w1 & _ & H).
  unfold one_step in H. destruct (maybe_revive _ _ _ _ _) as [c k1].
  apply bind_Ok in H. destruct H as ([[k' nv] rep] & _ & H). injection H as <-. simpl; eauto.
Qed.

(** The step after a split behaves like the step of an unsplit run. *)
Lemma maybe_revive_shift q tries c0 c k :
  maybe_revive ops q tries (c0 + c) k =
  (let '(c', k') := maybe_revive ops q (tries - Z.of_nat c0) c k in ((c0 + c')%nat, k')).
Proof.
  unfold maybe_revive.
  replace (Z.of_nat (c0 + c) <? tries)%Z with (Z.of_nat c <? tries - Z.of_nat c0)%Z.
  2: { destruct (Z.ltb_spec (Z.of_nat c) (tries - Z.of_nat c0)),
        (Z.ltb_spec (Z.of_nat (c0 + c)) tries); auto; lia. }
  destruct (Z.ltb _ _); auto. destruct (Nat.eqb _ _); auto.
  destruct (revive_by_random _ _ _ _ _ _ _ _) as [[[c1 J] t] g]. f_equal. lia.
Qed.

Definition shift_count (c0 : nat) (w : mstate G St) : mstate G St :=
  {| w_k := w_k w; w_count := (c0 + w_count w)%nat; w_valid := w_valid w; w_rep := w_rep w |}.

Definition res_map {A B} (f : A -> B) (x : res A) : res B :=
  match x with Ok a => Ok (f a) | Err e => Err e end.

Lemma one_step_shift q tries c0 w :
  one_step ops q tries (shift_count c0 w) =
  res_map (shift_count c0) (one_step ops q (tries - Z.of_nat c0) w).
Proof.
  unfold one_step. simpl. rewrite maybe_revive_shift.
  destruct (maybe_revive ops q (tries - Z.of_nat c0) (w_count w) (w_k w)) as [c k1].
  destruct (iterate q k1) as [[[k' nv] rep]|e]; reflexivity.
Qed.

Lemma steps_shift q tries c0 n w :
  steps ops q tries n (shift_count c0 w) =
  res_map (shift_count c0) (steps ops q (tries - Z.of_nat c0) n w).
Proof.
  induction n; [reflexivity|]. simpl. rewrite IHn.
  destruct (steps ops q (tries - Z.of_nat c0) n w) as [w1|e]; simpl; [|reflexivity].
  apply one_step_shift.
Qed.

Lemma steps_add q tries a b w :
  steps ops q tries (a + b) w = bind (steps ops q tries a w) (steps ops q tries b).
Proof.
  induction b.
  - rewrite Nat.add_0_r. destruct (steps ops q tries a w); reflexivity.
  - rewrite Nat.add_succ_r. simpl. rewrite IHb.
    destruct (steps ops q tries a w); reflexivity.
Qed.

(** Steps do not depend on the stale report and valid count at the start. *)
Lemma one_step_stale q tries w w0 :
  w_k w = w_k w0 -> w_count w = w_count w0 -> one_step ops q tries w = one_step ops q tries w0.
Proof. intros E1 E2. unfold one_step. now rewrite E1, E2. Qed.

Lemma steps_stale q tries n w w0 :
  w_k w = w_k w0 -> w_count w = w_count w0 ->
  steps ops q tries (S n) w = steps ops q tries (S n) w0.
Proof.
  intros E1 E2. change (S n) with (1 + n)%nat. rewrite !steps_add. simpl.
  now rewrite (one_step_stale q tries w w0 E1 E2).
Qed.

(** Splitting [a + S b] steps: restart with the remaining budget. *)
Lemma steps_restart q tries a b k :
  steps ops q tries (a + S b) (start k) =
  bind (steps ops q tries a (start k)) (fun w =>
    res_map (shift_count (w_count w)) (steps ops q (tries - Z.of_nat (w_count w)) (S b) (start (w_k w)))).
Proof.
  rewrite steps_add. destruct (steps ops q tries a (start k)) as [w|e]; cbn [bind]; [|reflexivity].
  rewrite <- steps_shift. apply steps_stale; simpl; [reflexivity|lia].
Qed.

(* ------------------------------------------------------------------ *)
(** * Budget *)

Lemma one_step_count q tries w w' :
  one_step ops q tries w = Ok w' ->
  (w_count w <= w_count w')%nat /\
  ((tries <= Z.of_nat (w_count w))%Z -> w_count w' = w_count w) /\
  (Z.of_nat (w_count w') <= Z.max (Z.of_nat (w_count w)) (tries + Z.of_nat (q_np q) - 1))%Z.
Proof.
  unfold one_step. destruct (maybe_revive _ _ _ _ _) as [c k1] eqn:EM.
  intros H. apply bind_Ok in H. destruct H as ([[k' nv] rep] & _ & H). injection H as <-. simpl.
  apply maybe_revive_cases in EM.
  destruct EM as [(-> & _ & _)|(L & c1 & J & t & g & _ & P1 & P2 & -> & _)]; lia.
Qed.

Lemma steps_count q tries n w w' :
  steps ops q tries n w = Ok w' ->
  (w_count w <= w_count w')%nat /\
  ((tries <= Z.of_nat (w_count w))%Z -> w_count w' = w_count w) /\
  (Z.of_nat (w_count w') <= Z.max (Z.of_nat (w_count w)) (tries + Z.of_nat (q_np q) - 1))%Z.
Proof.
  revert w'. induction n; simpl; intros w' H.
  - injection H as <-. lia.
  - apply bind_Ok in H. destruct H as (w1 & H1 & H2).
    specialize (IHn w1 H1). apply one_step_count in H2. lia.
Qed.

(* ------------------------------------------------------------------ *)
(** * Dead compartments *)

Lemma iterate_dead q k k' nv rep m :
  iterate q k = Ok (k', nv, rep) -> v_Js k m <= q_thr q ->
  v_Js k' m = 0 /\ (forall r, v_omegas k' r m = 0).
Proof.
  intros H HD. apply iterate_inv in H. destruct H as (p0 & Q & phis & inc & _ & _ & F).
  split.
  - rewrite (if_Js F). now apply t_J2_dead.
  - intros r. rewrite (if_omegas F). unfold t_omegas, t_masks. rewrite mask_dead by auto. lra.
Qed.

(** ensembles that mask the fractions of dead compartments *)
Definition masking (n : ensemble) : Prop :=
  forall phis0 Qs masks phis inc i m,
    n_normalize n phis0 Qs masks = Ok (phis, inc) -> (i < n_comp n)%nat -> masks m = 0 -> phis i m = 0.

Lemma iterate_dead_comp q k k' nv rep m :
  iterate q k = Ok (k', nv, rep) -> masking (q_ensemble q) -> v_Js k m <= q_thr q ->
  forall i, (i < n_comp (q_ensemble q))%nat -> v_phis_comp k' i m = 0.
Proof.
  intros H HM HD i Hi. apply iterate_inv in H. destruct H as (p0 & Q & phis & inc & _ & HN & F).
  rewrite (if_comp F). eapply HM; eauto. unfold t_masks. now apply mask_dead.
Qed.

Lemma can_masking nc pm : masking (can_compiled nc pm).
Proof.
  intros phis0 Qs masks phis inc i m H Hi Hm. simpl in *.
  apply can_normalize_spec in H. destruct H as (_ & H & _). rewrite H by auto. rewrite Hm. lra.
Qed.
Lemma gc_masking nc a : masking (gc_compiled nc a).
Proof.
  intros phis0 Qs masks phis inc i m H Hi Hm. simpl in *.
  apply gc_normalize_spec in H. destruct H as (H & _). rewrite H by auto. rewrite Hm. lra.
Qed.

Lemma one_step_no_budget q tries w w' :
  (tries <= Z.of_nat (w_count w))%Z -> one_step ops q tries w = Ok w' ->
  exists nv rep, iterate q (w_k w) = Ok (w_k w', nv, rep) /\ w_valid w' = nv /\ w_rep w' = Some rep.
Proof.
  intros L H. unfold one_step in H. destruct (maybe_revive _ _ _ _ _) as [c k1] eqn:EM.
  apply maybe_revive_cases in EM.
  destruct EM as [(-> & -> & _)|(L' & _)]; [|lia].
  apply bind_Ok in H. destruct H as ([[k' nv] rep] & E & H). injection H as <-. simpl. eauto.
Qed.

Lemma steps_dead q tries n w w' m :
  0 <= q_thr q -> (tries <= Z.of_nat (w_count w))%Z ->
  steps ops q tries (S n) w = Ok w' -> v_Js (w_k w) m <= q_thr q ->
  v_Js (w_k w') m = 0 /\ (forall r, v_omegas (w_k w') r m = 0) /\
  (masking (q_ensemble q) -> forall i, (i < n_comp (q_ensemble q))%nat -> v_phis_comp (w_k w') i m = 0).
Proof.
  intros Ht L H HD. revert w' H. induction n; intros w' H.
  - simpl in H. apply one_step_no_budget in H; auto. destruct H as (nv & rep & E & _).
    pose proof (iterate_dead _ _ _ _ _ m E HD) as [A B]. split; [auto|]. split; [auto|].
    intros. eapply iterate_dead_comp; eauto.
  - change (bind (steps ops q tries (S n) w) (one_step ops q tries) = Ok w') in H.
    apply bind_Ok in H. destruct H as (w1 & H1 & H2).
    destruct (IHn w1 H1) as (A1 & _ & _). apply steps_count in H1. destruct H1 as (_ & HC & _).
    specialize (HC L). apply one_step_no_budget in H2; [|lia]. destruct H2 as (nv & rep & E & _).
    assert (HD1 : v_Js (w_k w1) m <= q_thr q) by lra.
    pose proof (iterate_dead _ _ _ _ _ m E HD1) as [A B]. split; [auto|]. split; [auto|].
    intros. eapply iterate_dead_comp; eauto.
Qed.

End Steps.

(* ------------------------------------------------------------------ *)
(** * Built-in parts never raise *)

Lemma builtin_total_ig_can q nc sizes pm :
  q_entropy q = ig_compiled nc sizes -> q_ensemble q = can_compiled nc pm -> parts_total q.
Proof.
  intros E1 E2 phis w J masks HJ HP. rewrite E1, E2. simpl.
  assert (rsum (q_np q) J <> 0) by (apply Rgt_not_eq, rsum_pos; auto).
  destruct (ig_partition_ok nc sizes (q_np q) phis w J H) as (p0 & Q & EP).
  destruct (ig_partition_spec _ _ _ _ _ _ _ _ EP) as (_ & _ & HQ).
  destruct (can_normalize_ok nc pm p0 Q masks) as (p1 & inc & EN).
  - intros i Hi. rewrite HQ by auto. apply Rgt_not_eq. now apply ig_Q_pos.
  - exists p0, Q, p1, inc. auto.
Qed.

Lemma builtin_total_ig_gc q nc sizes a :
  q_entropy q = ig_compiled nc sizes -> q_ensemble q = gc_compiled nc a -> parts_total q.
Proof.
  intros E1 E2 phis w J masks HJ HP. rewrite E1, E2. simpl.
  assert (rsum (q_np q) J <> 0) by (apply Rgt_not_eq, rsum_pos; auto).
  destruct (ig_partition_ok nc sizes (q_np q) phis w J H) as (p0 & Q & EP).
  destruct (gc_normalize_ok nc a p0 Q masks) as (p1 & inc & EN).
  exists p0, Q, p1, inc. auto.
Qed.

Lemma builtin_total_pg_can q nf npf sizes pm :
  q_entropy q = pg_compiled (nsum nf npf) nf npf sizes ->
  q_ensemble q = can_compiled (nsum nf npf) pm -> parts_total q.
Proof.
  intros E1 E2 phis w J masks HJ HP. rewrite E1, E2. simpl.
  assert (rsum (q_np q) J <> 0) by (apply Rgt_not_eq, rsum_pos; auto).
  destruct (pg_partition_ok nf npf sizes (q_np q) phis w J H) as (p0 & Q & EP).
  destruct (pg_partition_spec _ _ _ _ _ _ _ _ _ EP) as (_ & _ & HQ).
  destruct (can_normalize_ok (nsum nf npf) pm p0 Q masks) as (p1 & inc & EN).
  - intros i Hi. destruct (nsum_find _ _ _ Hi) as (r & j & Hr & Hj & ->).
    rewrite HQ by auto. apply Rgt_not_eq. now apply ig_Q_pos.
  - exists p0, Q, p1, inc. auto.
Qed.

Lemma builtin_total_pg_gc q nf npf sizes a :
  q_entropy q = pg_compiled (nsum nf npf) nf npf sizes ->
  q_ensemble q = gc_compiled (nsum nf npf) a -> parts_total q.
Proof.
  intros E1 E2 phis w J masks HJ HP. rewrite E1, E2. simpl.
  assert (rsum (q_np q) J <> 0) by (apply Rgt_not_eq, rsum_pos; auto).
  destruct (pg_partition_ok nf npf sizes (q_np q) phis w J H) as (p0 & Q & EP).
  destruct (gc_normalize_ok (nsum nf npf) a p0 Q masks) as (p1 & inc & EN).
  exists p0, Q, p1, inc. auto.
Qed.
