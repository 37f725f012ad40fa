(** PropertiesWorld.v -- C76: several finders and generators in one program. *)

From Coq Require Import String Reals Lra Lia List Bool Arith ZArith.
From Verif Require Import Base ModelCommon ModelParts ModelKernel ModelPhases ModelFinder ModelHistory ModelWorld.
Import ListNotations.
Open Scope R_scope.

Section World.
Context {G St : Type} (ops : rng_ops G) (no : nat -> cons_obj St) (seeded : Z -> G).
Implicit Types (w : world G St).
Notation happen := (happen ops no seeded).
Notation happen_all := (happen_all ops no seeded).

Definition gen_of w n : option nat := option_map snd (nth_error (u_fs w) n).

Lemma set_nth_length {A} (l : list A) n a : length (set_nth l n a) = length l.
Proof. revert n. induction l as [|b l IH]; intros [|n]; cbn; auto. Qed.
Lemma set_nth_eq {A} (l : list A) n a : (n < length l)%nat -> nth_error (set_nth l n a) n = Some a.
Proof. revert n. induction l as [|b l IH]; intros [|n] H; cbn in *; try lia; auto. apply IH. lia. Qed.
Lemma set_nth_neq {A} (l : list A) n m a : m <> n -> nth_error (set_nth l n a) m = nth_error l m.
Proof. revert n m. induction l as [|b l IH]; intros [|n] [|m] H; cbn; auto; congruence. Qed.

Lemma nth_app {A} (l : list A) a n x : nth_error l n = Some x -> nth_error (l ++ [a]) n = Some x.
Proof. intros H. rewrite nth_error_app1; [exact H|]. apply nth_error_Some. congruence. Qed.

(** events other than calls on [n] keep the stored finder and its reference *)
Lemma happen_other w e n x : (forall c, e <> ECall n c) -> nth_error (u_fs w) n = Some x ->
  nth_error (u_fs (happen w e)) n = Some x.
Proof.
  intros He Hn. destruct e as [g|r h|x' [r|] now|m c]; cbn [ModelWorld.happen].
  - exact Hn.
  - destruct (Nat.ltb _ _); exact Hn.
  - destruct (Nat.ltb _ _); [|exact Hn]. unfold add_finder. destruct (build _ _ _ _); [|exact Hn]. now apply nth_app.
  - unfold add_finder. destruct (build _ _ _ _); [|exact Hn]. now apply nth_app.
  - destruct (nth_error (u_fs w) m) as [[f r]|]; [|exact Hn]. destruct (see w m); [|exact Hn]. cbn [u_fs].
    rewrite set_nth_neq; [exact Hn|]. intros ->. now apply (He c).
Qed.

Lemma with_same_g (f : finder G St) : with_k f (k_with_g (f_k f) (v_g (f_k f))) = f.
Proof. destruct f as [? ? ? ? ? ? ? ? k ? ?]. destruct k. reflexivity. Qed.

Lemma happen_call w n c (f : finder G St) r : nth_error (u_fs w) n = Some (f, r) ->
  exists f0, see w n = Some f0 /\ see (happen w (ECall n c)) n = Some (fst (exec ops no f0 c)) /\
    gen_of (happen w (ECall n c)) n = Some r.
Proof.
  intros H. set (f0 := with_k f (k_with_g (f_k f) (u_gen w r))).
  assert (S0 : see w n = Some f0) by (unfold see; now rewrite H). exists f0. split; [exact S0|].
  cbn [ModelWorld.happen]. rewrite H, S0. cbv zeta. unfold see, gen_of. cbn [u_fs u_gen].
  rewrite set_nth_eq by (apply nth_error_Some; congruence). cbn. rewrite upd_eq. split; [|reflexivity].
  f_equal. apply with_same_g.
Qed.

(** every event outside finder [n] leaves its generator in the same state *)
Fixpoint undisturbed n w (es : list (event G St)) : Prop :=
  match es with
  | [] => True
  | e :: es' =>
      (match e with ECall m _ => m = n | _ => False end \/
       forall r, gen_of w n = Some r -> u_gen (happen w e) r = u_gen w r) /\
      undisturbed n (happen w e) es'
  end.

(** A finder whose generator is not used from outside behaves as if it were
    alone: only the calls on it count. *)
Theorem C76_undisturbed n es : forall w f, see w n = Some f -> undisturbed n w es ->
  see (happen_all w es) n = Some (exec_all ops no f (calls_on n es)).
Proof.
  induction es as [|e es IH]; intros w f Hf HU; cbn [ModelWorld.happen_all fold_left calls_on exec_all].
  - exact Hf.
  - destruct HU as (H1 & H2). unfold ModelWorld.happen_all in IH.
    pose proof Hf as Hs. unfold see in Hs. destruct (nth_error (u_fs w) n) as [[f0 r]|] eqn:En; [|discriminate].
    destruct (match e with ECall m _ => Nat.eqb m n | _ => false end) eqn:EQ.
    + destruct e as [| | |m c]; try discriminate. apply Nat.eqb_eq in EQ. subst m. rewrite Nat.eqb_refl. cbn [exec_all].
      destruct (happen_call w n c f0 r En) as (f1 & S1 & S2 & _). rewrite Hf in S1. injection S1 as <-. now apply IH.
    + assert (He : forall c, e <> ECall n c) by (intros c ->; rewrite Nat.eqb_refl in EQ; discriminate).
      assert (HG : u_gen (happen w e) r = u_gen w r).
      { destruct H1 as [H1|H1]; [|apply H1; unfold gen_of; now rewrite En].
        destruct e as [| | |m c]; try contradiction. now destruct (He c); rewrite H1. }
      assert (HF : see (happen w e) n = Some f).
      { unfold see. rewrite (happen_other w e n (f0, r) He En), HG. exact Hs. }
      rewrite (IH (happen w e) f HF H2). destruct e as [| | |m c]; auto. now rewrite EQ.
Qed.

(* ------------------------------------------------------------------ *)
(** ** Separate generators *)

(** [r] belongs to finder [n] alone *)
Definition own n r w : Prop := gen_of w n = Some r /\ (r < u_next w)%nat /\ forall m, m <> n -> gen_of w m <> Some r.

(** the event does not mention generator [r] *)
Definition avoids (r : nat) (e : event G St) : Prop :=
  match e with EUse r' _ => r' <> r | ENew _ (Some r') _ => r' <> r | _ => True end.

Lemma own_kept n r w e : own n r w -> avoids r e -> own n r (happen w e) /\
  ((forall c, e <> ECall n c) -> u_gen (happen w e) r = u_gen w r).
Proof.
  intros (O1 & O2 & O3) HA.
  assert (HN : (n < length (u_fs w))%nat).
  { unfold gen_of in O1. apply nth_error_Some. now destruct (nth_error (u_fs w) n). }
  assert (FRESH : forall w' x r', u_next w' = u_next w \/ u_next w' = S (u_next w) -> u_fs w' = u_fs w -> r' <> r ->
     u_gen w' r = u_gen w r ->
     own n r (add_finder ops no w' x r') /\ u_gen (add_finder ops no w' x r') r = u_gen w r).
  { intros w' x r' Hn Hfs Hr Hg. unfold add_finder. destruct (build _ _ _ _) as [f|]; cbn [u_gen u_next u_fs].
    - split; [|rewrite upd_neq by congruence; exact Hg]. unfold own, gen_of in *. cbn [u_fs u_next]. rewrite Hfs. split; [|split].
      + now rewrite nth_error_app1.
      + lia.
      + intros m Hm. destruct (lt_dec m (length (u_fs w))) as [L|L]; [rewrite nth_error_app1 by auto; now apply O3|].
        rewrite nth_error_app2 by lia. destruct (m - length (u_fs w))%nat as [|k]; cbn; [congruence|]. now destruct k.
    - split; [|exact Hg]. unfold own, gen_of in *. rewrite Hfs. split; [exact O1|]. split; [lia|exact O3]. }
  destruct e as [g|r' h|x [r'|] now|m c]; cbn [ModelWorld.happen avoids] in *.
  - split; [split; [exact O1|split; [cbn; lia|exact O3]]|]. intros _. cbn. apply upd_neq. lia.
  - destruct (Nat.ltb _ _); [|split; [split; auto|auto]]. split; [split; auto|]. intros _. cbn. apply upd_neq. auto.
  - destruct (Nat.ltb _ _); [|split; [split; auto|auto]]. destruct (FRESH w x r') as (A & B); auto.
  - destruct (FRESH (add_gen w (seeded (Int_part now))) x (u_next w)) as (A & B); auto; [lia|]. cbn. apply upd_neq. lia.
  - destruct (nth_error (u_fs w) m) as [[f0 r0]|] eqn:Em; [|split; [split; auto|auto]].
    destruct (see w m) as [f|]; [|split; [split; auto|auto]]. cbv zeta.
    set (f' := fst (exec ops no f c)).
    assert (GM : forall j, gen_of {| u_next := u_next w; u_gen := upd (u_gen w) r0 (v_g (f_k f')); u_fs := set_nth (u_fs w) m (f', r0) |} j
             = gen_of w j).
    { intros j. unfold gen_of. cbn [u_fs]. destruct (Nat.eq_dec j m) as [->|].
      - rewrite set_nth_eq by (apply nth_error_Some; congruence). now rewrite Em.
      - now rewrite set_nth_neq. }
    split.
    + split; [now rewrite GM|]. split; [exact O2|]. intros j Hj. rewrite GM. auto.
    + intros Hc. cbn [u_gen]. apply upd_neq. intros <-. apply (O3 m); [intros ->; now apply (Hc c)|]. unfold gen_of. now rewrite Em.
Qed.

Theorem C76_separate n r es : forall w f, see w n = Some f -> own n r w -> Forall (avoids r) es ->
  see (happen_all w es) n = Some (exec_all ops no f (calls_on n es)).
Proof.
  intros w f Hf HO HA. apply C76_undisturbed; [exact Hf|]. clear f Hf. revert w HO. induction HA as [|e es HE HA IH]; intros w HO.
  - exact I.
  - destruct (own_kept n r w e HO HE) as (A & B). cbn [undisturbed]. split; [|now apply IH].
    destruct e as [g|r' h|x o now|m c]; try (right; intros r0 Hr; destruct HO as (HO & _); rewrite HO in Hr; injection Hr as <-; apply B; discriminate).
    destruct (Nat.eq_dec m n) as [->|Hm]; [now left|]. right. intros r0 Hr. destruct HO as (HO & _). rewrite HO in Hr. injection Hr as <-.
    apply B. intros c' E. injection E as ? _. auto.
Qed.

(** A default finder owns its generator. *)
Lemma default_own w x now f : build ops no x (seeded (Int_part now)) = Ok f ->
  (forall m r, gen_of w m = Some r -> (r < u_next w)%nat) ->
  own (length (u_fs w)) (u_next w) (happen w (ENew x None now)) /\
  see (happen w (ENew x None now)) (length (u_fs w)) = Some f /\
  (forall m r, gen_of (happen w (ENew x None now)) m = Some r -> (r < u_next (happen w (ENew x None now)))%nat).
Proof.
  intros Hb HV. cbn [ModelWorld.happen]. unfold add_finder.
  change (u_gen (add_gen w (seeded (Int_part now))) (u_next w)) with (upd (u_gen w) (u_next w) (seeded (Int_part now)) (u_next w)).
  rewrite upd_eq, Hb.
  assert (GEN : forall m r, gen_of {| u_next := u_next (add_gen w (seeded (Int_part now)));
       u_gen := upd (u_gen (add_gen w (seeded (Int_part now)))) (u_next w) (v_g (f_k f));
       u_fs := u_fs (add_gen w (seeded (Int_part now))) ++ [(f, u_next w)] |} m = Some r ->
       (m = length (u_fs w) /\ r = u_next w) \/ (gen_of w m = Some r)).
  { intros m r. unfold gen_of. cbn. destruct (lt_dec m (length (u_fs w))) as [L|L].
    - rewrite nth_error_app1 by auto. auto.
    - rewrite nth_error_app2 by lia. destruct (m - length (u_fs w))%nat as [|k] eqn:Ek; cbn; [|now destruct k].
      intros H. injection H as <-. left. split; [lia|reflexivity]. }
  split; [|split].
  - split; [|split].
    + unfold gen_of. cbn. now rewrite nth_error_app2, Nat.sub_diag by lia.
    + cbn. lia.
    + intros m Hm H. apply GEN in H. destruct H as [(H & _)|H]; [auto|]. apply HV in H. lia.
  - unfold see. cbn. rewrite nth_error_app2, Nat.sub_diag by lia. cbn. rewrite upd_eq. f_equal. apply with_same_g.
  - intros m r H. apply GEN in H. cbn. destruct H as [(_ & ->)|H]; [lia|]. apply HV in H. lia.
Qed.

(** Two finders constructed with default arguments [rng] within the same second
    stay in the same state as long as the same methods are called on them --
    they are not independent samples. *)
Theorem C76_same_second w x t1 t2 f es : build ops no x (seeded (Int_part t1)) = Ok f -> Int_part t1 = Int_part t2 ->
  (forall m r, gen_of w m = Some r -> (r < u_next w)%nat) ->
  let n := length (u_fs w) in
  let es' := ENew x None t1 :: ENew x None t2 :: es in
  Forall (avoids (u_next w)) es -> Forall (avoids (S (u_next w))) es ->
  calls_on n es = calls_on (S n) es ->
  see (happen_all w es') n = see (happen_all w es') (S n) /\
  see (happen_all w es') n = Some (exec_all ops no f (calls_on n es)).
Proof.
  intros Hb Ht HV n es' A1 A2 HC.
  destruct (default_own w x t1 f Hb HV) as (O1 & S1 & V1). set (w1 := happen w (ENew x None t1)) in *.
  rewrite Ht in Hb. destruct (default_own w1 x t2 f Hb V1) as (O2 & S2 & V2).
  assert (L1 : length (u_fs w1) = S n /\ u_next w1 = S (u_next w)).
  { unfold w1. cbn [ModelWorld.happen]. unfold add_finder.
    change (u_gen (add_gen w (seeded (Int_part t1))) (u_next w)) with (upd (u_gen w) (u_next w) (seeded (Int_part t1)) (u_next w)).
    rewrite upd_eq, Ht, Hb. cbn. rewrite app_length. cbn. unfold n. lia. }
  destruct L1 as (L1 & L2). rewrite L1, L2 in *. set (w2 := happen w1 (ENew x None t2)) in *.
  destruct (own_kept n (u_next w) w1 (ENew x None t2) O1 I) as (O1' & G1).
  assert (S1' : see w2 n = Some f).
  { pose proof S1 as S1c. fold n in S1c. unfold see in S1c. destruct (nth_error (u_fs w1) n) as [[f0 r]|] eqn:En; [|discriminate].
    assert (Hr : r = u_next w) by (destruct O1 as (O1 & _); unfold gen_of in O1; fold n in O1; rewrite En in O1; injection O1 as O1; exact O1).
    assert (ND : forall c, ENew x None t2 <> ECall (G := G) n c) by (intros; discriminate).
    unfold see, w2. rewrite (happen_other w1 (ENew x None t2) n (f0, r) ND En). rewrite Hr in *.
    rewrite G1 by discriminate. exact S1c. }
  assert (E1 : see (happen_all w es') n = Some (exec_all ops no f (calls_on n es))) by exact (C76_separate n (u_next w) es w2 f S1' O1' A1).
  assert (E2 : see (happen_all w es') (S n) = Some (exec_all ops no f (calls_on (S n) es))) by exact (C76_separate (S n) (S (u_next w)) es w2 f S2 O2 A2).
  rewrite E1, E2, HC. auto.
Qed.

(* ------------------------------------------------------------------ *)
(** ** Shared generators *)

(** Methods other than run and reinitialize_random do not touch it; run does
    not either while no compartment dies (C20_no_randomness). *)
Theorem C76_quiet_calls (f : finder G St) c : (forall a t i, c <> CRun a t i) -> c <> CReinitRandom ->
  v_g (f_k (fst (exec ops no f c))) = v_g (f_k f).
Proof.
  intros H1 H2. destruct c as [m t i| | | | | |c reset kw|c reset kw|c reset kw|a reset ind kw]; cbn [exec]; try congruence; try reflexivity.
  - unfold reinitialize_from_omegas. destruct (check_field f a); reflexivity.
  - unfold reinitialize_from_phis. destruct (check_field f a); reflexivity.
  - unfold set_interaction. destruct (compiled _ _); [|reflexivity]. destruct (check_inter _ _ _); [|reflexivity]. destruct reset; reflexivity.
  - unfold set_entropy. destruct (compiled _ _); [|reflexivity]. destruct (check_entropy _ _ _); [|reflexivity]. destruct reset; reflexivity.
  - unfold set_ensemble. destruct (compiled _ _); [|reflexivity]. destruct (check_ensemble _ _ _); [|reflexivity]. destruct reset; reflexivity.
  - unfold set_constraints. destruct (compile_cons _ _ _ _ _); [|reflexivity]. destruct (check_cons_all _ _ _); [|reflexivity].
    destruct reset; reflexivity.
Qed.
End World.
