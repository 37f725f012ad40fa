(** PropertiesOwnership.v -- C70: results are snapshots, the finder copies its
    inputs, and the array behind [omegas] is the live one. *)

From Coq Require Import String Reals Lra Lia List Bool Arith ZArith.
From Verif Require Import Base ModelCommon ModelParts ModelKernel ModelPhases ModelFinder ModelHistory ModelOwnership
  ProofsPhases ProofsHistory Examples.
Import ListNotations.
Open Scope R_scope.

Section Ownership.
Context {G St : Type} (ops : rng_ops G) (no : nat -> cons_obj St).
Notation memory := (memory G St).
Notation do_deed := (do_deed ops no).
Notation do_all := (do_all ops no).

Definition sound (m : memory) : Prop := (y_om m < y_next m)%nat /\ Forall (fun h => (h < y_next m)%nat) (y_held m).

(** the deed writes into array [a] *)
Definition writes (a : nat) (d : deed St) : Prop := match d with WriteTo h _ _ _ => h = a | _ => False end.
(** a write into the array that is the finder's [_omegas] at that time *)
Fixpoint harmless (m : memory) (ds : list (deed St)) : Prop :=
  match ds with
  | [] => True
  | d :: ds' => ~ writes (y_om m) d /\ harmless (do_deed m d) ds'
  end.
(** the method calls of a program, with the values of the arrays passed *)
Fixpoint calls (m : memory) (ds : list (deed St)) : list (call St) :=
  match ds with
  | [] => []
  | d :: ds' => call_of m d ++ calls (do_deed m d) ds'
  end.

Lemma forall_weaken n n' l : (n <= n')%nat -> Forall (fun h => (h < n)%nat) l -> Forall (fun h => (h < n')%nat) l.
Proof. intros H. apply Forall_impl. intros; lia. Qed.

Lemma current_store_in_place (m : memory) f : current (store_in_place m f) = f.
Proof.
  unfold current, store_in_place. cbn. unfold upd. rewrite Nat.eqb_refl. cbn. destruct f as [? ? ? ? ? ? ? ? k ? ?]. unfold with_k. cbn.
  now destruct k.
Qed.
Lemma current_store_rebound (m : memory) f : current (store_rebound m f) = f.
Proof.
  unfold current, store_rebound. cbn. unfold upd. rewrite Nat.eqb_refl. cbn. destruct f as [? ? ? ? ? ? ? ? k ? ?]. unfold with_k. cbn.
  now destruct k.
Qed.
Lemma current_add_array (m : memory) x b : sound m -> current (add_array m x b) = current m.
Proof.
  intros [H _]. unfold current, add_array. cbn. unfold upd. destruct (Nat.eqb_spec (y_om m) (y_next m)); [lia|reflexivity].
Qed.
Lemma sound_add_array (m : memory) x b : sound m -> sound (add_array m x b).
Proof.
  intros [H1 H2]. split; cbn; [lia|]. apply (forall_weaken _ (S (y_next m))) in H2; [|lia]. destruct b; auto.
Qed.
Lemma sound_in_place (m : memory) f : sound m -> sound (store_in_place m f).
Proof. intros H. exact H. Qed.
Lemma sound_rebound (m : memory) f : sound m -> sound (store_rebound m f).
Proof. intros [H1 H2]. split; cbn; [lia|]. apply (forall_weaken (y_next m)); auto. Qed.

Lemma stored_facts (m : memory) (c : call St) f out a : sound m ->
  let m' := if rebinds c out then store_rebound m f else store_in_place m f in
  sound m' /\ current m' = f /\ (y_next m <= y_next m')%nat /\ y_held m' = y_held m /\
  ((a < y_next m)%nat -> a <> y_om m -> y_at m' a = y_at m a /\ a <> y_om m').
Proof.
  intros H m'. unfold m'. destruct (rebinds c out).
  - split; [now apply sound_rebound|]. split; [apply current_store_rebound|]. cbn. split; [lia|]. split; auto.
    intros Ha Hn. unfold upd. destruct (Nat.eqb_spec a (y_next m)); [lia|]. split; [auto|lia].
  - split; [now apply sound_in_place|]. split; [apply current_store_in_place|]. cbn. split; [lia|]. split; auto.
    intros Ha Hn. unfold upd. destruct (Nat.eqb_spec a (y_om m)); [lia|]. auto.
Qed.

Lemma call_facts (m : memory) c a : sound m ->
  sound (call_on ops no m c) /\ current (call_on ops no m c) = fst (exec ops no (current m) c) /\
  (y_next m <= y_next (call_on ops no m c))%nat /\
  ((a < y_next m)%nat -> a <> y_om m -> y_at (call_on ops no m c) a = y_at m a /\ a <> y_om (call_on ops no m c)).
Proof.
  intros H. unfold call_on. destruct (exec ops no (current m) c) as [f out] eqn:E. cbn [fst].
  destruct (stored_facts m c f out a H) as (S1 & C1 & N1 & _ & A1). 
  set (m' := if rebinds c out then store_rebound m f else store_in_place m f) in *.
  clearbody m'. destruct c as [b t i| | | | | | | | |]; auto.
  destruct (snd (run ops (current m) b t i)) as [ph|e]; auto.
  unfold add_result.
  match goal with |- context [add_array m' ?X true] => set (x1 := X) end.
  match goal with |- context [add_array (add_array m' x1 true) ?X true] => set (x2 := X) end.
  split; [now do 2 apply sound_add_array|]. split.
  - rewrite !current_add_array; auto using sound_add_array.
  - split; [cbn; lia|]. intros Ha Hn. destruct (A1 Ha Hn) as [B1 B2]. cbn. split; auto. unfold upd.
    destruct (Nat.eqb_spec a (S (y_next m'))); [lia|]. destruct (Nat.eqb_spec a (y_next m')); [lia|]. exact B1.
Qed.

Lemma deed_facts (m : memory) d a : sound m ->
  sound (do_deed m d) /\ (y_next m <= y_next (do_deed m d))%nat /\
  (~ writes (y_om m) d -> current (do_deed m d) = exec_all ops no (current m) (call_of m d)) /\
  ((a < y_next m)%nat -> a <> y_om m -> ~ writes a d -> y_at (do_deed m d) a = y_at m a /\ a <> y_om (do_deed m d)).
Proof.
  intros H.
  assert (K : forall l, (length l <= 1)%nat ->
    sound (fold_left (call_on ops no) l m) /\ (y_next m <= y_next (fold_left (call_on ops no) l m))%nat /\
    current (fold_left (call_on ops no) l m) = exec_all ops no (current m) l /\
    ((a < y_next m)%nat -> a <> y_om m -> y_at (fold_left (call_on ops no) l m) a = y_at m a /\ a <> y_om (fold_left (call_on ops no) l m))).
  { intros [|c [|c' l]] HL; [|clear HL|cbn in HL; lia]; cbn [fold_left exec_all]; auto.
    destruct (call_facts m c a H) as (A & B & C & D). auto. }
  assert (L1 : forall d, (length (call_of m d) <= 1)%nat) by (intros []; cbn; try destruct (existsb _ _); cbn; lia).
  destruct d as [c|h|h| |x|h i j x]; cbn [do_deed writes].
  - destruct (K (call_of m (Call c)) (L1 _)) as (A & B & C & D). repeat split; auto; try now apply A. now apply D. now apply D.
  - destruct (K (call_of m (GiveOmegas h)) (L1 _)) as (A & B & C & D). repeat split; auto; try now apply A. now apply D. now apply D.
  - destruct (K (call_of m (GivePhis h)) (L1 _)) as (A & B & C & D). repeat split; auto; try now apply A. now apply D. now apply D.
  - destruct H as [H1 H2]. repeat split; cbn; auto.
  - split; [now apply sound_add_array|]. split; [cbn; lia|]. split.
    + intros _. cbn [call_of exec_all]. now apply current_add_array.
    + intros Ha Hn _. cbn. unfold upd. destruct (Nat.eqb_spec a (y_next m)); [lia|]. auto.
  - destruct (existsb (Nat.eqb h) (y_held m)); [|repeat split; auto; apply H].
    split; [exact H|]. split; [cbn; lia|]. cbn [call_of exec_all]. split.
    + intros Hw. unfold current. cbn. unfold upd. destruct (Nat.eqb_spec (y_om m) h); [congruence|reflexivity].
    + intros Ha Hn Hw. cbn. unfold upd. destruct (Nat.eqb_spec a h); [congruence|auto].
Qed.

Lemma all_facts ds : forall (m : memory) a, sound m ->
  sound (do_all m ds) /\ (y_next m <= y_next (do_all m ds))%nat /\
  (harmless m ds -> current (do_all m ds) = exec_all ops no (current m) (calls m ds)) /\
  ((a < y_next m)%nat -> a <> y_om m -> Forall (fun d => ~ writes a d) ds ->
     y_at (do_all m ds) a = y_at m a /\ a <> y_om (do_all m ds)).
Proof.
  assert (EA : forall l1 l2 f, exec_all ops no f (l1 ++ l2) = exec_all ops no (exec_all ops no f l1) l2).
  { induction l1; intros l2 f; cbn [app exec_all]; auto. }
  unfold ModelOwnership.do_all. induction ds as [|d ds IH]; intros m a H; cbn [fold_left harmless calls]; [auto|].
  destruct (deed_facts m d a H) as (A & B & C & D). destruct (IH (do_deed m d) a A) as (A' & B' & C' & D').
  split; [exact A'|]. split; [lia|]. split.
  - intros [H1 H2]. rewrite C' by auto. rewrite C by auto. now rewrite EA.
  - intros Ha Hn HF. inversion HF as [|? ? F1 F2]; subst. destruct (D Ha Hn F1) as [E1 E2].
    destruct (D' ltac:(lia) E2 F2) as [E3 E4]. split; [congruence|auto].
Qed.

(* ------------------------------------------------------------------ *)
(** * C70 *)

(** As long as the user does not write into the live array, the finder is
    determined by the method calls alone: nothing else the user does with the
    arrays they hold (results, their own arrays, detached fields) matters. *)
Theorem C70_isolated (m : memory) ds : sound m -> harmless m ds ->
  current (do_all m ds) = exec_all ops no (current m) (calls m ds).
Proof. intros H HH. now apply (all_facts ds m 0%nat H). Qed.

(** Every array other than the live one -- results of earlier runs, arrays
    passed to reinitialize_*, fields detached by a reinitialisation -- keeps
    its contents until the user writes into it. *)
Theorem C70_snapshots (m : memory) ds a : sound m -> (a < y_next m)%nat -> a <> y_om m ->
  Forall (fun d => ~ writes a d) ds -> y_at (do_all m ds) a = y_at m a.
Proof. intros H Ha Hn HF. now apply (all_facts ds m a H). Qed.

(** The arrays of a result are such arrays, and hold the phases. *)
Theorem C70_results (m : memory) b t i f ph : sound m -> run ops (current m) b t i = (f, Ok ph) ->
  let m' := do_deed m (Call (CRun b t i)) in
  exists v c, (v < y_next m')%nat /\ (c < y_next m')%nat /\ v <> y_om m' /\ c <> y_om m' /\ v <> c /\
    (y_next m <= v)%nat /\ (y_next m <= c)%nat /\ In v (y_held m') /\ In c (y_held m') /\
    (forall p, ar_at (y_at m' v) 0%nat p = nth p (p_vol ph) 0) /\
    (forall p k, ar_at (y_at m' c) p k = nth k (nth p (p_frac ph) []) 0) /\
    ar_shape (y_at m' v) = [length (p_vol ph)] /\ ar_shape (y_at m' c) = [length (p_frac ph); p_nc ph] /\
    current m' = f.
Proof.
  intros H E m'.
  assert (EM : m' = add_result (store_in_place m f) ph).
  { unfold m'. cbn [ModelOwnership.do_deed call_of fold_left]. unfold call_on. cbn [exec]. rewrite E. cbn [outcome rebinds snd]. reflexivity. }
  rewrite EM. destruct H as [H1 H2]. unfold add_result. cbn.
  exists (y_next m), (S (y_next m)). repeat (split; [first [lia | now auto]|]). split; [|split; [|split; [|split]]].
  - intros p. unfold upd. destruct (Nat.eqb_spec (y_next m) (S (y_next m))); [lia|]. now rewrite Nat.eqb_refl.
  - intros p k. unfold upd. now rewrite Nat.eqb_refl.
  - unfold upd. destruct (Nat.eqb_spec (y_next m) (S (y_next m))); [lia|]. now rewrite Nat.eqb_refl.
  - unfold upd. now rewrite Nat.eqb_refl.
  - rewrite !current_add_array; [apply current_store_in_place| |]; repeat apply sound_add_array; split; auto.
Qed.

(** reinitialize_from_omegas(arr) copies: afterwards the live array is a new
    one with the same values, and [arr] is not live. *)
Theorem C70_copies (m : memory) h : sound m -> In h (y_held m) -> ar_shape (y_at m h) = [f_nf (y_f m); f_np (y_f m)] ->
  let m' := do_deed m (GiveOmegas h) in
  y_om m' <> h /\ (forall r p, ar_at (y_at m' (y_om m')) r p = ar_at (y_at m h) r p) /\
  y_at m' h = y_at m h /\ ~ In (y_om m') (y_held m').
Proof.
  intros [H1 H2] Hh HS m'.
  assert (EX : existsb (Nat.eqb h) (y_held m) = true) by (apply existsb_exists; exists h; split; auto; apply Nat.eqb_refl).
  assert (EC : check_field (current m) (nd_of_array (y_at m h)) = Ok (fun i j => ar_at (y_at m h) i j)).
  { unfold check_field, nd_of_array. cbn. rewrite HS. now rewrite !Nat.eqb_refl. }
  assert (EM : m' = store_rebound m (reinit_with (current m) (fun i j => ar_at (y_at m h) i j) (v_g (f_k (current m))))).
  { unfold m'. cbn [ModelOwnership.do_deed call_of]. rewrite EX. cbn [fold_left]. unfold call_on. cbn [exec].
    unfold reinitialize_from_omegas. rewrite EC. reflexivity. }
  rewrite Forall_forall in H2. pose proof (H2 h Hh) as Hlt. rewrite EM. cbn [y_om store_rebound].
  split; [lia|]. split; [|split].
  - intros r p. cbn. unfold upd. rewrite Nat.eqb_refl. reflexivity.
  - cbn. unfold upd. destruct (Nat.eqb_spec h (y_next m)); [lia|reflexivity].
  - cbn. intros K. specialize (H2 _ K). lia.
Qed.

(** Whatever the user does, [finder.omegas] keeps the shape num_feat x num_part
    and can be passed back to the finder. *)
Lemma call_shape (m : memory) c : sound m ->
  ar_shape (y_at m (y_om m)) = [f_nf (y_f m); f_np (y_f m)] ->
  let m' := call_on ops no m c in
  f_nf (y_f m') = f_nf (y_f m) /\ f_np (y_f m') = f_np (y_f m) /\ ar_shape (y_at m' (y_om m')) = [f_nf (y_f m); f_np (y_f m)].
Proof.
  intros [H1 H2] HS m'. unfold m', call_on. destruct (exec ops no (current m) c) as [f out] eqn:E.
  destruct (exec_const ops no _ _ _ _ E) as (_ & Np & _ & Nf & _).
  change (f_np (current m)) with (f_np (y_f m)) in Np. change (f_nf (current m)) with (f_nf (y_f m)) in Nf.
  set (m1 := if rebinds c out then store_rebound m f else store_in_place m f).
  assert (A : f_nf (y_f m1) = f_nf (y_f m) /\ f_np (y_f m1) = f_np (y_f m) /\
    ar_shape (y_at m1 (y_om m1)) = [f_nf (y_f m); f_np (y_f m)] /\ (y_om m1 < y_next m1)%nat).
  { unfold m1. destruct (rebinds c out); cbn; unfold upd; rewrite Nat.eqb_refl; cbn; rewrite Nf, Np; repeat split; lia. }
  clearbody m1. destruct A as (A1 & A2 & A3 & A4).
  destruct c as [b t i| | | | | | | | |]; auto.
  destruct (snd (run ops (current m) b t i)) as [ph|e]; auto.
  split; [exact A1|]. split; [exact A2|]. unfold add_result, add_array. cbn. unfold upd.
  destruct (Nat.eqb_spec (y_om m1) (S (y_next m1))); [lia|]. destruct (Nat.eqb_spec (y_om m1) (y_next m1)); [lia|]. exact A3.
Qed.

Theorem C70_shapes (m : memory) ds : sound m -> ar_shape (y_at m (y_om m)) = [f_nf (y_f m); f_np (y_f m)] ->
  let m' := do_all m ds in
  ar_shape (y_at m' (y_om m')) = [f_nf (y_f m); f_np (y_f m)] /\ f_nf (y_f m') = f_nf (y_f m) /\ f_np (y_f m') = f_np (y_f m) /\
  snd (exec ops no (current m') (CReinitOmegas (nd_of_array (y_at m' (y_om m'))))) = None.
Proof.
  intros H HS m'.
  assert (K : ar_shape (y_at m' (y_om m')) = [f_nf (y_f m); f_np (y_f m)] /\ f_nf (y_f m') = f_nf (y_f m) /\ f_np (y_f m') = f_np (y_f m)).
  { unfold m', ModelOwnership.do_all. clear m'. revert m H HS. induction ds as [|d ds IH]; intros m H HS; [auto|].
    cbn [fold_left].
    assert (Kd : f_nf (y_f (do_deed m d)) = f_nf (y_f m) /\ f_np (y_f (do_deed m d)) = f_np (y_f m) /\
      ar_shape (y_at (do_deed m d) (y_om (do_deed m d))) = [f_nf (y_f m); f_np (y_f m)]).
    { destruct d as [c|h|h| |x|h i j x]; cbn [ModelOwnership.do_deed call_of fold_left].
      - now apply call_shape.
      - destruct (existsb _ _); cbn [fold_left]; [now apply call_shape|auto].
      - destruct (existsb _ _); cbn [fold_left]; [now apply call_shape|auto].
      - auto.
      - split; [reflexivity|]. split; [reflexivity|]. destruct H as [H _]. cbn. unfold upd.
        destruct (Nat.eqb_spec (y_om m) (y_next m)); [lia|exact HS].
      - destruct (existsb _ _); [|auto]. split; [reflexivity|]. split; [reflexivity|]. cbn. unfold upd.
        destruct (Nat.eqb_spec (y_om m) h); [subst; exact HS|exact HS]. }
    destruct Kd as (K1 & K2 & K3). destruct (IH (do_deed m d)) as (L1 & L2 & L3).
    - apply (deed_facts m d 0%nat H).
    - now rewrite K1, K2.
    - rewrite K1 in L2. rewrite K2 in L3. rewrite K1, K2 in L1. auto. }
  destruct K as (K1 & K2 & K3). split; [exact K1|]. split; [exact K2|]. split; [exact K3|].
  cbn [exec]. unfold reinitialize_from_omegas, check_field, nd_of_array. cbn [nd_shape]. rewrite K1.
  change (f_nf (current m')) with (f_nf (y_f m')). change (f_np (current m')) with (f_np (y_f m')). rewrite K2, K3.
  cbn. now rewrite !Nat.eqb_refl.
Qed.

(** A reinitialisation replaces the live array: the array the property returned
    before keeps its contents and is the user's from then on; runs and the
    other calls keep the live array. *)
Theorem C70_detached (m : memory) c f : sound m -> exec ops no (current m) c = (f, None) ->
  match c with
  | CReinitRandom | CReinitOmegas _ | CReinitPhis _ =>
      let m' := do_deed m (Call c) in
      y_om m' <> y_om m /\ ~ In (y_om m') (y_held m) /\ y_at m' (y_om m) = y_at m (y_om m) /\ current m' = f /\
      forall ds, Forall (fun d => ~ writes (y_om m) d) ds -> y_at (do_all m' ds) (y_om m) = y_at m (y_om m)
  | _ => y_om (do_deed m (Call c)) = y_om m
  end.
Proof.
  intros H E. destruct H as [H1 H2]. rewrite Forall_forall in H2.
  assert (KEY : rebinds c None = true -> (forall b t i, c <> CRun b t i) ->
    let m' := do_deed m (Call c) in
    y_om m' <> y_om m /\ ~ In (y_om m') (y_held m) /\ y_at m' (y_om m) = y_at m (y_om m) /\ current m' = f /\
      forall ds, Forall (fun d => ~ writes (y_om m) d) ds -> y_at (do_all m' ds) (y_om m) = y_at m (y_om m)).
  { intros RB NR m'. assert (EM : m' = store_rebound m f).
    { unfold m'. cbn [ModelOwnership.do_deed call_of fold_left]. unfold call_on. rewrite E, RB. destruct c as [b u v| | | | | | | | |]; try reflexivity. now destruct (NR b u v). }
    rewrite EM. assert (K : y_at (store_rebound m f) (y_om m) = y_at m (y_om m)).
    { cbn. unfold upd. destruct (Nat.eqb_spec (y_om m) (y_next m)); [lia|reflexivity]. }
    split; [cbn; lia|]. split; [cbn; intros I; specialize (H2 _ I); lia|]. split; [exact K|]. split; [apply current_store_rebound|].
    intros ds HF. rewrite <- K. apply C70_snapshots; auto.
    - apply sound_rebound. split; [exact H1|]. now apply Forall_forall.
    - cbn. lia.
    - cbn. lia. }
  destruct c as [b u v| | | | | | | | |]; try (apply KEY; [reflexivity|intros; discriminate]);
    cbn [ModelOwnership.do_deed call_of fold_left]; unfold call_on; rewrite E; cbn [rebinds]; try reflexivity.
  destruct (snd (run ops (current m) b u v)); reflexivity.
Qed.

(** The array returned by [finder.omegas] is documented as read-only, but is
    the live one: a write into it changes the fields of the finder (and
    nothing else: volumes, budget and multipliers stay), and it follows the
    finder through later runs. *)
Theorem C70_omegas_refuted (m : memory) i j x : sound m ->
  let m' := do_all m [GetOmegas; WriteTo (y_om m) i j x] in
  v_omegas (f_k (current m')) i j = x /\
  current m' = with_k (current m) (k_with_omegas (f_k (current m)) (upd2 (v_omegas (f_k (current m))) i j x)) /\
  forall b t u f ph, run ops (current m') b t u = (f, Ok ph) ->
    ar_at (y_at (do_deed m' (Call (CRun b t u))) (y_om m)) = v_omegas (f_k f).
Proof.
  intros H m'. set (m1 := do_deed m GetOmegas).
  assert (EM : m' = {| y_next := y_next m; y_f := y_f m; y_om := y_om m; y_held := y_om m :: y_held m;
    y_at := upd (y_at m) (y_om m) {| ar_shape := ar_shape (y_at m (y_om m)); ar_at := upd2 (ar_at (y_at m (y_om m))) i j x |} |}).
  { unfold m', ModelOwnership.do_all. cbn [fold_left ModelOwnership.do_deed y_held existsb]. rewrite Nat.eqb_refl. reflexivity. }
  assert (EC : current m' = with_k (current m) (k_with_omegas (f_k (current m)) (upd2 (v_omegas (f_k (current m))) i j x))).
  { rewrite EM. unfold current. cbn. unfold upd. rewrite Nat.eqb_refl. reflexivity. }
  split; [|split; [exact EC|]].
  - rewrite EC. cbn. unfold upd2. now rewrite !Nat.eqb_refl.
  - intros b t u f ph E. cbn [ModelOwnership.do_deed call_of fold_left]. unfold call_on. cbn [exec]. rewrite E. cbn [outcome rebinds snd].
    destruct H as [H1 _]. rewrite EM. unfold add_result. cbn. unfold upd.
    destruct (Nat.eqb_spec (y_om m) (S (y_next m))); [lia|]. destruct (Nat.eqb_spec (y_om m) (y_next m)); [lia|].
    rewrite Nat.eqb_refl. reflexivity.
Qed.
End Ownership.
