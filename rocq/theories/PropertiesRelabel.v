(** PropertiesRelabel.v -- C25 (second part), C57, C58. *)

From Coq Require Import String Reals Lra Lia List Bool Arith ZArith.
From Verif Require Import Base ModelCommon ModelParts ModelKernel ModelPhases ModelFinder ModelHistory
  ProofsKernel ProofsParts ProofsSteps ProofsRun ProofsHistory ProofsCopy ProofsRelabel ProofsTwin Spec.
Import ListNotations.
Open Scope R_scope.

(* ------------------------------------------------------------------ *)
(** ** C57 and C58 *)
Section Relabel.
Context {G1 G2 : Type} (ops1 : rng_ops G1) (ops2 : rng_ops G2).

(** [k2] is [k1] with the compartments renamed by [sg] and the features by
    [rh]; multipliers of constraints follow ([crel0]). *)
Definition renamed nf np sg rh (k1 : kstate G1 cstate) (k2 : kstate G2 cstate) : Prop :=
  (forall r m, (r < nf)%nat -> (m < np)%nat -> v_omegas k2 r m = v_omegas k1 (rh r) (sg m)) /\
  (forall m, (m < np)%nat -> v_Js k2 m = v_Js k1 (sg m)) /\
  Forall2 (crel0 nf np sg rh) (v_cons k1) (v_cons k2).

(** The same relation of two outcomes after [n] steps. *)
Definition renamed_outcome nc nf np sg rh ta n
    (x : res (mstate G1 cstate)) (y : res (mstate G2 cstate)) : Prop :=
  match x, y with
  | Ok w1, Ok w2 =>
      renamed nf np sg rh (w_k w1) (w_k w2) /\ w_rep w1 = w_rep w2 /\ w_valid w1 = w_valid w2 /\
      w_count w1 = w_count w2 /\
      ((1 <= n)%nat -> w_rep w1 <> None /\
        (forall i m, (i < nc)%nat -> (m < np)%nat ->
           v_phis_comp (w_k w2) i m = v_phis_comp (w_k w1) (ta i) (sg m)) /\
        (forall r m, (r < nf)%nat -> (m < np)%nat ->
           v_phis_feat (w_k w2) r m = v_phis_feat (w_k w1) (rh r) (sg m)))
  | Err e1, Err e2 => e1 = e2
  | _, _ => False
  end.

Lemma steps_rep {G St} (ops : rng_ops G) (q : kernel) tries n (w w' : mstate G St) :
  steps ops q tries (S n) w = Ok w' -> w_rep w' <> None.
Proof.
  cbn [steps]. intros H. apply bind_Ok in H. destruct H as (w0 & _ & H).
  unfold one_step in H. destruct (maybe_revive _ _ _ _ _). apply bind_Ok in H.
  destruct H as ([[k' nv] rep] & _ & H). injection H as <-. discriminate.
Qed.

Lemma renamed_steps nc nf np sg rh ta q1 q2 tries n k1 k2 :
  perm_on np sg -> perm_on nf rh -> kernel_rel nc nf np sg rh ta q1 q2 -> (tries <= 0)%Z ->
  renamed nf np sg rh k1 k2 ->
  renamed_outcome nc nf np sg rh ta n (steps ops1 q1 tries n (start k1)) (steps ops2 q2 tries n (start k2)).
Proof.
  intros Hs Hr HQ Ht (R1 & R2 & R3).
  pose proof (steps_rel nc nf np sg rh ta Hs Hr (crel0 nf np sg rh) (crel1 nf np sg rh)
    (crel_cons_rel _ _ _ _ Hs Hr) q1 q2 HQ ops1 ops2 tries (krel nf np sg rh (crel0 nf np sg rh))) as X.
  specialize (X (fun a b H => H) (fun a b a' b' _ H _ _ => H)).
  match type of X with ?P -> _ => assert (P0 : P) end.
  { intros c a b H. unfold maybe_revive. destruct (Z.ltb_spec (Z.of_nat c) tries); [lia|]. simpl. auto. }
  specialize (X P0 n (start k1) (start k2)). clear P0.
  match type of X with ?P -> _ => assert (P0 : P) end.
  { split; [|do 3 (split; [reflexivity|]); simpl; congruence].
    split; [intros r m A B; symmetry; now apply R1|]. split; [intros m A; symmetry; now apply R2|exact R3]. }
  specialize (X P0). clear P0. unfold renamed_outcome.
  destruct (steps ops1 q1 tries n (start k1)) as [w1|e1] eqn:E1, (steps ops2 q2 tries n (start k2)) as [w2|e2];
    simpl in X; try contradiction; [|exact X].
  destruct X as ((X1 & X2 & X3) & Y1 & Y2 & Y3 & Y4).
  split; [split; [|split; [|exact X3]]|]; [intros; symmetry; now apply X1|intros; symmetry; now apply X2|].
  do 3 (split; [assumption|]). intros Hn. destruct n as [|n]; [lia|].
  pose proof (steps_rep _ _ _ _ _ _ E1) as HNE. split; [exact HNE|]. destruct (Y4 HNE) as (Z1 & Z2).
  split; intros; symmetry; auto.
Qed.

(** *** C57: compartments *)

(** A Flory-Huggins interaction, a built-in entropy (at least one component
    per feature) and a built-in ensemble of matching sizes. *)
Definition classic (nc : nat) (q : kernel) : Prop :=
  (exists chis s, q_inter q = fh_compiled (q_nf q) chis s) /\
  ((q_nf q = nc /\ exists sizes, q_entropy q = ig_compiled nc sizes) \/
   (exists npf sizes, nc = nsum (q_nf q) npf /\ (forall r, (r < q_nf q)%nat -> (1 <= npf r)%nat) /\
      q_entropy q = pg_compiled nc (q_nf q) npf sizes)) /\
  (exists x, q_ensemble q = can_compiled nc x \/ q_ensemble q = gc_compiled nc x).

Notation id := (fun i : nat => i).

Lemma classic_rel nc q sg : classic nc q -> perm_on (q_np q) sg ->
  kernel_rel nc (q_nf q) (q_np q) sg id id q q.
Proof.
  intros ((chis & s & HI) & HE & (x & HN)) Hs. split; auto.
  - rewrite HI. apply fh_rel; [apply perm_id|auto].
  - destruct HE as [(HF & sizes & HE)|(npf & sizes & HC & HP & HE)]; rewrite HE.
    + rewrite HF. apply ig_rel; [auto|apply perm_id|auto].
    + apply pg_rel; auto using perm_id.
  - destruct HN as [HN|HN]; rewrite HN; [apply can_rel|apply gc_rel]; auto using perm_id.
Qed.

Theorem C57_compartments nc q sg tries n k1 k2 :
  classic nc q -> perm_on (q_np q) sg -> (tries <= 0)%Z ->
  renamed (q_nf q) (q_np q) sg id k1 k2 ->
  renamed_outcome nc (q_nf q) (q_np q) sg id id n
    (steps ops1 q tries n (start k1)) (steps ops2 q tries n (start k2)).
Proof. intros HC Hs Ht HR. apply renamed_steps; auto using perm_id, classic_rel. Qed.

(** *** C58: components of a Flory-Huggins mixture (and compartments) *)

(** The numerical parameters agree. *)
Definition same_numbers (q1 q2 : kernel) : Prop :=
  q_acc_J q1 = q_acc_J q2 /\ q_ub q1 = q_ub q2 /\ q_acc_w q1 = q_acc_w q2 /\ q_thr q1 = q_thr q2.

(** Mixture 2 is mixture 1 with the components renamed by [ta]. *)
Definition renamed_mixture nc ta (q1 q2 : kernel) : Prop :=
  (exists chis1 chis2 s, q_inter q1 = fh_compile nc chis1 s /\ q_inter q2 = fh_compile nc chis2 s /\
     forall i j, (i < nc)%nat -> (j < nc)%nat -> chis2 i j = chis1 (ta i) (ta j)) /\
  (exists sizes1 sizes2, q_entropy q1 = ig_compiled nc sizes1 /\ q_entropy q2 = ig_compiled nc sizes2 /\
     forall i, (i < nc)%nat -> sizes2 i = sizes1 (ta i)) /\
  (exists x1 x2, (forall i, (i < nc)%nat -> x2 i = x1 (ta i)) /\
     (q_ensemble q1 = can_compiled nc x1 /\ q_ensemble q2 = can_compiled nc x2 \/
      q_ensemble q1 = gc_compiled nc x1 /\ q_ensemble q2 = gc_compiled nc x2)).

Theorem C58_components nc np ta sg q1 q2 tries n k1 k2 :
  perm_on nc ta -> perm_on np sg ->
  q_nf q1 = nc -> q_nf q2 = nc -> q_np q1 = np -> q_np q2 = np -> same_numbers q1 q2 ->
  renamed_mixture nc ta q1 q2 -> (tries <= 0)%Z ->
  renamed nc np sg ta k1 k2 ->
  renamed_outcome nc nc np sg ta ta n (steps ops1 q1 tries n (start k1)) (steps ops2 q2 tries n (start k2)).
Proof.
  intros Ht Hs F1 F2 P1 P2 (N1 & N2 & N3 & N4) ((c1 & c2 & s & I1 & I2 & IC) & (z1 & z2 & E1 & E2 & EZ) & (x1 & x2 & XE & XX)) HT HR.
  apply renamed_steps; auto. split; auto.
  - rewrite I1, I2. apply fh_compile_rel; auto. intros. symmetry. auto.
  - rewrite E1, E2. apply ig_rel; auto. intros. symmetry. auto.
  - destruct XX as [[-> ->]|[-> ->]]; [apply can_rel|apply gc_rel]; auto; intros; symmetry; auto.
Qed.

(** Polydispersed entropies: whole features are renamed by [rh], the components
    move with their feature. *)
Definition renamed_polymer nc nf rh ta (q1 q2 : kernel) : Prop :=
  (exists chis1 chis2 s, q_inter q1 = fh_compile nf chis1 s /\ q_inter q2 = fh_compile nf chis2 s /\
     forall i j, (i < nf)%nat -> (j < nf)%nat -> chis2 i j = chis1 (rh i) (rh j)) /\
  (exists npf1 npf2 sizes1 sizes2,
     q_entropy q1 = pg_compiled nc nf npf1 sizes1 /\ q_entropy q2 = pg_compiled nc nf npf2 sizes2 /\
     nc = nsum nf npf2 /\ (forall r, (r < nf)%nat -> (1 <= npf1 r)%nat) /\
     (forall r, (r < nf)%nat -> npf2 r = npf1 (rh r)) /\
     (forall r j, (r < nf)%nat -> (j < npf2 r)%nat -> ta (nsum r npf2 + j)%nat = (nsum (rh r) npf1 + j)%nat) /\
     forall i, (i < nc)%nat -> sizes2 i = sizes1 (ta i)) /\
  (exists x1 x2, (forall i, (i < nc)%nat -> x2 i = x1 (ta i)) /\
     (q_ensemble q1 = can_compiled nc x1 /\ q_ensemble q2 = can_compiled nc x2 \/
      q_ensemble q1 = gc_compiled nc x1 /\ q_ensemble q2 = gc_compiled nc x2)).

Theorem C58_polydispersed nc nf np rh ta sg q1 q2 tries n k1 k2 :
  perm_on nf rh -> perm_on nc ta -> perm_on np sg ->
  q_nf q1 = nf -> q_nf q2 = nf -> q_np q1 = np -> q_np q2 = np -> same_numbers q1 q2 ->
  renamed_polymer nc nf rh ta q1 q2 -> (tries <= 0)%Z ->
  renamed nf np sg rh k1 k2 ->
  renamed_outcome nc nf np sg rh ta n (steps ops1 q1 tries n (start k1)) (steps ops2 q2 tries n (start k2)).
Proof.
  intros Hr Ht Hs F1 F2 P1 P2 (N1 & N2 & N3 & N4) ((c1 & c2 & s & I1 & I2 & IC) &
    (m1 & m2 & z1 & z2 & E1 & E2 & EN & EP & EM & ET & EZ) & (x1 & x2 & XE & XX)) HT HR.
  apply renamed_steps; auto. split; auto.
  - rewrite I1, I2. apply fh_compile_rel; auto. intros. symmetry. auto.
  - rewrite E1, E2. apply pg_rel; auto; intros; symmetry; auto.
  - destruct XX as [[-> ->]|[-> ->]]; [apply can_rel|apply gc_rel]; auto; intros; symmetry; auto.
Qed.
End Relabel.

(* ------------------------------------------------------------------ *)
(** ** C25, second part *)
Section Forget.
Context {G : Type} (ops : rng_ops G) (no : nat -> cons_obj cstate).
Hypothesis Hno : forall n, no n = new_cons (no_class n).
Implicit Types (f : finder G cstate).
Notation id := (fun i : nat => i).

(** What the user sees of one call: the phases and diagnostics of a run, or the
    exception. *)
Inductive seen := SeenRun (r : res phases) (d : option diag) | SeenExn (e : option exn).

Definition observe f (c : call cstate) : finder G cstate * seen :=
  match c with
  | CRun a t i =>
      let '(f', r) := run ops f a t i in
      (f', SeenRun r (match r with Ok _ => f_diag f' | Err _ => None end))
  | _ => let '(f', e) := exec ops no f c in (f', SeenExn e)
  end.

Fixpoint trace f (l : list (call cstate)) : list seen :=
  match l with
  | [] => []
  | c :: l' => let '(f', o) := observe f c in o :: trace f' l'
  end.

(** Calls whose new parts read the in-range entries of their arguments only
    (all built-in parts do) and whose constraints are built in. *)
Definition good_call nc nf np (c : call cstate) : Prop :=
  match c with
  | CSetInteraction c _ _ => forall kw i, compiled c kw = Ok i -> inter_rel nf np id id i i
  | CSetEntropy c _ _ => forall kw s, compiled c kw = Ok s -> entropy_rel nc nf np id id id s s
  | CSetEnsemble c _ _ => forall kw n, compiled c kw = Ok n -> ensemble_rel nc np id id n n
  | CSetConstraints (CA_one c) _ _ _ => forall kw o, compiled c kw = Ok o -> builtin_cons nf (o_class o)
  | CSetConstraints (CA_list l) _ _ _ =>
      Forall (fun c => forall kw o, compiled c kw = Ok o -> builtin_cons nf (o_class o)) l
  | _ => True
  end.

Lemma compile_zip_builtin nf base l : forall ind cs,
  Forall (fun c => forall kw o, compiled c kw = Ok o -> builtin_cons nf (o_class o)) l ->
  compile_zip base l ind = Ok cs -> Forall (fun o => builtin_cons nf (o_class o)) cs.
Proof.
  induction l as [|c l IH]; intros ind cs HF H; [injection H as <-; constructor|].
  destruct ind as [|d ind]; [injection H as <-; constructor|]. simpl in H.
  apply bind_Ok in H. destruct H as (o & E1 & H). apply bind_Ok in H. destruct H as (os & E2 & H).
  injection H as <-. inversion HF; subst. constructor; eauto.
Qed.

Lemma compile_cons_builtin nc nf np base a b ind kw cs :
  good_call nc nf np (CSetConstraints a b ind kw) ->
  compile_cons no nf base a ind = Ok cs -> Forall (fun o => builtin_cons nf (o_class o)) cs.
Proof.
  intros HG H. assert (HNO : Forall (fun o => builtin_cons nf (o_class o)) [no nf]).
  { constructor; [|constructor]. rewrite Hno. constructor. }
  destruct a as [|c|l]; simpl in HG, H.
  - injection H as <-. exact HNO.
  - destruct ind; try discriminate; apply bind_Ok in H; destruct H as (o & E & H); injection H as <-;
      constructor; eauto.
  - destruct l as [|c l]; [injection H as <-; exact HNO|].
    destruct ind; try discriminate; eapply compile_zip_builtin; eauto.
Qed.

Lemma check_cons_all_builtin nc nf cs :
  Forall (fun o => builtin_cons nf (o_class o)) cs -> check_cons_all nc nf cs = Ok tt.
Proof.
  induction 1 as [|o l H _ IH]; auto. simpl. unfold check_cons, check_sizes. simpl.
  destruct H as [p <-|p <-|]; simpl; rewrite Nat.eqb_refl; exact IH.
Qed.

Lemma crel0_refl nf np o : builtin_cons nf (o_class o) -> crel0 nf np id id o o.
Proof.
  destruct o as [k s]. simpl. intros HB. destruct HB; simpl.
  - apply cr0_local; [now apply lin_rel_refl|]. reflexivity.
  - apply cr0_global; [now apply lin_rel_refl|]. reflexivity.
  - apply cr0_no; simpl; intros ? **; reflexivity.
Qed.

Lemma compile_prefix_builtin nf base l : forall ind,
  Forall (fun c => forall kw o, compiled c kw = Ok o -> builtin_cons nf (o_class o)) l ->
  Forall (fun o => builtin_cons nf (o_class o)) (compile_prefix base l ind).
Proof.
  induction l as [|c l IH]; intros [|d ind] HF; simpl; try constructor. inversion HF; subst.
  destruct (compiled c _) eqn:E; constructor; eauto.
Qed.

Lemma cons_prefix_builtin nc nf np base a b ind kw :
  good_call nc nf np (CSetConstraints a b ind kw) ->
  Forall (fun o => builtin_cons nf (o_class o)) (cons_prefix base a ind).
Proof.
  intros HG. destruct a as [|c|l], ind; simpl in *; try constructor; now apply compile_prefix_builtin.
Qed.

Lemma twin_cons f1 f2 cs : twin f1 f2 -> Forall (fun o => builtin_cons (f_nf f1) (o_class o)) cs ->
  twin (with_k f1 (k_with_cons (f_k f1) cs)) (with_k f2 (k_with_cons (f_k f2) cs)).
Proof.
  intros T HB. destruct (tw_state _ _ T) as ((A & B & C) & D). split; simpl; try apply T.
  split; [|exact D]. split; [exact A|]. split; [exact B|]. simpl. rewrite <- (tw_nf _ _ T).
  induction HB; constructor; auto using crel0_refl.
Qed.

Lemma reset_twin f1 f2 : twin f1 f2 -> twin (reset_revive f1) (reset_revive f2).
Proof. intros T. split; simpl; try apply T. now rewrite (tw_par _ _ T), (tw_np _ _ T). Qed.

Lemma observe_twin f1 f2 c : twin f1 f2 -> regular f1 -> good_call (f_nc f1) (f_nf f1) (f_np f1) c ->
  snd (observe f1 c) = snd (observe f2 c) /\ twin (fst (observe f1 c)) (fst (observe f2 c)) /\
  regular (fst (observe f1 c)).
Proof.
  intros T HR HG. destruct c; cbn [observe exec].
  - pose proof (run_twin ops f1 f2 max_steps tolerance interval T HR) as (X & Y & Z).
    assert (RR : regular (fst (run ops f1 max_steps tolerance interval))).
    { destruct (run ops f1 max_steps tolerance interval) as [f' o] eqn:E. apply run_any in E.
      destruct E as [->|(n & w & g & d & _ & ->)]; exact HR. }
    destruct (run ops f1 _ _ _) as [f1' r1]. destruct (run ops f2 _ _ _) as [f2' r2]. simpl in X, Y, Z, RR. subst r2.
    simpl. split; [|split; auto]. destruct r1 as [ph|e]; [|reflexivity]. now rewrite (Z ph eq_refl).
  - simpl. split; [reflexivity|]. unfold reinitialize_random.
    rewrite (tw_nf _ _ T), (tw_np _ _ T), (tw_par _ _ T), (proj2 (tw_state _ _ T)).
    destruct (draw_normal _ _ _ _ _) as [w g]. split; [|exact HR].
    apply reinit_with_twin; auto. intros r m _ _. reflexivity.
  - unfold reinitialize_from_omegas, check_field. rewrite (tw_nf _ _ T), (tw_np _ _ T), (proj2 (tw_state _ _ T)).
    destruct (nd_shape a) as [|r [|m [|x l]]]; simpl; auto.
    destruct (_ && _)%bool; simpl; auto. split; [reflexivity|]. split; [|exact HR].
    apply reinit_with_twin; auto. intros r0 m0 _ _. reflexivity.
  - unfold reinitialize_from_phis, check_field. rewrite (tw_nf _ _ T), (tw_np _ _ T), (proj2 (tw_state _ _ T)), (tw_inter _ _ T).
    destruct (nd_shape a) as [|r [|m [|x l]]]; simpl; auto.
    destruct (_ && _)%bool; simpl; auto. split; [reflexivity|]. split; [|exact HR].
    apply reinit_with_twin; auto. intros r0 m0 _ _. reflexivity.
  - simpl. split; [reflexivity|]. split; [|exact HR]. destruct (tw_state _ _ T) as ((A & B & C) & D).
    split; simpl; try apply T. split; [|exact D]. split; [exact A|]. split; [exact B|]. simpl.
    rewrite (tw_np _ _ T). now apply reinit_cons_same.
  - simpl. split; [reflexivity|]. split; [now apply reset_twin|exact HR].
  - unfold set_interaction. rewrite (tw_kwargs _ _ T). destruct (compiled c _) as [i|e] eqn:E; [|simpl; auto].
    cbn [f_nc f_nf with_inter]. rewrite (tw_nc _ _ T), (tw_nf _ _ T).
    assert (T' : twin (with_inter f1 i) (with_inter f2 i)) by (split; simpl; try apply T; auto).
    assert (R' : regular (with_inter f1 i)) by (split; [simpl; eapply HG; eauto|apply HR]).
    destruct (check_inter _ _ _); [destruct reset|]; simpl; split; auto; split; auto using reset_twin.
  - unfold set_entropy. rewrite (tw_kwargs _ _ T). destruct (compiled c _) as [s|e] eqn:E; [|simpl; auto].
    cbn [f_nc f_nf with_entropy]. rewrite (tw_nc _ _ T), (tw_nf _ _ T).
    assert (T' : twin (with_entropy f1 s) (with_entropy f2 s)) by (split; simpl; try apply T; auto).
    assert (R' : regular (with_entropy f1 s)) by (split; [apply HR|split; [simpl; eapply HG; eauto|apply HR]]).
    destruct (check_entropy _ _ _); [destruct reset|]; simpl; split; auto; split; auto using reset_twin.
  - unfold set_ensemble. rewrite (tw_kwargs _ _ T). destruct (compiled c _) as [n|e] eqn:E; [|simpl; auto].
    cbn [f_nc f_nf with_ensemble]. rewrite (tw_nc _ _ T), (tw_nf _ _ T).
    assert (T' : twin (with_ensemble f1 n) (with_ensemble f2 n)) by (split; simpl; try apply T; auto).
    assert (R' : regular (with_ensemble f1 n)) by (split; [apply HR|split; [apply HR|simpl; eapply HG; eauto]]).
    destruct (check_ensemble _ _ _); [destruct reset|]; simpl; split; auto; split; auto using reset_twin.
  - unfold set_constraints. rewrite <- (tw_kwargs _ _ T), <- (tw_nf _ _ T), <- (tw_nc _ _ T).
    destruct (compile_cons no (f_nf f1) _ a ind) as [cs|e] eqn:E.
    + pose proof (compile_cons_builtin _ _ _ _ _ _ _ _ _ HG E) as HB.
      rewrite (check_cons_all_builtin _ _ _ HB).
      assert (T' : twin (reinit_constraint (with_k f1 (k_with_cons (f_k f1) cs)))
                        (reinit_constraint (with_k f2 (k_with_cons (f_k f2) cs)))).
      { destruct (tw_state _ _ T) as ((A & B & C) & D). split; simpl; try apply T.
        split; [|exact D]. split; [exact A|]. split; [exact B|]. simpl. rewrite (tw_np _ _ T).
        apply init_cons_same; auto. rewrite <- (tw_nf _ _ T). exact HB. }
      destruct reset; simpl; split; auto; split; auto using reset_twin.
    + simpl. split; [reflexivity|]. split; [apply twin_cons; auto; eapply cons_prefix_builtin; eauto|exact HR].
Qed.

Lemma observe_const f c :
  f_nc (fst (observe f c)) = f_nc f /\ f_nf (fst (observe f c)) = f_nf f /\ f_np (fst (observe f c)) = f_np f.
Proof.
  destruct (exec ops no f c) as [f' o] eqn:E. assert (fst (observe f c) = f').
  { destruct c; cbn [observe]; try (now rewrite E).
    simpl in E. destruct (run _ _ _ _ _) as [f1 r]. now injection E as <- _. }
  rewrite H. apply exec_const in E. tauto.
Qed.

Lemma trace_twin l : forall f1 f2, twin f1 f2 -> regular f1 ->
  Forall (good_call (f_nc f1) (f_nf f1) (f_np f1)) l -> trace f1 l = trace f2 l.
Proof.
  induction l as [|c l IH]; intros f1 f2 T HR HG; [reflexivity|]. inversion HG; subst. cbn [trace].
  destruct (observe_twin f1 f2 c T HR) as (E & T' & R'); auto.
  destruct (observe_const f1 c) as (C1 & C2 & C3).
  destruct (observe f1 c) as [f1' o1]. destruct (observe f2 c) as [f2' o2]. simpl in *. subst o2. f_equal.
  apply IH; auto. now rewrite C1, C2, C3.
Qed.

(** Same configuration: parts, sizes, parameters, defaults, the classes of the
    constraints, generator.  Nothing is said about fields, volumes, fractions,
    multipliers, the left revive budget or the diagnostics. *)
Definition same_config f1 f2 : Prop :=
  f_inter f1 = f_inter f2 /\ f_entropy f1 = f_entropy f2 /\ f_ensemble f1 = f_ensemble f2 /\
  f_nc f1 = f_nc f2 /\ f_nf f1 = f_nf f2 /\ f_np f1 = f_np f2 /\ f_par f1 = f_par f2 /\
  f_kwargs f1 = f_kwargs f2 /\ map o_class (v_cons (f_k f1)) = map o_class (v_cons (f_k f2)) /\
  v_g (f_k f1) = v_g (f_k f2).

Definition is_reinit (c : call cstate) : bool :=
  match c with CReinitRandom | CReinitOmegas _ | CReinitPhis _ => true | _ => false end.

Lemma reinit_config_twin f1 f2 (w : mat) g : same_config f1 f2 ->
  Forall (fun o => builtin_cons (f_nf f2) (o_class o)) (v_cons (f_k f2)) ->
  twin (reinit_with f1 w g) (reinit_with f2 w g).
Proof.
  intros (E1 & E2 & E3 & E4 & E5 & E6 & E7 & E8 & E9 & E10) HB. split; simpl; auto.
  - now rewrite E7, E6.
  - split; [|reflexivity]. split; [intros r m _ _; reflexivity|]. split; [intros m _; reflexivity|].
    simpl. rewrite E6. now apply init_cons_same.
Qed.

(** Two finders with the same configuration: after the same successful
    reinitialisation every sequence of calls shows the same results. *)
Theorem C25_same_afterwards f1 f2 c l f1' f2' o :
  same_config f1 f2 -> regular f1 ->
  Forall (fun o => builtin_cons (f_nf f1) (o_class o)) (v_cons (f_k f1)) ->
  is_reinit c = true -> exec ops no f1 c = (f1', None) -> exec ops no f2 c = (f2', o) ->
  Forall (good_call (f_nc f1) (f_nf f1) (f_np f1)) l ->
  o = None /\ trace f1' l = trace f2' l.
Proof.
  intros HS HR HB HI E1 E2 HG.
  assert (HB2 : Forall (fun o => builtin_cons (f_nf f2) (o_class o)) (v_cons (f_k f2))).
  { destruct HS as (_ & _ & _ & _ & EN & _ & _ & _ & EC & _). rewrite <- EN.
    rewrite <- (Forall_map o_class (fun c => builtin_cons (f_nf f1) c)).
    rewrite <- EC. now rewrite Forall_map. }
  assert (X : exists (w : mat) g, f1' = reinit_with f1 w g /\ f2' = reinit_with f2 w g /\ o = None).
  { assert (HS' := HS). destruct HS' as (S1 & _ & _ & S4 & S5 & S6 & S7 & _ & _ & S10).
    destruct c; try discriminate HI; cbn [exec] in E1, E2.
    - injection E1 as <-. injection E2 as <- <-. unfold reinitialize_random.
      rewrite S5, S6, S7, S10. destruct (draw_normal _ _ _ _ _) as [w g]. eauto.
    - unfold reinitialize_from_omegas, check_field in *. rewrite S5, S6, S10 in E1.
      destruct (nd_shape a) as [|r [|m [|x ll]]]; simpl in *; try discriminate E1.
      destruct (_ && _)%bool; [|discriminate E1]. injection E1 as <-. injection E2 as <- <-. eauto.
    - unfold reinitialize_from_phis, check_field in *. rewrite S1, S5, S6, S10 in E1.
      destruct (nd_shape a) as [|r [|m [|x ll]]]; simpl in *; try discriminate E1.
      destruct (_ && _)%bool; [|discriminate E1]. injection E1 as <-. injection E2 as <- <-. eauto. }
  destruct X as (w & g & -> & -> & ->). split; [reflexivity|].
  apply trace_twin; auto. now apply reinit_config_twin.
Qed.

(** Built-in parts are regular. *)
Theorem C25_builtin_regular f :
  classic (f_nc f) (kernel_of f) -> regular f.
Proof.
  intros H. pose proof (classic_rel (f_nc f) (kernel_of f) id H (perm_id _)) as K.
  split; [apply (qr_inter _ _ _ _ _ _ _ _ K)|split; [apply (qr_entropy _ _ _ _ _ _ _ _ K)|apply (qr_ensemble _ _ _ _ _ _ _ _ K)]].
Qed.
End Forget.
