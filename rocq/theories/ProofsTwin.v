(** ProofsTwin.v -- relabelled states over several steps; finders that agree on
    the entries that matter behave alike. *)

From Coq Require Import String Reals Lra Lia List Bool Arith ZArith.
From Verif Require Import Base ModelCommon ModelParts ModelKernel ModelPhases ModelFinder ModelHistory
  ProofsKernel ProofsParts ProofsCopy ProofsRelabel Spec.
Import ListNotations.
Open Scope R_scope.

(* ------------------------------------------------------------------ *)
(** * Several steps *)
Section Steps.
Variables (nc nf np : nat) (sg rh ta : nat -> nat).
Hypotheses (Hsg : perm_on np sg) (Hrh : perm_on nf rh).
Context {St : Type} (C0 C1 : cons_obj St -> cons_obj St -> Prop).
Hypothesis HC : cons_rel nf np sg rh C0 C1.
Variables (q1 q2 : kernel).
Hypothesis HQ : kernel_rel nc nf np sg rh ta q1 q2.
Context {G1 G2 : Type} (ops1 : rng_ops G1) (ops2 : rng_ops G2) (tries : Z).

(** state relation, including the generators *)
Variable S0 : kstate G1 St -> kstate G2 St -> Prop.
Hypothesis S0_krel : forall k1 k2, S0 k1 k2 -> krel nf np sg rh C0 k1 k2.
Hypothesis S0_iter : forall k1 k2 k1' k2', S0 k1 k2 -> krel nf np sg rh C0 k1' k2' ->
  v_g k1' = v_g k1 -> v_g k2' = v_g k2 -> S0 k1' k2'.
Hypothesis S0_revive : forall c k1 k2, S0 k1 k2 ->
  fst (maybe_revive ops1 q1 tries c k1) = fst (maybe_revive ops2 q2 tries c k2) /\
  S0 (snd (maybe_revive ops1 q1 tries c k1)) (snd (maybe_revive ops2 q2 tries c k2)).

Definition mrel (w1 : mstate G1 St) (w2 : mstate G2 St) : Prop :=
  S0 (w_k w1) (w_k w2) /\ w_count w1 = w_count w2 /\ w_valid w1 = w_valid w2 /\ w_rep w1 = w_rep w2 /\
  (w_rep w1 <> None -> cr nc np sg ta (v_phis_comp (w_k w1)) (v_phis_comp (w_k w2)) /\
                       fr nf np sg rh (v_phis_feat (w_k w1)) (v_phis_feat (w_k w2))).

Definition rel2 {A B} (R : A -> B -> Prop) (x : res A) (y : res B) : Prop :=
  match x, y with Ok a, Ok b => R a b | Err e, Err e' => e = e' | _, _ => False end.

Lemma one_step_rel w1 w2 : mrel w1 w2 -> rel2 mrel (one_step ops1 q1 tries w1) (one_step ops2 q2 tries w2).
Proof using Hsg Hrh HC HQ S0_krel S0_iter S0_revive.
  intros (H0 & Hc & _). unfold one_step. rewrite Hc.
  destruct (S0_revive (w_count w2) _ _ H0) as (E & R).
  destruct (maybe_revive ops1 q1 tries (w_count w2) (w_k w1)) as [c1 k1].
  destruct (maybe_revive ops2 q2 tries (w_count w2) (w_k w2)) as [c2 k2]. simpl in E, R. subst c2.
  pose proof (iterate_rel nc nf np sg rh ta Hsg Hrh C0 C1 HC q1 q2 HQ k1 k2 (S0_krel _ _ R)) as I.
  destruct (iterate q1 k1) as [[[k1' n1] r1]|e1], (iterate q2 k2) as [[[k2' n2] r2]|e2]; try contradiction; auto.
  destruct I as (I1 & I2 & I3 & -> & -> & I4 & I5). cbn [bind rel2].
  split; [simpl; eapply S0_iter; eauto|]. simpl. auto.
Qed.

Lemma steps_rel n w1 w2 : mrel w1 w2 -> rel2 mrel (steps ops1 q1 tries n w1) (steps ops2 q2 tries n w2).
Proof using Hsg Hrh HC HQ S0_krel S0_iter S0_revive.
  intros H. induction n as [|n IH]; [exact H|]. cbn [steps].
  destruct (steps ops1 q1 tries n w1) as [a|e], (steps ops2 q2 tries n w2) as [b|e']; simpl in IH; try contradiction.
  - now apply one_step_rel.
  - exact IH.
Qed.
End Steps.

(* ------------------------------------------------------------------ *)
(** * Revival depends on the in-range entries only *)
Section Cong.
Notation id := (fun i : nat => i).
Context {G : Type} (ops : rng_ops G).

Lemma vmax_ext n f g : (forall i, (i < n)%nat -> f i = g i) -> vmax n f = vmax n g.
Proof. apply (vmax_rel n id). apply perm_id. Qed.
Lemma vmin_ext n f g : (forall i, (i < n)%nat -> f i = g i) -> vmin n f = vmin n g.
Proof. apply (vmin_rel n id). apply perm_id. Qed.

Lemma redraw_column_ext nf np s m (A0 B0 A B : mat) g :
  fr nf np id id A0 B0 -> fr nf np id id A B ->
  fr nf np id id (fst (redraw_column ops nf np A0 s m (A, g))) (fst (redraw_column ops nf np B0 s m (B, g))) /\
  snd (redraw_column ops nf np A0 s m (A, g)) = snd (redraw_column ops nf np B0 s m (B, g)).
Proof.
  intros H0 H. unfold redraw_column.
  assert (forall n, (n <= nf)%nat ->
    let step X := fun i '(targets, g) => let '(u, g') := g_uniform ops g in
       (upd2 targets i m (target_center np X i + target_width np X i * s * u), g') in
    fr nf np id id (fst (for_ n (step A0) (A, g))) (fst (for_ n (step B0) (B, g))) /\
    snd (for_ n (step A0) (A, g)) = snd (for_ n (step B0) (B, g))) as L; [|apply L; lia].
  induction n; intros Hn; cbv zeta; [simpl; auto|].
  specialize (IHn ltac:(lia)). cbv zeta in IHn. rewrite !for_S.
  destruct (for_ n _ (A, g)) as [a ga]. destruct (for_ n _ (B, g)) as [b gb]. simpl in IHn.
  destruct IHn as (I1 & ->). destruct (g_uniform ops gb) as [u g']. simpl. split; [|reflexivity].
  intros r j Hr Hj. unfold upd2.
  assert (E : target_center np A0 n = target_center np B0 n).
  { unfold target_center. rewrite (vmax_ext np (A0 n) (B0 n)), (vmin_ext np (A0 n) (B0 n)); auto;
    intros i Hi; apply H0; auto. }
  assert (E' : target_width np A0 n = target_width np B0 n).
  { unfold target_width. rewrite (vmax_ext np (A0 n) (B0 n)), (vmin_ext np (A0 n) (B0 n)); auto;
    intros i Hi; apply H0; auto. }
  rewrite E, E'. destruct (_ && _)%bool; auto.
Qed.

Lemma revive_by_random_ext nf np (J1 J2 : vec) (A B : mat) thr g s :
  vr np id J1 J2 -> fr nf np id id A B ->
  let '(c1, J1', A', g1) := revive_by_random ops nf np J1 A thr g s in
  let '(c2, J2', B', g2) := revive_by_random ops nf np J2 B thr g s in
  c1 = c2 /\ vr np id J1' J2' /\ fr nf np id id A' B' /\ g1 = g2.
Proof.
  intros HJ HA. unfold revive_by_random.
  assert (forall n, (n <= np)%nat ->
    let step X := fun m '(count, J, t, g) =>
     if Rleb (J m) thr then
       let '(t', g') := redraw_column ops nf np X s m (t, g) in
       (S count, upd J m 1, t', g')
     else (count, J, t, g) in
    let '(c1, J1', A', g1) := for_ n (step A) (O, J1, A, g) in
    let '(c2, J2', B', g2) := for_ n (step B) (O, J2, B, g) in
    c1 = c2 /\ vr np id J1' J2' /\ fr nf np id id A' B' /\ g1 = g2) as L; [|apply L; lia].
  induction n; intros Hn; cbv beta zeta; [simpl; auto|].
  specialize (IHn ltac:(lia)). cbv beta zeta in IHn. rewrite !for_S.
  match type of IHn with let '(_, _) := ?a in _ => destruct a as [[[c1 j1] t1] g1] end.
  match type of IHn with let '(_, _) := ?a in _ => destruct a as [[[c2 j2] t2] g2] end.
  destruct IHn as (-> & I1 & I2 & ->). rewrite (I1 n ltac:(lia)). destruct (Rleb (j2 n) thr); [|auto].
  pose proof (redraw_column_ext nf np s n A B t1 t2 g2 HA I2) as (R1 & R2).
  destruct (redraw_column ops nf np A s n (t1, g2)) as [x1 y1].
  destruct (redraw_column ops nf np B s n (t2, g2)) as [x2 y2]. simpl in R1, R2.
  repeat split; auto. intros m Hm. unfold upd. destruct (Nat.eqb m n); auto.
Qed.

Lemma count_valid_ext np J1 J2 thr : vr np id J1 J2 -> count_valid np J1 thr = count_valid np J2 thr.
Proof. intros H. apply ncount_ext. intros m Hm. now rewrite (H m Hm). Qed.

Lemma classify_ext np J1 J2 thr : vr np id J1 J2 -> classify np J1 thr = classify np J2 thr.
Proof.
  intros H. unfold classify.
  assert (forall n, (n <= np)%nat ->
    let step J := fun m '(living, lc, dead) =>
     if Rltb (2 * thr) (J m) then (upd living lc (Some m), S lc, dead)
     else if Rleb (J m) thr then (living, lc, dead ++ [m])
     else (living, lc, dead) in
    for_ n (step J1) (fun _ : nat => None, O, []) = for_ n (step J2) (fun _ => None, O, [])) as L; [|apply L; lia].
  induction n; intros Hn; cbv zeta; [reflexivity|]. specialize (IHn ltac:(lia)). cbv zeta in IHn.
  rewrite !for_S, IHn. destruct (for_ n _ _) as [[l c] d]. now rewrite (H n ltac:(lia)).
Qed.

Definition inside (np : nat) (living : nat -> option nat) : Prop := forall p x, living p = Some x -> (x < np)%nat.

Lemma classify_inside np J thr :
  let '(living, lc, dead) := classify np J thr in inside np living /\ forall d, In d dead -> (d < np)%nat.
Proof.
  unfold classify. induction np; [simpl; split; [intros p x; discriminate|intros d []]|].
  rewrite for_S. destruct (for_ np _ _) as [[l c] d]. destruct IHnp as (I1 & I2).
  assert (I3 : inside (S np) l) by (intros p x Hx; specialize (I1 p x Hx); lia).
  destruct (Rltb (2 * thr) (J np)); [|destruct (Rleb (J np) thr)]; split; auto.
  - intros p x. unfold upd. destruct (Nat.eqb p c); [intros X; injection X as <-; lia|apply I3].
  - intros e He. specialize (I2 e He). lia.
  - intros e He. apply in_app_iff in He. destruct He as [He|[<-|[]]]; [specialize (I2 e He); lia|lia].
  - intros e He. specialize (I2 e He). lia.
Qed.

Lemma find_donor_ext np J1 J2 thr lc : vr np id J1 J2 -> forall living g, inside np living ->
  find_donor ops J1 thr lc living g = find_donor ops J2 thr lc living g /\
  forall ref l' lc' g', find_donor ops J2 thr lc living g = Ok (ref, l', lc', g') -> (ref < np)%nat /\ inside np l'.
Proof.
  intros H. induction lc as [|k IH]; intros living g HI; simpl; [split; [reflexivity|discriminate]|].
  destruct (g_integers ops g (S k)) as [pos g']. destruct (living pos) as [ref|] eqn:E; [|split; [reflexivity|discriminate]].
  pose proof (HI _ _ E) as Hr. rewrite (H ref Hr). destruct (Rltb (2 * thr) (J2 ref)).
  - split; [reflexivity|]. intros a b c d X. injection X as <- <- <- <-. auto.
  - apply IH. intros p x. unfold upd.
    destruct (Nat.eqb p k); [discriminate|]. destruct (Nat.eqb p pos); apply HI.
Qed.

(** copy states with equal relevant entries; [nc] rows of the targets *)
Definition yrel nc np (s1 s2 : copy_state G) : Prop :=
  vr np id (y_Js s1) (y_Js s2) /\ cr nc np id id (y_targets s1) (y_targets s2) /\
  y_living s1 = y_living s2 /\ inside np (y_living s2) /\ y_lc s1 = y_lc s2 /\ y_g s1 = y_g s2 /\ y_count s1 = y_count s2.

Lemma copy_all_ext nc np thr dead : forall s1 s2, yrel nc np s1 s2 -> (forall d, In d dead -> (d < np)%nat) ->
  rel2 (yrel nc np) (copy_all ops np thr dead s1) (copy_all ops np thr dead s2).
Proof.
  induction dead as [|d dead IH]; intros s1 s2 H HD; [exact H|].
  destruct H as (HJ & HT & HL & HI & HC & HG & HN). cbn [copy_all]. unfold copy_one.
  destruct (find_donor_ext np _ _ thr (y_lc s2) HJ (y_living s2) (y_g s2) HI) as (E & HF).
  rewrite HL, HC, HG, E. destruct (find_donor ops (y_Js s2) thr _ _ _) as [[[[ref l'] lc'] g']|e]; [|reflexivity].
  destruct (HF _ _ _ _ eq_refl) as (Hr & HI'). cbn [bind].
  destruct (negb _); [reflexivity|]. cbn [bind]. apply IH; [|intros; apply HD; simpl; auto].
  unfold yrel. cbn [y_Js y_targets y_living y_lc y_g y_count]. rewrite (HJ ref Hr), HN.
  repeat split; auto.
  - intros m Hm. unfold upd. destruct (Nat.eqb m ref); auto. destruct (Nat.eqb m d); auto.
  - intros i m Hi Hm. destruct (Nat.eqb m d); now apply HT.
  - intros p x. unfold upd. destruct (Nat.eqb p lc'); [|apply HI'].
    intros X. injection X as <-. apply HD. simpl; auto.
Qed.

Lemma revive_by_copy_ext nc np J1 J2 (A B : mat) thr g :
  vr np id J1 J2 -> cr nc np id id A B ->
  rel2 (fun '(n1, J1', A', g1) '(n2, J2', B', g2) =>
         n1 = n2 /\ vr np id J1' J2' /\ cr nc np id id A' B' /\ g1 = g2)
       (revive_by_copy ops np J1 A thr g) (revive_by_copy ops np J2 B thr g).
Proof.
  intros HJ HA. unfold revive_by_copy. rewrite (classify_ext np J1 J2 thr HJ).
  destruct (classify np J2 thr) as [[living lc] dead] eqn:EC.
  pose proof (classify_inside np J2 thr) as CS. rewrite EC in CS. destruct CS as (CS1 & CS2).
  match goal with |- rel2 _ (bind (copy_all _ _ _ _ ?a) _) (bind (copy_all _ _ _ _ ?b) _) =>
    assert (X : rel2 (yrel nc np) (copy_all ops np thr dead a) (copy_all ops np thr dead b)) end.
  { apply copy_all_ext; [repeat split; auto|exact CS2]. }
  destruct (copy_all ops np thr dead _) as [s1|e1], (copy_all ops np thr dead _) as [s2|e2]; simpl in X;
    try contradiction; [|exact X].
  destruct X as (X1 & X2 & X3 & X4 & X5 & X6 & X7). simpl. auto.
Qed.

(** the part that does not depend on the targets *)
Lemma revive_by_copy_ext0 np J1 J2 (A B : mat) thr g :
  vr np id J1 J2 ->
  rel2 (fun '(n1, J1', _, g1) '(n2, J2', _, g2) => n1 = n2 /\ vr np id J1' J2' /\ g1 = g2)
       (revive_by_copy ops np J1 A thr g) (revive_by_copy ops np J2 B thr g).
Proof.
  intros HJ. pose proof (revive_by_copy_ext 0 np J1 J2 A B thr g HJ) as X.
  specialize (X ltac:(intros i m Hi; lia)).
  destruct (revive_by_copy ops np J1 A thr g) as [[[[n1 j1] a1] g1]|e1],
           (revive_by_copy ops np J2 B thr g) as [[[[n2 j2] a2] g2]|e2]; simpl in *; tauto.
Qed.
End Cong.

(* ------------------------------------------------------------------ *)
(** * Finders *)
Section Twin.
Notation id := (fun i : nat => i).
Context {G : Type} (ops : rng_ops G).
Implicit Types (f : finder G cstate) (k : kstate G cstate).

(** The compiled parts read the in-range entries only. *)
Definition regular f : Prop :=
  inter_rel (f_nf f) (f_np f) id id (f_inter f) (f_inter f) /\
  entropy_rel (f_nc f) (f_nf f) (f_np f) id id id (f_entropy f) (f_entropy f) /\
  ensemble_rel (f_nc f) (f_np f) id id (f_ensemble f) (f_ensemble f).

Definition same_state nf np k1 k2 : Prop :=
  krel nf np id id (crel0 nf np id id) k1 k2 /\ v_g k1 = v_g k2.

Record twin f1 f2 : Prop := {
  tw_inter : f_inter f1 = f_inter f2;
  tw_entropy : f_entropy f1 = f_entropy f2;
  tw_ensemble : f_ensemble f1 = f_ensemble f2;
  tw_nc : f_nc f1 = f_nc f2;
  tw_nf : f_nf f1 = f_nf f2;
  tw_np : f_np f1 = f_np f2;
  tw_par : f_par f1 = f_par f2;
  tw_kwargs : f_kwargs f1 = f_kwargs f2;
  tw_left : f_left f1 = f_left f2;
  tw_state : same_state (f_nf f2) (f_np f2) (f_k f1) (f_k f2)
}.

Lemma twin_kernel f1 f2 : twin f1 f2 -> kernel_of f1 = kernel_of f2.
Proof. intros T. unfold kernel_of. rewrite (tw_inter _ _ T), (tw_entropy _ _ T), (tw_ensemble _ _ T), (tw_nf _ _ T), (tw_np _ _ T), (tw_par _ _ T). reflexivity. Qed.

Lemma regular_kernel f : regular f ->
  kernel_rel (f_nc f) (f_nf f) (f_np f) id id id (kernel_of f) (kernel_of f).
Proof. intros (R1 & R2 & R3). split; auto. Qed.

Lemma maybe_revive_same (q : kernel) tries c k1 k2 :
  same_state (q_nf q) (q_np q) k1 k2 ->
  fst (maybe_revive ops q tries c k1) = fst (maybe_revive ops q tries c k2) /\
  same_state (q_nf q) (q_np q) (snd (maybe_revive ops q tries c k1)) (snd (maybe_revive ops q tries c k2)).
Proof.
  intros H. destruct H as ((HW & HJ & HC) & HG). unfold maybe_revive.
  destruct (Z.ltb _ _); [|simpl; repeat split; auto].
  rewrite (count_valid_ext _ _ _ _ HJ). destruct (Nat.eqb _ _); [simpl; repeat split; auto|].
  rewrite HG. pose proof (revive_by_random_ext ops (q_nf q) (q_np q) _ _ _ _ (q_thr q) (v_g k2) (q_scaler q) HJ HW) as X.
  destruct (revive_by_random ops (q_nf q) (q_np q) (v_Js k1) _ _ _ _) as [[[c1 j1] t1] g1].
  destruct (revive_by_random ops (q_nf q) (q_np q) (v_Js k2) _ _ _ _) as [[[c2 j2] t2] g2].
  destruct X as (-> & X1 & X2 & ->). simpl. repeat split; auto.
Qed.

Lemma metastep_twin f n tries k1 k2 : regular f -> same_state (f_nf f) (f_np f) k1 k2 ->
  rel2 (fun '(k1', r1, c1, s1) '(k2', r2, c2, s2) =>
          same_state (f_nf f) (f_np f) k1' k2' /\ r1 = r2 /\ c1 = c2 /\ s1 = s2 /\
          cr (f_nc f) (f_np f) id id (v_phis_comp k1') (v_phis_comp k2'))
    (metastep ops (kernel_of f) n tries k1) (metastep ops (kernel_of f) n tries k2).
Proof.
  intros HR HS. unfold metastep.
  pose proof (steps_rel (f_nc f) (f_nf f) (f_np f) id id id (perm_id _) (perm_id _)
    (crel0 (f_nf f) (f_np f) id id) (crel1 (f_nf f) (f_np f) id id)
    (crel_cons_rel _ _ _ _ (perm_id _) (perm_id _)) (kernel_of f) (kernel_of f) (regular_kernel f HR)
    ops ops tries (same_state (f_nf f) (f_np f))) as X.
  specialize (X ltac:(intros a b H; apply H)).
  specialize (X ltac:(intros a b a' b' (_ & H) H' E1 E2; split; [exact H'|congruence])).
  specialize (X ltac:(intros c a b H; now apply (maybe_revive_same (kernel_of f)))).
  specialize (X n {| w_k := k1; w_count := 0; w_valid := 0%Z; w_rep := None |}
                  {| w_k := k2; w_count := 0; w_valid := 0%Z; w_rep := None |}).
  match type of X with ?P -> _ => assert (P0 : P) by (split; [exact HS|]; do 3 (split; [reflexivity|]); simpl; congruence); specialize (X P0) end.
  destruct (steps ops (kernel_of f) tries n {| w_k := k1; w_count := 0; w_valid := 0%Z; w_rep := None |}) as [w1|e1],
    (steps ops (kernel_of f) tries n {| w_k := k2; w_count := 0; w_valid := 0%Z; w_rep := None |}) as [w2|e2];
    simpl in X; try contradiction; [|exact X].
  destruct X as (X1 & X2 & X3 & X4 & X5). cbn [bind]. rewrite <- X4. destruct (w_rep w1) as [rep|]; [|reflexivity].
  destruct X5 as (X5 & _); [discriminate|]. cbn [rel2].
  split; [exact X1|]. split; [reflexivity|]. split; [exact X2|]. split; [|exact X5].
  rewrite X3. do 2 f_equal. apply count_valid_ext. apply X1.
Qed.

Definition rtwin (s1 s2 : rstate G cstate) : Prop :=
  twin (r_f s1) (r_f s2) /\ r_steps s1 = r_steps s2 /\ r_rep s1 = r_rep s2 /\ r_conv s1 = r_conv s2 /\
  (r_rep s1 <> None -> cr (f_nc (r_f s2)) (f_np (r_f s2)) id id (v_phis_comp (f_k (r_f s1))) (v_phis_comp (f_k (r_f s2)))).

Lemma run_loop_twin tol inner n : forall s1 s2, rtwin s1 s2 -> regular (r_f s2) ->
  rtwin (fst (run_loop ops tol inner n s1)) (fst (run_loop ops tol inner n s2)) /\
  snd (run_loop ops tol inner n s1) = snd (run_loop ops tol inner n s2).
Proof.
  induction n as [|n IH]; intros s1 s2 H HR; [simpl; auto|]. cbn [run_loop].
  assert (H0 := H). destruct H as (T & H1 & H2 & H3 & H4).
  rewrite (twin_kernel _ _ T), (tw_left _ _ T), (tw_par _ _ T).
  pose proof (metastep_twin (r_f s2) inner (f_left (r_f s2)) _ _ HR (tw_state _ _ T)) as M.
  destruct (metastep ops _ _ _ (f_k (r_f s1))) as [[[[k1 r1] c1] b1]|e1],
           (metastep ops _ _ _ (f_k (r_f s2))) as [[[[k2 r2] c2] b2]|e2]; simpl in M; try contradiction;
    [|subst; split; [exact H0|reflexivity]].
  destruct M as (M1 & -> & -> & -> & M2).
  assert (T' : twin (with_left (with_k (r_f s1) k1) (f_left (r_f s2) - Z.of_nat c2)%Z)
                    (with_left (with_k (r_f s2) k2) (f_left (r_f s2) - Z.of_nat c2)%Z)).
  { destruct T. split; auto. }
  destruct (String.eqb _ _); [destruct (converged _ _ _)|].
  - simpl. split; [|reflexivity]. unfold rtwin. simpl. rewrite H1. auto.
  - apply IH; [|exact HR]. unfold rtwin. simpl. rewrite H1. auto.
  - simpl. split; [|reflexivity]. unfold rtwin. simpl. rewrite H1. auto.
Qed.

Lemma result_phases_ext nc np J1 J2 (A B : mat) : vr np id J1 J2 -> cr nc np id id A B ->
  result_phases nc np J1 A = result_phases nc np J2 B.
Proof.
  intros HJ HA. unfold result_phases, mk_phases. simpl. rewrite Nat.eqb_refl. f_equal. f_equal.
  - apply map_ext_in. intros p Hp. apply in_seq in Hp. apply HJ. lia.
  - apply map_ext_in. intros p Hp. apply in_seq in Hp. apply map_ext_in. intros i Hi. apply in_seq in Hi.
    apply HA; lia.
Qed.

Lemma twin_regular f1 f2 : twin f1 f2 -> regular f1 -> regular f2.
Proof.
  intros T. unfold regular.
  now rewrite (tw_inter _ _ T), (tw_entropy _ _ T), (tw_ensemble _ _ T), (tw_nf _ _ T), (tw_np _ _ T), (tw_nc _ _ T).
Qed.

Theorem run_twin f1 f2 a t i : twin f1 f2 -> regular f1 ->
  twin (fst (run ops f1 a t i)) (fst (run ops f2 a t i)) /\
  snd (run ops f1 a t i) = snd (run ops f2 a t i) /\
  forall ph, snd (run ops f1 a t i) = Ok ph -> f_diag (fst (run ops f1 a t i)) = f_diag (fst (run ops f2 a t i)).
Proof.
  intros T HR. assert (HR2 := twin_regular _ _ T HR). unfold run. rewrite (tw_par _ _ T).
  destruct (schedule _ _) as [[tr inner]|e]; [|simpl; split; [auto|split; [auto|discriminate]]].
  set (tol := match t with Some _ => _ | None => _ end).
  pose proof (run_loop_twin tol inner tr {| r_f := f1; r_steps := 0; r_rep := None; r_conv := false |}
    {| r_f := f2; r_steps := 0; r_rep := None; r_conv := false |}) as L.
  specialize (L ltac:(split; [exact T|]; do 3 (split; [reflexivity|]); simpl; congruence) HR2).
  destruct (run_loop ops tol inner tr {| r_f := f1; r_steps := 0; r_rep := None; r_conv := false |}) as [s1 o1].
  destruct (run_loop ops tol inner tr {| r_f := f2; r_steps := 0; r_rep := None; r_conv := false |}) as [s2 o2].
  simpl in L. destruct L as ((T' & L1 & L2 & L3 & L4) & ->).
  destruct o2 as [[]|e]; [|simpl; split; [auto|split; [auto|discriminate]]].
  destruct (tw_state _ _ T') as ((W1 & W2 & W3) & W4).
  rewrite (tw_np _ _ T'), (tw_par _ _ T'), W4.
  destruct (r_rep s1) as [rep|] eqn:ER.
  - rewrite <- L2. specialize (L4 ltac:(discriminate)).
    pose proof (revive_by_copy_ext ops _ _ _ _ _ _ (m_thr (f_par (r_f s2))) (v_g (f_k (r_f s2))) W2 L4) as X.
    destruct (revive_by_copy ops _ (v_Js (f_k (r_f s1))) _ _ _) as [[[[n1 j1] p1] g1]|e1],
             (revive_by_copy ops _ (v_Js (f_k (r_f s2))) _ _ _) as [[[[n2 j2] p2] g2]|e2]; simpl in X; try contradiction.
    + destruct X as (-> & X1 & X2 & ->). simpl. rewrite L1, (tw_left _ _ T'), (tw_nc _ _ T'), (tw_np _ _ T').
      rewrite (result_phases_ext _ _ _ _ _ _ X1 X2). split; [|auto].
      split; simpl; try apply T'. repeat split; auto.
    + subst. simpl. split; [auto|split; [auto|discriminate]].
  - rewrite <- L2.
    pose proof (revive_by_copy_ext0 ops _ _ _ (v_phis_comp (f_k (r_f s1))) (v_phis_comp (f_k (r_f s2)))
      (m_thr (f_par (r_f s2))) (v_g (f_k (r_f s2))) W2) as X.
    destruct (revive_by_copy ops _ (v_Js (f_k (r_f s1))) _ _ _) as [[[[n1 j1] p1] g1]|e1],
             (revive_by_copy ops _ (v_Js (f_k (r_f s2))) _ _ _) as [[[[n2 j2] p2] g2]|e2]; simpl in X; try contradiction.
    + destruct X as (-> & X1 & ->). simpl. split; [|split; [auto|discriminate]].
      split; simpl; try apply T'. repeat split; auto.
    + subst. simpl. split; [auto|split; [auto|discriminate]].
Qed.

(* ------------------------------------------------------------------ *)
(** ** Other methods *)

(** A built-in constraint whose number of features is [nf]. *)
Inductive builtin_cons (nf : nat) : cons_class cstate -> Prop :=
| bc_local p : l_feat p = nf -> builtin_cons nf (local_class p)
| bc_global p : l_feat p = nf -> builtin_cons nf (global_class p)
| bc_no : builtin_cons nf (no_class nf).

Lemma lin_rel_refl nf p : l_feat p = nf -> lin_rel nf id p p.
Proof. intros. split; auto. Qed.

(** After [initialize] the past of a built-in constraint is irrelevant. *)
Lemma init_same nf np o1 o2 : o_class o1 = o_class o2 -> builtin_cons nf (o_class o2) ->
  crel0 nf np id id (set_state o1 (k_init (o_class o1) np (o_state o1)))
                    (set_state o2 (k_init (o_class o2) np (o_state o2))).
Proof.
  destruct o1 as [k1 s1], o2 as [k2 s2]. simpl. intros -> HB. unfold set_state. simpl.
  destruct HB; simpl.
  - apply cr0_local; [now apply lin_rel_refl|]. reflexivity.
  - apply cr0_global; [now apply lin_rel_refl|]. reflexivity.
  - apply cr0_no; simpl; intros ? **; reflexivity.
Qed.

Lemma init_cons_same nf np l1 l2 : map o_class l1 = map o_class l2 ->
  Forall (fun o => builtin_cons nf (o_class o)) l2 ->
  Forall2 (crel0 nf np id id) (init_cons np l1) (init_cons np l2).
Proof.
  revert l2. induction l1 as [|o1 l1 IH]; intros [|o2 l2] HE HB; try discriminate; [constructor|].
  simpl in HE. injection HE as H1 H2. inversion HB; subst. constructor; [now apply init_same|]. now apply IH.
Qed.

Lemma crel0_class nf np o1 o2 : crel0 nf np id id o1 o2 -> forall o1' o2',
  o_class o1' = o_class o1 -> o_class o2' = o_class o2 ->
  crel0 nf np id id (set_state o1' (k_init (o_class o1') np (o_state o1')))
                    (set_state o2' (k_init (o_class o2') np (o_state o2'))).
Proof.
  intros H [k1 s1] [k2 s2] E1 E2. simpl in E1, E2. subst. unfold set_state. simpl.
  destruct H as [p1 p2 t1 t2 L H|p1 p2 t1 t2 L H|n1 n2 t1 t2 H1 H2]; simpl.
  - apply cr0_local; auto.
  - apply cr0_global; auto.
  - apply cr0_no; simpl; intros ? **; reflexivity.
Qed.

Lemma reinit_cons_same nf np l1 l2 : Forall2 (crel0 nf np id id) l1 l2 ->
  Forall2 (crel0 nf np id id) (init_cons np l1) (init_cons np l2).
Proof. induction 1; simpl; constructor; auto. eapply crel0_class; eauto. Qed.

Lemma reinit_with_twin f1 f2 (w1 w2 : mat) g : twin f1 f2 -> fr (f_nf f2) (f_np f2) id id w1 w2 ->
  twin (reinit_with f1 w1 g) (reinit_with f2 w2 g).
Proof.
  intros T HW. split; simpl; try apply T.
  - now rewrite (tw_par _ _ T), (tw_np _ _ T).
  - split; [|reflexivity]. split; [exact HW|]. split; [intros m Hm; reflexivity|]. simpl.
    rewrite (tw_np _ _ T). apply reinit_cons_same. apply (tw_state _ _ T).
Qed.
End Twin.
