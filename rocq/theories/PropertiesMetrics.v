(** PropertiesMetrics.v -- reported errors as state functions (C62), identical
    compartments (C63) and homogeneous starts (C64). *)

From Coq Require Import String Reals Lra Lia List Bool Arith ZArith FunctionalExtensionality.
From Verif Require Import Base ModelCommon ModelParts ModelKernel ModelPhases ModelFinder
  ProofsKernel ProofsParts ProofsSteps ProofsCopy ProofsRun ProofsHistory ProofsRun2 ProofsRelabel ProofsTwin Spec
  PropertiesKernel PropertiesRun PropertiesRelabel.
Import ListNotations.
Open Scope R_scope.

(* ------------------------------------------------------------------ *)
(** * C62: the errors do not depend on the iteration parameters *)

(** everything but [acceptance_Js], [acceptance_omega] and
    [Js_step_upper_bound] agrees *)
Definition same_physics (q1 q2 : kernel) : Prop :=
  q_inter q1 = q_inter q2 /\ q_entropy q1 = q_entropy q2 /\ q_ensemble q1 = q_ensemble q2 /\
  q_nf q1 = q_nf q2 /\ q_np q1 = q_np q2 /\ q_thr q1 = q_thr q2 /\ q_scaler q1 = q_scaler q2.

(** a constraint whose reported residue does not depend on the step size *)
Definition honest {St} (c : cons_class St) : Prop :=
  forall np s1 s2 masks st, snd (k_evolve c np s1 masks st) = snd (k_evolve c np s2 masks st).

Theorem C62_builtin_constraints nf c : builtin_cons nf c -> honest c.
Proof. intros [p _|p _|]; intros np s1 s2 masks st; reflexivity. Qed.

Section Metrics.
Context {G St : Type}.
Implicit Types (k : kstate G St).

Lemma evolve_residue np s1 s2 masks (l : list (cons_obj St)) : forall worst,
  Forall (fun o => honest (o_class o)) l ->
  snd (evolve_all np s1 masks worst l) = snd (evolve_all np s2 masks worst l).
Proof.
  induction l as [|o l IH]; intros worst H; [reflexivity|]. inversion H as [|? ? H1 H2]; subst. cbn [evolve_all].
  pose proof (H1 np s1 s2 masks (o_state o)) as E.
  destruct (k_evolve (o_class o) np s1 masks (o_state o)) as [a x], (k_evolve (o_class o) np s2 masks (o_state o)) as [b y].
  cbn in E. subst y. specialize (IH (Rmax worst x) H2).
  destruct (evolve_all np s1 masks (Rmax worst x) l), (evolve_all np s2 masks (Rmax worst x) l). exact IH.
Qed.

Lemma prepared_honest np feat J masks (l : list (cons_obj St)) :
  Forall (fun o => honest (o_class o)) l -> Forall (fun o => honest (o_class o)) (prepare_all np feat J masks l).
Proof. intros H. unfold prepare_all. rewrite Forall_map. exact H. Qed.

(** One step from the same state with other iteration parameters. *)
Theorem C62_metrics q1 q2 k :
  same_physics q1 q2 -> 0 < q_ub q1 -> 0 < q_ub q2 -> Forall (fun o => honest (o_class o)) (v_cons k) ->
  match iterate q1 k, iterate q2 k with
  | Ok (k1, n1, r1), Ok (k2, n2, r2) =>
      r1 = r2 /\ n1 = n2 /\ v_phis_comp k1 = v_phis_comp k2 /\ v_phis_feat k1 = v_phis_feat k2 /\ v_g k1 = v_g k2
  | Err e1, Err e2 => e1 = e2
  | _, _ => False
  end.
Proof.
  destruct q1 as [i s n nf np aJ ub aw thr sc], q2 as [i' s' n' nf' np' aJ' ub' aw' thr' sc'].
  unfold same_physics; cbn. intros (<- & <- & <- & <- & <- & <- & <-) U1 U2 HC.
  set (q1 := {| q_inter := i; q_ub := ub |}). set (q2 := {| q_inter := i; q_ub := ub' |}).
  rewrite !iterate_eq.
  change (t_J q2 k) with (t_J q1 k). change (t_masks q2 k) with (t_masks q1 k).
  cbn [q_entropy q_np q_ensemble q1 q2].
  destruct (s_partition s np (v_phis_comp k) (v_omegas k) (t_J q1 k)) as [[p0 Q]|e]; [|reflexivity]. cbn [bind].
  destruct (n_normalize n p0 Q (t_masks q1 k)) as [[phis inc]|e]; [|reflexivity]. cbn [bind].
  destruct (Z.eqb _ 0); [reflexivity|].
  assert (C1 : Reqb (t_change q1 k phis inc) 0 = false).
  { apply Reqb_false. pose proof (t_change_pos q1 k phis inc U1). lra. }
  assert (C2 : Reqb (t_change q2 k phis inc) 0 = false).
  { apply Reqb_false. pose proof (t_change_pos q2 k phis inc U2). lra. }
  rewrite C1, C2.
  assert (ER : snd (t_evolve q1 k phis inc) = snd (t_evolve q2 k phis inc)).
  { unfold t_evolve. apply evolve_residue. now apply prepared_honest. }
  destruct (t_evolve q1 k phis inc) as [c1 x1], (t_evolve q2 k phis inc) as [c2 x2]. cbn in ER. subst x2.
  cbn. repeat split.
Qed.
End Metrics.

(** The first check of a run: the diagnostics of a run of one step. *)
Theorem C62_one_step_run {G St} (ops : rng_ops G) (f1 f2 : finder G St) a t1 t2 i g1 ph1 g2 ph2 :
  same_physics (kernel_of f1) (kernel_of f2) -> 0 < m_ub (f_par f1) -> 0 < m_ub (f_par f2) ->
  f_k f1 = f_k f2 -> f_left f1 = f_left f2 -> Forall (fun o => honest (o_class o)) (v_cons (f_k f1)) ->
  schedule a i = Ok (1%nat, 1%nat) ->
  run ops f1 (Some a) t1 (Some i) = (g1, Ok ph1) -> run ops f2 (Some a) t2 (Some i) = (g2, Ok ph2) ->
  f_diag g1 <> None /\ f_diag g1 = f_diag g2.
Proof.
  intros SP U1 U2 EK EL HC ES H1 H2.
  assert (X : forall (f g : finder G St) t ph, run ops f (Some a) t (Some i) = (g, Ok ph) ->
    exists k' nv rep, iterate (kernel_of f) (snd (maybe_revive ops (kernel_of f) (f_left f) 0 (f_k f))) = Ok (k', nv, rep) /\
      f_diag g = Some {| d_steps := 1; d_incomp := e_incomp rep; d_omega := e_omega rep; d_Js := e_Js rep;
        d_cons := e_cons rep; d_left := (f_left f - Z.of_nat (fst (maybe_revive ops (kernel_of f) (f_left f) 0 (f_k f))))%Z |}).
  { intros f g t ph H. unfold run in H. rewrite ES in H. cbn [run_loop r_f] in H.
    unfold metastep in H. cbn [steps bind] in H. unfold one_step in H. cbn [w_count w_k] in H.
    destruct (maybe_revive ops (kernel_of f) (f_left f) 0 (f_k f)) as [c k1]. cbn [fst snd].
    destruct (iterate (kernel_of f) k1) as [[[k' nv] rep]|e]; [|discriminate]. cbn [bind w_rep w_count w_k] in H.
    exists k', nv, rep. split; [reflexivity|].
    destruct (String.eqb _ _); [|discriminate].
    destruct (converged _ _ rep); cbn [r_f r_rep f_k with_left with_k f_np f_par r_steps] in H;
      (destruct (revive_by_copy _ _ _ _ _ _) as [[[[cc J] P] gg]|e]; [|discriminate]); injection H as <- _; reflexivity. }
  destruct (X _ _ _ _ H1) as (k1 & n1 & r1 & E1 & D1). destruct (X _ _ _ _ H2) as (k2 & n2 & r2 & E2 & D2).
  rewrite D1, D2. split; [discriminate|].
  assert (EM : maybe_revive ops (kernel_of f2) (f_left f2) 0 (f_k f2) = maybe_revive ops (kernel_of f1) (f_left f1) 0 (f_k f1)).
  { rewrite EL, EK. destruct SP as (_ & _ & _ & P1 & P2 & P3 & P4). unfold maybe_revive. now rewrite P1, P2, P3, P4. }
  rewrite EM in E2 |- *. rewrite EL.
  set (k := snd (maybe_revive ops (kernel_of f1) (f_left f1) 0 (f_k f1))) in *.
  assert (HK : v_cons k = v_cons (f_k f1)).
  { unfold k, maybe_revive. destruct (Z.ltb _ _); [|reflexivity]. destruct (Nat.eqb _ _); [reflexivity|].
    destruct (revive_by_random _ _ _ _ _ _ _ _) as [[[c J] t] g]. reflexivity. }
  pose proof (C62_metrics _ _ k SP U1 U2 ltac:(rewrite HK; exact HC)) as M. rewrite E1, E2 in M. destruct M as (-> & _). reflexivity.
Qed.

(* ------------------------------------------------------------------ *)
(** * C63: identical compartments stay identical *)

(** a built-in constraint that treats [a] and [b] alike *)
Inductive same_cons (nf a b : nat) : cons_obj cstate -> Prop :=
| sc_local p s : l_feat p = nf -> (forall c, c_mult s c a = c_mult s c b) ->
    same_cons nf a b {| o_class := local_class p; o_state := s |}
| sc_global p s : l_feat p = nf -> same_cons nf a b {| o_class := global_class p; o_state := s |}
| sc_no s : (forall r, c_pot s r a = c_pot s r b) -> c_vold s a = c_vold s b ->
    same_cons nf a b {| o_class := no_class nf; o_state := s |}.

(** compartments [a] and [b] have the same fields and volumes *)
Definition twins {G} (nf : nat) (k : kstate G cstate) (a b : nat) : Prop :=
  (forall r, (r < nf)%nat -> v_omegas k r a = v_omegas k r b) /\ v_Js k a = v_Js k b /\
  Forall (same_cons nf a b) (v_cons k).

Definition swap (a b m : nat) : nat := if Nat.eqb m a then b else if Nat.eqb m b then a else m.

Lemma swap_perm np a b : (a < np)%nat -> (b < np)%nat -> perm_on np (swap a b).
Proof.
  intros Ha Hb. split.
  - intros i Hi. unfold swap. destruct (Nat.eqb i a); [auto|]. destruct (Nat.eqb i b); auto.
  - intros i j Hi Hj. unfold swap. destruct (Nat.eqb_spec i a), (Nat.eqb_spec j a), (Nat.eqb_spec i b), (Nat.eqb_spec j b); lia.
Qed.

Lemma swap_eq {A} (f : nat -> A) a b m : f a = f b -> f (swap a b m) = f m.
Proof. intros E. unfold swap. destruct (Nat.eqb_spec m a) as [->|]; [auto|]. destruct (Nat.eqb_spec m b) as [->|]; auto. Qed.

(** After any number of steps without reviving, twins have equal fields,
    volumes and compositions. *)
Theorem C63_twins {G} (ops : rng_ops G) nc q tries n (k : kstate G cstate) a b w :
  classic nc q -> (tries <= 0)%Z -> (a < q_np q)%nat -> (b < q_np q)%nat -> twins (q_nf q) k a b ->
  steps ops q tries n (start k) = Ok w ->
  (forall r, (r < q_nf q)%nat -> v_omegas (w_k w) r a = v_omegas (w_k w) r b) /\
  v_Js (w_k w) a = v_Js (w_k w) b /\
  ((1 <= n)%nat -> forall i, (i < nc)%nat -> v_phis_comp (w_k w) i a = v_phis_comp (w_k w) i b).
Proof.
  intros HC HT Ha Hb (T1 & T2 & T3) H.
  pose proof (C57_compartments ops ops nc q (swap a b) tries n k k HC (swap_perm _ _ _ Ha Hb) HT) as X.
  assert (S1 : swap a b a = b) by (unfold swap; now rewrite Nat.eqb_refl).
  match type of X with ?P -> _ => assert (P0 : P) end.
  { split; [|split].
    - intros r m Hr Hm. symmetry. apply (swap_eq (v_omegas k r)). auto.
    - intros m Hm. symmetry. now apply (swap_eq (v_Js k)).
    - clear - T3. induction T3 as [|o l HB _ IH]; constructor; [|exact IH].
      destruct HB as [p s E HM|p s E|s H1 H2].
      + apply cr0_local; [now apply lin_rel_refl|]. intros c m _ _. now apply (swap_eq (c_mult s c)).
      + apply cr0_global; [now apply lin_rel_refl|]. auto.
      + apply cr0_no; [intros r m _ _; now apply (swap_eq (c_pot s r))|intros m _; now apply (swap_eq (c_vold s))]. }
  specialize (X P0). rewrite H in X. destruct X as ((X1 & X2 & _) & _ & _ & _ & X3).
  split; [|split].
  - intros r Hr. pose proof (X1 r a Hr Ha) as E. now rewrite S1 in E.
  - pose proof (X2 a Ha) as E. now rewrite S1 in E.
  - intros Hn i Hi. destruct (X3 Hn) as (_ & X4 & _). pose proof (X4 i a Hi Ha) as E. now rewrite S1 in E.
Qed.

(** Two equal columns given to [reinitialize_from_omegas] are twins. *)
Theorem C63_from_omegas {G} (ops : rng_ops G) (f f' : finder G cstate) x a b n w :
  classic (f_nc f) (kernel_of f) -> (m_max_revive (f_par f) <= 0)%Z ->
  Forall (fun o => builtin_cons (f_nf f) (o_class o)) (v_cons (f_k f)) ->
  reinitialize_from_omegas f x = (f', Ok tt) -> (a < f_np f)%nat -> (b < f_np f)%nat ->
  (forall r, (r < f_nf f)%nat -> nd_at x [r; a] = nd_at x [r; b]) ->
  fsteps ops f' n = Ok w ->
  (forall r, (r < f_nf f)%nat -> v_omegas (w_k w) r a = v_omegas (w_k w) r b) /\
  v_Js (w_k w) a = v_Js (w_k w) b /\
  ((1 <= n)%nat -> forall i, (i < f_nc f)%nat -> v_phis_comp (w_k w) i a = v_phis_comp (w_k w) i b).
Proof.
  intros HC HR HB H Ha Hb HX HS. unfold reinitialize_from_omegas in H.
  destruct (check_field f x) as [w0|e] eqn:EC; [|discriminate]. injection H as <-.
  unfold fsteps in HS. cbn in HS.
  apply (C63_twins ops (f_nc f) (kernel_of f) _ n _ a b w) in HS; auto.
  - cbn. nia.
  - cbn [v_omegas v_Js v_cons k_with_cons f_k]. split; [|split]; cbn.
    + intros r Hr. unfold check_field in EC. destruct (nd_shape x) as [|? [|? [|? ?]]]; try discriminate.
      destruct (_ && _)%bool; [|discriminate]. injection EC as <-. auto.
    + reflexivity.
    + unfold init_cons. rewrite Forall_map. eapply Forall_impl; [|exact HB]. intros [c s] B.
      cbn [o_class] in B. destruct B; unfold set_state; cbn; constructor; auto.
Qed.
